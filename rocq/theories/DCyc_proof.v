(* get_cycle_directed: proofs *)
From Verif Require Import Base BaseLemmas ListZ ListMore Centroid_proof CSort_proof DCyc_spec DCyc_model.

Lemma slice_ok {A} (c m r : list A) lo hi : lo = zlen c -> hi = zlen c + zlen m -> for_ lo hi (fun i out => let* x := vget (c ++ m ++ r) i in Ok (out ++ [x])) [] = Ok m.
Proof.
  intros -> ->. pose proof (zlen_nonneg m) as Hm. destruct (for_inv (fun i out => out = firstn (Z.to_nat (i - zlen c)) m) (zlen c) (zlen c + zlen m) (fun i out => let* x := vget (c ++ m ++ r) i in Ok (out ++ [x])) []) as (s & E & ->); [lia|now rewrite Z.sub_diag| |].
  - intros i s Hi ->. rewrite vget_app2 by lia. rewrite vget_app1 by lia. destruct (vget_Ok m (i - zlen c) ltac:(lia)) as (x & Ex). rewrite Ex. cbn [bind]. eexists. split; [reflexivity|].
    apply vget_nth_error in Ex. replace (Z.to_nat (i + 1 - zlen c)) with (S (Z.to_nat (i - zlen c))) by lia. clear - Ex. revert Ex. generalize (Z.to_nat (i - zlen c)). induction m as [|y m IH]; intros [|k] Ex; try discriminate; cbn in *; [now injection Ex as ->|now rewrite IH].
  - rewrite E. f_equal. apply firstn_all2. unfold zlen in *. lia.
Qed.

Lemma chain_app g a x b : chain g (a ++ x :: b) <-> chain g (a ++ [x]) /\ chain g (x :: b).
Proof.
  induction a as [|y a IH]; cbn [app]; [cbn; tauto|]. destruct a as [|z a]; cbn [app] in *.
  - change (edge g y x /\ chain g (x :: b) <-> (edge g y x /\ True) /\ chain g (x :: b)). tauto.
  - change (edge g y z /\ chain g (z :: a ++ x :: b) <-> (edge g y z /\ chain g (z :: a ++ [x])) /\ chain g (x :: b)). tauto.
Qed.
Section Proof.
  Variable g : list (list Z).
  Notation n := (zlen g).
  Hypothesis Hg : in_range g.
  (* finished vertices, last one first: every edge leads to an earlier one *)
  Fixpoint topo (F : list Z) : Prop := match F with [] => True | x :: F => (forall y, edge g x y -> In y F) /\ topo F end.
  Definition at_pos (pf : Z -> Z) (pa : list Z) : Prop := (forall x, 0 <= x < n -> ~ In x pa -> pf x = n) /\ forall a x b, pa = a ++ x :: b -> pf x = zlen a.
  Definition rng (l : list Z) : Prop := forall x, In x l -> 0 <= x < n.
  Definition good (pa F : list Z) (pf : Z -> Z) (vf : Z -> bool) : Prop :=
    at_pos pf pa /\ NoDup (pa ++ F) /\ rng (pa ++ F) /\ chain g pa /\ topo F /\ forall x, 0 <= x < n -> (vf x = true <-> In x (pa ++ F)).
  Definition st (stk : list Z) (ptr : Z) (pf : Z -> Z) (vf : Z -> bool) : cst := (stk, ptr, vec n pf, vec n vf).
  Lemma snoc_split {A} (pre : list A) u a x b : pre ++ [u] = a ++ x :: b -> (b = [] /\ a = pre /\ x = u) \/ exists b', b = b' ++ [u] /\ pre = a ++ x :: b'.
  Proof.
    intros H. destruct b as [|y b] using rev_ind.
    - left. apply app_inj_tail in H as (-> & ->). auto.
    - right. clear IHb. rewrite app_comm_cons, app_assoc in H. apply app_inj_tail in H as (-> & ->). exists b. auto.
  Qed.
  Lemma enter pre pf u : at_pos pf pre -> ~ In u pre -> 0 <= u < n -> at_pos (fput pf u (zlen pre)) (pre ++ [u]).
  Proof.
    intros (A & B) N Hu. split.
    - intros x Hx Nx. rewrite in_app_iff in Nx. cbn [In] in Nx. rewrite fput_diff by (intros ->; tauto). apply A; tauto.
    - intros a x b E. apply snoc_split in E as [(-> & -> & ->)|(b' & -> & ->)]; [apply fput_same|]. rewrite fput_diff; [now apply (B a x b')|]. intros ->. apply N, in_app_iff. right. now left.
  Qed.
  Lemma leave pre pf u : at_pos pf (pre ++ [u]) -> ~ In u pre -> at_pos (fput pf u n) pre.
  Proof.
    intros (A & B) N. split.
    - intros x Hx Nx. unfold fput. destruct (Z.eqb_spec x u) as [->|D]; auto. apply A; auto. rewrite in_app_iff. cbn [In]. intuition.
    - intros a x b ->. rewrite fput_diff; [apply (B a x (b ++ [u])); now rewrite <- app_assoc|]. intros ->. apply N, in_app_iff. right. now left.
  Qed.
  Lemma close_ok pa u v a b rest : pa = a ++ v :: b -> (exists pre, pa = pre ++ [u]) -> edge g u v -> chain g pa -> NoDup pa ->
    cycle g (b ++ [v]) /\ for_ (zlen a) (zlen pa) (fun i out => let* x := vget (tl pa ++ v :: rest) i in Ok (out ++ [x])) [] = Ok (b ++ [v]).
  Proof.
    intros Ep (pre & Eu) Ev C N. split.
    - split; [destruct b; discriminate|]. rewrite last_last. rewrite Ep in N. apply NoDup_remove in N as N2. destruct N2 as (N2 & N3). split.
      + apply NoDup_rev in N. rewrite rev_app_distr in N. cbn [rev] in N. rewrite <- app_assoc in N. apply NoDup_app_remove_r in N || idtac.
        assert (Nb : NoDup b) by (clear - N2; induction a as [|z a IH]; cbn in N2; auto; apply NoDup_cons_iff in N2 as (_ & N2); auto). assert (Nv : ~ In v b) by (intros X; apply N3, in_app_iff; auto).
        clear - Nb Nv. induction b as [|z b IH]; cbn; [constructor; [auto|constructor]|]. apply NoDup_cons_iff in Nb as (N1 & N2). cbn in Nv. constructor; [rewrite in_app_iff; cbn; intuition|apply IH; intuition].
      + rewrite Ep in C. apply chain_app in C as (_ & C). rewrite Ep in Eu. destruct b as [|z b] using rev_ind.
        * cbn [app]. apply app_inj_tail in Eu as (_ & ->). cbn. auto.
        * clear IHb. rewrite app_comm_cons, app_assoc in Eu. apply app_inj_tail in Eu as (_ & ->). rewrite <- app_assoc. cbn [app]. change (v :: b ++ u :: [v]) with ((v :: b) ++ u :: [v]). apply chain_app. split; [exact C|]. cbn. auto.
    - assert (Et : exists c, tl pa = c ++ b /\ zlen c = zlen a). { rewrite Ep. destruct a as [|z a]; cbn [app tl]; [exists []; auto|]. exists (a ++ [v]). rewrite <- app_assoc. split; auto. rewrite zlen_app, !zlen_cons. change (zlen (@nil Z)) with 0. lia. }
      destruct Et as (c & -> & Lc). replace ((c ++ b) ++ v :: rest) with (c ++ (b ++ [v]) ++ rest) by (rewrite <- !app_assoc; reflexivity). apply slice_ok; auto. rewrite Ep, !zlen_app, !zlen_cons. change (zlen (@nil Z)) with 0. lia.
  Qed.
  Lemma dfs_ok fuel : forall pre u F stk pf vf rest, good pre F pf (fput vf u false) -> vf u = true -> ~ In u (pre ++ F) -> 0 <= u < n -> chain g (pre ++ [u]) -> stk = tl (pre ++ [u]) ++ rest -> zlen stk = n -> n - zlen pre <= Z.of_nat fuel ->
    exists r stk' ptr' pf' vf' , cd_dfs fuel g u (st stk (zlen pre) pf vf) = Ok (r, st stk' ptr' pf' vf') /\
      match r with Some l => cycle g l | None => ptr' = zlen pre /\ zlen stk' = n /\ (exists rest', stk' = tl (pre ++ [u]) ++ rest') /\ exists X, good pre (u :: X ++ F) pf' vf' end.
  Proof.
    induction fuel as [|fuel IH]; intros pre u F stk pf vf rest Gd Vu Nu Hu Ch Es Ls Hf.
    { exfalso. destruct Gd as (_ & Nd & Rg & _). assert (zlen (u :: pre) <= Z.max 0 n); [|rewrite zlen_cons in H; pose proof (zlen_nonneg g); lia]. apply NoDup_range_length.
      - constructor; [intros X; apply Nu, in_app_iff; auto|]. clear - Nd. induction pre as [|z p IH]; [constructor|]. cbn in Nd. apply NoDup_cons_iff in Nd as (A & B). constructor; auto. intros X. apply A, in_app_iff. auto.
      - intros x [->|I]; auto. apply Rg, in_app_iff. auto. }
    cbn [cd_dfs]. unfold st at 1. cbv zeta. rewrite vset_vec by auto. cbn [bind]. destruct (vget_Ok g u Hu) as (row & Er). rewrite Er. cbn [bind].
    destruct Gd as (Ap & Nd & Rg & Cp & Tp & Vs).
    assert (Npre : ~ In u pre) by (intros X; apply Nu, in_app_iff; auto).
    assert (G0 : good (pre ++ [u]) F (fput pf u (zlen pre)) vf).
    { split; [now apply enter|]. split; [rewrite <- app_assoc; cbn [app]; apply (proj2 (NoDup_Add (Add_app u pre F))); split; auto|]. split; [intros x I; rewrite <- app_assoc in I; cbn [app] in I; apply in_app_iff in I as [I|[<-|I]]; auto; apply Rg, in_app_iff; auto|]. split; auto. split; auto.
      intros x Hx. rewrite <- app_assoc. cbn [app]. specialize (Vs x Hx). unfold fput in Vs. destruct (Z.eqb_spec x u) as [Exu|D]; [clear Vs; subst x; split; auto; intros _; apply in_app_iff; right; now left|]. rewrite Vs, !in_app_iff. cbn [In]. intuition. }
    clear Vs Ap Cp Tp. set (pa := pre ++ [u]) in *.
    assert (Lpa : zlen pa = zlen pre + 1) by (unfold pa; rewrite zlen_app; reflexivity).
    assert (Lt : zlen (tl pa) = zlen pre) by (unfold pa; destruct pre; cbn [app tl]; [reflexivity|rewrite zlen_app, !zlen_cons; change (zlen (@nil Z)) with 0; lia]).
    match goal with |- context [for_each row ?b _] => set (body := b) end.
    destruct (for_each_inv (fun dn r => exists fo stk1 ptr1 pf1 vf1, r = (fo, st stk1 ptr1 pf1 vf1) /\ match fo with Some l => cycle g l | None => ptr1 = zlen pre /\ zlen stk1 = n /\ (exists rest1, stk1 = tl pa ++ rest1) /\ exists X, good pa (X ++ F) pf1 vf1 /\ forall y, In y dn -> In y (X ++ F) end)
      row body (None, st stk (zlen pre) (fput pf u (zlen pre)) vf)) as (r & E & fo & stk1 & ptr1 & pf1 & vf1 & -> & Q).
    - exists None, stk, (zlen pre), (fput pf u (zlen pre)), vf. split; auto. split; auto. split; auto. split; [eauto|]. exists []. split; auto. intros y [].
    - intros dn v todo r Erow (fo & stk1 & ptr1 & pf1 & vf1 & -> & Q). unfold body, st at 1. destruct fo as [l|]; [eexists; split; [reflexivity|]; exists (Some l), stk1, ptr1, pf1, vf1; auto|].
      destruct Q as (-> & L1 & (rest1 & E1) & X & Gd1 & D1). assert (Ev : edge g u v) by (exists row; split; auto; rewrite Erow; apply in_app_iff; right; now left). pose proof (Hg u v Ev) as Hv. rewrite vget_vec by auto. cbn [bind].
      destruct Gd1 as (Ap1 & Nd1 & Rg1 & Cp1 & Tp1 & Vs1).
      assert (Npa : NoDup pa) by (clear - Nd1; induction pa as [|z p IHp]; [constructor|]; cbn in Nd1; apply NoDup_cons_iff in Nd1 as (A & B); constructor; auto; intros Y; apply A, in_app_iff; auto).
      assert (Lpn : zlen pa <= n) by (assert (K : zlen pa <= Z.max 0 n) by (apply NoDup_range_length; auto; intros x I; apply Rg1, in_app_iff; auto); pose proof (zlen_nonneg g); lia).
      assert (Er1 : exists w rest2, rest1 = w :: rest2) by (destruct rest1 as [|w rest2]; eauto; rewrite app_nil_r in E1; rewrite E1, Lt in L1; lia). destruct Er1 as (w & rest2 & ->).
      assert (Sv : vset stk1 (zlen pre) v = Ok (tl pa ++ v :: rest2)) by (rewrite E1; apply vset_mid; lia).
      destruct (vf1 v) eqn:Vv; cbn [negb].
      + rewrite vget_vec by auto. cbn [bind]. apply Vs1 in Vv as Iv; auto. destruct (Z.eqb_spec (pf1 v) n) as [Pv|Pv]; cbn [negb].
        * eexists. split; [reflexivity|]. exists None, stk1, (zlen pre), pf1, vf1. split; auto. split; auto. split; auto. split; [eauto|]. exists X. split; [split; auto|]. intros y I. apply in_app_iff in I as [I|[<-|[]]]; auto. apply in_app_iff in Iv as [Iv|Iv]; auto. exfalso. apply in_split in Iv as (a & b & Ep). destruct Ap1 as (_ & B). rewrite (B a v b Ep) in Pv. rewrite Ep, zlen_app, zlen_cons in Lpn. pose proof (zlen_nonneg b). lia.
        * rewrite Sv. cbn [bind]. assert (Ip : In v pa) by (destruct (in_dec Z.eq_dec v pa) as [|Np]; auto; destruct Ap1 as (A & _); elim Pv; auto). apply in_split in Ip as (a & b & Ep). destruct Ap1 as (_ & B). rewrite (B a v b Ep). rewrite <- Lpa.
          destruct (close_ok pa u v a b rest2 Ep ltac:(now exists pre) Ev Cp1 Npa) as (Cy & Ef). rewrite Ef. cbn [bind]. eexists. split; [reflexivity|]. exists (Some (b ++ [v])). do 4 eexists. split; [reflexivity|]. exact Cy.
      + rewrite vset_vec by auto. cbn [bind]. rewrite Sv. cbn [bind]. assert (Nv : ~ In v (pa ++ X ++ F)) by (intros I; apply Vs1 in I; auto; congruence). rewrite <- Lpa.
        destruct (IH pa v (X ++ F) (tl pa ++ v :: rest2) pf1 (fput vf1 v true) rest2) as (r2 & stk2 & ptr2 & pf2 & vf2 & E2 & Q2); auto.
        { split; auto. split; auto. split; auto. split; auto. split; auto. intros x Hx. unfold fput. destruct (Z.eqb_spec x v) as [->|D]; [split; [discriminate|intros I; contradiction]|auto]. }
        { apply fput_same. }
        { unfold pa. rewrite <- app_assoc. cbn [app]. apply chain_app. split; auto. cbn. auto. }
        { unfold pa. destruct pre; cbn [app tl]; [reflexivity|]. now rewrite <- !app_assoc. }
        { rewrite zlen_app, zlen_cons, Lt. rewrite E1, zlen_app, zlen_cons, Lt in L1. lia. }
        { lia. }
        unfold st in E2. rewrite E2. cbn [bind]. destruct r2 as [l|]; [eexists; split; [reflexivity|]; exists (Some l), stk2, ptr2, pf2, vf2; auto|].
        destruct Q2 as (-> & L2 & (rest3 & E3) & X2 & Gd2). eexists. split; [reflexivity|]. exists None, stk2, (zlen pa - 1), pf2, vf2. split; auto. split; [lia|]. split; auto. split.
        { exists (v :: rest3). rewrite E3. unfold pa. destruct pre; cbn [app tl]; [reflexivity|]. now rewrite <- !app_assoc. }
        exists (v :: X2 ++ X). cbn [app]. rewrite <- app_assoc. split; auto. intros y I. apply in_app_iff in I as [I|[<-|[]]]; [|now left]. right. apply in_app_iff. right. auto.
    - unfold st in E. rewrite E. cbn [bind]. destruct fo as [l|]; [exists (Some l), stk1, ptr1, pf1, vf1; auto|]. destruct Q as (-> & L1 & R1 & X & Gd1 & D1). rewrite vset_vec by auto. cbn [bind]. exists None, stk1, (zlen pre), (fput pf1 u n), vf1. split; auto. split; auto. split; auto. split; auto. exists X.
      destruct Gd1 as (Ap1 & Nd1 & Rg1 & Cp1 & Tp1 & Vs1). unfold pa in *. rewrite <- app_assoc in *. cbn [app] in *. split; [now apply leave|]. split; auto. split; auto. split; [|split; auto].
      + clear - Ch. induction pre as [|z p IHp]; [exact I|]. cbn [app] in Ch. destruct p as [|y p]; [exact I|]. cbn [app] in *. destruct Ch as (A & B). split; auto.
      + cbn [topo]. split; auto. intros y (row' & Er' & Iy). rewrite Er in Er'. injection Er' as <-. auto.
  Qed.
  Lemma topo_acyclic F : topo F -> NoDup F -> forall u, In u F -> ~ reach g u u.
  Proof.
    intros T N. assert (K : forall u v, reach g u v -> forall a b, F = a ++ u :: b -> In v b).
    { assert (K1 : forall u v, edge g u v -> forall a b, F = a ++ u :: b -> In v b). { intros u v E a b EF. subst F. clear N. induction a as [|x a IHa]; cbn [app topo] in T; [now apply (proj1 T)|now apply IHa]. }
      intros u v R. induction R as [u v E|u w v E R IHR]; intros a b EF; [now apply K1 with u a|]. pose proof (K1 u w E a b EF) as Iw. apply in_split in Iw as (b1 & b2 & Eb). assert (K2 : In v b2) by (apply (IHR (a ++ u :: b1) b2); rewrite EF, Eb, <- app_assoc; reflexivity). rewrite Eb. apply in_app_iff. right. now right. }
    intros u I R. apply in_split in I as (a & b & EF). specialize (K u u R a b EF). rewrite EF in N. apply NoDup_remove_2 in N. apply N, in_app_iff. auto.
  Qed.
  Lemma main_ok : exists r, get_cycle_directed g = Ok r /\ match r with Some l => cycle g l | None => acyclic g end.
  Proof.
    pose proof (zlen_nonneg g) as Hn. unfold get_cycle_directed. cbv zeta. rewrite !(vrep_vec n) by lia.
    match goal with |- context [for_ 0 n ?b _] => set (body := b) end.
    destruct (for_inv (fun i r => exists fo stk ptr pf vf, r = (fo, st stk ptr pf vf) /\ match fo with Some l => cycle g l | None => ptr = 0 /\ zlen stk = n /\ exists F, good [] F pf vf /\ forall y, 0 <= y < i -> In y F end)
      0 n body (None, st (vec n (fun _ => 0)) 0 (fun _ => n) (fun _ => false))) as (r & E & fo & stk & ptr & pf & vf & -> & Q); auto.
    - do 5 eexists. split; [reflexivity|]. cbv beta iota. split; auto. split; [rewrite zlen_vec; lia|]. exists []. split; [|intros; lia]. split; [split; auto; intros [|] ? ? X; discriminate|]. split; [constructor|]. split; [intros x []|]. split; [exact I|]. split; [exact I|]. intros x _. cbn. split; [discriminate|intros []].
    - intros i r Hi (fo & stk & ptr & pf & vf & -> & Q). unfold body, st at 1. destruct fo as [l|]; [eexists; split; [reflexivity|]; exists (Some l), stk, ptr, pf, vf; auto|]. destruct Q as (-> & Ls & F & Gd & D). rewrite vget_vec by lia. cbn [bind]. assert (Hi' : 0 <= i < n) by lia. destruct (vf i) eqn:Vi; cbn [negb].
      + eexists. split; [reflexivity|]. exists None, stk, 0, pf, vf. split; auto. split; auto. split; auto. exists F. split; auto. intros y Hy. destruct (Z.eq_dec y i) as [->|]; [|apply D; lia]. apply Gd in Vi; auto.
      + rewrite vset_vec by auto. cbn [bind]. destruct Gd as (Ap & Nd & Rg & Cp & Tp & Vs).
        destruct (dfs_ok (length g) [] i F stk pf (fput vf i true) stk) as (r2 & stk2 & ptr2 & pf2 & vf2 & E2 & Q2); auto.
        { split; auto. split; auto. split; auto. split; auto. split; auto. intros x Hx. unfold fput. destruct (Z.eqb_spec x i) as [->|]; [|auto]. rewrite <- (Vs i), Vi; auto. reflexivity. }
        { apply fput_same. }
        { cbn [app]. intros X. apply Vs in X; auto. congruence. }
        { unfold zlen. cbn [length]. lia. }
        unfold st in E2. change (zlen (@nil Z)) with 0 in E2. rewrite E2. eexists. split; [reflexivity|]. exists r2, stk2, ptr2, pf2, vf2. split; auto. destruct r2 as [l|]; auto. destruct Q2 as (-> & L2 & _ & X & Gd). split; auto. split; auto. exists (i :: X ++ F). split; auto. intros y Hy. destruct (Z.eq_dec y i) as [->|]; [now left|]. right. apply in_app_iff. right. apply D. lia.
    - unfold st in E. rewrite E. cbn [bind fst]. exists fo. split; auto. destruct fo as [l|]; auto. destruct Q as (_ & _ & F & (_ & Nd & Rg & _ & Tp & _) & D). intros u R. assert (Iu : In u F) by (apply D; inversion R as [? ? (row & E1 & _)|? ? ? (row & E1 & _)]; subst; now apply vget_range in E1). revert R. now apply (topo_acyclic F).
  Qed.
  Lemma chain_reach l : forall x y, chain g (x :: l ++ [y]) -> reach g x y.
  Proof. induction l as [|z l IH]; intros x y H; cbn [app] in H; destruct H as (E & C); [now apply reach_edge|]. apply reach_step with z; auto. Qed.
  Lemma cycle_reach l : cycle g l -> exists u, reach g u u.
  Proof.
    intros (N & _ & C). destruct l as [|y l] using rev_ind; [congruence|]. clear IHl. rewrite last_last in C. exists y. now apply chain_reach in C.
  Qed.
  Lemma found_iff : (exists l, get_cycle_directed g = Ok (Some l)) <-> exists l, cycle g l.
  Proof.
    destruct main_ok as (r & E & Q). split.
    - intros (l & E'). rewrite E in E'. injection E' as ->. eauto.
    - intros (l & C). destruct r as [l'|]; [eauto|]. apply cycle_reach in C as (u & R). now apply Q in R.
  Qed.
End Proof.
