(* Proofs about Eul_model: walks, degrees, the depth-first search. *)
From Verif Require Import Base BaseLemmas ListZ ListMore Seq Eul_spec Eul_model.
From Coq Require Import Permutation.

(* degrees *)
Definition b2 (x y : Z) : Z := if x =? y then 1 else 0.
Definition od (H : list (Z * Z)) (x : Z) : Z := fold_right (fun e s => b2 x (fst e) + s) 0 H.
Definition id_ (H : list (Z * Z)) (x : Z) : Z := fold_right (fun e s => b2 x (snd e) + s) 0 H.
Lemma od_nn H x : 0 <= od H x.
Proof. induction H as [|e H IH]; cbn [od fold_right]; [lia|]. fold (od H x). unfold b2. destruct (x =? fst e); lia. Qed.
Lemma id_nn H x : 0 <= id_ H x.
Proof. induction H as [|e H IH]; cbn [id_ fold_right]; [lia|]. fold (id_ H x). unfold b2. destruct (x =? snd e); lia. Qed.
Lemma od_app H K x : od (H ++ K) x = od H x + od K x.
Proof. induction H as [|e H IH]; cbn [app od fold_right]; [auto|]. fold (od (H ++ K) x) (od H x). lia. Qed.
Lemma id_app H K x : id_ (H ++ K) x = id_ H x + id_ K x.
Proof. induction H as [|e H IH]; cbn [app id_ fold_right]; [auto|]. fold (id_ (H ++ K) x) (id_ H x). lia. Qed.
Lemma od_perm H K x : Permutation H K -> od H x = od K x.
Proof. induction 1; cbn [od fold_right]; repeat match goal with |- context [fold_right ?f 0 ?l] => change (fold_right f 0 l) with (od l x) end; lia. Qed.
Lemma id_perm H K x : Permutation H K -> id_ H x = id_ K x.
Proof. induction 1; cbn [id_ fold_right]; repeat match goal with |- context [fold_right ?f 0 ?l] => change (fold_right f 0 l) with (id_ l x) end; lia. Qed.
Definition succs (H : list (Z * Z)) (x : Z) : list Z := map snd (filter (fun e => fst e =? x) H).
Lemma In_succs H x y : In y (succs H x) <-> In (x, y) H.
Proof.
  unfold succs. rewrite in_map_iff. split.
  - intros ((a, c) & E & I). apply filter_In in I. destruct I as (I & Q). cbn [fst snd] in *. apply Z.eqb_eq in Q. subst. auto.
  - intro I. exists (x, y). split; [auto|]. apply filter_In. split; [auto|]. cbn. apply Z.eqb_refl.
Qed.
Lemma succs_perm H K x : Permutation H K -> Permutation (succs H x) (succs K x).
Proof.
  induction 1 as [|e H K P IH|e f H|H K L P1 IH1 P2 IH2]; unfold succs in *; cbn [filter].
  - auto.
  - destruct (fst e =? x); cbn [map]; auto.
  - destruct (fst e =? x), (fst f =? x); cbn [map]; auto. constructor.
  - etransitivity; eauto.
Qed.
Lemma succs_od H x : zlen (succs H x) = od H x.
Proof. unfold succs. rewrite zlen_map. induction H as [|e H IH]; cbn [filter od fold_right]; [reflexivity|]. fold (od H x). unfold b2. rewrite (Z.eqb_sym x). destruct (fst e =? x); [rewrite zlen_cons|]; lia. Qed.
(* walks *)
Lemma steps_cons2 x y w : steps (x :: y :: w) = (x, y) :: steps (y :: w).
Proof. reflexivity. Qed.
Lemma steps_app A x y B : steps (A ++ x :: y :: B) = steps (A ++ [x]) ++ (x, y) :: steps (y :: B).
Proof. induction A as [|a A IH]; [reflexivity|]. destruct A as [|a' A]; [reflexivity|]. cbn [app] in *. rewrite (steps_cons2 a a'), IH. reflexivity. Qed.
Lemma walk_app a A x y B c : walk a A x -> walk y B c -> walk a (A ++ B) c /\ steps (A ++ B) = steps A ++ (x, y) :: steps B.
Proof.
  intros ((r & E1) & q & E2) ((r' & E3) & q' & E4). split.
  - split; [exists (r ++ B); rewrite E1; auto|exists (A ++ q'); rewrite E4, app_assoc; auto].
  - rewrite E2, E3, <- app_assoc. cbn [app]. rewrite steps_app. reflexivity.
Qed.
Lemma walk_one a : walk a [a] a.
Proof. split; [exists []; auto|exists []; auto]. Qed.
Lemma walk_bal w : forall a b x, walk a w b -> od (steps w) x - id_ (steps w) x = b2 x a - b2 x b.
Proof.
  induction w as [|c w IH]; intros a b x ((r & E1) & q & E2); [discriminate|]. injection E1 as -> ->. destruct r as [|d r].
  - destruct q as [|e q]; [injection E2 as ->; cbn [steps od id_ fold_right]; lia|]. destruct q; discriminate.
  - rewrite steps_cons2. cbn [od id_ fold_right fst snd]. fold (od (steps (d :: r)) x) (id_ (steps (d :: r)) x). destruct q as [|e q]; [discriminate|]. cbn [app] in E2. injection E2 as _ E2. assert (W : walk d (d :: r) b) by (split; [exists r; auto|exists q; auto]). specialize (IH d b x W). lia.
Qed.
Lemma zlen_steps w a b : walk a w b -> zlen w = zlen (steps w) + 1.
Proof.
  revert a b. induction w as [|c w IH]; intros a b ((r & E1) & q & E2); [discriminate|]. injection E1 as -> ->. destruct r as [|d r]; [reflexivity|]. rewrite steps_cons2, !zlen_cons. destruct q as [|e q]; [discriminate|]. cbn [app] in E2. injection E2 as _ E2. assert (W : walk d (d :: r) b) by (split; [exists r; auto|exists q; auto]). specialize (IH d b W). rewrite zlen_cons in IH. lia.
Qed.
Lemma steps_In w x y : In (x, y) (steps w) -> In x w /\ In y w.
Proof. induction w as [|a w IH]; [intros []|]. destruct w as [|b w]; [intros []|]. rewrite steps_cons2. intros [E|I]; [injection E as <- <-; cbn; auto|]. destruct (IH I). cbn [In] in *. auto. Qed.

(* sums over 0..n-1 *)
Definition zs (n : Z) (f : Z -> Z) : Z := fold_right (fun x s => f x + s) 0 (zrange n).
Lemma zs_upd n f k v : 0 <= k < n -> zs n (fupd f k v) = zs n f - f k + v.
Proof.
  intro Hk. unfold zs. assert (I : In k (zrange n)) by (apply In_zrange; auto). pose proof (NoDup_zrange n) as ND. induction (zrange n) as [|x l IH]; [destruct I|]. cbn [fold_right]. inversion ND as [|? ? N1 N2]; subst. destruct (Z.eq_dec x k) as [->|N].
  - rewrite fupd_same. replace (fold_right (fun x s => fupd f k v x + s) 0 l) with (fold_right (fun x s => f x + s) 0 l); [lia|]. clear - N1. induction l as [|y l IH]; [auto|]. cbn [fold_right]. rewrite fupd_diff by (intro; subst; apply N1; left; auto). rewrite IH; [auto|]. intro; apply N1; right; auto.
  - destruct I as [I|I]; [contradiction|]. rewrite fupd_diff by auto. rewrite IH by auto. lia.
Qed.
Lemma zs_ext n f g : (forall x, 0 <= x < n -> f x = g x) -> zs n f = zs n g.
Proof. intro E. unfold zs. assert (K : forall x, In x (zrange n) -> f x = g x) by (intros x I; apply E, In_zrange; auto). induction (zrange n) as [|x l IH]; [auto|]. cbn [fold_right]. rewrite K by (left; auto). rewrite IH; [auto|]. intros y I. apply K. right; auto. Qed.
Lemma zs_nn n f : (forall x, 0 <= f x) -> 0 <= zs n f.
Proof. intro K. unfold zs. induction (zrange n) as [|x l IH]; cbn [fold_right]; [lia|]. specialize (K x). lia. Qed.

(* the entries of a whose flag is false *)
Definition un (a : list Z) (us : list bool) : list Z := map fst (filter (fun p => negb (snd p)) (combine a us)).
Lemma un_nil a us : (forall i, 0 <= i < zlen us -> vget us i = Ok true) -> un a us = [].
Proof.
  revert us. induction a as [|x a IH]; intros us K; [reflexivity|]. destruct us as [|y us]; [reflexivity|]. unfold un. cbn [combine filter snd]. assert (E : y = true). { specialize (K 0). rewrite zlen_cons in K. pose proof (zlen_nonneg us). specialize (K ltac:(lia)). rewrite vget_cons0 in K. congruence. } subst y. cbn [negb]. apply IH. intros i Hi. specialize (K (i + 1)). rewrite zlen_cons in K. specialize (K ltac:(lia)). rewrite <- K, vget_consS by lia. f_equal. lia.
Qed.
Lemma un_take a us i v : zlen us = zlen a -> vget us i = Ok false -> vget a i = Ok v -> Permutation (un a us) (v :: un a (zupd us i true)).
Proof.
  revert us i. induction a as [|x a IH]; intros us i L E1 E2.
  - apply vget_range in E2. change (zlen (@nil Z)) with 0 in E2. lia.
  - destruct us as [|y us]; [rewrite zlen_cons in L; change (zlen (@nil bool)) with 0 in L; pose proof (zlen_nonneg a); lia|]. rewrite !zlen_cons in L. pose proof (vget_range _ _ _ E1) as R. rewrite zlen_cons in R. destruct (Z.eq_dec i 0) as [->|N].
    + rewrite vget_cons0 in E1. rewrite vget_cons0 in E2. injection E1 as ->. injection E2 as ->. reflexivity.
    + assert (F1 : vget us (i - 1) = Ok false) by (rewrite <- E1, vget_consS by lia; auto). assert (F2 : vget a (i - 1) = Ok v) by (rewrite <- E2, vget_consS by lia; auto).
      specialize (IH us (i - 1) ltac:(lia) F1 F2). assert (Z1 : zupd (y :: us) i true = y :: zupd us (i - 1) true). { unfold zupd. replace (Z.to_nat i) with (S (Z.to_nat (i - 1))) by lia. reflexivity. } rewrite Z1. unfold un in *. cbn [combine filter snd]. destruct y; cbn [negb map fst]; [auto|]. rewrite IH. constructor.
Qed.

Section D.
  Variables (n : Z) (g : list (list Z)) (G : Z -> list Z). Hypothesis Hn : 0 <= n. Hypothesis RG : rep g n G.
  Notation vx x := (0 <= x < n).
  Record EInv (s : ec) (H : list (Z * Z)) (IT : Z -> Z) (US : Z -> list bool) : Prop := {
    i_it : rep (c_iter s) n IT;
    i_us : rep (c_used s) n US;
    i_ku : forall u, vx u -> zlen (US u) = zlen (G u) /\ Permutation (succs H u) (un (G u) (US u)) /\ 0 <= IT u /\ forall i, 0 <= i < IT u -> i < zlen (US u) -> vget (US u) i = Ok true;
    i_rg : forall x y, In (x, y) H -> vx x /\ vx y
  }.
  Definition later (IT IT' : Z -> Z) (US US' : Z -> list bool) : Prop := forall x, vx x -> (IT' x = IT x \/ zlen (G x) <= IT' x) /\ forall i, vget (US x) i = Ok true -> vget (US' x) i = Ok true.
  Definition mu (H : list (Z * Z)) (IT : Z -> Z) : Z := zlen H + zs n (fun u => Z.max 0 (zlen (G u) - IT u)).
  Definition bal (H : list (Z * Z)) (a b : Z) : Prop := forall x, od H x - id_ H x = b2 x a - b2 x b.
  Lemma mu_nn H IT : 0 <= mu H IT.
  Proof. unfold mu. pose proof (zlen_nonneg H). pose proof (zs_nn n (fun u => Z.max 0 (zlen (G u) - IT u)) ltac:(intro; lia)). lia. Qed.
  Lemma mu_it H IT u : vx u -> mu H (fupd IT u (IT u + 1)) = mu H IT - (if IT u <? zlen (G u) then 1 else 0).
  Proof.
    intro Hu. unfold mu. rewrite (zs_ext n _ (fupd (fun u => Z.max 0 (zlen (G u) - IT u)) u (Z.max 0 (zlen (G u) - (IT u + 1))))); [|intros x Hx; unfold fupd; destruct (Z.eqb_spec x u) as [->|]; auto]. rewrite zs_upd by auto. destruct (Z.ltb_spec (IT u) (zlen (G u))); lia.
  Qed.
  Lemma dfs_ok : forall fuel u t s H IT US, vx u -> EInv s H IT US -> bal H u t -> mu H IT < Z.of_nat fuel ->
    exists s' H' IT' US' L, ec_dfs fuel g u s = Ok s' /\ c_res s' = c_res s ++ L /\ EInv s' H' IT' US' /\ mu H' IT' <= mu H IT /\ walk u (rev L) t /\ Permutation (steps (rev L) ++ H') H /\ (forall x y, In x L -> ~ In (x, y) H') /\
      (zlen (G u) <= IT' u /\ later IT IT' US US').
  Proof.
    induction fuel as [|fuel IH]; intros u t s H IT US Hu EI BA F; [pose proof (mu_nn H IT); lia|].
    cbn [ec_dfs]. pose proof EI as [RI RU KU RR]. destruct (KU u Hu) as (K1 & K2 & K3 & K4).
    rewrite (rep_get _ _ _ u RI) by auto. cbn [bind]. rewrite (rep_get _ _ _ u RG) by auto. cbn [bind]. destruct (Z.ltb_spec (IT u) (zlen (G u))) as [L|L].
    - rewrite (rep_get _ _ _ u RU) by auto. cbn [bind]. destruct (vget_Ok (US u) (IT u)) as (x & X); [lia|]. rewrite X. cbn [bind].
      assert (NEXT : forall s1 H1 IT1 US1 t1 L1, EInv s1 H1 IT1 US1 -> bal H1 u t1 -> (IT1 u < zlen (US1 u) -> vget (US1 u) (IT1 u) = Ok true) -> mu H1 (fupd IT1 u (IT1 u + 1)) < Z.of_nat fuel -> c_res s1 = c_res s ++ L1 ->
        exists s' H' IT' US' L, (let* i := vget (c_iter s1) u in let* it := vset (c_iter s1) u (i + 1) in ec_dfs fuel g u (mkEc (c_used s1) it (c_res s1))) = Ok s' /\ c_res s' = c_res s ++ L1 ++ L /\ EInv s' H' IT' US' /\ mu H' IT' <= mu H1 (fupd IT1 u (IT1 u + 1)) /\ walk u (rev L) t1 /\ Permutation (steps (rev L) ++ H') H1 /\ (forall x y, In x L -> ~ In (x, y) H') /\
          (zlen (G u) <= IT' u /\ later IT1 IT' US1 US')).
      { intros s1 H1 IT1 US1 t1 L1 [RI1 RU1 KU1 RR1] BA1 KT F1 ER. rewrite (rep_get _ _ _ u RI1) by auto. cbn [bind]. rewrite (rep_set _ _ _ u _ RI1) by auto. cbn [bind]. destruct (IH u t1 (mkEc (c_used s1) (zupd (c_iter s1) u (IT1 u + 1)) (c_res s1)) H1 (fupd IT1 u (IT1 u + 1)) US1 Hu) as (s' & H' & IT' & US' & L2 & A1 & A2 & A3 & A4 & A5 & A6 & A7 & A8 & A9); auto.
        - constructor; cbn [c_iter c_used]; auto; [apply rep_upd; auto|]. intros v Hv. destruct (KU1 v Hv) as (Q1 & Q2 & Q3 & Q4). split; [auto|]. split; [auto|]. unfold fupd. destruct (Z.eqb_spec v u) as [->|N]; [|auto]. split; [lia|]. intros i Hi Li. destruct (Z.eq_dec i (IT1 u)) as [->|Ni]; [auto|apply Q4; lia].
        - exists s', H', IT', US', L2. split; [auto|]. split; [rewrite A2; cbn [c_res]; rewrite ER, <- app_assoc; auto|]. split; [auto|]. split; [auto|]. split; [auto|]. split; [auto|]. split; [auto|]. split; [auto|]. intros x1 Hx1. destruct (A9 x1 Hx1) as (B1 & B2). split; [|auto]. destruct (Z.eq_dec x1 u) as [->|N]; [auto|]. rewrite fupd_diff in B1 by auto. auto. }
      destruct x.
      + cbn [bind]. destruct (NEXT s H IT US t [] EI BA) as (s' & H' & IT' & US' & L2 & A1 & A2 & A3 & A4 & A5 & A6 & A7 & A8); [auto| |rewrite app_nil_r; auto|].
        * rewrite mu_it by auto. destruct (Z.ltb_spec (IT u) (zlen (G u))); lia.
        * exists s', H', IT', US', L2. rewrite mu_it in A4 by auto. destruct (Z.ltb_spec (IT u) (zlen (G u))); [|lia]. split; [auto|]. split; [auto|]. split; [auto|]. split; [lia|]. auto.
      + destruct (vget_Ok (G u) (IT u)) as (v & V); [lia|]. rewrite V. cbn [bind]. rewrite (vset_ok (US u) (IT u) true) by lia. cbn [bind]. rewrite (rep_set _ _ _ u _ RU) by auto. cbn [bind].
        pose proof (un_take (G u) (US u) (IT u) v K1 X V) as UT.
        assert (IH0 : In (u, v) H) by (apply In_succs; apply (Permutation_in _ (Permutation_sym K2)); apply (Permutation_in _ (Permutation_sym UT)); left; auto).
        apply in_split in IH0. destruct IH0 as (Ha & Hb & EH). set (H1 := Ha ++ Hb). assert (PH : Permutation H ((u, v) :: H1)) by (rewrite EH; symmetry; apply Permutation_middle).
        destruct (RR u v) as (_ & Hv); [rewrite EH; apply in_or_app; right; left; auto|]. set (US1 := fupd US u (zupd (US u) (IT u) true)).
        assert (UM : forall x i, vget (US x) i = Ok true -> vget (US1 x) i = Ok true). { intros x i Q. unfold US1, fupd. destruct (Z.eqb_spec x u) as [->|N]; [|auto]. pose proof (vget_range _ _ _ Q). destruct (Z.eq_dec (IT u) i) as [<-|Ni]; [apply vget_zupd_same; auto|rewrite vget_zupd_diff; auto]. }
        assert (EI1 : EInv (mkEc (zupd (c_used s) u (zupd (US u) (IT u) true)) (c_iter s) (c_res s)) H1 IT US1).
        { constructor; cbn [c_iter c_used]; auto; [apply rep_upd; auto| |].
          - intros x Hx. destruct (KU x Hx) as (Q1 & Q2 & Q3 & Q4). pose proof (succs_perm _ _ x PH) as SP. unfold succs at 2 in SP. cbn [filter fst] in SP. assert (ZL : zlen (US1 x) = zlen (US x)) by (unfold US1, fupd; destruct (Z.eqb_spec x u) as [->|]; [apply zlen_zupd|auto]). split; [lia|]. split; [|split; [auto|intros i Hi Li; apply UM, Q4; lia]]. unfold US1, fupd. destruct (Z.eqb_spec x u) as [->|N].
            + rewrite Z.eqb_refl in SP. cbn [map snd] in SP. fold (succs H1 u) in SP. apply (Permutation_cons_inv (a := v)). rewrite <- SP, K2. auto.
            + destruct (Z.eqb_spec u x); [congruence|]. fold (succs H1 x) in SP. rewrite <- SP. auto.
          - intros x y I. apply RR. rewrite EH. apply in_app_or in I. apply in_or_app. destruct I; [auto|right; right; auto]. }
        assert (BA1 : bal H1 v t). { intro x. specialize (BA x). rewrite (od_perm _ _ x PH), (id_perm _ _ x PH) in BA. cbn [od id_ fold_right fst snd] in BA. fold (od H1 x) (id_ H1 x) in BA. lia. }
        assert (M1 : mu H1 IT = mu H IT - 1). { unfold mu. apply Permutation_length in PH. cbn [length] in PH. unfold zlen at 1 3. lia. }
        destruct (IH v t _ H1 IT US1 Hv EI1 BA1 ltac:(lia)) as (s2 & H2 & IT2 & US2 & L1 & -> & C2 & C3 & C4 & C5 & C6 & C7 & C8 & C9). cbn [bind c_res] in *.
        assert (BA2 : bal H2 u u). { intro x. specialize (BA1 x). rewrite <- (od_perm _ _ x C6), <- (id_perm _ _ x C6), od_app, id_app in BA1. pose proof (walk_bal (rev L1) v t x C5). lia. }
        destruct (C9 u Hu) as (D1 & D2). pose proof (i_ku _ _ _ _ C3 u Hu) as (Q1 & _).
        destruct (NEXT s2 H2 IT2 US2 u L1 C3 BA2) as (s' & H' & IT' & US' & L2 & A1 & A2 & A3 & A4 & A5 & A6 & A7 & A8 & A9); [| |auto|].
        * intro LT. destruct D1 as [D1|D1]; [|lia]. rewrite D1. apply D2. unfold US1. rewrite fupd_same. apply vget_zupd_same. lia.
        * rewrite mu_it by auto. destruct (IT2 u <? zlen (G u)); lia.
        * exists s', H', IT', US', (L1 ++ L2). rewrite mu_it in A4 by auto. split; [auto|]. split; [auto|]. split; [auto|]. split; [destruct (IT2 u <? zlen (G u)); lia|]. rewrite rev_app_distr. destruct (walk_app u (rev L2) u v (rev L1) t A5 C5) as (W1 & W2). split; [auto|]. split; [|split; [|split; [auto|]]].
          -- rewrite W2. rewrite PH, <- C6, <- A6. rewrite <- app_assoc. cbn [app]. rewrite <- Permutation_middle. constructor. rewrite !app_assoc. apply Permutation_app_tail, Permutation_app_comm.
          -- intros x y I J. apply in_app_or in I. destruct I as [I|I]; [|apply (A7 x y I J)]. apply (C7 x y I). apply (Permutation_in _ A6). apply in_or_app. auto.
          -- intros x Hx. destruct (C9 x Hx) as (E1 & E2). destruct (A9 x Hx) as (E3 & E4). split; [|auto]. destruct E3 as [E3|E3]; [rewrite E3; auto|auto].
    - exists (mkEc (c_used s) (c_iter s) (c_res s ++ [u])), H, IT, US, [u]. split; [auto|]. split; [auto|]. split; [constructor; cbn [c_iter c_used]; eauto|]. split; [lia|].
      assert (UE : succs H u = []). { apply Permutation_nil. rewrite K2, un_nil; auto. intros i Hi. apply K4; lia. }
      assert (O0 : od H u = 0) by (rewrite <- succs_od, UE; reflexivity). specialize (BA u). pose proof (id_nn H u). unfold b2 in BA. rewrite Z.eqb_refl in BA. destruct (Z.eqb_spec u t) as [<-|N]; [|lia]. cbn [rev app steps]. split; [apply walk_one|]. split; [auto|]. split; [|split; [auto|intros x Hx; auto]]. intros x y [<-|[]] I. apply In_succs in I. rewrite UE in I. destruct I.
  Qed.
End D.
