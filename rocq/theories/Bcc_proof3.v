(* Proofs about Bcc_model: components() and remove_multiedges(). *)
From Verif Require Sieve_proof.
From Verif Require Import Base BaseLemmas ListZ Seq ListMore SpSeg_proof LowLink_spec LowLink_model LowLink_proof2 LowLink_proof4 Bcc_spec Bcc_model Bcc_proof.
From Coq Require Import Sorted.

Definition memb (v : Z) (l : list Z) : bool := existsb (Z.eqb v) l.
Lemma memb_In v l : memb v l = true <-> In v l.
Proof. unfold memb. rewrite existsb_exists. split; [intros (x & I & X); apply Z.eqb_eq in X; subst; auto|]. intro I. exists v. split; [auto|apply Z.eqb_refl]. Qed.
Lemma memb_false v l : memb v l = false <-> ~ In v l.
Proof. rewrite <- memb_In. destruct (memb v l); split; congruence. Qed.
Lemma memb_ext l l' v : (In v l <-> In v l') -> memb v l = memb v l'.
Proof. intro H. destruct (memb v l) eqn:X; symmetry; [apply memb_In, H, memb_In; auto|apply memb_false; rewrite <- H; apply memb_false; auto]. Qed.

Lemma sorted_zrange m : StronglySorted Z.lt (zrange m).
Proof.
  destruct (Z.le_gt_cases 0 m) as [Hm|Hm]; [|unfold zrange; replace (Z.to_nat m) with O by lia; constructor]. replace m with (Z.of_nat (Z.to_nat m)) by lia. generalize (Z.to_nat m) as q. induction q as [|q IH]; [constructor|].
  rewrite Nat2Z.inj_succ. unfold Z.succ. rewrite zrange_S by lia. apply Sieve_proof.sorted_snoc; [exact IH|]. intros x Ix. apply In_zrange in Ix. lia.
Qed.
Lemma sorted_filter (p : Z -> bool) l : StronglySorted Z.lt l -> StronglySorted Z.lt (filter p l).
Proof. induction 1 as [|x l SL IH FA]; cbn [filter]; [constructor|]. destruct (p x); auto. constructor; auto. rewrite Forall_forall in *. intros y Iy. apply filter_In in Iy. apply FA; tauto. Qed.

Lemma visit_ok n seen vids u : rep seen n (fun v => memb v vids) -> 0 <= u < n -> NoDup vids ->
  exists seen' vids', bc_visit u (seen, vids) = Ok (seen', vids') /\ rep seen' n (fun v => memb v vids') /\ NoDup vids' /\ forall v, In v vids' <-> In v vids \/ v = u.
Proof.
  intros R Hu ND. unfold bc_visit. rewrite (rep_get _ _ _ u R Hu), (rep_set _ _ _ u _ R Hu). cbn [bind]. eexists. eexists. split; [reflexivity|].
  assert (M : forall v, In v (if memb u vids then vids else vids ++ [u]) <-> In v vids \/ v = u).
  { intro v. destruct (memb u vids) eqn:X; [apply memb_In in X; split; [auto|intros [|Y0]; [|subst v]; auto]|]. rewrite in_app_iff. cbn [In]. split; (intros [Y|Y]; [auto|]); [destruct Y as [->|[]]; auto|subst; auto]. }
  split; [|split; [|exact M]].
  - eapply rep_ext; [apply (rep_upd _ _ _ u true R Hu)|]. intros v Hv. cbn beta. destruct (Z.eq_dec v u) as [->|N]; [rewrite fupd_same; symmetry; apply memb_In, M; auto|]. rewrite fupd_diff by auto. apply memb_ext. rewrite M. split; [auto|intros [|]; [auto|contradiction]].
  - destruct (memb u vids) eqn:X; [auto|]. apply memb_false in X. apply NoDup_app_snoc; auto.
Qed.

Section K.
  Variable n : Z. Variable E : list (Z * Z). Variable b : bc. Variable f : Z -> Z.
  Hypothesis Hn : 0 <= n.
  Hypothesis HE : graph_on n E.
  Hypothesis BB : l_built (b_ll b) = true.
  Hypothesis BN : l_n (b_ll b) = n.
  Hypothesis BE : l_edges (b_ll b) = E.
  Hypothesis RC : rep (b_comp b) (zlen E) f.
  Hypothesis K0 : 0 <= b_num b.
  Hypothesis FR : forall id, 0 <= id < zlen E -> 0 <= f id < b_num b.
  Notation k := (b_num b).
  Definition eids (c : Z) : list Z := filter (fun i => f i =? c) (zrange (zlen E)).
  Lemma In_eids c e : In e (eids c) <-> 0 <= e < zlen E /\ f e = c.
  Proof. unfold eids. rewrite filter_In, In_zrange, Z.eqb_eq. tauto. Qed.
  Lemma edge_get e : 0 <= e < zlen E -> exists x y, vget E e = Ok (x, y) /\ 0 <= x < n /\ 0 <= y < n /\ forall v, endpoint E e v <-> v = x \/ v = y.
  Proof.
    intro He. destruct (vget_Ok E e He) as ((x, y) & X). exists x, y. split; [auto|]. pose proof (HE x y (vget_In _ _ _ X)). split; [tauto|]. split; [tauto|]. intro v. split.
    - intros (z & J). apply joins_iff in J. rewrite X in J. destruct J as [J|J]; injection J; auto.
    - intros [->| ->]; [exists y|exists x]; apply joins_iff; auto.
  Qed.
  Lemma body_ok c seen r h : 0 <= c < zlen r -> rep r (zlen r) h -> h c = ([], eids c) -> rep seen n (fun _ => false) ->
    exists seen' vs, bc_comp_body b c (seen, r) = Ok (seen', zupd r c (vs, eids c)) /\ rep seen' n (fun _ => false) /\ NoDup vs /\ forall v, In v vs <-> exists e, In e (eids c) /\ endpoint E e v.
  Proof.
    intros Hc R Hh RS. unfold bc_comp_body. rewrite (rep_get _ _ _ c R Hc), Hh. cbn [bind fst snd]. rewrite BE.
    assert (EI : forall e, In e (eids c) -> 0 <= e < zlen E) by (intros e Ie; apply In_eids in Ie; tauto).
    destruct (for_each_inv (fun done st => rep (fst st) n (fun v => memb v (snd st)) /\ NoDup (snd st) /\ forall v, In v (snd st) <-> exists e, In e done /\ endpoint E e v) (eids c)
      (fun eid st => let* e := vget E eid in let* st := bc_visit (fst e) st in bc_visit (snd e) st) (seen, [])) as ((seen1, vs) & X & R1 & ND & M).
    - cbn [fst snd]. split; [auto|]. split; [constructor|]. intro v. split; [intros []|intros (e & [] & _)].
    - intros done e tl (sn, vs) Eq (I1 & I2 & I3). cbn [fst snd] in I1, I2, I3. assert (He : 0 <= e < zlen E) by (apply EI; rewrite Eq; apply in_or_app; right; left; auto).
      destruct (edge_get e He) as (x & y & G & Hx & Hy & EP). rewrite G. cbn [bind fst snd].
      destruct (visit_ok n sn vs x I1 Hx I2) as (sn1 & vs1 & X1 & J1 & J2 & J3). rewrite X1. cbn [bind]. destruct (visit_ok n sn1 vs1 y J1 Hy J2) as (sn2 & vs2 & X2 & L1 & L2 & L3). rewrite X2.
      exists (sn2, vs2). split; [reflexivity|]. cbn [fst snd]. split; [auto|]. split; [auto|]. intro v. rewrite L3, J3, I3. split.
      + intros [[(e' & I & Y)| ->]| ->]; [exists e'; split; [apply in_or_app; auto|auto]|exists e; split; [apply in_or_app; right; left; auto|apply EP; auto]|exists e; split; [apply in_or_app; right; left; auto|apply EP; auto]].
      + intros (e' & I & Y). apply in_app_or in I. destruct I as [I|[<-|[]]]; [left; left; exists e'; auto|]. apply EP in Y. destruct Y; auto.
    - rewrite X. cbn [bind fst snd] in *. rewrite (rep_set _ _ _ c _ R Hc). cbn [bind].
      destruct (for_each_inv (fun done sn => exists g, rep sn n g /\ forall v, 0 <= v < n -> g v = true -> In v vs /\ forall e, In e done -> ~ endpoint E e v) (eids c)
        (fun eid seen => let* e := vget E eid in let* seen := vset seen (snd e) false in vset seen (fst e) false) seen1) as (seen2 & X2 & g & RG & GF).
      + exists (fun v => memb v vs). split; [auto|]. intros v _ Y. apply memb_In in Y. split; [auto|intros e []].
      + intros done e tl sn Eq (g & I1 & I2). assert (He : 0 <= e < zlen E) by (apply EI; rewrite Eq; apply in_or_app; right; left; auto).
        destruct (edge_get e He) as (x & y & G & Hx & Hy & EP). rewrite G. cbn [bind fst snd]. rewrite (rep_set _ _ _ y _ I1 Hy). cbn [bind]. pose proof (rep_upd _ _ _ y false I1 Hy) as I1'. rewrite (rep_set _ _ _ x _ I1' Hx).
        eexists. split; [reflexivity|]. exists (fupd (fupd g y false) x false). split; [apply rep_upd; auto|]. intros v Hv Y. destruct (Z.eq_dec v x) as [->|Nx]; [rewrite fupd_same in Y; discriminate|]. rewrite fupd_diff in Y by auto.
        destruct (Z.eq_dec v y) as [->|Ny]; [rewrite fupd_same in Y; discriminate|]. rewrite fupd_diff in Y by auto. destruct (I2 v Hv Y) as (Y1 & Y2). split; [auto|]. intros e' I. apply in_app_or in I. destruct I as [I|[<-|[]]]; [auto|]. rewrite EP. tauto.
      + rewrite X2. cbn [bind]. exists seen2, vs. split; [reflexivity|]. split; [|auto]. eapply rep_ext; [exact RG|]. intros v Hv. cbn beta. destruct (g v) eqn:Y; auto. exfalso. destruct (GF v Hv Y) as (Y1 & Y2). apply M in Y1. destruct Y1 as (e & Ie & Pe). apply (Y2 e); auto.
  Qed.
  Lemma components_ok : exists r, bc_components b = Ok r /\ zlen r = k + zlen (b_iso b) /\
    (forall c, 0 <= c < k -> exists vs es, vget r c = Ok (vs, es) /\ StronglySorted Z.lt es /\ (forall e, In e es <-> 0 <= e < zlen E /\ f e = c) /\ NoDup vs /\ forall v, In v vs <-> exists e, In e es /\ endpoint E e v) /\
    (forall j v, vget (b_iso b) j = Ok v -> vget r (k + j) = Ok ([v], [])).
  Proof.
    set (N := k + zlen (b_iso b)). pose proof (zlen_nonneg (b_iso b)) as I0. pose proof (zlen_nonneg E) as E0. unfold bc_components. rewrite BB. cbn [assert_ bind]. rewrite BE. fold N.
    destruct (for_inv (fun i r => rep r N (fun c => (@nil Z, filter (fun e => f e =? c) (zrange i)))) 0 (zlen E) (fun i r => let* c := vget (b_comp b) i in let* x := vget r c in vset r c (fst x, snd x ++ [i])) (vrep N ([], []))) as (r & X & R); auto.
    { apply rep_vrep. unfold N. lia. }
    { intros i r Hi R. rewrite (rep_get _ _ _ i RC Hi). cbn [bind]. specialize (FR i Hi). assert (Hf : 0 <= f i < N) by (unfold N; lia). rewrite (rep_get _ _ _ (f i) R Hf). cbn [bind fst snd]. rewrite (rep_set _ _ _ (f i) _ R Hf).
      eexists. split; [reflexivity|]. eapply rep_ext; [apply rep_upd; [exact R|exact Hf]|]. intros c Hc. cbn beta. rewrite zrange_S, filter_snoc by lia. destruct (Z.eq_dec c (f i)) as [->|Nc]; [rewrite fupd_same, Z.eqb_refl; reflexivity|].
      rewrite fupd_diff by auto. destruct (Z.eqb_spec (f i) c); [congruence|]. rewrite app_nil_r. reflexivity. }
    rewrite X. cbn [bind]. clear X. rewrite BN.
    assert (EB : forall c, k <= c -> eids c = []). { intros c Hc. destruct (eids c) as [|e l] eqn:X; auto. exfalso. assert (In e (eids c)) as I by (rewrite X; left; auto). apply In_eids in I. destruct I as (He & Fe). specialize (FR e He). lia. }
    destruct (for_inv (fun j st => rep (fst st) n (fun _ => false) /\ exists h, rep (snd st) N h /\ (forall c, j <= c < N -> h c = ([], eids c)) /\
      forall c, 0 <= c < j -> snd (h c) = eids c /\ NoDup (fst (h c)) /\ forall v, In v (fst (h c)) <-> exists e, In e (eids c) /\ endpoint E e v) 0 k (bc_comp_body b) (vrep n false, r)) as ((seen, r1) & X & _ & h & RH & H1 & H2); auto.
    { cbn [fst snd]. split; [apply rep_vrep; auto|]. eexists. split; [exact R|]. split; [intros c _; reflexivity|]. intros; lia. }
    { intros j (sn, rr) Hj (I1 & h & I2 & I3 & I4). cbn [fst snd] in I1, I2. assert (LR : zlen rr = N) by apply I2. assert (HjN : 0 <= j < N) by (unfold N; lia).
      destruct (body_ok j sn rr h ltac:(lia) ltac:(rewrite LR; auto) (I3 j ltac:(lia)) I1) as (sn' & vs & X & J1 & J2 & J3). rewrite X. eexists. split; [reflexivity|]. cbn [fst snd]. split; [auto|].
      exists (fupd h j (vs, eids j)). split; [apply rep_upd; auto|]. split.
      - intros c Hc. rewrite fupd_diff by lia. apply I3. lia.
      - intros c Hc. destruct (Z.eq_dec c j) as [->|Nc]; [rewrite fupd_same; auto|]. rewrite fupd_diff by auto. apply I4. lia. }
    rewrite X. cbn [bind fst snd] in *. clear X.
    destruct (for_each_inv (fun done st => snd st = k + zlen done /\ exists h', rep (fst st) N h' /\ (forall c, 0 <= c < k -> h' c = h c) /\ (forall c, k + zlen done <= c < N -> h' c = ([], [])) /\ forall j v, vget done j = Ok v -> h' (k + j) = ([v], []))
      (b_iso b) (fun v st => let '(r, id) := st in let* x := vget r id in let* r := vset r id ([v], snd x) in Ok (r, id + 1)) (r1, k)) as ((r2, q) & X & _ & h' & RH' & G1 & _ & G3).
    { cbn [fst snd]. change (zlen (@nil Z)) with 0. split; [lia|]. exists h. split; [auto|]. split; [auto|]. split; [intros c Hc; rewrite H1 by lia; rewrite EB by lia; auto|]. intros j v Y. apply vget_range in Y. change (zlen (@nil Z)) with 0 in Y. lia. }
    { intros done v tl (rr, q) Eq (I1 & hh & I2 & I3 & I4 & I5). cbn [fst snd] in *. subst q. assert (LN : zlen (b_iso b) = zlen done + 1 + zlen tl) by (rewrite Eq, zlen_app, zlen_cons; lia). pose proof (zlen_nonneg done). pose proof (zlen_nonneg tl).
      assert (Hq : 0 <= k + zlen done < N) by (unfold N; lia). rewrite (rep_get _ _ _ _ I2 Hq). cbn [bind]. rewrite I4 by lia. cbn [snd]. rewrite (rep_set _ _ _ _ _ I2 Hq). cbn [bind]. eexists. split; [reflexivity|]. cbn [fst snd].
      rewrite zlen_app. change (zlen [v]) with 1. split; [lia|]. eexists. split; [apply rep_upd; [exact I2|exact Hq]|]. split; [intros c Hc; rewrite fupd_diff by lia; auto|]. split; [intros c Hc; rewrite fupd_diff by lia; apply I4; lia|].
      intros j u Y. apply vget_snoc in Y. destruct Y as [Y|(-> & ->)]; [|apply fupd_same]. pose proof (vget_range _ _ _ Y). rewrite fupd_diff by lia. auto. }
    rewrite X. cbn [bind fst snd] in *. exists r2. split; [reflexivity|]. split; [apply RH'|]. split.
    - intros c Hc. destruct (H2 c Hc) as (Y1 & Y2 & Y3). exists (fst (h c)), (eids c). rewrite (rep_get _ _ _ c RH') by (unfold N; lia). rewrite G1 by auto. split; [rewrite <- Y1; destruct (h c); reflexivity|].
      split; [apply sorted_filter, sorted_zrange|]. split; [apply In_eids|]. split; auto.
    - intros j v Y. pose proof (vget_range _ _ _ Y). rewrite (rep_get _ _ _ (k + j) RH') by (unfold N; lia). rewrite (G3 j v Y). reflexivity.
  Qed.
End K.
