(* Proofs about BM_model: the object; maximum matchings and vertex covers. *)
From Verif Require Import Base BaseLemmas ListZ ListMore Seq LowLink_proof4 BM_spec BM_model BM_proof BM_proof2.
From Coq Require Import Permutation.

Definition HE (E : list (Z * Z)) (r : Z) : list Z := map fst (filter (fun e => snd e =? r) E).
Lemma In_HE E l r : In l (HE E r) <-> In (l, r) E.
Proof.
  unfold HE. rewrite in_map_iff. split.
  - intros ((a, b) & <- & I). apply filter_In in I. destruct I as (I & Q). cbn [fst snd] in *. apply Z.eqb_eq in Q. subst. auto.
  - intro I. exists (l, r). split; [auto|]. apply filter_In. split; [auto|apply Z.eqb_refl].
Qed.
Definition mlist (n : Z) (TR : Z -> Z) : list (Z * Z) := map (fun l => (l, TR l)) (filter (fun l => negb (TR l =? -1)) (zrange n)).
Lemma In_mlist n TR l r : In (l, r) (mlist n TR) <-> 0 <= l < n /\ TR l = r /\ r <> -1.
Proof.
  unfold mlist. rewrite in_map_iff. split; [intros (x & Q & I); injection Q as <- <-; apply In_cnt in I; tauto|]. intros (A & <- & B). exists l. split; [auto|]. apply In_cnt. auto.
Qed.
Lemma zlen_mlist n TR : zlen (mlist n TR) = cnt n TR.
Proof. unfold mlist, cnt. apply zlen_map. Qed.
(* every matching is at most as large as every vertex cover *)
Lemma weak_duality n m E M C : edges_ok n m E -> is_matching E M -> is_cover n m E C -> zlen M <= zlen C.
Proof.
  intros EO (I & N1 & N2) (_ & _ & K). pose (f := fun e : Z * Z => if in_dec Z.eq_dec (fst e) C then fst e else n + snd e). rewrite <- (zlen_map f M). apply zlen_incl.
  - assert (B : forall e, In e M -> 0 <= fst e < n /\ 0 <= snd e < m) by (intros (a, b) J; apply EO; auto). clear I. induction M as [|(a, b) M IH]; cbn [map]; [constructor|]. cbn [map] in N1, N2. inversion N1; subst. inversion N2; subst. constructor; [|apply IH; auto; intros; apply B; right; auto]. intro J. apply in_map_iff in J. destruct J as ((c, d) & Q & J). destruct (B (a, b) (or_introl eq_refl)) as (B1 & B2). destruct (B (c, d) (or_intror J)) as (B3 & B4). cbn [fst snd] in *. unfold f in Q. cbn [fst snd] in Q. destruct (in_dec Z.eq_dec c C), (in_dec Z.eq_dec a C); try lia.
    + apply H1. rewrite <- Q. apply (in_map fst) in J. auto.
    + apply H3. assert (b = d) by lia. subst d. apply (in_map snd) in J. auto.
  - intros x J. apply in_map_iff in J. destruct J as ((a, b) & <- & J). unfold f. cbn [fst snd]. destruct (in_dec Z.eq_dec a C); [auto|]. destruct (K a b (I _ J)); [contradiction|auto].
Qed.
Section O.
  Variables (n m : Z). Hypothesis Hn : 0 <= n. Hypothesis Hm : 0 <= m.
  Notation lf l := (0 <= l < n). Notation rt r := (0 <= r < m).
  Record OInv (E : list (Z * Z)) (b : bm) (TR TL : Z -> Z) (G : Z -> list Z) : Prop := {
    o_n : b_n b = n; o_m : b_m b = m;
    o_tr : rep (b_tr b) n TR; o_tl : rep (b_tl b) m TL; o_g : rep (b_g b) (n + m) G;
    o_E : edges_ok n m E;
    o_G : forall l r, lf l -> (In r (G l) <-> In (l, r) E);
    o_co : Cons n m (HE E) TR TL;
    o_f : 0 <= b_f b -> NoAug n m G TR TL
  }.
  Lemma mlist_matching E TR TL : Cons n m (HE E) TR TL -> is_matching E (mlist n TR).
  Proof.
    intros (C1 & C2). split; [|split].
    - intros (l, r) I. apply In_mlist in I. destruct I as (Hl & Q & N). rewrite <- Q in *. destruct (C1 l Hl N) as (_ & _ & J). apply In_HE. auto.
    - unfold mlist. rewrite map_map. cbn [fst]. rewrite map_id. apply NoDup_filter, NoDup_zrange.
    - unfold mlist. rewrite map_map. cbn [snd]. assert (B : forall l, In l (filter (fun l => negb (TR l =? -1)) (zrange n)) -> TL (TR l) = l) by (intros l I; apply In_cnt in I; destruct I as (Hl & N); apply (C1 l Hl N)). assert (ND := NoDup_filter (fun l => negb (TR l =? -1)) (NoDup_zrange n)). revert B ND. generalize (filter (fun l => negb (TR l =? -1)) (zrange n)). induction l as [|a l IH]; intros B ND; cbn [map]; [constructor|]. inversion ND; subst. constructor; [|apply IH; auto; intros; apply B; right; auto]. intro J. apply in_map_iff in J. destruct J as (x & Q & J). apply H1. assert (TL (TR a) = a) by (apply B; left; auto). assert (TL (TR x) = x) by (apply B; right; auto). rewrite Q in *. congruence.
  Qed.
  (* a cover no larger than the matching, from sets closed under alternating paths *)
  Definition acover (A B : Z -> bool) : list Z := filter (fun l => negb (A l)) (zrange n) ++ map (fun r => n + r) (filter B (zrange m)).
  Lemma In_acover A B v : In v (acover A B) <-> (lf v /\ A v = false) \/ (rt (v - n) /\ B (v - n) = true).
  Proof.
    unfold acover. rewrite in_app_iff, in_map_iff, filter_In, In_zrange, negb_true_iff. split; (intros [I|I]; [auto|right]).
    - destruct I as (r & <- & I). apply filter_In in I. rewrite In_zrange in I. replace (n + r - n) with r by lia. auto.
    - exists (v - n). split; [lia|]. apply filter_In. rewrite In_zrange. auto.
  Qed.
  Lemma NoDup_acover A B : NoDup (acover A B).
  Proof.
    apply NoDup_app; [apply NoDup_filter, NoDup_zrange| |].
    - apply FinFun.Injective_map_NoDup; [intros a b; lia|apply NoDup_filter, NoDup_zrange].
    - intros x I J. apply filter_In in I. rewrite In_zrange in I. apply in_map_iff in J. destruct J as (r & <- & J). apply filter_In in J. rewrite In_zrange in J. lia.
  Qed.
  Lemma acover_size TR TL E A B : Cons n m (HE E) TR TL -> (forall l, lf l -> TR l = -1 -> A l = true) -> (forall r, rt r -> B r = true -> TL r <> -1 /\ A (TL r) = true) -> zlen (acover A B) <= cnt n TR.
  Proof.
    intros (C1 & C2) FA FB. pose (f := fun v => if v <? n then v else TL (v - n)). rewrite <- (zlen_map f (acover A B)). apply zlen_incl.
    - assert (K : forall v, In v (acover A B) -> (lf v /\ A v = false /\ f v = v) \/ (rt (v - n) /\ A (f v) = true /\ TR (f v) = v - n)).
      { intros v I. apply In_acover in I. unfold f. destruct I as [(Hv & Q)|(Hv & Q)]; [left; destruct (Z.ltb_spec v n); [auto|lia]|right]. destruct (Z.ltb_spec v n); [lia|]. destruct (FB _ Hv Q) as (T & AT). destruct (C2 _ Hv T). auto. }
      assert (ND := NoDup_acover A B). revert K ND. generalize (acover A B). induction l as [|a l IH]; intros K ND; cbn [map]; [constructor|]. inversion ND; subst. constructor; [|apply IH; auto; intros; apply K; right; auto]. intro J. apply in_map_iff in J. destruct J as (x & Q & J). apply H1. destruct (K a (or_introl eq_refl)) as [(K1 & K2 & K3)|(K1 & K2 & K3)]; destruct (K x (or_intror J)) as [(K4 & K5 & K6)|(K4 & K5 & K6)]; rewrite <- Q in *.
      + rewrite K3 in K6. rewrite K6 in *. auto.
      + rewrite K3 in K5. congruence.
      + rewrite K6 in K2. congruence.
      + assert (x = a) by lia. subst. auto.
    - intros v I. apply in_map_iff in I. destruct I as (x & <- & I). apply In_acover in I. apply In_cnt. unfold f. destruct I as [(Hv & Q)|(Hv & Q)]; destruct (Z.ltb_spec x n); try lia.
      + split; [auto|]. intro T. rewrite (FA x Hv T) in Q. discriminate.
      + destruct (FB _ Hv Q) as (T & _). destruct (C2 _ Hv T) as (U & V). split; [auto|]. rewrite V. lia.
  Qed.
  Lemma acover_cover E A B : edges_ok n m E -> (forall l r, In (l, r) E -> A l = true -> B r = true) -> is_cover n m E (acover A B).
  Proof.
    intros EO K. split; [apply NoDup_acover|]. split; [intros v I; apply In_acover in I; lia|]. intros l r I. destruct (EO l r I) as (Hl & Hr). destruct (A l) eqn:Q; [right|left]; apply In_acover; [right; replace (n + r - n) with r by lia; split; [auto|apply (K l); auto]|auto].
  Qed.
  Lemma max_of E b TR TL G : OInv E b TR TL G -> 0 <= b_f b -> is_max_matching E (mlist n TR).
  Proof.
    intros [O1 O2 O3 O4 O5 O6 O7 O8 O9] F. split; [apply (mlist_matching E TR TL); auto|]. intros M' IM. destruct (O9 F) as (A & B & A1 & A2 & A3). rewrite zlen_mlist. transitivity (zlen (acover A B)); [|apply (acover_size TR TL E); auto]. apply (weak_duality n m E); auto. apply acover_cover; auto. intros l r I Q. apply (A2 l r); [apply (O6 l r I)|auto|apply O7; [apply (O6 l r I)|auto]].
  Qed.
  Lemma new_ok : OInv [] (bm_new n m) (fun _ => -1) (fun _ => -1) (fun _ => []).
  Proof.
    constructor; cbn [bm_new b_n b_m b_tr b_tl b_g b_f]; auto; try (apply rep_vrep; lia).
    - intros l r [].
    - intros l r Hl. tauto.
    - split; intros; lia.
    - intros _. exists (fun _ => true), (fun _ => false). split; [auto|]. split; [intros l r Hl _ []|discriminate].
  Qed.
  Lemma Cons_mono E E' TR TL : incl E E' -> Cons n m (HE E) TR TL -> Cons n m (HE E') TR TL.
  Proof. intros I (C1 & C2). split; [|auto]. intros l Hl N. destruct (C1 l Hl N) as (A & B & C). split; [auto|]. split; [auto|]. apply In_HE. apply I. apply In_HE. auto. Qed.
  Lemma add_ok E b TR TL G u v : OInv E b TR TL G -> lf u -> rt v -> exists b' G', bm_add b u v = Ok b' /\ OInv (E ++ [(u, v)]) b' TR TL G' /\ b_f b' = -1.
  Proof.
    intros [O1 O2 O3 O4 O5 O6 O7 O8 O9] Hu Hv. unfold bm_add. rewrite (rep_get _ _ _ u O5) by lia. cbn [bind]. rewrite (rep_set _ _ _ u _ O5) by lia. cbn [bind]. eexists. exists (fupd G u (G u ++ [v])). split; [reflexivity|]. split; [|auto]. constructor; cbn [b_n b_m b_tr b_tl b_g b_f]; auto.
    - apply rep_upd; [auto|lia].
    - intros l r I. apply in_app_or in I. destruct I as [I|[I|[]]]; [apply O6; auto|]. injection I as <- <-. auto.
    - intros l r Hl. rewrite in_app_iff. cbn [In]. destruct (Z.eq_dec l u) as [->|N]; [rewrite fupd_same, in_app_iff; cbn [In]; rewrite O7 by auto; split; (intros [I|[I|[]]]; [auto|]); [subst; auto|injection I as <-; auto]|]. rewrite fupd_diff by auto. rewrite O7 by auto. split; [auto|]. intros [I|[I|[]]]; [auto|congruence].
    - apply (Cons_mono E); [apply incl_appl, incl_refl|auto].
    - lia.
  Qed.
  Lemma reversed_ok E b TR TL G : OInv E b TR TL G -> exists h H, bm_reversed b = Ok h /\ rep h m H /\ forall l r, rt r -> (In l (H r) <-> In (l, r) E).
  Proof.
    intros [O1 O2 O3 O4 O5 O6 O7 O8 O9]. unfold bm_reversed. rewrite O1, O2.
    match goal with |- context [for_ 0 n ?bd ?s0] => destruct (for_inv (fun i h => exists H, rep h m H /\ forall l r, rt r -> (In l (H r) <-> 0 <= l < i /\ In r (G l))) 0 n bd s0) as (h & X & H & R1 & K) end; [lia| | |].
    - exists (fun _ => []). split; [apply rep_vrep; auto|]. intros l r Hr. cbn [In]. lia.
    - intros i h Hi (H & R1 & K). rewrite (rep_get _ _ _ i O5) by lia. cbn [bind].
      match goal with |- context [for_each (G i) ?bd h] => destruct (for_each_inv (fun done h => exists H, rep h m H /\ forall l r, rt r -> (In l (H r) <-> (0 <= l < i /\ In r (G l)) \/ (l = i /\ In r done))) (G i) bd h) as (h1 & X & H1 & R2 & K1) end.
      + exists H. split; [auto|]. intros l r Hr. rewrite K by auto. cbn [In]. tauto.
      + intros done j todo h1 Eq (H1 & R2 & K1). assert (Hj : rt j). { apply (O6 i j). apply O7; [lia|]. rewrite Eq. apply in_or_app. right. left. auto. } rewrite (rep_get _ _ _ j R2) by auto. cbn [bind]. rewrite (rep_set _ _ _ j _ R2) by auto. eexists. split; [reflexivity|]. exists (fupd H1 j (H1 j ++ [i])). split; [apply rep_upd; auto|]. intros l r Hr. rewrite in_app_iff. cbn [In]. destruct (Z.eq_dec r j) as [->|N]; [rewrite fupd_same, in_app_iff, K1 by auto; cbn [In]; split; [intros [A|[<-|[]]]|intros [A|(-> & _)]]; tauto|]. rewrite fupd_diff, K1 by auto. split; [tauto|]. intros [A|(A & [B|[B|[]]])]; [auto|auto|congruence].
      + exists h1. split; [auto|]. exists H1. split; [auto|]. intros l r Hr. rewrite K1 by auto. split; [intros [(A & B)|(-> & B)]; [split; [lia|auto]|split; [lia|auto]]|]. intros (A & B). destruct (Z.eq_dec l i) as [->|N]; [auto|left; split; [lia|auto]].
    - exists h, H. split; [auto|]. split; [auto|]. intros l r Hr. rewrite K by auto. split; [intros (A & B); apply O7; auto|]. intro I. destruct (O6 l r I). split; [auto|apply O7; auto].
  Qed.
  Lemma Cons_H H H' TR TL : (forall l r, rt r -> (In l (H r) <-> In l (H' r))) -> Cons n m H TR TL -> Cons n m H' TR TL.
  Proof. intros K (C1 & C2). split; [|auto]. intros l Hl N. destruct (C1 l Hl N) as (A & B & C). rewrite K in C by auto. auto. Qed.
  Lemma solve_ok E b TR TL G : OInv E b TR TL G -> exists f b' TR' TL', bm_solve b = Ok (f, b') /\ OInv E b' TR' TL' G /\ 0 <= b_f b' /\ (b_f b < 0 -> f = cnt n TR' - cnt n TR) /\ (0 <= b_f b -> b' = b /\ f = b_f b).
  Proof.
    intros OI. pose proof OI as [O1 O2 O3 O4 O5 O6 O7 O8 O9]. unfold bm_solve. destruct (Z.leb_spec 0 (b_f b)) as [L|L].
    - exists (b_f b), b, TR, TL. split; [auto|]. split; [auto|]. split; [auto|]. split; [lia|auto].
    - destruct (reversed_ok E b TR TL G OI) as (h & H & X & RH & K). rewrite X. cbn [bind]. rewrite O1, O2.
      destruct (solve_loop n m (b_g b) G H Hn Hm O5) with (h := h) (tr := b_tr b) (tl := b_tl b) (TR := TR) (TL := TL) as (tr' & tl' & f & TR' & TL' & Y & A1 & A2 & A3 & A4 & A5 & A6); auto.
      + intros l r Hl I. apply (O6 l r). apply O7; auto.
      + intros l r Hl Hr. rewrite K, O7 by auto. tauto.
      + intros r l Hr I. apply K in I; [|auto]. apply (O6 l r); auto.
      + apply (Cons_H (HE E)); [|auto]. intros l r Hr. rewrite In_HE, K by auto. tauto.
      + rewrite Y. cbn [bind]. eexists. eexists. exists TR', TL'. split; [reflexivity|]. split; [|cbn [b_f]; split; [auto|]; split; lia]. constructor; cbn [b_n b_m b_tr b_tl b_g b_f]; auto. apply (Cons_H H); [|auto]. intros l r Hr. rewrite In_HE, K by auto. tauto.
  Qed.
  Lemma ensure_ok E b TR TL G : OInv E b TR TL G -> exists b' TR' TL', bm_ensure b = Ok b' /\ OInv E b' TR' TL' G /\ 0 <= b_f b'.
  Proof.
    intros OI. unfold bm_ensure. destruct (Z.ltb_spec (b_f b) 0) as [L|L]; [|exists b, TR, TL; auto]. destruct (solve_ok E b TR TL G OI) as (f & b' & TR' & TL' & -> & OI' & F & _). cbn [bind]. exists b', TR', TL'. auto.
  Qed.
  Lemma filter_map_loop {A} (t : Z -> bool) (w : Z -> A) k bd : 0 <= k -> (forall i s, 0 <= i < k -> bd i s = Ok (if t i then s ++ [w i] else s)) -> forall s0, for_ 0 k bd s0 = Ok (s0 ++ map w (filter t (zrange k))).
  Proof.
    intros Hk H s0. destruct (for_inv (fun i s => s = s0 ++ map w (filter t (zrange i))) 0 k bd s0) as (s & X & ->); [auto|rewrite app_nil_r; auto| |exact X]. intros i s Hi ->. rewrite H by auto. eexists. split; [reflexivity|]. rewrite zrange_S, filter_app, map_app by lia. cbn [filter]. destruct (t i); cbn [map app]; rewrite ?app_nil_r, ?app_assoc; auto.
  Qed.
  Lemma matching_ok E b TR TL G : OInv E b TR TL G -> exists M b' TR' TL', bm_max_matching b = Ok (M, b') /\ OInv E b' TR' TL' G /\ 0 <= b_f b' /\ M = mlist n TR'.
  Proof.
    intros OI. unfold bm_max_matching. destruct (ensure_ok E b TR TL G OI) as (b' & TR' & TL' & -> & OI' & F). cbn [bind]. rewrite (o_n _ _ _ _ _ OI'). rewrite (filter_map_loop (fun l => negb (TR' l =? -1)) (fun l => (l, TR' l)) n).
    - cbn [bind app]. eexists. exists b', TR', TL'. split; [reflexivity|]. auto.
    - auto.
    - intros i s Hi. rewrite (rep_get _ _ _ i (o_tr _ _ _ _ _ OI')) by auto. cbn [bind]. destruct (Z.eqb_spec (TR' i) (-1)); auto.
  Qed.
End O.
