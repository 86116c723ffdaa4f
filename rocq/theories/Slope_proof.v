(* Proofs about Slope_model. *)
From Verif Require Import Base BaseLemmas Slope_spec Slope_model.
From Coq Require Import Permutation.

Lemma top_max_ok l : l <> [] -> exists m, top_max l = Ok m /\ In m l /\ forall x, In x l -> x <= m.
Proof.
  destruct l as [|x r]; [congruence|]. intros _. unfold top_max. eexists. split; [reflexivity|]. induction r as [|y r (I & K)]; cbn [fold_right].
  - split; [left; auto|]. intros z [<-|[]]. lia.
  - split.
    + destruct (Z.max_spec y (fold_right Z.max x r)) as [(_ & ->)|(_ & ->)]; [destruct I as [I|I]; [left; auto|right; right; auto]|right; left; auto].
    + intros z [<-|[<-|J]]; [pose proof (K x ltac:(left; auto)); lia|lia|pose proof (K z ltac:(right; auto)); lia].
Qed.
Lemma top_min_ok l : l <> [] -> exists m, top_min l = Ok m /\ In m l /\ forall x, In x l -> m <= x.
Proof.
  destruct l as [|x r]; [congruence|]. intros _. unfold top_min. eexists. split; [reflexivity|]. induction r as [|y r (I & K)]; cbn [fold_right].
  - split; [left; auto|]. intros z [<-|[]]. lia.
  - split.
    + destruct (Z.min_spec y (fold_right Z.min x r)) as [(_ & ->)|(_ & ->)]; [right; left; auto|destruct I as [I|I]; [left; auto|right; right; auto]].
    + intros z [<-|[<-|J]]; [pose proof (K x ltac:(left; auto)); lia|lia|pose proof (K z ltac:(right; auto)); lia].
Qed.
Lemma rem1_perm m l : In m l -> Permutation l (m :: rem1 m l).
Proof.
  induction l as [|x l IH]; [intros []|]. intro I. cbn [rem1]. destruct (Z.eqb_spec x m) as [->|N]; [auto|]. destruct I as [I|I]; [congruence|]. rewrite (IH I) at 1. constructor.
Qed.
Lemma perm4 (l L L0 : list Z) i t a : Permutation l (i :: L) -> Permutation L (t :: L0) -> Permutation (a :: l) (t :: i :: a :: L0).
Proof.
  intros P Q. apply perm_trans with (a :: i :: t :: L0); [constructor; apply perm_trans with (i :: L); [auto|constructor; auto]|]. apply perm_trans with (i :: a :: t :: L0); [constructor|]. apply perm_trans with (i :: t :: a :: L0); [constructor; constructor|constructor].
Qed.
(* the two sums of hinges *)
Definition SL (l : list Z) (x : Z) : Z := fold_right (fun p s => Z.max 0 (p - x) + s) 0 l.
Definition SR (r : list Z) (x : Z) : Z := fold_right (fun p s => Z.max 0 (x - p) + s) 0 r.
Lemma SL_perm l l' x : Permutation l l' -> SL l x = SL l' x.
Proof. induction 1; cbn [SL fold_right]; repeat match goal with |- context [fold_right ?f 0 ?l] => change (fold_right f 0 l) with (SL l x) end; lia. Qed.
Lemma SR_perm l l' x : Permutation l l' -> SR l x = SR l' x.
Proof. induction 1; cbn [SR fold_right]; repeat match goal with |- context [fold_right ?f 0 ?l] => change (fold_right f 0 l) with (SR l x) end; lia. Qed.
Lemma SL_cons p l x : SL (p :: l) x = Z.max 0 (p - x) + SL l x.
Proof. reflexivity. Qed.
Lemma SR_cons p l x : SR (p :: l) x = Z.max 0 (x - p) + SR l x.
Proof. reflexivity. Qed.
Lemma SL_nn l x : 0 <= SL l x.
Proof. induction l as [|p l IH]; [cbn; lia|]. rewrite SL_cons. lia. Qed.
Lemma SR_nn l x : 0 <= SR l x.
Proof. induction l as [|p l IH]; [cbn; lia|]. rewrite SR_cons. lia. Qed.
Lemma SL_mono l x y : x <= y -> SL l y <= SL l x.
Proof. intro H. induction l as [|p l IH]; [cbn; lia|]. rewrite !SL_cons. lia. Qed.
Lemma SR_mono l x y : x <= y -> SR l x <= SR l y.
Proof. intro H. induction l as [|p l IH]; [cbn; lia|]. rewrite !SR_cons. lia. Qed.
Lemma SL_0 l x : SL l x = 0 <-> forall p, In p l -> p <= x.
Proof.
  induction l as [|q l IH]; [cbn; tauto|]. rewrite SL_cons. pose proof (SL_nn l x). split.
  - intros E p [<-|I]; [lia|]. apply IH; [lia|auto].
  - intro K. pose proof (K q ltac:(left; auto)). rewrite (proj2 IH) by (intros p I; apply K; right; auto). lia.
Qed.
Lemma SR_0 l x : SR l x = 0 <-> forall p, In p l -> x <= p.
Proof.
  induction l as [|q l IH]; [cbn; tauto|]. rewrite SR_cons. pose proof (SR_nn l x). split.
  - intros E p [<-|I]; [lia|]. apply IH; [lia|auto].
  - intro K. pose proof (K q ltac:(left; auto)). rewrite (proj2 IH) by (intros p I; apply K; right; auto). lia.
Qed.
Lemma SL_shift l x d : SL (map (fun p => p + d) l) x = SL l (x - d).
Proof. induction l as [|p l IH]; [auto|]. cbn [map]. rewrite !SL_cons, IH. f_equal. lia. Qed.
Lemma SR_shift l x d : SR (map (fun p => p + d) l) x = SR l (x - d).
Proof. induction l as [|p l IH]; [auto|]. cbn [map]. rewrite !SR_cons, IH. f_equal. lia. Qed.
(* the values where the slope changes, without the sentinels *)
Definition at_ (d : Z) (l : list Z) : list Z := map (fun p => p + d) l.
Record SInv (inf K : Z) (s : slope) (f : Z -> Z) (L R : list Z) : Prop := {
  v_l : Permutation (s_l s) (- inf :: L);
  v_r : Permutation (s_r s) (inf :: R);
  v_f : forall x, f x = s_base s + SL (at_ (s_al s) L) x + SR (at_ (s_ar s) R) x;
  v_al : Z.abs (s_al s) <= K; v_ar : Z.abs (s_ar s) <= K;
  v_bl : forall p, In p L -> Z.abs (p + s_al s) <= K;
  v_br : forall p, In p R -> Z.abs (p + s_ar s) <= K;
  v_lr : forall p q, In p L -> In q R -> p + s_al s <= q + s_ar s
}.
Lemma In_at d l p : In p (at_ d l) <-> In (p - d) l.
Proof. unfold at_. rewrite in_map_iff. split; [intros (q & <- & I); replace (q + d - d) with q by lia; auto|intro I; exists (p - d); split; [lia|auto]]. Qed.
Section S.
  Variables (inf : Z).
  Lemma tl K s f L R : SInv inf K s f L R -> 2 * K < inf -> exists t, top_max (s_l s) = Ok t /\ ((L = [] /\ t = - inf) \/ (In t L /\ forall p, In p L -> p <= t)).
  Proof.
    intros I HK. pose proof (v_l _ _ _ _ _ _ I) as PL. destruct (top_max_ok (s_l s)) as (t & E & J & M); [intro Q; rewrite Q in PL; apply Permutation_nil in PL; discriminate|]. exists t. split; [auto|]. apply (Permutation_in _ PL) in J. destruct L as [|p L]; [left; destruct J as [J|[]]; auto|]. right. assert (M' : forall q, In q (p :: L) -> q <= t) by (intros q Q; apply M; apply (Permutation_in _ (Permutation_sym PL)); right; auto). split; [|auto]. destruct J as [<-|J]; [|auto]. exfalso. pose proof (M' p ltac:(left; auto)). pose proof (v_bl _ _ _ _ _ _ I p ltac:(left; auto)). pose proof (v_al _ _ _ _ _ _ I). lia.
  Qed.
  Lemma tr K s f L R : SInv inf K s f L R -> 2 * K < inf -> exists t, top_min (s_r s) = Ok t /\ ((R = [] /\ t = inf) \/ (In t R /\ forall p, In p R -> t <= p)).
  Proof.
    intros I HK. pose proof (v_r _ _ _ _ _ _ I) as PL. destruct (top_min_ok (s_r s)) as (t & E & J & M); [intro Q; rewrite Q in PL; apply Permutation_nil in PL; discriminate|]. exists t. split; [auto|]. apply (Permutation_in _ PL) in J. destruct R as [|p R]; [left; destruct J as [J|[]]; auto|]. right. assert (M' : forall q, In q (p :: R) -> t <= q) by (intros q Q; apply M; apply (Permutation_in _ (Permutation_sym PL)); right; auto). split; [|auto]. destruct J as [<-|J]; [|auto]. exfalso. pose proof (M' p ltac:(left; auto)). pose proof (v_br _ _ _ _ _ _ I p ltac:(left; auto)). pose proof (v_ar _ _ _ _ _ _ I). lia.
  Qed.
  Lemma sinv_K K K' s f L R : K <= K' -> SInv inf K s f L R -> SInv inf K' s f L R.
  Proof. intros H [A1 A2 A3 A4 A5 A6 A7 A8]. constructor; auto; try lia; intros p I; [specialize (A6 p I)|specialize (A7 p I)]; lia. Qed.
  Lemma right_ok K s f L R a : SInv inf K s f L R -> Z.abs a <= K -> 2 * K < inf -> exists s' L' R', sl_right s a = Ok s' /\ SInv inf K s' (fun x => f x + Z.max 0 (x - a)) L' R'.
  Proof.
    intros I Ha HK. destruct (tl K s f L R I HK) as (t & E & C). unfold sl_right. rewrite E. cbn [bind]. pose proof I as [A1 A2 A3 A4 A5 A6 A7 A8]. destruct (Z.leb_spec (t + s_al s) a) as [Q|Q].
    - eexists _, L, (a - s_ar s :: R). split; [reflexivity|]. constructor; cbn [s_base s_al s_ar s_l s_r]; auto.
      + rewrite A2. constructor.
      + intro x. rewrite A3. cbn [at_ map]. rewrite SR_cons. fold (at_ (s_ar s) R). replace (a - s_ar s + s_ar s) with a by lia. lia.
      + intros p [<-|J]; [lia|auto].
      + intros p q P [<-|J]; [|auto]. destruct C as [(-> & _)|(_ & M)]; [destruct P|]. specialize (M p P). lia.
    - cbv zeta. destruct C as [(-> & ->)|(IT & M)]; [lia|]. destruct (top_max_ok (a - s_al s :: s_l s)) as (t' & E' & J' & M'); [discriminate|]. assert (t' = t). { pose proof (M' t ltac:(right; apply (Permutation_in _ (Permutation_sym A1)); right; auto)). destruct J' as [<-|J']; [lia|]. apply (Permutation_in _ A1) in J'. destruct J' as [<-|J']; [|specialize (M t' J'); lia]. specialize (A6 t IT). lia. }
      subst t'. unfold pop_max. rewrite E'. cbn [bind]. apply in_split in IT. destruct IT as (La & Lb & EL). set (L0 := La ++ Lb). assert (PL : Permutation L (t :: L0)) by (rewrite EL; symmetry; apply Permutation_middle).
      eexists _, (a - s_al s :: L0), (t + s_al s - s_ar s :: R). split; [reflexivity|]. assert (IL : forall p, In p L0 -> In p L) by (intros p J; apply (Permutation_in _ (Permutation_sym PL)); right; auto). assert (ITL : In t L) by (apply (Permutation_in _ (Permutation_sym PL)); left; auto). constructor; cbn [s_base s_al s_ar s_l s_r]; auto.
      + apply (Permutation_cons_inv (a := t)). rewrite <- rem1_perm by auto. apply (perm4 _ _ _ _ _ _ A1 PL).
      + rewrite A2. constructor.
      + intro x. rewrite A3. unfold at_. rewrite (SL_perm _ _ x (Permutation_map _ PL)). cbn [map]. rewrite !SL_cons, !SR_cons. replace (a - s_al s + s_al s) with a by lia. replace (t + s_al s - s_ar s + s_ar s) with (t + s_al s) by lia. lia.
      + intros p [<-|J]; [lia|auto].
      + intros p [<-|J]; [specialize (A6 t ITL); lia|auto].
      + intros p q [<-|P] [<-|J]; try lia.
        * specialize (A8 t q ITL J). lia.
        * specialize (M p (IL p P)). lia.
        * apply A8; auto.
  Qed.
  Lemma left_ok K s f L R a : SInv inf K s f L R -> Z.abs a <= K -> 2 * K < inf -> exists s' L' R', sl_left s a = Ok s' /\ SInv inf K s' (fun x => f x + Z.max 0 (a - x)) L' R'.
  Proof.
    intros I Ha HK. destruct (tr K s f L R I HK) as (t & E & C). unfold sl_left. rewrite E. cbn [bind]. pose proof I as [A1 A2 A3 A4 A5 A6 A7 A8]. destruct (Z.leb_spec a (t + s_ar s)) as [Q|Q].
    - eexists _, (a - s_al s :: L), R. split; [reflexivity|]. constructor; cbn [s_base s_al s_ar s_l s_r]; auto.
      + rewrite A1. constructor.
      + intro x. rewrite A3. cbn [at_ map]. rewrite SL_cons. fold (at_ (s_al s) L). replace (a - s_al s + s_al s) with a by lia. lia.
      + intros p [<-|J]; [lia|auto].
      + intros p q [<-|J] P; [|auto]. destruct C as [(-> & _)|(_ & M)]; [destruct P|]. specialize (M q P). lia.
    - cbv zeta. destruct C as [(-> & ->)|(IT & M)]; [lia|]. destruct (top_min_ok (a - s_ar s :: s_r s)) as (t' & E' & J' & M'); [discriminate|]. assert (t' = t). { pose proof (M' t ltac:(right; apply (Permutation_in _ (Permutation_sym A2)); right; auto)). destruct J' as [<-|J']; [lia|]. apply (Permutation_in _ A2) in J'. destruct J' as [<-|J']; [|specialize (M t' J'); lia]. specialize (A7 t IT). lia. }
      subst t'. unfold pop_min. rewrite E'. cbn [bind]. apply in_split in IT. destruct IT as (La & Lb & EL). set (R0 := La ++ Lb). assert (PL : Permutation R (t :: R0)) by (rewrite EL; symmetry; apply Permutation_middle).
      eexists _, (t + s_ar s - s_al s :: L), (a - s_ar s :: R0). split; [reflexivity|]. assert (IL : forall p, In p R0 -> In p R) by (intros p J; apply (Permutation_in _ (Permutation_sym PL)); right; auto). assert (ITL : In t R) by (apply (Permutation_in _ (Permutation_sym PL)); left; auto). constructor; cbn [s_base s_al s_ar s_l s_r]; auto.
      + rewrite A1. constructor.
      + apply (Permutation_cons_inv (a := t)). rewrite <- rem1_perm by auto. apply (perm4 _ _ _ _ _ _ A2 PL).
      + intro x. rewrite A3. unfold at_. rewrite (SR_perm _ _ x (Permutation_map _ PL)). cbn [map]. rewrite !SL_cons, !SR_cons. replace (a - s_ar s + s_ar s) with a by lia. replace (t + s_ar s - s_al s + s_al s) with (t + s_ar s) by lia. lia.
      + intros p [<-|J]; [specialize (A7 t ITL); lia|auto].
      + intros p [<-|J]; [lia|auto].
      + intros p q [<-|P] [<-|J]; try lia.
        * specialize (M q (IL q J)). lia.
        * specialize (A8 p t P ITL). lia.
        * apply A8; auto.
  Qed.
  (* a point between the two lists *)
  Lemma least_window K s f L R lo hi : SInv inf K s f L R -> lo <= hi -> least f (fun y => lo <= y <= hi) (s_base s + SL (at_ (s_al s) L) hi + SR (at_ (s_ar s) R) lo).
  Proof.
    intros [A1 A2 A3 A4 A5 A6 A7 A8] HL. set (l := at_ (s_al s) L) in *. set (r := at_ (s_ar s) R) in *. assert (LR : forall p q, In p l -> In q r -> p <= q). { intros p q P Q. apply In_at in P. apply In_at in Q. specialize (A8 _ _ P Q). lia. }
    split.
    - destruct (Z.eq_dec (SR r hi) 0) as [Z0|Z0].
      + exists hi. split; [lia|]. rewrite A3, Z0. pose proof (SR_mono r lo hi HL). pose proof (SR_nn r lo). lia.
      + assert (RN : r <> []) by (intros Q; rewrite Q in Z0; cbn in Z0; lia). destruct (top_min_ok r RN) as (h & _ & IH & MH). assert (HH : h < hi) by (destruct (Z_lt_ge_dec h hi); [auto|]; exfalso; apply Z0; apply SR_0; intros p P; specialize (MH p P); lia).
        assert (L0 : forall x, h <= x -> SL l x = 0) by (intros x Hx; apply SL_0; intros p P; specialize (LR p h P IH); lia).
        destruct (Z_le_gt_dec lo h) as [C|C].
        * exists h. split; [lia|]. rewrite A3, !L0 by lia. rewrite (proj2 (SR_0 r h)) by (auto). rewrite (proj2 (SR_0 r lo)) by (intros p P; specialize (MH p P); lia). lia.
        * exists lo. split; [lia|]. rewrite A3, !L0 by lia. lia.
    - intros y Hy. rewrite A3. pose proof (SL_mono l y hi ltac:(lia)). pose proof (SR_mono r lo y ltac:(lia)). lia.
  Qed.
  Lemma do_ok K s f L R o : SInv inf K s f L R -> sop_ok o -> 2 * (K + reach1 o) < inf -> exists s' h L' R', sl_do inf o s = Ok s' /\ sop_fn o f h /\ SInv inf (K + reach1 o) s' h L' R'.
  Proof.
    intros I O HK. assert (K0 : 0 <= K) by (pose proof (v_al _ _ _ _ _ _ I); lia). destruct o as [a|a|a|a| | |d|d|d|a b]; cbn [reach1 sl_do sop_ok] in *.
    - eexists _, (fun x => f x + a), L, R. split; [reflexivity|]. split; [intro; auto|]. apply (sinv_K K); [lia|]. destruct I as [A1 A2 A3 A4 A5 A6 A7 A8]. constructor; cbn [sl_const s_base s_al s_ar s_l s_r]; auto. intro x. rewrite A3. lia.
    - destruct (right_ok (K + Z.abs a) s f L R a (sinv_K K (K + Z.abs a) _ _ _ _ ltac:(lia) I) ltac:(lia) ltac:(lia)) as (s' & L' & R' & E & I'). eexists _, _, L', R'. split; [exact E|]. split; [intro; reflexivity|auto].
    - destruct (left_ok (K + Z.abs a) s f L R a (sinv_K K (K + Z.abs a) _ _ _ _ ltac:(lia) I) ltac:(lia) ltac:(lia)) as (s' & L' & R' & E & I'). eexists _, _, L', R'. split; [exact E|]. split; [intro; reflexivity|auto].
    - destruct (left_ok (K + Z.abs a) s f L R a (sinv_K K (K + Z.abs a) _ _ _ _ ltac:(lia) I) ltac:(lia) ltac:(lia)) as (s1 & L1 & R1 & E1 & I1). destruct (right_ok (K + Z.abs a) s1 _ L1 R1 a I1 ltac:(lia) ltac:(lia)) as (s' & L' & R' & E & I'). unfold sl_abs. rewrite E1. cbn [bind]. eexists _, _, L', R'. split; [exact E|]. split; [|exact I']. intro x. lia.
    - (* cumulative_min_left *)
      pose proof I as [A1 A2 A3 A4 A5 A6 A7 A8]. eexists _, (fun x => s_base s + SL (at_ (s_al s) L) x), L, []. split; [reflexivity|]. split.
      + intro x. set (r := at_ (s_ar s) R) in *. set (h := fold_right Z.min x r). assert (HX : h <= x /\ forall p, In p r -> h <= p). { unfold h. clear. induction r as [|q r (IH1 & IH2)]; cbn [fold_right]; [split; [lia|intros p []]|]. split; [lia|]. intros p [<-|J]; [lia|specialize (IH2 p J); lia]. }
        destruct (least_window K s f L R h x I (proj1 HX)) as ((y & Hy & E) & M). cbv beta in *. fold r in E, M. rewrite (proj2 (SR_0 r h)) in E, M by apply HX. split; [exists y; split; [lia|lia]|]. intros z Hz. rewrite A3. pose proof (SL_mono (at_ (s_al s) L) z x Hz). pose proof (SR_nn r z). lia.
      + apply (sinv_K K); [lia|]. constructor; cbn [sl_cml s_base s_al s_ar s_l s_r at_ map SR fold_right]; auto; try solve [intros p []]; try solve [intros p q _ []]. intro x. fold (at_ (s_al s) L). lia.
    - pose proof I as [A1 A2 A3 A4 A5 A6 A7 A8]. eexists _, (fun x => s_base s + SR (at_ (s_ar s) R) x), [], R. split; [reflexivity|]. split.
      + intro x. set (l := at_ (s_al s) L) in *. set (h := fold_right Z.max x l). assert (HX : x <= h /\ forall p, In p l -> p <= h). { unfold h. clear. induction l as [|q r (IH1 & IH2)]; cbn [fold_right]; [split; [lia|intros p []]|]. split; [lia|]. intros p [<-|J]; [lia|specialize (IH2 p J); lia]. }
        destruct (least_window K s f L R x h I (proj1 HX)) as ((y & Hy & E) & M). cbv beta in *. fold l in E, M. rewrite (proj2 (SL_0 l h)) in E, M by apply HX. split; [exists y; split; [lia|lia]|]. intros z Hz. rewrite A3. pose proof (SR_mono (at_ (s_ar s) R) x z Hz). pose proof (SL_nn l z). lia.
      + apply (sinv_K K); [lia|]. constructor; cbn [sl_cmr s_base s_al s_ar s_l s_r at_ map SL fold_right]; auto; try solve [intros p []]; try solve [intros p q []]. intro x. fold (at_ (s_ar s) R). lia.
    - destruct I as [A1 A2 A3 A4 A5 A6 A7 A8]. eexists _, (fun x => f (x + d)), L, R. split; [reflexivity|]. split; [intro; reflexivity|]. constructor; cbn [sl_shl s_base s_al s_ar s_l s_r]; auto; try lia.
      + intro x. rewrite A3. unfold at_. rewrite !SL_shift, !SR_shift. f_equal; [f_equal|]; f_equal; lia.
      + intros p P. specialize (A6 p P). lia.
      + intros p P. specialize (A7 p P). lia.
      + intros p q P Q. specialize (A8 p q P Q). lia.
    - destruct I as [A1 A2 A3 A4 A5 A6 A7 A8]. eexists _, (fun x => f (x - d)), L, R. split; [reflexivity|]. split; [intro; reflexivity|]. constructor; cbn [sl_shr s_base s_al s_ar s_l s_r]; auto; try lia.
      + intro x. rewrite A3. unfold at_. rewrite !SL_shift, !SR_shift. f_equal; [f_equal|]; f_equal; lia.
      + intros p P. specialize (A6 p P). lia.
      + intros p P. specialize (A7 p P). lia.
      + intros p q P Q. specialize (A8 p q P Q). lia.
    - assert (ET : sl_tr s d = sl_shr s d) by (unfold sl_tr, sl_shl, sl_shr; destruct (0 <=? d); f_equal; lia). rewrite ET. destruct I as [A1 A2 A3 A4 A5 A6 A7 A8]. eexists _, (fun x => f (x - d)), L, R. split; [reflexivity|]. split; [intro; reflexivity|]. constructor; cbn [sl_shr s_base s_al s_ar s_l s_r]; auto; try lia.
      + intro x. rewrite A3. unfold at_. rewrite !SL_shift, !SR_shift. f_equal; [f_equal|]; f_equal; lia.
      + intros p P. specialize (A6 p P). lia.
      + intros p P. specialize (A7 p P). lia.
      + intros p q P Q. specialize (A8 p q P Q). lia.
    - unfold sl_slide. destruct (Z.leb_spec a b); [|lia]. cbn [assert_ bind]. eexists _, (fun x => s_base s + SL (at_ (s_al s) L) (x - a) + SR (at_ (s_ar s) R) (x - b)), L, R. split; [reflexivity|]. split.
      + intro x. apply (least_window K); [auto|lia].
      + destruct I as [A1 A2 A3 A4 A5 A6 A7 A8]. constructor; cbn [s_base s_al s_ar s_l s_r]; auto; try lia.
        * intro x. unfold at_. rewrite !SL_shift, !SR_shift. f_equal; [f_equal|]; f_equal; lia.
        * intros p P. specialize (A6 p P). lia.
        * intros p P. specialize (A7 p P). lia.
        * intros p q P Q. specialize (A8 p q P Q). lia.
  Qed.
  Lemma reach_nn os : 0 <= reach os.
  Proof. induction os as [|o os IH]; cbn [reach fold_right]; [lia|]. fold (reach os). destruct o; cbn [reach1]; lia. Qed.
  Lemma reach_app os os' : reach (os ++ os') = reach os + reach os'.
  Proof. induction os as [|o os IH]; cbn [app reach fold_right]; [auto|]. fold (reach (os ++ os')) (reach os). lia. Qed.
  Lemma run_ok os : Forall sop_ok os -> 2 * reach os < inf -> exists s f L R, sl_run inf os = Ok s /\ described os f /\ SInv inf (reach os) s f L R.
  Proof.
    intros FO HR. unfold sl_run. destruct (for_each_inv (fun done s => exists f L R, described done f /\ SInv inf (reach done) s f L R) os (sl_do inf) (sl_new inf)) as (s & E & f & L & R & K).
    - exists (fun _ => 0), [], []. split; [constructor; auto|]. constructor; cbn; auto; lia.
    - intros done o todo s Eq (f & L & R & D & I). assert (O : sop_ok o) by (rewrite Forall_forall in FO; apply FO; rewrite Eq; apply in_or_app; right; left; auto). assert (RR : reach (done ++ [o]) = reach done + reach1 o) by (rewrite reach_app; cbn [reach fold_right]; lia). destruct (do_ok (reach done) s f L R o I O) as (s' & h & L' & R' & E & F & I').
      + rewrite Eq, reach_app in HR. cbn [reach fold_right] in HR. fold (reach todo) in HR. pose proof (reach_nn todo). lia.
      + exists s'. split; [auto|]. exists h, L', R'. rewrite RR. split; [econstructor; eauto|auto].
    - exists s, f, L, R. tauto.
  Qed.
  Lemma fn_unique o f f' h h' : (forall x, f x = f' x) -> sop_fn o f h -> sop_fn o f' h' -> forall x, h x = h' x.
  Proof.
    intros EQ A B x. specialize (A x). specialize (B x). assert (LE : forall P v w, least f P v -> least f' P w -> v = w). { intros P v w ((y & Hy & E1) & M1) ((z & Hz & E2) & M2). specialize (M1 z Hz). specialize (M2 y Hy). rewrite <- EQ in M2, E2. lia. }
    destruct o; cbn in *; rewrite <- ?EQ in B; try congruence; eapply LE; eauto.
  Qed.
  Lemma described_unique os f : described os f -> forall f', described os f' -> forall x, f x = f' x.
  Proof.
    induction 1 as [f Z0|os o f h D IH F]; intros f' D' x.
    - inversion D' as [? Z1|os' o' g ? ? ? E]; subst; [rewrite Z0, Z1; auto|destruct os'; discriminate].
    - inversion D' as [? Z1 E|os' o' g h' D1 F1 E]; subst; [destruct os; discriminate|]. apply app_inj_tail in E. destruct E as (-> & ->). apply (fn_unique o f g); auto.
  Qed.
End S.
