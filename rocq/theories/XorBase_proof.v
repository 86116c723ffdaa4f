From Verif Require Import Base BaseLemmas ListMore XorBase_model XorBase_spec.

Notation "x ^^ y" := (Z.lxor x y) (at level 35, right associativity).

Lemma lxor_cancel x y : x ^^ x ^^ y = y.
Proof. now rewrite <- Z.lxor_assoc, Z.lxor_nilpotent, Z.lxor_0_l. Qed.
Lemma lxor_ac x y z : x ^^ y ^^ z = y ^^ x ^^ z.
Proof. rewrite <- !Z.lxor_assoc. f_equal. apply Z.lxor_comm. Qed.
Lemma lxor_nn x y : 0 <= x -> 0 <= y -> 0 <= x ^^ y.
Proof. intros. apply Z.lxor_nonneg. lia. Qed.

Lemma shiftr_top e : 0 < e -> Z.shiftr e (Z.log2 e) = 1.
Proof.
  intros. destruct (Z.log2_spec e H) as [L U]. pose proof (Z.log2_nonneg e).
  rewrite Z.shiftr_div_pow2 by auto. rewrite Z.pow_succ_r in U by auto.
  symmetry. apply Z.div_unique with (e - 2 ^ Z.log2 e); lia.
Qed.
Lemma lxor_one m : 0 <= m -> 1 ^^ m = if Z.odd m then m - 1 else m + 1.
Proof.
  intros. pose proof (Z.div2_odd m) as D. destruct (Z.odd m); cbn [Z.b2z] in D.
  - rewrite D at 1. replace (2 * Z.div2 m + 1 - 1) with (2 * Z.div2 m) by lia.
    transitivity (2 * Z.div2 m); [|lia].
    apply Z.bits_inj'. intros k K. rewrite Z.lxor_spec. destruct (Z.eq_dec k 0) as [->|N].
    + change (Z.testbit 1 0) with true. rewrite Z.testbit_odd_0, Z.testbit_even_0. reflexivity.
    + replace k with (Z.succ (k - 1)) by lia. rewrite Z.testbit_odd_succ, Z.testbit_even_succ by lia.
      change 1 with (2 * 0 + 1) at 1. rewrite Z.testbit_odd_succ by lia. now rewrite Z.bits_0, xorb_false_l.
  - rewrite Z.add_0_r in D. rewrite D at 1. replace (m + 1) with (2 * Z.div2 m + 1) by lia.
    apply Z.bits_inj'. intros k K. rewrite Z.lxor_spec. destruct (Z.eq_dec k 0) as [->|N].
    + change (Z.testbit 1 0) with true. rewrite Z.testbit_odd_0, Z.testbit_even_0. reflexivity.
    + replace k with (Z.succ (k - 1)) by lia. rewrite Z.testbit_odd_succ, Z.testbit_even_succ by lia.
      change 1 with (2 * 0 + 1) at 1. rewrite Z.testbit_odd_succ by lia. now rewrite Z.bits_0, xorb_false_l.
Qed.
Lemma shiftr_lt_lt a b k : 0 <= k -> Z.shiftr a k < Z.shiftr b k -> a < b.
Proof.
  intros K H. rewrite !Z.shiftr_div_pow2 in H by auto. pose proof (Z.pow_pos_nonneg 2 k ltac:(lia) K).
  destruct (Z_lt_le_dec a b); auto. pose proof (Z.div_le_mono b a (2 ^ k) ltac:(lia) ltac:(lia)). lia.
Qed.
(* the test e^v < v asks whether v has the leading bit of e *)
Lemma lead e v : 0 < e -> 0 <= v -> (e ^^ v <? v) = Z.testbit v (Z.log2 e).
Proof.
  intros He Hv. set (k := Z.log2 e). pose proof (Z.log2_nonneg e : 0 <= k) as K.
  assert (Q : Z.shiftr (e ^^ v) k = if Z.testbit v k then Z.shiftr v k - 1 else Z.shiftr v k + 1).
  { rewrite Z.shiftr_lxor. unfold k at 1. rewrite shiftr_top, lxor_one by (auto; apply Z.shiftr_nonneg; lia).
    rewrite <- (Z.bit0_odd (Z.shiftr v k)), Z.shiftr_spec, Z.add_0_l by lia. reflexivity. }
  destruct (Z.testbit v k).
  - apply Z.ltb_lt. apply shiftr_lt_lt with k; auto. lia.
  - apply Z.ltb_ge. apply Z.lt_le_incl, shiftr_lt_lt with k; auto. lia.
Qed.
Lemma top_bit e : 0 < e -> Z.testbit e (Z.log2 e) = true.
Proof. apply Z.bit_log2. Qed.

(* spans *)
Lemma span_in l x : In x l -> span l x.
Proof. intros. rewrite <- (Z.lxor_0_r x). apply span_add; auto. apply span_zero. Qed.
Lemma span_lxor l x y : span l x -> span l y -> span l (x ^^ y).
Proof.
  induction 1; intros; [now rewrite Z.lxor_0_l|]. rewrite Z.lxor_assoc. apply span_add; auto.
Qed.
Lemma span_incl l m x : (forall z, In z l -> span m z) -> span l x -> span m x.
Proof. intros I. induction 1; [apply span_zero|]. apply span_lxor; auto. Qed.
Lemma span_mono l m x : incl l m -> span l x -> span m x.
Proof. intros I. apply span_incl. intros. apply span_in; auto. Qed.
Lemma span_nil x : span [] x -> x = 0.
Proof. inversion 1; auto. destruct H0. Qed.
Lemma span_cons e l x : span (e :: l) x <-> span l x \/ span l (e ^^ x).
Proof.
  split.
  - induction 1.
    + left. apply span_zero.
    + destruct H as [<-|H], IHspan as [A|A].
      * right. now rewrite lxor_cancel.
      * left. exact A.
      * left. apply span_add; auto.
      * right. rewrite lxor_ac. apply span_add; auto.
  - intros [A|A]; [apply span_mono with l; auto; apply incl_tl, incl_refl|].
    rewrite <- (lxor_cancel e x). apply span_add; [now left|]. apply span_mono with l; auto. apply incl_tl, incl_refl.
Qed.
Lemma span_app l m x : span (l ++ m) x <-> exists y z, span l y /\ span m z /\ x = y ^^ z.
Proof.
  split.
  - induction 1.
    + exists 0, 0. repeat split; apply span_zero.
    + destruct IHspan as (a & b & A & B & ->). apply in_app_or in H as [H|H].
      * exists (x ^^ a), b. repeat split; auto. apply span_add; auto. now rewrite Z.lxor_assoc.
      * exists a, (x ^^ b). repeat split; auto. apply span_add; auto. now rewrite lxor_ac.
  - intros (y & z & A & B & ->). apply span_lxor.
    + apply span_mono with l; auto. apply incl_appl, incl_refl.
    + apply span_mono with m; auto. apply incl_appr, incl_refl.
Qed.
Lemma span_one v x : span [v] x <-> x = 0 \/ x = v.
Proof.
  rewrite span_cons. split.
  - intros [A|A]; apply span_nil in A; auto. right. symmetry. now apply Z.lxor_eq.
  - intros [->| ->]; [left|right; rewrite Z.lxor_nilpotent]; apply span_zero.
Qed.
Lemma span_snoc l v x : span (l ++ [v]) x <-> span l x \/ span l (v ^^ x).
Proof.
  rewrite <- span_cons. split; apply span_mono; intros z Hz.
  - apply in_app_or in Hz as [H|[<-|[]]]; [now right|now left].
  - apply in_or_app. destruct Hz as [<-|H]; [right; now left|now left].
Qed.
Lemma span_nn l x : words l -> span l x -> 0 <= x.
Proof. intros W. induction 1; [lia|]. apply lxor_nn; auto. Qed.
Lemma span_bit l k x : (forall z, In z l -> Z.testbit z k = false) -> span l x -> Z.testbit x k = false.
Proof. intros W. induction 1; [apply Z.bits_0|]. rewrite Z.lxor_spec, IHspan, W by auto. reflexivity. Qed.

(* the class invariant: later elements do not have the leading bits of earlier ones *)
Fixpoint tri (b : list Z) : Prop :=
  match b with [] => True | e :: r => 0 < e /\ (forall x, In x r -> Z.testbit x (Z.log2 e) = false) /\ tri r end.
Definition clear (b : list Z) (x : Z) : Prop := forall e, In e b -> Z.testbit x (Z.log2 e) = false.

Lemma tri_pos b : tri b -> forall x, In x b -> 0 < x.
Proof. induction b; intros T x; [intros []|]. destruct T as (P & _ & T). intros [<-|H]; auto. Qed.
Lemma tri_words b : tri b -> words b.
Proof. intros T x H. pose proof (tri_pos b T x H). lia. Qed.
Lemma tri_snoc b v : tri b -> clear b v -> 0 < v -> tri (b ++ [v]).
Proof.
  induction b; cbn; intros T C V.
  - split; auto. split; auto. intros x [].
  - destruct T as (P & D & T). split; auto. split.
    + intros x Hx. apply in_app_or in Hx as [Hx|[<-|[]]]; auto. apply C. now left.
    + apply IHb; auto. intros e He. apply C. now right.
Qed.
Lemma tri_zero b x : tri b -> span b x -> clear b x -> x = 0.
Proof.
  induction b as [|e r IH]; intros T S C; [now apply span_nil|]. destruct T as (P & D & T).
  apply span_cons in S as [S|S].
  - apply IH; auto. intros z Hz. apply C. now right.
  - exfalso. assert (B := span_bit r _ _ D S). rewrite Z.lxor_spec, top_bit in B by auto.
    rewrite (C e) in B by now left. discriminate.
Qed.
Lemma tri_dim b : tri b -> dimension (span b) (zlen b).
Proof.
  induction b as [|e r IH]; intros T.
  - exists [0]. split; [repeat constructor; intros []|]. split; [|reflexivity].
    intro x. split; [intros [<-|[]]; apply span_zero|]. intros S. left. now apply span_nil in S.
  - destruct T as (P & D & T). destruct (IH T) as (L & N & I & Z1). exists (L ++ map (Z.lxor e) L).
    assert (B : forall x, In x L -> Z.testbit x (Z.log2 e) = false).
    { intros x Hx. apply I in Hx. eapply span_bit; eauto. }
    split; [|split].
    + apply NoDup_app; auto.
      * apply FinFun.Injective_map_NoDup; auto. intros x y E. apply (f_equal (Z.lxor e)) in E. now rewrite !lxor_cancel in E.
      * intros x Hx H2. apply in_map_iff in H2 as (y & <- & Hy). apply B in Hx, Hy.
        rewrite Z.lxor_spec, Hy, top_bit in Hx by auto. discriminate.
    + intro x. rewrite span_cons, in_app_iff, in_map_iff, <- !I. split.
      * intros [A|(y & <- & A)]; auto. right. now rewrite lxor_cancel.
      * intros [A|A]; auto. right. exists (e ^^ x). split; auto. apply lxor_cancel.
    + rewrite zlen_app. replace (zlen (map (Z.lxor e) L)) with (zlen L) by (unfold zlen; now rewrite map_length).
      rewrite zlen_cons, Z1. rewrite (Z.add_comm 1) || idtac. rewrite Z.pow_add_r by (try lia; unfold zlen; lia). lia.
Qed.

(* reduction *)
Definition rstep v e := let w := e ^^ v in if w <? v then w else v.
Lemma reduce_eq b v : reduce b v = fold_left rstep b v. Proof. reflexivity. Qed.
Lemma rstep_nn v e : 0 <= v -> 0 < e -> 0 <= rstep v e.
Proof. intros. unfold rstep. destruct (_ <? _); auto. apply lxor_nn; lia. Qed.
Lemma rstep_bit v e : 0 <= v -> 0 < e -> Z.testbit (rstep v e) (Z.log2 e) = false.
Proof.
  intros. unfold rstep. cbv zeta. rewrite lead by auto. destruct (Z.testbit v (Z.log2 e)) eqn:B; auto.
  now rewrite Z.lxor_spec, top_bit, B.
Qed.
Lemma reduce_keep b v k : (forall e, In e b -> Z.testbit e k = false) -> Z.testbit v k = false -> Z.testbit (reduce b v) k = false.
Proof.
  rewrite reduce_eq. revert v. induction b; intros v D V; cbn; auto. apply IHb.
  - intros. apply D. now right.
  - unfold rstep. cbv zeta. destruct (_ <? _); auto. rewrite Z.lxor_spec, V, D by now left. reflexivity.
Qed.
Lemma reduce_ok b v : tri b -> 0 <= v -> 0 <= reduce b v /\ span b (reduce b v ^^ v) /\ clear b (reduce b v).
Proof.
  revert v. induction b as [|e r IH]; intros v T V.
  - cbn. split; auto. split; [rewrite Z.lxor_nilpotent; apply span_zero|]. intros e [].
  - destruct T as (P & D & T). change (reduce (e :: r) v) with (reduce r (rstep v e)).
    destruct (IH (rstep v e) T (rstep_nn v e V P)) as (A & B & C). split; auto. split.
    + apply span_cons. unfold rstep in *. cbv zeta in *. destruct (_ <? _); auto. right. now rewrite lxor_ac.
    + intros z [<-|Hz]; auto. apply reduce_keep; auto. now apply rstep_bit.
Qed.
Lemma reduce_zero b v : tri b -> 0 <= v -> (reduce b v = 0 <-> span b v).
Proof.
  intros T V. destruct (reduce_ok b v T V) as (A & B & C). split.
  - intros E. now rewrite E, Z.lxor_0_l in B.
  - intros S. apply tri_zero with b; auto. rewrite <- (lxor_cancel v (reduce b v)). apply span_lxor; auto.
    now rewrite Z.lxor_comm.
Qed.

Lemma add_tri b v : tri b -> 0 <= v -> tri (fst (xb_add b v)).
Proof.
  intros T V. destruct (reduce_ok b v T V) as (A & B & C). unfold xb_add. cbv zeta.
  destruct (Z.eqb_spec (reduce b v) 0) as [E|E]; cbn; auto. apply tri_snoc; auto. lia.
Qed.
Lemma add_span b v x : tri b -> 0 <= v -> (span (fst (xb_add b v)) x <-> span b x \/ span b (v ^^ x)).
Proof.
  intros T V. destruct (reduce_ok b v T V) as (A & B & C). unfold xb_add. cbv zeta.
  destruct (Z.eqb_spec (reduce b v) 0) as [E|E]; cbn [negb fst].
  - apply (reduce_zero b v T V) in E. split; auto. intros [S|S]; auto.
    rewrite <- (lxor_cancel v x). now apply span_lxor.
  - rewrite span_snoc. split; intros [S|S]; auto; right.
    + replace (v ^^ x) with ((reduce b v ^^ v) ^^ (reduce b v ^^ x)); [now apply span_lxor|].
      rewrite Z.lxor_assoc, (lxor_ac v), lxor_cancel. reflexivity.
    + replace (reduce b v ^^ x) with ((reduce b v ^^ v) ^^ (v ^^ x)); [now apply span_lxor|].
      rewrite Z.lxor_assoc, lxor_cancel. reflexivity.
Qed.
Lemma add_new b v : tri b -> 0 <= v -> (snd (xb_add b v) = true <-> ~ span b v).
Proof.
  intros T V. rewrite <- reduce_zero by auto. unfold xb_add. cbv zeta.
  destruct (Z.eqb_spec (reduce b v) 0) as [E|E]; cbn; split; intros; auto; try discriminate; congruence.
Qed.
Lemma adds_ok a : forall b, tri b -> words a ->
  tri (fold_left (fun b v => fst (xb_add b v)) a b) /\
  forall x, span (fold_left (fun b v => fst (xb_add b v)) a b) x <-> span (b ++ a) x.
Proof.
  induction a as [|v a IH]; intros b T W; cbn [fold_left].
  - rewrite app_nil_r. split; auto. reflexivity.
  - assert (V : 0 <= v) by (apply W; now left). destruct (IH (fst (xb_add b v)) (add_tri b v T V)) as (A & B).
    { intros x H. apply W. now right. }
    split; auto. intro x. rewrite B, !span_app. split.
    + intros (y & z & Y & Z1 & ->). apply add_span in Y as [Y|Y]; auto.
      * exists y, z. split; auto. split; auto. apply span_cons. now left.
      * exists (v ^^ y), (v ^^ z). split; auto. split.
        -- apply span_cons. right. now rewrite lxor_cancel.
        -- rewrite Z.lxor_assoc, (lxor_ac y), lxor_cancel. reflexivity.
    + intros (y & z & Y & Z1 & ->). apply span_cons in Z1 as [Z1|Z1].
      * exists y, z. split; auto. apply add_span; auto.
      * exists (v ^^ y), (v ^^ z). split; [apply add_span; auto; right; now rewrite lxor_cancel|]. split; auto.
        rewrite Z.lxor_assoc, (lxor_ac y), lxor_cancel. reflexivity.
Qed.

(* intersection *)
Definition pstep '(e, s) '(v, t) := let w := e ^^ v in if w <? e then (w, s ^^ t) else (e, s).
Lemma reduce_pair_fst basis e s : fst (reduce_pair basis (e, s)) = reduce (map fst basis) e.
Proof.
  unfold reduce_pair, reduce. revert e s. induction basis as [|[v t] r IH]; intros; cbn [fold_left map fst]; auto.
  cbv zeta. rewrite (Z.lxor_comm e v). destruct (_ <? _); apply IH.
Qed.
(* s accumulates the combination: (e,s) moves by pairs of the span *)
Lemma reduce_pair_snd (U : Z -> Prop) basis : U 0 -> (forall x y, U x -> U y -> U (x ^^ y)) ->
  (forall v t, In (v, t) basis -> U t) -> forall e s, U s -> U (snd (reduce_pair basis (e, s))).
Proof.
  intros U0 UX. unfold reduce_pair. induction basis as [|[v t] r IH]; intros I e s S; cbn [fold_left]; auto.
  cbv zeta. destruct (_ <? _); apply IH; auto.
  - intros. apply (I v0). now right.
  - apply UX; auto. apply (I v). now left.
  - intros. apply (I v0). now right.
Qed.
Lemma reduce_pair_diff (W : Z -> Prop) basis : W 0 -> (forall x y, W x -> W y -> W (x ^^ y)) ->
  (forall v t, In (v, t) basis -> W (v ^^ t)) -> forall e s e0,
  W (e0 ^^ e ^^ s) -> W (e0 ^^ fst (reduce_pair basis (e, s)) ^^ snd (reduce_pair basis (e, s))).
Proof.
  intros W0 WX. unfold reduce_pair. induction basis as [|[v t] r IH]; intros I e s e0 S; cbn [fold_left]; auto.
  cbv zeta. destruct (_ <? _); apply IH; auto.
  - intros. apply I. now right.
  - replace (e0 ^^ (e ^^ v) ^^ s ^^ t) with ((e0 ^^ e ^^ s) ^^ (v ^^ t)).
    + apply WX; auto. apply I. now left.
    + rewrite !Z.lxor_assoc. do 2 f_equal. apply lxor_ac.
  - intros. apply I. now right.
Qed.

Record iinv (b done : list Z) (basis : list (Z * Z)) (r : list Z) : Prop := {
  ii_tri : tri (map fst basis);
  ii_span : forall x, span (map fst basis) x <-> span (b ++ done) x;
  ii_u : forall v t, In (v, t) basis -> span b t;
  ii_w : forall v t, In (v, t) basis -> span done (v ^^ t);
  ii_r : tri r;
  ii_int : forall x, span r x <-> span b x /\ span done x }.

Definition istep '(basis, r) e :=
  let '(e, s) := reduce_pair basis (e, 0) in
  if negb (e =? 0) then (basis ++ [(e, s)], r) else (basis, fst (xb_add r s)).
Lemma istep_ok b done basis r e basis' r' : words b -> 0 <= e -> iinv b done basis r ->
  istep (basis, r) e = (basis', r') -> iinv b (done ++ [e]) basis' r'.
Proof.
  intros Wb He [T S U W R I] E. unfold istep in E.
  pose proof (reduce_pair_fst basis e 0) as F.
  assert (Su := reduce_pair_snd (span b) basis (span_zero b) (span_lxor b) U e 0 (span_zero b)).
  assert (Sw := reduce_pair_diff (span done) basis (span_zero done) (span_lxor done) W e 0 e).
  rewrite lxor_cancel in Sw. specialize (Sw (span_zero done)).
  destruct (reduce_pair basis (e, 0)) as [f s]. cbn [fst snd] in *.
  destruct (reduce_ok (map fst basis) e T He) as (A & B & C). pose proof (reduce_zero (map fst basis) e T He) as Rz. rewrite <- F in A, B, C, Rz.
  assert (Mono : forall x, span done x -> span (done ++ [e]) x) by (intro; apply span_mono, incl_appl, incl_refl).
  assert (Es : span (done ++ [e]) (f ^^ s)).
  { apply span_snoc. right. exact Sw. }
  destruct (Z.eqb_spec f 0) as [E0|E0]; cbn [negb] in E; injection E as <- <-.
  - rewrite E0 in Es, Sw. rewrite Z.lxor_0_l in Es, Sw. assert (Hs : 0 <= s) by (apply (span_nn b); auto).
    apply Rz in E0. split; auto.
    + intro x. rewrite S, app_assoc, span_snoc. split; auto. intros [H|H]; auto.
      rewrite <- (lxor_cancel e x). apply span_lxor; auto. now apply S.
    + now apply add_tri.
    + intro x. rewrite add_span by auto. rewrite !I, span_snoc. split.
      * intros [[X Y]|[X Y]]; [auto|]. split.
        -- rewrite <- (lxor_cancel s x). now apply span_lxor.
        -- right. replace (e ^^ x) with ((e ^^ s) ^^ (s ^^ x)); [now apply span_lxor|].
           now rewrite Z.lxor_assoc, lxor_cancel.
      * intros [X [Y|Y]]; [auto|]. right. split; [now apply span_lxor|].
        replace (s ^^ x) with ((e ^^ s) ^^ (e ^^ x)); [now apply span_lxor|].
        rewrite Z.lxor_assoc, (lxor_ac s), lxor_cancel. reflexivity.
  - assert (Nin : ~ span (b ++ done) e) by (rewrite <- S, <- Rz; auto).
    split.
    + rewrite map_app. cbn. apply tri_snoc; auto. lia.
    + intro x. rewrite map_app. cbn [map fst]. rewrite app_assoc, !span_snoc, !S.
      assert (Q : span (b ++ done) (f ^^ e)) by now apply S.
      split; intros [H|H]; auto; right.
      * replace (e ^^ x) with ((f ^^ e) ^^ (f ^^ x)); [now apply span_lxor|].
        rewrite Z.lxor_assoc, (lxor_ac e), lxor_cancel. reflexivity.
      * replace (f ^^ x) with ((f ^^ e) ^^ (e ^^ x)); [now apply span_lxor|].
        rewrite Z.lxor_assoc, lxor_cancel. reflexivity.
    + intros v t H. apply in_app_or in H as [H|[H|[]]]; [eauto|]. now injection H as <- <-.
    + intros v t H. apply in_app_or in H as [H|[H|[]]]; [eauto|]. now injection H as <- <-.
    + exact R.
    + intro x. rewrite I, span_snoc. split; [tauto|]. intros [X [Y|Y]]; auto. exfalso. apply Nin.
      apply span_app. exists x, (e ^^ x). split; auto. split; auto. rewrite lxor_ac, Z.lxor_nilpotent, Z.lxor_0_r. reflexivity.
Qed.
Lemma isteps_ok b rhs : forall done basis r, words b -> words rhs -> iinv b done basis r ->
  exists basis' r', fold_left istep rhs (basis, r) = (basis', r') /\ iinv b (done ++ rhs) basis' r'.
Proof.
  induction rhs as [|e rhs IH]; intros done basis r Wb Wr I; cbn [fold_left].
  - rewrite app_nil_r. eauto.
  - destruct (istep (basis, r) e) as [basis1 r1] eqn:E.
    assert (I1 := istep_ok b done basis r e basis1 r1 Wb (Wr e (or_introl eq_refl)) I E).
    destruct (IH (done ++ [e]) basis1 r1) as (b2 & r2 & F & J); auto.
    { intros x Hx. apply Wr. now right. }
    rewrite <- app_assoc in J. eauto.
Qed.
Lemma intersection_ok b rhs : tri b -> tri rhs ->
  tri (xb_intersection b rhs) /\ forall x, span (xb_intersection b rhs) x <-> span b x /\ span rhs x.
Proof.
  intros T Tr. assert (M : map fst (map (fun e : Z => (e, e)) b) = b) by (rewrite map_map; apply map_id).
  destruct (isteps_ok b rhs [] (map (fun e => (e, e)) b) []) as (b2 & r2 & F & J).
  - now apply tri_words.
  - now apply tri_words.
  - split; rewrite ?M, ?app_nil_r; auto; try reflexivity.
    + intros v t H. apply in_map_iff in H as (e & H & He). injection H as <- <-. now apply span_in.
    + intros v t H. apply in_map_iff in H as (e & H & He). injection H as <- <-. rewrite Z.lxor_nilpotent. apply span_zero.
    + intro x. split; [intros S; apply span_nil in S; subst; split; apply span_zero|]. tauto.
  - change (xb_intersection b rhs) with (snd (fold_left istep rhs (map (fun e => (e, e)) b, []))). rewrite F. cbn [snd].
    destruct J as [_ _ _ _ R I]. auto.
Qed.

Lemma built_inv b P : built b P -> tri b /\ forall x, span b x <-> P x.
Proof.
  induction 1.
  - split; [exact I|]. intro x. split; [apply span_nil|]. intros ->. apply span_zero.
  - destruct (adds_ok a [] I H) as (T & S). split; auto.
  - destruct IHbuilt as (T & S). split; [now apply add_tri|]. intro x. rewrite add_span by auto. now rewrite !S.
  - destruct IHbuilt as (T & S). split; [now apply add_tri|]. intro x. unfold xb_plus_assign_word. rewrite add_span by auto. now rewrite !S.
  - destruct IHbuilt as (T & S). assert (W : words [v]) by (intros z [<-|[]]; auto).
    destruct (adds_ok [v] [] I W) as (T1 & S1). destruct (adds_ok (xb_of [v]) b T (tri_words _ T1)) as (T2 & S2).
    split; [exact T2|]. intro x. unfold xb_plus_word, xb_plus, xb_plus_assign. rewrite S2, span_app. rewrite <- !S. split.
    + intros (y & z & Y & Z1 & ->). apply S1 in Z1. cbn [app] in Z1. apply span_one in Z1 as [->| ->].
      * left. now rewrite Z.lxor_0_r.
      * right. now rewrite lxor_ac, Z.lxor_nilpotent, Z.lxor_0_r.
    + intros [X|X].
      * exists x, 0. split; auto. split; [apply span_zero|]. now rewrite Z.lxor_0_r.
      * exists (v ^^ x), v. split; auto. split; [apply S1; apply span_one; auto|]. now rewrite Z.lxor_comm, lxor_cancel.
  - destruct IHbuilt1 as (T & S), IHbuilt2 as (T1 & S1). destruct (adds_ok c b T (tri_words _ T1)) as (T2 & S2).
    split; [exact T2|]. intro x. unfold xb_plus_assign. rewrite S2, span_app. now setoid_rewrite S; setoid_rewrite S1.
  - destruct IHbuilt1 as (T & S), IHbuilt2 as (T1 & S1). destruct (adds_ok c b T (tri_words _ T1)) as (T2 & S2).
    split; [exact T2|]. intro x. unfold xb_plus, xb_plus_assign. rewrite S2, span_app. now setoid_rewrite S; setoid_rewrite S1.
  - destruct IHbuilt1 as (T & S), IHbuilt2 as (T1 & S1). destruct (intersection_ok b c T T1) as (T2 & S2).
    split; auto. intro x. now rewrite S2, S, S1.
Qed.
Lemma dimension_ext P Q d : (forall x, P x <-> Q x) -> dimension P d -> dimension Q d.
Proof. intros H (L & N & I & Z1). exists L. split; auto. split; auto. intro x. now rewrite I. Qed.
Lemma built_basis b P : built b P -> basis_of b P.
Proof.
  intros B. destruct (built_inv b P B) as (T & S). split; auto. split; [|now apply tri_words].
  apply dimension_ext with (span b); auto. now apply tri_dim.
Qed.
Lemma built_add_new b P v : built b P -> 0 <= v -> (snd (xb_add b v) = true <-> ~ P v).
Proof. intros B V. destruct (built_inv b P B) as (T & S). rewrite add_new by auto. now rewrite S. Qed.
