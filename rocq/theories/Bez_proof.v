(* Proofs about Bez_model. *)
From Verif Require Import Base BaseLemmas ListZ ExtGcd_model ExtGcd_proof ExtGcd_props Bez_spec Bez_model.
From Coq Require Import Znumtheory.

Definition bez_apply (s : bez) (c : con) : bez := match c with MinX v => bez_min_x s v | MaxX v => bez_max_x s v | MinY v => bez_min_y s v | MaxY v => bez_max_y s v end.

Lemma fld_div x y : y <> 0 -> bez_fld x y = x / y.
Proof.
  intro N. unfold bez_fld. pose proof (Z.quot_rem x y N) as QR. pose proof (Z.lxor_nonneg x y) as LN.
  destruct (Z.eqb_spec (Z.rem x y) 0) as [E|E]; cbn [negb]; rewrite ?andb_false_r, ?andb_true_r; cbn [Z.b2z].
  - apply (Z.div_unique_exact x y); [auto|lia].
  - assert (Z.abs (Z.rem x y) < Z.abs y) by (apply Z.rem_bound_abs; auto). assert (S1 : 0 <= Z.rem x y * x) by (apply Z.rem_sign_mul; auto).
    destruct (Z.ltb_spec (Z.lxor x y) 0) as [L|L]; cbn [Z.b2z].
    + assert (DS : (0 <= x /\ y < 0) \/ (x < 0 /\ 0 <= y)) by (destruct (Z_lt_ge_dec x 0), (Z_lt_ge_dec y 0); try lia; exfalso; assert (0 <= Z.lxor x y) by (apply LN; lia); lia).
      apply (Z.div_unique x y (Z.quot x y - 1) (Z.rem x y + y)); [|lia]. destruct DS as [(D1 & D2)|(D1 & D2)]; [right|left]; nia.
    + apply LN in L. rewrite Z.sub_0_r. apply (Z.div_unique x y (Z.quot x y) (Z.rem x y)); [|lia]. destruct (Z_lt_ge_dec y 0); [right|left]; nia.
Qed.
Lemma cld_div x y : y <> 0 -> bez_cld x y = - (- x / y).
Proof.
  intro N. unfold bez_cld. pose proof (Z.quot_rem x y N) as QR. pose proof (Z.lxor_nonneg x y) as LN.
  destruct (Z.eqb_spec (Z.rem x y) 0) as [E|E]; cbn [negb]; rewrite ?andb_false_r, ?andb_true_r; cbn [Z.b2z].
  - rewrite Z.add_0_r. rewrite <- (Z.opp_involutive (Z.quot x y)). f_equal. apply (Z.div_unique_exact (- x) y); [auto|lia].
  - assert (Z.abs (Z.rem x y) < Z.abs y) by (apply Z.rem_bound_abs; auto). assert (S1 : 0 <= Z.rem x y * x) by (apply Z.rem_sign_mul; auto).
    destruct (Z.ltb_spec 0 (Z.lxor x y)) as [L|L]; cbn [Z.b2z].
    + assert (SG : 0 <= x <-> 0 <= y) by (apply LN; lia). replace (Z.quot x y + 1) with (- (- Z.quot x y - 1)) by lia. f_equal. apply (Z.div_unique (- x) y (- Z.quot x y - 1) (y - Z.rem x y)); [|lia]. destruct (Z_lt_ge_dec y 0); [right|left]; nia.
    + assert (x <> y) by (intro; subst; rewrite Z.rem_same in E; auto). assert (Z.lxor x y <> 0) by (intro Q; apply Z.lxor_eq in Q; auto). assert (DS : (0 <= x /\ y < 0) \/ (x < 0 /\ 0 <= y)) by (destruct (Z_lt_ge_dec x 0), (Z_lt_ge_dec y 0); try lia; exfalso; assert (0 <= Z.lxor x y) by (apply LN; lia); lia).
      rewrite Z.add_0_r. rewrite <- (Z.opp_involutive (Z.quot x y)). f_equal. apply (Z.div_unique (- x) y (- Z.quot x y) (- Z.rem x y)); [|lia]. destruct DS as [(D1 & D2)|(D1 & D2)]; [right|left]; nia.
Qed.
Lemma div_spec x y : y <> 0 -> exists r, x = y * (x / y) + r /\ (0 <= r < y \/ y < r <= 0).
Proof. intro N. exists (x mod y). split; [apply Z.div_mod; auto|]. destruct (Z_lt_ge_dec y 0); [right; apply Z.mod_neg_bound; lia|left; apply Z.mod_pos_bound; lia]. Qed.
Lemma min_pos c d k : 0 < c -> (bez_cld d c <= k <-> d <= k * c).
Proof. intro H. rewrite cld_div by lia. destruct (div_spec (- d) c ltac:(lia)) as (r & E & B). split; intro; nia. Qed.
Lemma min_neg c d k : c < 0 -> (k <= bez_fld d c <-> d <= k * c).
Proof. intro H. rewrite fld_div by lia. destruct (div_spec d c ltac:(lia)) as (r & E & B). split; intro; nia. Qed.
Lemma max_pos c d k : 0 < c -> (k <= bez_fld d c <-> k * c <= d).
Proof. intro H. rewrite fld_div by lia. destruct (div_spec d c ltac:(lia)) as (r & E & B). split; intro; nia. Qed.
Lemma max_neg c d k : c < 0 -> (bez_cld d c <= k <-> k * c <= d).
Proof. intro H. rewrite cld_div by lia. destruct (div_spec (- d) c ltac:(lia)) as (r & E & B). split; intro; nia. Qed.
Lemma fld_bound D c d : c <> 0 -> Z.abs d <= D -> Z.abs (bez_fld d c) <= D + 1.
Proof. intros H K. rewrite fld_div by lia. destruct (div_spec d c H) as (r & E & B). nia. Qed.
Lemma cld_bound D c d : c <> 0 -> Z.abs d <= D -> Z.abs (bez_cld d c) <= D + 1.
Proof. intros H K. rewrite cld_div by lia. destruct (div_spec (- d) c H) as (r & E & B). nia. Qed.

Section L.
  Variables (x0 cx y0 cy : Z).
  Let B := 2 ^ 60. Let K := 2 ^ 61 + 2 ^ 60 + 1.
  Hypothesis Hx : Z.abs x0 <= B. Hypothesis Hy : Z.abs y0 <= 2 * B.
  Definition at_k (k : Z) : Z * Z := (x0 + k * cx, y0 + k * cy).
  Definition okl (l : Z) : Prop := l = bez_neginf \/ Z.abs l <= K.
  Definition okh (h : Z) : Prop := h = bez_posinf \/ Z.abs h <= K.
  Definition wi (l h k : Z) : Prop := (l = bez_neginf \/ l <= k) /\ (h = bez_posinf \/ k <= h).
  Record LInv (s : bez) (cs : list con) : Prop := {
    l_x0 : z_x0 s = x0; l_cx : z_cx s = cx; l_y0 : z_y0 s = y0; l_cy : z_cy s = cy;
    l_none : z_t s = BNone -> forall k, ~ Forall (holds (at_k k)) cs;
    l_lin : z_t s <> BNone -> z_t s = BLin /\ okl (z_xl s) /\ okh (z_xh s) /\ okl (z_yl s) /\ okh (z_yh s) /\
      forall k, Forall (holds (at_k k)) cs <-> wi (z_xl s) (z_xh s) k /\ wi (z_yl s) (z_yh s) k
  }.
  Lemma init_inv : LInv (bez_lin x0 cx y0 cy) [].
  Proof.
    constructor; auto; [discriminate|]. intros _. cbn [bez_lin bez_mk z_t z_xl z_xh z_yl z_yh]. unfold okl, okh, wi. split; [auto|]. do 4 (split; [auto|]). intro k. split; [intros _; tauto|constructor].
  Qed.
  Lemma infs : bez_neginf = - 2 ^ 62 /\ bez_posinf = 2 ^ 62 - 1.
  Proof. split; reflexivity. Qed.
  Lemma low_ok l c0 : okl l -> Z.abs c0 <= K -> okl (Z.max l c0) /\ forall k, ((Z.max l c0 = bez_neginf \/ Z.max l c0 <= k) <-> (l = bez_neginf \/ l <= k) /\ c0 <= k).
  Proof. destruct infs as (I1 & I2). unfold okl. rewrite I1. intros [->|L] C; (split; [right; subst K; lia|]); intro k; subst K; lia. Qed.
  Lemma high_ok h c0 : okh h -> Z.abs c0 <= K -> okh (Z.min h c0) /\ forall k, ((Z.min h c0 = bez_posinf \/ k <= Z.min h c0) <-> (h = bez_posinf \/ k <= h) /\ k <= c0).
  Proof. destruct infs as (I1 & I2). unfold okh. rewrite I2. intros [->|L] C; (split; [right; subst K; lia|]); intro k; subst K; lia. Qed.
  Lemma empty_wi l h k : okl l -> okh h -> h < l -> ~ wi l h k.
  Proof. destruct infs as (I1 & I2). unfold okl, okh, wi. rewrite I1, I2. subst K. lia. Qed.
  (* one restricted side *)
  Lemma xk_ok s cs c l h : LInv s cs -> z_t s <> BNone -> okl l -> okh h -> (forall k, wi l h k <-> wi (z_xl s) (z_xh s) k /\ holds (at_k k) c) -> LInv (set_xk s l h) (cs ++ [c]).
  Proof.
    intros [A1 A2 A3 A4 A5 A6] T OL OH W. destruct (A6 T) as (T' & _ & _ & B3 & B4 & B5). constructor; cbn [set_xk z_t z_x0 z_cx z_y0 z_cy z_xl z_xh z_yl z_yh]; auto.
    - destruct (Z.ltb_spec h l) as [E|E]; [|intro Q; contradiction]. intros _ k F. apply Forall_app in F. destruct F as (F1 & F2). inversion F2; subst. apply (empty_wi l h k); auto. apply W. split; [apply B5; auto|auto].
    - destruct (h <? l); [congruence|]. intros _. split; [auto|]. do 4 (split; [auto|]). intro k. rewrite Forall_app, B5, W. split; [intros (F1 & F2); inversion F2; subst; tauto|]. intros ((F1 & F2) & F3). split; [auto|]. constructor; auto.
  Qed.
  Lemma yk_ok s cs c l h : LInv s cs -> z_t s <> BNone -> okl l -> okh h -> (forall k, wi l h k <-> wi (z_yl s) (z_yh s) k /\ holds (at_k k) c) -> LInv (set_yk s l h) (cs ++ [c]).
  Proof.
    intros [A1 A2 A3 A4 A5 A6] T OL OH W. destruct (A6 T) as (T' & B1 & B2 & _ & _ & B5). constructor; cbn [set_yk z_t z_x0 z_cx z_y0 z_cy z_xl z_xh z_yl z_yh]; auto.
    - destruct (Z.ltb_spec h l) as [E|E]; [|intro Q; contradiction]. intros _ k F. apply Forall_app in F. destruct F as (F1 & F2). inversion F2; subst. apply (empty_wi l h k); auto. apply W. split; [apply B5; auto|auto].
    - destruct (h <? l); [congruence|]. intros _. split; [auto|]. do 4 (split; [auto|]). intro k. rewrite Forall_app, B5, W. split; [intros (F1 & F2); inversion F2; subst; tauto|]. intros (F1 & F2 & F3). split; [auto|]. constructor; auto.
  Qed.
  Lemma none_ok s cs c : LInv s cs -> (forall k, ~ holds (at_k k) c) -> LInv (set_t s BNone) (cs ++ [c]).
  Proof. intros [A1 A2 A3 A4 A5 A6] N. constructor; cbn [set_t z_t z_x0 z_cx z_y0 z_cy]; auto; [|congruence]. intros _ k F. apply Forall_app in F. destruct F as (F1 & F2). inversion F2; subst. apply (N k); auto. Qed.
  Lemma same_ok s cs c : LInv s cs -> (forall k, Forall (holds (at_k k)) cs -> holds (at_k k) c) -> LInv s (cs ++ [c]).
  Proof.
    intros [A1 A2 A3 A4 A5 A6] N. constructor; auto.
    - intros T k F. apply Forall_app in F. apply (A5 T k). tauto.
    - intro T. destruct (A6 T) as (T' & B1 & B2 & B3 & B4 & B5). split; [auto|]. do 4 (split; [auto|]). intro k. rewrite <- B5, Forall_app. split; [tauto|]. intro F. split; [auto|]. constructor; auto.
  Qed.
  Lemma apply_ok s cs c : Z.abs (con_val c) <= B -> LInv s cs -> LInv (bez_apply s c) (cs ++ [c]).
  Proof.
    intros HB LI. pose proof LI as [A1 A2 A3 A4 A5 A6].
    assert (LV : bez_live s = false -> LInv s (cs ++ [c])) by (intro T; apply same_ok; auto; intros k F; exfalso; apply (A5 ltac:(unfold bez_live in T; destruct (z_t s); congruence) k F)).
    destruct c as [v|v|v|v]; cbn [bez_apply con_val] in *; [unfold bez_min_x|unfold bez_max_x|unfold bez_min_y|unfold bez_max_y]; (destruct (bez_live s) eqn:T; cbn [negb]; [|auto]);
      (assert (T1 : z_t s <> BNone) by (unfold bez_live in T; destruct (z_t s); congruence)); destruct (A6 T1) as (T2 & B1 & B2 & B3 & B4 & B5); rewrite A1 || idtac; rewrite ?A1, ?A2, ?A3, ?A4.
    - destruct (Z.eqb_spec cx 0) as [Z0|Z0].
      + destruct (Z.ltb_spec x0 v); [apply none_ok; auto; intro k; cbn; rewrite Z0; lia|apply same_ok; auto; intros k _; cbn; rewrite Z0; lia].
      + destruct (Z.ltb_spec 0 cx).
        * destruct (low_ok (z_xl s) (bez_cld (v - x0) cx) B1) as (O & W); [pose proof (cld_bound (2 * B) cx (v - x0) Z0 ltac:(lia)); unfold B, K in *; lia|]. apply xk_ok; auto. intro k. unfold wi. rewrite W, min_pos by lia. cbn [holds at_k fst]. intuition lia.
        * destruct (high_ok (z_xh s) (bez_fld (v - x0) cx) B2) as (O & W); [pose proof (fld_bound (2 * B) cx (v - x0) Z0 ltac:(lia)); unfold B, K in *; lia|]. apply xk_ok; auto. intro k. unfold wi. rewrite W, min_neg by lia. cbn [holds at_k fst]. intuition lia.
    - destruct (Z.eqb_spec cx 0) as [Z0|Z0].
      + destruct (Z.ltb_spec v x0); [apply none_ok; auto; intro k; cbn; rewrite Z0; lia|apply same_ok; auto; intros k _; cbn; rewrite Z0; lia].
      + destruct (Z.ltb_spec 0 cx).
        * destruct (high_ok (z_xh s) (bez_fld (v - x0) cx) B2) as (O & W); [pose proof (fld_bound (2 * B) cx (v - x0) Z0 ltac:(lia)); unfold B, K in *; lia|]. apply xk_ok; auto. intro k. unfold wi. rewrite W, max_pos by lia. cbn [holds at_k fst]. intuition lia.
        * destruct (low_ok (z_xl s) (bez_cld (v - x0) cx) B1) as (O & W); [pose proof (cld_bound (2 * B) cx (v - x0) Z0 ltac:(lia)); unfold B, K in *; lia|]. apply xk_ok; auto. intro k. unfold wi. rewrite W, max_neg by lia. cbn [holds at_k fst]. intuition lia.
    - destruct (Z.eqb_spec cy 0) as [Z0|Z0].
      + destruct (Z.ltb_spec y0 v); [apply none_ok; auto; intro k; cbn; rewrite Z0; lia|apply same_ok; auto; intros k _; cbn; rewrite Z0; lia].
      + destruct (Z.ltb_spec 0 cy).
        * destruct (low_ok (z_yl s) (bez_cld (v - y0) cy) B3) as (O & W); [pose proof (cld_bound (3 * B) cy (v - y0) Z0 ltac:(lia)); unfold B, K in *; lia|]. apply yk_ok; auto. intro k. unfold wi. rewrite W, min_pos by lia. cbn [holds at_k snd]. intuition lia.
        * destruct (high_ok (z_yh s) (bez_fld (v - y0) cy) B4) as (O & W); [pose proof (fld_bound (3 * B) cy (v - y0) Z0 ltac:(lia)); unfold B, K in *; lia|]. apply yk_ok; auto. intro k. unfold wi. rewrite W, min_neg by lia. cbn [holds at_k snd]. intuition lia.
    - destruct (Z.eqb_spec cy 0) as [Z0|Z0].
      + destruct (Z.ltb_spec v y0); [apply none_ok; auto; intro k; cbn; rewrite Z0; lia|apply same_ok; auto; intros k _; cbn; rewrite Z0; lia].
      + destruct (Z.ltb_spec 0 cy).
        * destruct (high_ok (z_yh s) (bez_fld (v - y0) cy) B4) as (O & W); [pose proof (fld_bound (3 * B) cy (v - y0) Z0 ltac:(lia)); unfold B, K in *; lia|]. apply yk_ok; auto. intro k. unfold wi. rewrite W, max_pos by lia. cbn [holds at_k snd]. intuition lia.
        * destruct (low_ok (z_yl s) (bez_cld (v - y0) cy) B3) as (O & W); [pose proof (cld_bound (3 * B) cy (v - y0) Z0 ltac:(lia)); unfold B, K in *; lia|]. apply yk_ok; auto. intro k. unfold wi. rewrite W, max_neg by lia. cbn [holds at_k snd]. intuition lia.
  Qed.
  Lemma applies_ok cs' : forall s cs, Forall (fun c => Z.abs (con_val c) <= B) cs' -> LInv s cs -> LInv (fold_left bez_apply cs' s) (cs ++ cs').
  Proof. induction cs' as [|c cs' IH]; intros s cs F LI; [rewrite app_nil_r; auto|]. inversion F; subst. cbn [fold_left]. replace (cs ++ c :: cs') with ((cs ++ [c]) ++ cs') by (rewrite <- app_assoc; auto). apply IH; auto. apply apply_ok; auto. Qed.
  (* the interval of k *)
  Lemma comb_l l1 l2 k : okl l1 -> okl l2 -> ((Z.max l1 l2 = bez_neginf \/ Z.max l1 l2 <= k) <-> (l1 = bez_neginf \/ l1 <= k) /\ (l2 = bez_neginf \/ l2 <= k)).
  Proof. destruct infs as (I1 & I2). unfold okl. rewrite I1. unfold K. intros [->|O1] [->|O2]; lia. Qed.
  Lemma comb_h l1 l2 k : okh l1 -> okh l2 -> ((Z.min l1 l2 = bez_posinf \/ k <= Z.min l1 l2) <-> (l1 = bez_posinf \/ k <= l1) /\ (l2 = bez_posinf \/ k <= l2)).
  Proof. destruct infs as (I1 & I2). unfold okh. rewrite I2. unfold K. intros [->|O1] [->|O2]; lia. Qed.
  Lemma range_ok s cs : LInv s cs -> z_t s <> BNone ->
    match bez_range s with
    | Some (kl, kr) => okl kl /\ okh kr /\ kl <= kr /\ forall k, Forall (holds (at_k k)) cs <-> wi kl kr k
    | None => forall k, ~ Forall (holds (at_k k)) cs
    end.
  Proof.
    intros [A1 A2 A3 A4 A5 A6] T. destruct (A6 T) as (_ & B1 & B2 & B3 & B4 & B5). unfold bez_range. cbn zeta.
    assert (OL : okl (Z.max (z_xl s) (z_yl s))) by (destruct (Z.max_dec (z_xl s) (z_yl s)) as [->| ->]; auto). assert (OH : okh (Z.min (z_xh s) (z_yh s))) by (destruct (Z.min_dec (z_xh s) (z_yh s)) as [->| ->]; auto).
    assert (EQ : forall k, Forall (holds (at_k k)) cs <-> wi (Z.max (z_xl s) (z_yl s)) (Z.min (z_xh s) (z_yh s)) k) by (intro k; rewrite B5; unfold wi; rewrite comb_l, comb_h by auto; tauto).
    destruct (Z.leb_spec (Z.max (z_xl s) (z_yl s)) (Z.min (z_xh s) (z_yh s))) as [L|L]; [auto|]. intro k. rewrite EQ. apply empty_wi; auto.
  Qed.
  Lemma has_ok s cs : LInv s cs -> (bez_has s = true <-> exists k, Forall (holds (at_k k)) cs).
  Proof.
    intros LI. unfold bez_has. destruct (z_t s) eqn:T.
    - split; [discriminate|]. intros (k & F). exfalso. apply (l_none _ _ LI T k F).
    - exfalso. destruct (l_lin _ _ LI ltac:(congruence)) as (Q & _). congruence.
    - pose proof (range_ok s cs LI ltac:(congruence)) as R. destruct (bez_range s) as [(kl, kr)|].
      + split; [|auto]. intros _. destruct R as (R1 & R2 & R3 & R4). destruct infs as (I1 & I2). unfold okl, okh, wi in *. rewrite I1, I2 in *. destruct R1 as [->|R1]; [destruct R2 as [->|R2]|]; [exists 0|exists kr|exists kl]; apply R4; lia.
      + split; [discriminate|]. intros (k & F). exfalso. apply (R k F).
  Qed.
End L.

(* the general solution *)
Lemma rem_form X c : c <> 0 -> X + Z.quot (- X) c * c = Z.rem X c.
Proof. intro N. rewrite Z.quot_opp_l by auto. pose proof (Z.quot_rem X c N). lia. Qed.
Lemma absdiv c c' g : 0 < g -> c = c' * g -> Z.abs c' <= Z.abs c.
Proof. intros G ->. rewrite Z.abs_mul. pose proof (Z.abs_nonneg c'). nia. Qed.
Lemma ybound a b z x y : b <> 0 -> Z.abs x < Z.abs b -> a * x + b * y = z -> Z.abs y <= Z.abs z + Z.abs a.
Proof.
  intros N X E. assert (K : Z.abs b * Z.abs y <= Z.abs z + Z.abs a * Z.abs x). { rewrite <- !Z.abs_mul. replace (b * y) with (z - a * x) by lia. pose proof (Z.abs_triangle z (- (a * x))) as TR. rewrite Z.abs_opp in TR. replace (z + - (a * x)) with (z - a * x) in TR by lia. lia. }
  assert (Z.abs a * Z.abs x <= Z.abs a * Z.abs b) by (apply Z.mul_le_mono_nonneg_l; lia). assert (0 < Z.abs b) by lia. assert (Z.abs z <= Z.abs b * Z.abs z) by nia. clear E X. assert (Z.abs b * Z.abs y <= Z.abs b * (Z.abs z + Z.abs a)) by lia. apply (Z.mul_le_mono_pos_l _ _ (Z.abs b)); auto.
Qed.
Lemma solve_lin a b z : Z.abs a <= 2 ^ 60 -> Z.abs b <= 2 ^ 60 -> Z.abs z <= 2 ^ 60 -> b <> 0 -> (Z.gcd a b | z) ->
  exists x0 cx y0 cy, bez_solve a b z = Ok (bez_lin x0 cx y0 cy) /\ cx <> 0 /\ Z.abs x0 <= 2 ^ 60 /\ Z.abs y0 <= 2 * 2 ^ 60 /\ (cy = 0 <-> a = 0) /\
    forall p, a * fst p + b * snd p = z <-> exists k, p = at_k x0 cx y0 cy k.
Proof.
  intros Ha Hb Hz Nb Dv. destruct (ext_gcd_bezout a b ltac:(lia) ltac:(lia)) as (x & y & EG & BZ & _). unfold bez_solve. rewrite EG. cbn [bind]. set (g := Z.gcd a b) in *.
  assert (Gp : 0 < g). { pose proof (Z.gcd_nonneg a b). destruct (Z.eq_dec g 0) as [Q|Q]; [unfold g in Q; apply Z.gcd_eq_0_r in Q; lia|unfold g in *; lia]. }
  destruct (Z.eqb_spec g 0); [lia|]. destruct (Z.gcd_divide_l a b) as (a' & Ea). destruct (Z.gcd_divide_r a b) as (b' & Eb). destruct Dv as (z' & Ez). fold g in Ea, Eb. clearbody g.
  assert (CN : forall u v w, u * a + v * b = w * g -> u * a' + v * b' = w) by (intros u v w E; apply (Z.mul_cancel_r _ _ g); [lia|]; rewrite <- E, Ea, Eb; ring).
  rewrite (proj2 (Z.eqb_eq (Z.rem z g) 0)) by (rewrite Ez; apply Z.rem_mul; lia). cbn [negb]. cbv zeta.
  assert (Q1 : Z.quot b g = b') by (rewrite Eb; apply Z.quot_mul; lia). assert (Q2 : Z.quot (- a) g = - a') by (rewrite Ea, <- Z.mul_opp_l; apply Z.quot_mul; lia). assert (Q3 : Z.quot z g = z') by (rewrite Ez; apply Z.quot_mul; lia).
  rewrite Q1, Q2, Q3. assert (Nb' : b' <> 0) by (intro; subst b'; lia). destruct (Z.eqb_spec b' 0); [lia|].
  assert (BZ' : a' * x + b' * y = 1) by (rewrite (Z.mul_comm a'), (Z.mul_comm b'); apply CN; rewrite Z.mul_1_l, <- BZ; ring).
  set (x0 := x * z' + Z.quot (- (x * z')) b' * b'). set (y0 := y * z' + Z.quot (- (x * z')) b' * - a').
  assert (X0 : Z.abs x0 < Z.abs b') by (unfold x0; rewrite rem_form by auto; apply Z.rem_bound_abs; auto).
  assert (E0 : a' * x0 + b' * y0 = z'). { unfold x0, y0. set (q := Z.quot _ _). transitivity ((a' * x + b' * y) * z'); [ring|]. rewrite BZ'. ring. }
  clearbody x0 y0.
  assert (Ab : Z.abs b' <= Z.abs b) by (apply (absdiv _ _ g); auto). assert (Aa : Z.abs a' <= Z.abs a) by (apply (absdiv _ _ g); auto). assert (Az : Z.abs z' <= Z.abs z) by (apply (absdiv _ _ g); auto).
  exists x0, b', y0, (- a'). split; [reflexivity|]. split; [auto|]. split; [apply Z.lt_le_incl, (Z.lt_le_trans _ _ _ X0), (Z.le_trans _ _ _ Ab), Hb|]. split.
  { pose proof (ybound a' b' z' x0 y0 Nb' X0 E0) as YB. clear - YB Aa Az Ha Hz. lia. }
  split; [clear - Ea Gp; rewrite Ea; split; intro H; [assert (a' = 0) as -> by lia; lia|]; apply Z.mul_eq_0 in H; lia|]. intros (px, py). cbn [fst snd]. unfold at_k. split.
  - intro Ep. clear X0 Ab Aa Az Ha Hb Hz. assert (Ep' : a' * px + b' * py = z') by (rewrite (Z.mul_comm a'), (Z.mul_comm b'); apply CN; rewrite <- Ez, <- Ep; ring). assert (D1 : a' * (px - x0) = b' * (y0 - py)) by (clear - E0 Ep'; lia). assert (Dk : (b' | px - x0)). { apply (Gauss b' a'); [rewrite D1; apply Z.divide_factor_l|]. apply rel_prime_sym. apply bezout_rel_prime. apply (Bezout_intro a' b' 1 x y). clear - BZ'; lia. }
    destruct Dk as (k & Dk). exists k. f_equal; [clear - Dk; lia|]. rewrite Dk in D1. assert (Q : b' * (py - y0 + k * a') = 0) by (clear - D1; lia). apply Z.mul_eq_0 in Q. clear - Q Nb'. lia.
  - intros (k & Ep). injection Ep as -> ->. rewrite Ea, Eb, Ez. transitivity (g * (a' * x0 + b' * y0)); [ring|]. rewrite E0. ring.
Qed.
