From Verif Require Import Base BaseLemmas ZMod Rational_model Rational_spec.
From Coq Require Import Znumtheory QArith Qround Qabs.
Open Scope Z_scope.

Lemma tquot_ok a b : b <> 0 -> tquot a b = Ok (Z.quot a b).
Proof. intro H. unfold tquot. now rewrite (proj2 (Z.eqb_neq b 0) H). Qed.
Lemma quot_exact q b : b <> 0 -> Z.quot (q * b) b = q.
Proof. intro H. now apply Z.quot_mul. Qed.
Lemma make_ok n d : d <> 0 -> exists r, rat_make n d = Ok r /\ normal r /\ rnum r * d = n * rden r.
Proof.
  intro Hd. unfold rat_make, normal. destruct (Z.eqb_spec n 0) as [->|Hn].
  - rewrite (proj2 (Z.eqb_neq d 0) Hd). cbn [negb assert_ bind]. eexists; split; [reflexivity|]. cbn [rnum rden]. cbn. lia.
  - cbv zeta. pose proof (Z.gcd_nonneg n d). set (g := Z.gcd n d) in *.
    assert (Hg : g <> 0) by (unfold g; intro E; apply Z.gcd_eq_0 in E; lia).
    destruct (Z.gcd_divide_l n d) as (n' & En). destruct (Z.gcd_divide_r n d) as (d' & Ed). fold g in En, Ed.
    assert (G : Z.gcd n' d' = 1).
    { assert (E : Z.gcd (n' * g) (d' * g) = Z.gcd n' d' * g) by (apply Z.gcd_mul_mono_r_nonneg; auto).
      rewrite <- En, <- Ed in E. fold g in E. nia. }
    rewrite !tquot_ok by auto. cbn [bind]. rewrite En, Ed, !quot_exact by auto.
    destruct (Z.ltb_spec d' 0); eexists; (split; [reflexivity|]); cbn [rnum rden].
    + rewrite Z.gcd_opp_l, Z.gcd_opp_r. split; [split; [lia|auto]|ring].
    + split; [split; [|auto]|ring]. assert (d' <> 0) by (intro; subst d'; lia). lia.
Qed.
Lemma make_inf n : n <> 0 -> rat_make n 0 = Ok (mkRat (Z.sgn n) 0).
Proof.
  intro Hn. unfold rat_make. rewrite (proj2 (Z.eqb_neq n 0) Hn). cbv zeta. rewrite Z.gcd_0_r.
  rewrite !tquot_ok by lia. cbn [bind]. rewrite Z.quot_0_l by lia. cbn [Z.ltb Z.compare]. do 2 f_equal.
  rewrite <- (Z.abs_sgn n) at 1. replace (Z.abs n * Z.sgn n) with (Z.sgn n * Z.abs n) by ring. apply quot_exact. lia.
Qed.
Lemma make_00 : rat_make 0 0 = Abort. Proof. reflexivity. Qed.

Lemma is_value_cross m r n d : m = Ok r -> normal r -> 0 < d -> rnum r * d = n * rden r -> is_value m (n # Z.to_pos d).
Proof.
  intros E H Hd C. exists r. split; auto. split; auto. unfold qval, Qeq. cbn [Qnum Qden].
  destruct H. rewrite !Z2Pos.id by lia. auto.
Qed.
Lemma is_value_eq m q q' : is_value m q -> (q == q')%Q -> is_value m q'.
Proof. intros (r & E & N & V) H. exists r. repeat split; try apply N; auto. now rewrite V. Qed.
Lemma qfrac n d : d <> 0 -> ((Z.sgn d * n) # Z.to_pos (Z.abs d) == inject_Z n / inject_Z d)%Q.
Proof.
  intro H. destruct d as [|p|p]; [lia| |]; unfold Qdiv, Qinv, Qmult, Qeq, inject_Z; cbn [Qnum Qden Z.sgn Z.abs Z.to_pos]; rewrite ?Pos.mul_1_l, ?Pos.mul_1_r; lia.
Qed.
Lemma make_value n d : d <> 0 -> is_value (rat_make n d) (inject_Z n / inject_Z d).
Proof.
  intro H. destruct (make_ok n d H) as (r & E & N & C). apply is_value_eq with ((Z.sgn d * n) # Z.to_pos (Z.abs d)); [|now apply qfrac].
  apply is_value_cross with r; auto; [lia|]. rewrite <- Z.sgn_abs. replace (rnum r * (d * Z.sgn d)) with (rnum r * d * Z.sgn d) by ring. rewrite C. ring.
Qed.

Section Ops.
  Variables l r : rat.
  Hypothesis Nl : normal l.
  Hypothesis Nr : normal r.
  Let dl := rden l. Let dr := rden r.
  Lemma dl_pos : 0 < dl. Proof. apply Nl. Qed.
  Lemma dr_pos : 0 < dr. Proof. apply Nr. Qed.
  Lemma lcm_split : exists q y, Z.quot dl (Z.gcd dl dr) = q /\ Z.quot (q * dr) dl = y /\ Z.quot (q * dr) dr = q /\ 0 < q /\ y * dl = q * dr.
  Proof.
    pose proof dl_pos. pose proof dr_pos. destruct (Z.gcd_divide_l dl dr) as (q & Eq). destruct (Z.gcd_divide_r dl dr) as (y & Ey).
    pose proof (Z.gcd_nonneg dl dr). set (g := Z.gcd dl dr) in *.
    assert (g <> 0) by (intro E; rewrite E in Eq; lia). exists q, y.
    assert (E1 : y * dl = q * dr) by (rewrite Eq, Ey; ring).
    split; [rewrite Eq; now apply quot_exact|]. split; [rewrite <- E1; apply quot_exact; lia|]. split; [apply quot_exact; lia|].
    split; auto. nia.
  Qed.
  Lemma addsub_ok (s : Z) : is_value (let* q := tquot dl (Z.gcd dl dr) in
      let lcm := q * dr in let* x := tquot lcm dl in let* y := tquot lcm dr in rat_make (rnum l * x + s * (rnum r * y)) lcm)
      ((rnum l * dr + s * (rnum r * dl)) # Z.to_pos (dl * dr)).
  Proof.
    pose proof dl_pos. pose proof dr_pos. destruct lcm_split as (q & x & E1 & E2 & E3 & Hq & Ex).
    assert (Z.gcd dl dr <> 0) by (intro E; apply Z.gcd_eq_0 in E; lia).
    rewrite tquot_ok by auto. cbn [bind]. rewrite E1. cbv zeta. rewrite !tquot_ok by lia. cbn [bind]. rewrite E2, E3.
    assert (HL : q * dr <> 0) by nia. destruct (make_ok (rnum l * x + s * (rnum r * q)) (q * dr) HL) as (v & E & N & C).
    apply is_value_cross with v; auto; [nia|]. apply (Z.mul_reg_r _ _ (q * dr)); auto.
    replace (rnum v * (dl * dr) * (q * dr)) with (rnum v * (q * dr) * (dl * dr)) by ring. rewrite C.
    replace ((rnum l * dr + s * (rnum r * dl)) * rden v * (q * dr)) with (rden v * (rnum l * dr * (q * dr) + s * (rnum r * dl * (q * dr)))) by ring.
    rewrite <- Ex at 1. ring.
  Qed.
  Lemma qv_l : (qval l == rnum l # Z.to_pos dl)%Q. Proof. reflexivity. Qed.
  Lemma to_pos_mul a b : 0 < a -> 0 < b -> Z.to_pos (a * b) = (Z.to_pos a * Z.to_pos b)%positive.
  Proof. intros. apply Z2Pos.inj_mul; auto. Qed.
  Lemma add_value : is_value (rat_add l r) (qval l + qval r).
  Proof.
    eapply is_value_eq; [|].
    - replace (rat_add l r) with (let* q := tquot dl (Z.gcd dl dr) in
      let lcm := q * dr in let* x := tquot lcm dl in let* y := tquot lcm dr in rat_make (rnum l * x + 1 * (rnum r * y)) lcm).
      + apply (addsub_ok 1).
      + unfold rat_add. fold dl dr. destruct (tquot dl _); cbn [bind]; auto. destruct (tquot _ dl); cbn [bind]; auto. destruct (tquot _ dr); cbn [bind]; auto.
        f_equal. ring.
    - unfold qval, Qplus, Qeq. cbn [Qnum Qden]. fold dl dr. rewrite to_pos_mul by (apply dl_pos || apply dr_pos).
      rewrite !Z2Pos.id by (apply dl_pos || apply dr_pos). ring.
  Qed.
  Lemma sub_value : is_value (rat_sub l r) (qval l - qval r).
  Proof.
    eapply is_value_eq; [|].
    - replace (rat_sub l r) with (let* q := tquot dl (Z.gcd dl dr) in
      let lcm := q * dr in let* x := tquot lcm dl in let* y := tquot lcm dr in rat_make (rnum l * x + (-1) * (rnum r * y)) lcm).
      + apply (addsub_ok (-1)).
      + reflexivity.
    - unfold qval, Qminus, Qopp, Qplus, Qeq. cbn [Qnum Qden]. fold dl dr. rewrite to_pos_mul by (apply dl_pos || apply dr_pos).
      rewrite !Z2Pos.id by (apply dl_pos || apply dr_pos). ring.
  Qed.
End Ops.
Lemma mul_value l r : normal l -> normal r -> is_value (rat_mul l r) (qval l * qval r).
Proof.
  intros (Dl & Gl) (Dr & Gr). unfold rat_mul. cbv zeta.
  destruct (Z.gcd_divide_l (rnum l) (rden r)) as (a & Ea). destruct (Z.gcd_divide_r (rnum l) (rden r)) as (d & Ed).
  destruct (Z.gcd_divide_l (rden l) (rnum r)) as (c & Ec). destruct (Z.gcd_divide_r (rden l) (rnum r)) as (b & Eb).
  set (g1 := Z.gcd (rnum l) (rden r)) in *. set (g2 := Z.gcd (rden l) (rnum r)) in *.
  assert (H1 : g1 <> 0) by (intro E; rewrite E in Ed; lia). assert (H2 : g2 <> 0) by (intro E; rewrite E in Ec; lia).
  pose proof (Z.gcd_nonneg (rnum l) (rden r)) as P1. pose proof (Z.gcd_nonneg (rden l) (rnum r)) as P2. fold g1 in P1. fold g2 in P2.
  rewrite !tquot_ok by auto. cbn [bind].
  assert (Qa : Z.quot (rnum l) g1 = a) by (rewrite Ea at 1; now apply quot_exact).
  assert (Qb : Z.quot (rnum r) g2 = b) by (rewrite Eb at 1; now apply quot_exact).
  assert (Qc : Z.quot (rden l) g2 = c) by (rewrite Ec at 1; now apply quot_exact).
  assert (Qd : Z.quot (rden r) g1 = d) by (rewrite Ed at 1; now apply quot_exact).
  rewrite Qa, Qb, Qc, Qd. clear Qa Qb Qc Qd. clearbody g1 g2.
  assert (Hc : 0 < c) by nia. assert (Hd : 0 < d) by nia.
  destruct (make_ok (a * b) (c * d)) as (v & E & N & C); [nia|].
  eapply is_value_eq; [apply is_value_cross with (r := v) (n := rnum l * rnum r) (d := rden l * rden r); eauto; [nia|]|].
  - rewrite Ea, Eb, Ec, Ed. replace (rnum v * (c * g2 * (d * g1))) with (rnum v * (c * d) * (g1 * g2)) by ring. rewrite C. ring.
  - unfold qval, Qmult, Qeq. cbn [Qnum Qden]. rewrite Z2Pos.inj_mul by auto. reflexivity.
Qed.
Lemma neg_value r : normal r -> is_value (rat_neg r) (- qval r).
Proof.
  intros (D & G). unfold rat_neg. destruct (make_ok (- rnum r) (rden r)) as (v & E & N & C); [lia|].
  apply is_value_cross with v; auto.
Qed.
Lemma abs_value r : normal r -> is_value (rat_abs r) (Qabs (qval r)).
Proof.
  intros (D & G). unfold rat_abs. destruct (make_ok (Z.abs (rnum r)) (rden r)) as (v & E & N & C); [lia|].
  apply is_value_cross with v; auto.
Qed.
Lemma inv_value r : normal r -> rnum r <> 0 -> is_value (rat_inv r) (/ qval r).
Proof.
  intros (D & G) H. unfold rat_inv. eapply is_value_eq; [apply make_value; auto|].
  unfold qval. destruct (rden r) as [|p|p]; try lia. destruct (rnum r); [lia| |]; unfold Qdiv, Qinv, Qmult, Qeq, inject_Z; cbn [Qnum Qden Z.sgn Z.abs Z.to_pos]; rewrite ?Pos.mul_1_l, ?Pos.mul_1_r; lia.
Qed.
Lemma div_value l r : normal l -> normal r -> rnum r <> 0 -> is_value (rat_div l r) (qval l / qval r).
Proof.
  intros Hl Hr H. unfold rat_div. destruct (inv_value r Hr H) as (i & E & N & V). rewrite E. cbn [bind].
  eapply is_value_eq; [apply mul_value; auto|]. rewrite V. reflexivity.
Qed.
Lemma inv_zero : forall r, normal r -> rnum r = 0 -> rat_inv r = Ok (mkRat 1 0).
Proof.
  intros r (D & G) H. rewrite H in G. rewrite Z.gcd_0_l in G. unfold rat_inv. rewrite H. rewrite make_inf by lia.
  f_equal. f_equal. lia.
Qed.

(* ---- comparison ---- *)
Lemma signum_sgn r : signum r = Z.sgn (rnum r).
Proof. unfold signum, b2z. destruct (Z.leb_spec 0 (rnum r)), (Z.ltb_spec 0 (rnum r)); try lia. Qed.
Lemma qcompare_cross l r : normal l -> normal r -> (qval l ?= qval r)%Q = (rnum l * rden r ?= rnum r * rden l).
Proof. intros (Dl & _) (Dr & _). unfold Qcompare, qval. cbn [Qnum Qden]. now rewrite !Z2Pos.id by auto. Qed.
Lemma pow_m1_nz b : pow_m1 b <> 0. Proof. destruct b; discriminate. Qed.
Lemma normal_eq l r : normal l -> normal r -> rnum l * rden r = rnum r * rden l -> l = r.
Proof.
  intros (Dl & Gl) (Dr & Gr) E. destruct l as (nl & dl), r as (nr & dr). cbn [rnum rden] in *.
  assert (D1 : (dl | dr)). { apply Z.gauss with nl; [exists nr; lia|rewrite Z.gcd_comm; auto]. }
  assert (D2 : (dr | dl)). { apply Z.gauss with nr; [exists nl; lia|rewrite Z.gcd_comm; auto]. }
  assert (dl = dr) by (apply Z.divide_antisym_nonneg; auto; lia). subst dr. f_equal. nia.
Qed.
Lemma gcd_qr n d : 0 < d -> Z.gcd d (Z.rem n d) = Z.gcd n d.
Proof.
  intro H. rewrite (Z.quot_rem' n d) at 2. rewrite Z.add_comm, (Z.mul_comm d).
  rewrite (Z.gcd_comm _ d). now rewrite Z.gcd_add_mult_diag_r.
Qed.
Lemma trem_ok a b : b <> 0 -> trem a b = Ok (Z.rem a b).
Proof. intro H. unfold trem. now rewrite (proj2 (Z.eqb_neq b 0) H). Qed.
Lemma cross_lt a b dl dr ql qr rl rr : a = dl * ql + rl -> b = dr * qr + rr -> 0 <= rl < dl -> 0 <= rr < dr -> ql < qr -> a * dr < b * dl.
Proof.
  intros -> -> H1 H2 H3. apply Z.lt_le_trans with (dl * (ql + 1) * dr).
  - apply Z.mul_lt_mono_pos_r; lia.
  - replace ((dr * qr + rr) * dl) with (dl * qr * dr + rr * dl) by ring. assert (0 <= rr * dl) by (apply Z.mul_nonneg_nonneg; lia).
    assert (dl * (ql + 1) <= dl * qr) by (apply Z.mul_le_mono_nonneg_l; lia).
    assert (dl * (ql + 1) * dr <= dl * qr * dr) by (apply Z.mul_le_mono_nonneg_r; lia). lia.
Qed.
Lemma sign_lt a b : a < b -> sign_of (a ?= b) = -1. Proof. intro H. apply Z.compare_lt_iff in H. now rewrite H. Qed.
Lemma sign_gt a b : b < a -> sign_of (a ?= b) = 1. Proof. intro H. apply Z.compare_gt_iff in H. now rewrite H. Qed.
Section Cmp.
  Variables l r : rat.
  Hypothesis Nl : normal l.
  Hypothesis Nr : normal r.
  Lemma compare_total : exists c, compare l r = Ok c /\ (c = 0 <-> l = r) /\ (c = -1 \/ c = 0 \/ c = 1).
  Proof.
    destruct Nl as (Dl & Gl), Nr as (Dr & Gr). unfold compare. rewrite !signum_sgn. cbv zeta.
    destruct (Z.eqb_spec (rnum l) 0) as [El|El].
    { eexists; split; [reflexivity|]. split; [|lia]. split; [|intros <-; lia]. intro E. apply normal_eq; auto. assert (rnum r = 0) by lia. nia. }
    destruct (Z.eqb_spec (rnum r) 0) as [Er|Er].
    { eexists; split; [reflexivity|]. split; [|lia]. split; [lia|intros <-; lia]. }
    assert (HX : Z.lxor (Z.sgn (rnum l)) (Z.sgn (rnum r)) <? 0 = negb (Z.sgn (rnum l) =? Z.sgn (rnum r))).
    { destruct (rnum l), (rnum r); try lia; reflexivity. }
    rewrite HX. destruct (Z.eqb_spec (Z.sgn (rnum l)) (Z.sgn (rnum r))) as [Es|Es]; cbn [negb].
    2:{ eexists; split; [reflexivity|]. split; [|lia]. split; [lia|intros <-; lia]. }
    match goal with |- context [loop ?fu ?bo ?st] =>
      destruct (loop_inv (fun '(nl, dl, nr, dr, rev) => 0 <= nl /\ 0 <= dl /\ 0 <= nr /\ 0 <= dr /\ Z.gcd nl dl = 1 /\ Z.gcd nr dr = 1 /\
         (nl = nr /\ dl = dr <-> l = r))
        (fun '(nl, dl, nr, dr, rev) => Z.to_nat dl) (fun c => (c = 0 <-> l = r) /\ (c = -1 \/ c = 0 \/ c = 1)) bo fu st) as (c & E & Q) end.
    - rewrite !Z.gcd_abs_l. repeat split; try lia; auto.
      + intros (E1 & E2). apply normal_eq; auto. assert (rnum l = rnum r) by lia. congruence.
      + now subst.
      + now subst.
    - lia.
    - intros ((((nl & dl) & nr) & dr) & rev) (B1 & B2 & B3 & B4 & G1 & G2 & I).
      destruct (Z.eqb_spec dl 0) as [E1|E1]; cbn [negb andb orb].
      { eexists; split; [reflexivity|]. cbn beta iota. subst dl. destruct (Z.eqb_spec dr 0) as [E2|E2]; cbn [negb orb].
        - subst dr. rewrite Z.gcd_0_r in G1, G2. split; [|auto]. split; auto. intros _. apply I. lia.
        - split; [|destruct (xorb _ _); cbn; auto]. split; [intro F; now apply pow_m1_nz in F|]. intro F. apply I in F. lia. }
      destruct (Z.eqb_spec dr 0) as [E2|E2]; cbn [negb andb orb].
      { eexists; split; [reflexivity|]. cbn beta iota. 
        split; [|destruct (xorb _ _); cbn; auto]. split; [intro F; now apply pow_m1_nz in F|]. intro F. apply I in F. lia. }
      rewrite !tquot_ok, !trem_ok by auto. cbn [bind].
      destruct (Z.eqb_spec (nl ÷ dl) (nr ÷ dr)) as [E3|E3]; cbn [negb].
      + eexists; split; [reflexivity|]. cbn beta iota. 
        pose proof (Z.rem_bound_pos nl dl ltac:(lia) ltac:(lia)). pose proof (Z.rem_bound_pos nr dr ltac:(lia) ltac:(lia)).
        split; [|lia]. rewrite !gcd_qr by lia. repeat split; try lia; auto.
        * intros (F1 & F2). apply I. subst dr. split; auto. rewrite (Z.quot_rem' nl dl), (Z.quot_rem' nr dl). congruence.
        * apply I in H1. lia.
        * apply I in H1. destruct H1. subst. auto.
      + eexists; split; [reflexivity|]. cbn beta iota. split; [|destruct (xorb _ _); cbn; auto].
        split; [intro F; now apply pow_m1_nz in F|]. intro F. apply I in F. destruct F; subst. lia.
    - eauto.
  Qed.
  (* first partial quotients differ, or the signs do *)
  Lemma compare_quot : Z.quot (rnum l) (rden l) <> Z.quot (rnum r) (rden r) \/ Z.sgn (rnum l) <> Z.sgn (rnum r) ->
    compare l r = Ok (sign_of (qval l ?= qval r)%Q).
  Proof.
    intro H. rewrite qcompare_cross by auto. destruct Nl as (Dl & Gl), Nr as (Dr & Gr). unfold compare. rewrite !signum_sgn. cbv zeta.
    destruct (Z.eqb_spec (rnum l) 0) as [El|El].
    { rewrite El. f_equal. change (0 * rden r) with 0. unfold sign_of.
      destruct (Z.compare_spec 0 (rnum r * rden l)); nia. }
    destruct (Z.eqb_spec (rnum r) 0) as [Er|Er].
    { rewrite Er. f_equal. change (0 * rden l) with 0. unfold sign_of.
      destruct (Z.compare_spec (rnum l * rden r) 0); nia. }
    assert (HX : Z.lxor (Z.sgn (rnum l)) (Z.sgn (rnum r)) <? 0 = negb (Z.sgn (rnum l) =? Z.sgn (rnum r))).
    { destruct (rnum l), (rnum r); try lia; reflexivity. }
    rewrite HX. destruct (Z.eqb_spec (Z.sgn (rnum l)) (Z.sgn (rnum r))) as [Es|Es]; cbn [negb].
    2:{ f_equal. unfold sign_of. destruct (Z.compare_spec (rnum l * rden r) (rnum r * rden l)); nia. }
    destruct H as [H|H]; [|lia]. cbn [loop]. rewrite (proj2 (Z.eqb_neq (rden l) 0)), (proj2 (Z.eqb_neq (rden r) 0)) by lia. cbn [negb andb].
    rewrite !tquot_ok by lia. cbn [bind].
    assert (QA : forall n d, 0 < d -> n <> 0 -> Z.quot (Z.abs n) d = Z.sgn n * Z.quot n d).
    { intros n d H1 H2. destruct (Z.lt_ge_cases n 0).
      - rewrite Z.abs_neq, Z.sgn_neg, Z.quot_opp_l by lia. ring.
      - rewrite Z.abs_eq, Z.sgn_pos by lia. ring. }
    rewrite !QA by lia. rewrite Es.
    assert (X : (Z.sgn (rnum r) * Z.quot (rnum l) (rden l) =? Z.sgn (rnum r) * Z.quot (rnum r) (rden r)) = false) by (apply Z.eqb_neq; nia).
    rewrite X. cbn [negb bind]. f_equal.
    pose proof (Z.quot_rem' (rnum l) (rden l)) as R1. pose proof (Z.quot_rem' (rnum r) (rden r)) as R2.
    set (ql := Z.quot (rnum l) (rden l)) in *. set (qr := Z.quot (rnum r) (rden r)) in *.
    assert (S1 : 0 <= Z.sgn (rnum r) * Z.rem (rnum l) (rden l) < rden l).
    { rewrite <- Es. destruct (Z.lt_ge_cases (rnum l) 0).
      - pose proof (Z.rem_bound_neg_pos (rden l) (rnum l) ltac:(lia) ltac:(lia)). rewrite Z.sgn_neg by lia. lia.
      - pose proof (Z.rem_bound_pos (rnum l) (rden l) ltac:(lia) ltac:(lia)). rewrite Z.sgn_pos by lia. lia. }
    assert (S2 : 0 <= Z.sgn (rnum r) * Z.rem (rnum r) (rden r) < rden r).
    { destruct (Z.lt_ge_cases (rnum r) 0).
      - pose proof (Z.rem_bound_neg_pos (rden r) (rnum r) ltac:(lia) ltac:(lia)). rewrite Z.sgn_neg by lia. lia.
      - pose proof (Z.rem_bound_pos (rnum r) (rden r) ltac:(lia) ltac:(lia)). rewrite Z.sgn_pos by lia. lia. }
    set (rl := Z.rem (rnum l) (rden l)) in *. set (rr := Z.rem (rnum r) (rden r)) in *. clearbody ql qr rl rr.
    clear QA HX X Gl Gr Nl Nr.
    destruct (Z.lt_ge_cases (rnum r) 0) as [P|P].
    - assert (T : Z.sgn (rnum r) = -1) by lia. rewrite T in *. change (-1 <? 0) with true.
      destruct (Z.ltb_spec (-1 * ql) (-1 * qr)); cbn [xorb negb pow_m1].
      + rewrite sign_gt; auto. pose proof (cross_lt (- rnum l) (- rnum r) (rden l) (rden r) (- ql) (- qr) (- rl) (- rr)). lia.
      + rewrite sign_lt; auto. pose proof (cross_lt (- rnum r) (- rnum l) (rden r) (rden l) (- qr) (- ql) (- rr) (- rl)). lia.
    - assert (T : Z.sgn (rnum r) = 1) by lia. rewrite T in *. change (1 <? 0) with false. rewrite Bool.xorb_false_r.
      destruct (Z.ltb_spec (1 * ql) (1 * qr)); cbn [pow_m1].
      + rewrite sign_lt; auto. pose proof (cross_lt (rnum l) (rnum r) (rden l) (rden r) ql qr rl rr). lia.
      + rewrite sign_gt; auto. pose proof (cross_lt (rnum r) (rnum l) (rden r) (rden l) qr ql rr rl). lia.
  Qed.
  Lemma compare_second : 0 < rnum l < rden l -> 0 < rnum r < rden r -> Z.quot (rden l) (rnum l) <> Z.quot (rden r) (rnum r) ->
    compare l r = Ok (- sign_of (qval l ?= qval r)%Q).
  Proof.
    intros Hl Hr H. rewrite qcompare_cross by auto. unfold compare. rewrite !signum_sgn. cbv zeta.
    rewrite (proj2 (Z.eqb_neq (rnum l) 0)), (proj2 (Z.eqb_neq (rnum r) 0)) by lia.
    rewrite !Z.sgn_pos by lia. change (Z.lxor 1 1 <? 0) with false. cbn match.
    destruct (Z.to_nat (rden l)) as [|f] eqn:Ef; [lia|].
    cbn [loop]. rewrite (proj2 (Z.eqb_neq (rden l) 0)), (proj2 (Z.eqb_neq (rden r) 0)) by lia. cbn [negb andb].
    rewrite !tquot_ok, !trem_ok by lia. cbn [bind]. rewrite !Z.abs_eq by lia. rewrite !Z.quot_small, !Z.rem_small by lia.
    cbn [Z.eqb negb bind]. cbn [loop]. rewrite (proj2 (Z.eqb_neq (rnum l) 0)), (proj2 (Z.eqb_neq (rnum r) 0)) by lia. cbn [negb andb].
    rewrite !tquot_ok by lia. cbn [bind]. rewrite (proj2 (Z.eqb_neq _ _) H). cbn [negb bind]. f_equal.
    change (neg_bool (1 <? 0)) with false. rewrite Bool.xorb_false_r.
    pose proof (Z.quot_rem' (rden l) (rnum l)) as R1. pose proof (Z.quot_rem' (rden r) (rnum r)) as R2.
    pose proof (Z.rem_bound_pos (rden l) (rnum l) ltac:(lia) ltac:(lia)). pose proof (Z.rem_bound_pos (rden r) (rnum r) ltac:(lia) ltac:(lia)).
    set (ql := Z.quot (rden l) (rnum l)) in *. set (qr := Z.quot (rden r) (rnum r)) in *. clearbody ql qr.
    set (rl := Z.rem (rden l) (rnum l)) in *. set (rr := Z.rem (rden r) (rnum r)) in *. clearbody rl rr. clear Nl Nr Ef.
    destruct (Z.ltb_spec ql qr); cbn [pow_m1].
    - rewrite sign_gt; auto. pose proof (cross_lt (rden l) (rden r) (rnum l) (rnum r) ql qr rl rr). lia.
    - rewrite sign_lt; auto. pose proof (cross_lt (rden r) (rden l) (rnum r) (rnum l) qr ql rr rl). lia.
  Qed.
End Cmp.
Lemma rat_eq_ok l r : normal l -> normal r -> rat_eq l r = Ok (Qeq_bool (qval l) (qval r)) /\ rat_ne l r = Ok (negb (Qeq_bool (qval l) (qval r))).
Proof.
  intros Nl Nr. destruct (compare_total l r Nl Nr) as (c & E & Q & _). unfold rat_eq, rat_ne. rewrite E. cbn [bind].
  assert (X : (c =? 0) = Qeq_bool (qval l) (qval r)); [|now rewrite X].
  apply Bool.eq_iff_eq_true. rewrite Z.eqb_eq, Q, Qeq_bool_iff. split; [now intros ->|]. intro F. apply normal_eq; auto.
  unfold Qeq, qval in F. cbn [Qnum Qden] in F. destruct Nl, Nr. now rewrite !Z2Pos.id in F by auto.
Qed.
(* ---- rounding ---- *)
Lemma qfloor_val r : normal r -> Qfloor (qval r) = rnum r / rden r.
Proof. intros (D & _). unfold qval, Qfloor. now rewrite Z2Pos.id by auto. Qed.
Lemma qceil_val r : normal r -> Qceiling (qval r) = - (- rnum r / rden r).
Proof. intros (D & _). unfold qval, Qceiling, Qfloor, Qopp. cbn [Qnum Qden]. now rewrite Z2Pos.id by auto. Qed.
Lemma not_div r : normal r -> rden r <> 1 -> rnum r mod rden r <> 0.
Proof.
  intros (D & G) H E. apply Z.mod_divide in E; [|lia].
  assert (Z.gcd (rden r) (rnum r) = rden r) by (apply Z.divide_gcd_iff; auto; lia). rewrite Z.gcd_comm in H0. lia.
Qed.
Lemma floor_ok r : normal r -> rat_floor r = Ok (Qfloor (qval r) + (if (rnum r <? 0) && negb (rden r =? 1) then 1 else 0)).
Proof.
  intro N. rewrite qfloor_val by auto. pose proof N as (D & G). unfold rat_floor. destruct (Z.leb_spec 0 (rnum r)).
  - rewrite tquot_ok by lia. rewrite (proj2 (Z.ltb_ge _ _)) by lia. cbn [andb]. f_equal. rewrite Z.quot_div_nonneg by lia. lia.
  - rewrite tquot_ok by lia. cbn [bind]. rewrite (proj2 (Z.ltb_lt _ _)) by lia. cbn [andb]. f_equal. rewrite Z.quot_div_nonneg by lia.
    destruct (Z.eqb_spec (rden r) 1) as [E|E]; cbn [negb].
    + rewrite E, !Z.div_1_r. lia.
    + rewrite Z.div_opp_l_nz by (try lia; now apply not_div). lia.
Qed.
Lemma ceil_ok r : normal r -> rat_ceil r = Ok (Qceiling (qval r) - (if (0 <? rnum r) && negb (rden r =? 1) then 1 else 0)).
Proof.
  intro N. rewrite qceil_val by auto. pose proof N as (D & G). unfold rat_ceil. destruct (Z.leb_spec 0 (rnum r)).
  - rewrite tquot_ok by lia. cbn [bind]. f_equal. rewrite Z.quot_opp_l by lia. rewrite Z.quot_div_nonneg by lia.
    destruct (Z.ltb_spec 0 (rnum r)); cbn [andb].
    + destruct (Z.eqb_spec (rden r) 1) as [E|E]; cbn [negb].
      * rewrite E, !Z.div_1_r. lia.
      * rewrite Z.div_opp_l_nz by (try lia; now apply not_div). lia.
    + replace (rnum r) with 0 by lia. rewrite Z.div_0_l by lia. cbn. rewrite ?Z.div_0_l by lia. reflexivity.
  - rewrite tquot_ok by lia. rewrite (proj2 (Z.ltb_ge _ _)) by lia. cbn [andb]. f_equal.
    replace (rnum r) with (- - rnum r) at 1 by lia. rewrite Z.quot_opp_l by lia. rewrite Z.quot_div_nonneg by lia. lia.
Qed.
Lemma floor_right r : normal r -> 0 <= rnum r \/ rden r = 1 -> rat_floor r = Ok (Qfloor (qval r)).
Proof.
  intros N H. rewrite floor_ok by auto. destruct (Z.ltb_spec (rnum r) 0), (Z.eqb_spec (rden r) 1); cbn [andb negb]; try lia; f_equal; lia.
Qed.
Lemma ceil_right r : normal r -> rnum r <= 0 \/ rden r = 1 -> rat_ceil r = Ok (Qceiling (qval r)).
Proof.
  intros N H. rewrite ceil_ok by auto. destruct (Z.ltb_spec 0 (rnum r)), (Z.eqb_spec (rden r) 1); cbn [andb negb]; try lia; f_equal; lia.
Qed.
Lemma floor_wrong r : normal r -> rnum r < 0 -> rden r <> 1 -> rat_floor r = Ok (Qfloor (qval r) + 1).
Proof.
  intros N H1 H2. rewrite floor_ok by auto. destruct (Z.ltb_spec (rnum r) 0), (Z.eqb_spec (rden r) 1); cbn [andb negb]; try lia; auto.
Qed.
Lemma ceil_wrong r : normal r -> 0 < rnum r -> rden r <> 1 -> rat_ceil r = Ok (Qceiling (qval r) - 1).
Proof.
  intros N H1 H2. rewrite ceil_ok by auto. destruct (Z.ltb_spec 0 (rnum r)), (Z.eqb_spec (rden r) 1); cbn [andb negb]; try lia; auto.
Qed.
