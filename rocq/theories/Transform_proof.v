From Verif Require Import Base BaseLemmas ZMod Seq ListZ RingSum Transform_model Transform_spec Kron_proof Kron_alg.
From Coq Require Import Ring.

(* ---- bit operations, digit by digit ---- *)
Lemma bits_div_mod (f : bool -> bool -> bool) (OP : Z -> Z -> Z) : (forall a b m, 0 <= m -> Z.testbit (OP a b) m = f (Z.testbit a m) (Z.testbit b m)) ->
  f false false = false -> forall k i j, 0 <= k ->
  OP i j / 2 ^ k = OP (i / 2 ^ k) (j / 2 ^ k) /\ OP i j mod 2 ^ k = OP (i mod 2 ^ k) (j mod 2 ^ k).
Proof.
  intros HO Hf k i j Hk. split; apply Z.bits_inj'; intros m Hm.
  - rewrite Z.div_pow2_bits by lia. rewrite !HO by lia. now rewrite !Z.div_pow2_bits by lia.
  - rewrite HO by lia. destruct (Z.lt_ge_cases m k).
    + rewrite !Z.mod_pow2_bits_low by lia. now apply HO.
    + rewrite !Z.mod_pow2_bits_high by lia. auto.
Qed.
Lemma digitwise_bits f OP : (forall a b m, 0 <= m -> Z.testbit (OP a b) m = f (Z.testbit a m) (Z.testbit b m)) ->
  f false false = false -> digitwise 2 OP OP.
Proof. intros H1 H2 k i j _ _. apply (bits_div_mod f); auto; lia. Qed.
Lemma range_bits f OP : (forall a b m, 0 <= m -> Z.testbit (OP a b) m = f (Z.testbit a m) (Z.testbit b m)) -> f false false = false -> OP 0 0 = 0 ->
  (forall a b, 0 <= a -> 0 <= b -> 0 <= OP a b) ->
  forall k i j, 0 <= k -> 0 <= i < 2 ^ k -> 0 <= j < 2 ^ k -> 0 <= OP i j < 2 ^ k.
Proof.
  intros H1 H2 H3 H4 k i j Hk Hi Hj. split; [apply H4; lia|].
  destruct (bits_div_mod f OP H1 H2 k i j Hk) as (E & _). rewrite (Z.div_small i), (Z.div_small j), H3 in E by lia.
  apply Z.div_small_iff in E; [|apply Z.pow_nonzero; lia]. pose proof (Z.pow_pos_nonneg 2 k). lia.
Qed.
Lemma lor_bits a b m : 0 <= m -> Z.testbit (Z.lor a b) m = orb (Z.testbit a m) (Z.testbit b m). Proof. intros; apply Z.lor_spec. Qed.
Lemma land_bits a b m : 0 <= m -> Z.testbit (Z.land a b) m = andb (Z.testbit a m) (Z.testbit b m). Proof. intros; apply Z.land_spec. Qed.
Lemma lxor_bits a b m : 0 <= m -> Z.testbit (Z.lxor a b) m = xorb (Z.testbit a m) (Z.testbit b m). Proof. intros; apply Z.lxor_spec. Qed.

Lemma pop_double x : popcount (2 * x) = popcount x. Proof. destruct x; reflexivity. Qed.
Lemma pop_double1 x : 0 <= x -> popcount (2 * x + 1) = 1 + popcount x. Proof. destruct x; try reflexivity; lia. Qed.
Lemma pop_digit k : 0 <= k -> forall c r, 0 <= c -> 0 <= r < 2 ^ k -> popcount (c * 2 ^ k + r) = popcount c + popcount r.
Proof.
  revert k. refine (natlike_ind _ _ _).
  - intros c r Hc Hr. rewrite Z.pow_0_r in *. replace r with 0 by lia. cbn. rewrite Z.mul_1_r, Z.add_0_r. lia.
  - intros k Hk IH c r Hc Hr. rewrite Z.pow_succ_r in * by lia.
    pose proof (Z.div_mod r 2 ltac:(lia)) as E. pose proof (Z.mod_pos_bound r 2 ltac:(lia)) as B. set (q := r / 2) in *. set (t := r mod 2) in *.
    assert (Hq : 0 <= q < 2 ^ k) by lia. clearbody q t. subst r. pose proof (Z.pow_pos_nonneg 2 k). assert (0 <= c * 2 ^ k) by nia.
    assert (t = 0 \/ t = 1) as [->| ->] by lia.
    + rewrite Z.add_0_r. rewrite pop_double. replace (c * (2 * 2 ^ k) + 2 * q) with (2 * (c * 2 ^ k + q)) by ring. rewrite pop_double. now apply IH.
    + rewrite pop_double1 by lia. replace (c * (2 * 2 ^ k) + (2 * q + 1)) with (2 * (c * 2 ^ k + q) + 1) by ring. rewrite pop_double1 by lia. rewrite IH by lia. lia.
Qed.
Lemma two01 c : 0 <= c < 2 -> c = 0 \/ c = 1. Proof. lia. Qed.

Section Inst.
  Context {T : Type}.
  Variables (r0 r1 : T) (add mul sub : T -> T -> T) (opp : T -> T).
  Hypothesis RT : ring_theory r0 r1 add mul sub opp (@eq T).
  Add Ring R : RT.
  Notation sum := (sum r0 add).
  Definition mat4 (a b c d : T) (i j : Z) : T := if i =? 0 then if j =? 0 then a else b else if j =? 0 then c else d.
  Lemma sum2 f : sum 0 2 f = add (f 0) (f 1).
  Proof. unfold RingSum.sum. change (span 0 2) with [0; 1]. cbn. ring. Qed.
  Lemma unit2_for f a b c d : (forall x0 x1, f x0 x1 = (add (mul a x0) (mul b x1), add (mul c x0) (mul d x1))) ->
    unit_for r0 add mul 2 (mat4 a b c d) (unit2 f).
  Proof.
    intros Hf w g Rw. unfold unit2. rewrite (rep_get _ _ _ _ Rw), (rep_get _ _ _ _ Rw) by lia. cbn [bind]. rewrite Hf.
    rewrite (rep_set _ _ _ _ _ Rw) by lia. cbn [bind]. pose proof (rep_upd _ _ _ 0 (add (mul a (g 0)) (mul b (g 1))) Rw ltac:(lia)) as R1.
    rewrite (rep_set _ _ _ _ _ R1) by lia. eexists; split; [reflexivity|].
    eapply rep_ext; [apply rep_upd; [exact R1|lia]|]. intros i Hi. rewrite sum2. unfold fupd, mat4. destruct (two01 i Hi) as [->| ->]; reflexivity.
  Qed.
  Definition szeta := mat4 r1 r0 r1 r1.
  Definition smob := mat4 r1 r0 (opp r1) r1.
  Definition pzeta := mat4 r1 r1 r0 r1.
  Definition pmob := mat4 r1 (opp r1) r0 r1.
  Definition hada := mat4 r1 r1 r1 (opp r1).
  Lemma szeta_u : unit_for r0 add mul 2 szeta (unit2 (fun x0 x1 => (x0, add x1 x0))).
  Proof. apply unit2_for. intros. f_equal; ring. Qed.
  Lemma smob_u : unit_for r0 add mul 2 smob (unit2 (fun x0 x1 => (x0, sub x1 x0))).
  Proof. apply unit2_for. intros. f_equal; ring. Qed.
  Lemma pzeta_u : unit_for r0 add mul 2 pzeta (unit2 (fun x0 x1 => (add x0 x1, x1))).
  Proof. apply unit2_for. intros. f_equal; ring. Qed.
  Lemma pmob_u : unit_for r0 add mul 2 pmob (unit2 (fun x0 x1 => (sub x0 x1, x1))).
  Proof. apply unit2_for. intros. f_equal; ring. Qed.
  Lemma hada_u : unit_for r0 add mul 2 hada (unit2 (fun y0 y1 => (add y0 y1, sub y0 y1))).
  Proof. apply unit2_for. intros. f_equal; ring. Qed.
  Ltac dig := repeat match goal with H : 0 <= ?c < 2 |- _ => destruct (two01 c H) as [->| ->]; clear H end.
  Ltac mm := intros; dig; unfold mmul, delta; rewrite sum2; cbn; ring.
  Lemma sms c d : 0 <= c < 2 -> 0 <= d < 2 -> mmul r0 add mul 2 smob szeta c d = delta r0 r1 c d. Proof. mm. Qed.
  Lemma szm c d : 0 <= c < 2 -> 0 <= d < 2 -> mmul r0 add mul 2 szeta smob c d = delta r0 r1 c d. Proof. mm. Qed.
  Lemma pms c d : 0 <= c < 2 -> 0 <= d < 2 -> mmul r0 add mul 2 pmob pzeta c d = delta r0 r1 c d. Proof. mm. Qed.
  Lemma pzm c d : 0 <= c < 2 -> 0 <= d < 2 -> mmul r0 add mul 2 pzeta pmob c d = delta r0 r1 c d. Proof. mm. Qed.
  Lemma hh c d : 0 <= c < 2 -> 0 <= d < 2 -> mmul r0 add mul 2 hada hada c d = delta r0 (add r1 r1) c d. Proof. mm. Qed.

  Notation K := (kmat r1 mul 2).
  Lemma p2 k : 0 < 2 ^ Z.of_nat k. Proof. apply Z.pow_pos_nonneg; lia. Qed.
  Lemma dig2 k i : 0 <= i < 2 ^ Z.of_nat (S k) -> 0 <= i / 2 ^ Z.of_nat k < 2 /\ 0 <= i mod 2 ^ Z.of_nat k < 2 ^ Z.of_nat k.
  Proof. intro. apply (digit 2); auto; lia. Qed.
  Lemma subset_digit k i j : 0 <= k -> subset j i = subset (j / 2 ^ k) (i / 2 ^ k) && subset (j mod 2 ^ k) (i mod 2 ^ k).
  Proof.
    intro Hk. unfold subset. destruct (bits_div_mod andb Z.land land_bits eq_refl k j i Hk) as (E1 & E2). rewrite <- E1, <- E2.
    pose proof (Z.pow_pos_nonneg 2 k ltac:(lia) Hk). set (x := Z.land j i).
    pose proof (Z.div_mod x (2 ^ k) ltac:(lia)). pose proof (Z.div_mod j (2 ^ k) ltac:(lia)).
    destruct (Z.eqb_spec x j) as [E|E]; [now rewrite E, !Z.eqb_refl|]. symmetry. apply Bool.andb_false_iff. rewrite !Z.eqb_neq.
    destruct (Z.eq_dec (x / 2 ^ k) (j / 2 ^ k)) as [F|F]; [right|left; auto]. intro G. apply E. rewrite H0, H1. congruence.
  Qed.
  Lemma kmat_szeta k i j : 0 <= i < 2 ^ Z.of_nat k -> 0 <= j < 2 ^ Z.of_nat k -> K szeta k i j = if subset j i then r1 else r0.
  Proof.
    revert i j. induction k as [|k IH]; intros i j Hi Hj.
    - change (2 ^ Z.of_nat 0) with 1 in *. replace i with 0 by lia. replace j with 0 by lia. reflexivity.
    - cbn [kmat]. destruct (dig2 k i Hi) as (D1 & D2). destruct (dig2 k j Hj) as (D3 & D4). rewrite IH by auto. rewrite (subset_digit (Z.of_nat k) i j) by lia.
      destruct (subset (j mod _) _); dig; cbn; ring.
  Qed.
  Lemma kmat_pzeta k i j : 0 <= i < 2 ^ Z.of_nat k -> 0 <= j < 2 ^ Z.of_nat k -> K pzeta k i j = if subset i j then r1 else r0.
  Proof.
    revert i j. induction k as [|k IH]; intros i j Hi Hj.
    - change (2 ^ Z.of_nat 0) with 1 in *. replace i with 0 by lia. replace j with 0 by lia. reflexivity.
    - cbn [kmat]. destruct (dig2 k i Hi) as (D1 & D2). destruct (dig2 k j Hj) as (D3 & D4). rewrite IH by auto. rewrite (subset_digit (Z.of_nat k) j i) by lia.
      destruct (subset (i mod _) _); dig; cbn; ring.
  Qed.
  Lemma kmat_hada k i j : 0 <= i < 2 ^ Z.of_nat k -> 0 <= j < 2 ^ Z.of_nat k -> K hada k i j = if Z.odd (popcount (Z.land i j)) then opp r1 else r1.
  Proof.
    revert i j. induction k as [|k IH]; intros i j Hi Hj.
    - change (2 ^ Z.of_nat 0) with 1 in *. replace i with 0 by lia. replace j with 0 by lia. reflexivity.
    - cbn [kmat]. destruct (dig2 k i Hi) as (D1 & D2). destruct (dig2 k j Hj) as (D3 & D4). rewrite IH by auto.
      destruct (bits_div_mod andb Z.land land_bits eq_refl (Z.of_nat k) i j ltac:(lia)) as (E1 & E2).
      pose proof (Z.div_mod (Z.land i j) (2 ^ Z.of_nat k)) as E. pose proof (p2 k). rewrite E1, E2 in E. rewrite E by lia.
      rewrite (Z.mul_comm (2 ^ _)). rewrite pop_digit; [| lia | apply Z.land_nonneg; lia |].
      2:{ apply (range_bits andb Z.land land_bits); auto; try lia. intros. apply Z.land_nonneg. auto. }
      rewrite Z.odd_add. dig; unfold hada, mat4; cbn; destruct (Z.odd _); cbn; ring.
  Qed.

  Notation at_ := (at_ r0).
  Definition pow2len (a : list T) (k : nat) := zlen a = 2 ^ Z.of_nat k.
  Lemma rep_list a k : pow2len a k -> rep a (2 ^ Z.of_nat k) (at_ a).
  Proof. intro H. rewrite <- H. apply rep_at. Qed.
  Lemma kron_sums A u a k (P : Z -> Z -> Z -> T) : unit_for r0 add mul 2 A u -> pow2len a k ->
    (forall i j, 0 <= i < 2 ^ Z.of_nat k -> 0 <= j < 2 ^ Z.of_nat k -> mul (K A k i j) (at_ a j) = P (zlen a) i j) ->
    kron r0 2 u a = Ok (tabulate (zlen a) (fun i => sum 0 (zlen a) (P (zlen a) i))).
  Proof.
    intros Hu Ha HP. destruct (kron_fun _ _ _ _ _ _ RT 2 ltac:(lia) A u k a _ Hu (rep_list a k Ha)) as (y & E & R).
    rewrite E. f_equal. rewrite (rep_map _ _ _ R). unfold tabulate. red in Ha. rewrite Ha. apply map_ext_in. intros i Hi. apply In_zrange in Hi.
    unfold kfun. apply sum_ext. intros j Hj. rewrite <- Ha. now apply HP.
  Qed.
  Lemma subset_zeta_ok a k : pow2len a k -> subset_zeta r0 add a = Ok (subset_sums r0 add a).
  Proof.
    intro Ha. apply (kron_sums szeta _ a k (fun _ i j => if subset j i then at_ a j else r0) szeta_u Ha).
    intros. rewrite kmat_szeta by auto. destruct (subset j i); ring.
  Qed.
  Lemma supset_zeta_ok a k : pow2len a k -> supset_zeta r0 add a = Ok (supset_sums r0 add a).
  Proof.
    intro Ha. apply (kron_sums pzeta _ a k (fun _ i j => if subset i j then at_ a j else r0) pzeta_u Ha).
    intros. rewrite kmat_pzeta by auto. destruct (subset i j); ring.
  Qed.
  Lemma walsh_hadamard_ok a k : pow2len a k -> walsh_hadamard r0 add sub a = Ok (hadamard_sums r0 add opp a).
  Proof.
    intro Ha. apply (kron_sums hada _ a k (fun _ i j => if Z.odd (popcount (Z.land i j)) then opp (at_ a j) else at_ a j) hada_u Ha).
    intros. rewrite kmat_hada by auto. destruct (Z.odd _); ring.
  Qed.
  Lemma inverse_pair A B u v a k : unit_for r0 add mul 2 A u -> unit_for r0 add mul 2 B v ->
    (forall c d, 0 <= c < 2 -> 0 <= d < 2 -> mmul r0 add mul 2 B A c d = delta r0 r1 c d) -> pow2len a k ->
    bind (kron r0 2 u a) (fun y => kron r0 2 v y) = Ok a.
  Proof.
    intros Hu Hv HI Ha. destruct (kron_inverse _ _ _ _ _ _ RT 2 ltac:(lia) B A u v k a _ r1 Hu Hv HI (rep_list a k Ha)) as (y & z & E1 & E2 & Rz).
    rewrite E1. cbn [bind]. rewrite E2. f_equal. eapply rep_eq; [exact Rz|]. eapply rep_ext; [apply rep_list; eauto|].
    intros. cbn beta. rewrite (rpow_1 _ _ _ _ _ _ RT). ring.
  Qed.
  Lemma subset_inverse a k : pow2len a k -> (let* y := subset_zeta r0 add a in subset_mobius r0 sub y) = Ok a /\ (let* y := subset_mobius r0 sub a in subset_zeta r0 add y) = Ok a.
  Proof. intro Ha. split; [apply (inverse_pair szeta smob _ _ a k szeta_u smob_u sms Ha)|apply (inverse_pair smob szeta _ _ a k smob_u szeta_u szm Ha)]. Qed.
  Lemma supset_inverse a k : pow2len a k -> (let* y := supset_zeta r0 add a in supset_mobius r0 sub y) = Ok a /\ (let* y := supset_mobius r0 sub a in supset_zeta r0 add y) = Ok a.
  Proof. intro Ha. split; [apply (inverse_pair pzeta pmob _ _ a k pzeta_u pmob_u pms Ha)|apply (inverse_pair pmob pzeta _ _ a k pmob_u pzeta_u pzm Ha)]. Qed.

  Lemma conv_at OP a b k i : pow2len a k -> zlen b = zlen a -> conv r0 add mul OP (2 ^ Z.of_nat k) (at_ a) (at_ b) i = conv_by r0 add mul OP 0 a b i.
  Proof. intros Ha Hb. unfold conv, conv_by. red in Ha. rewrite Hb, <- Ha. reflexivity. Qed.
  Lemma bind_ok_id {X} (m : res X) : bind m Ok = m. Proof. destruct m; reflexivity. Qed.
  Lemma tconv_ext (f g g' : list T -> res (list T)) a b : (forall x, g x = g' x) -> transform_convolution mul f g a b = transform_convolution mul f g' a b.
  Proof. intro H. unfold transform_convolution. destruct (assert_ _); cbn [bind]; auto. destruct (f a); cbn [bind]; auto. destruct (f b); cbn [bind]; auto. destruct (for_ _ _ _ _); cbn [bind]; auto. Qed.
  Lemma bit_conv A B u v f OP a b k : unit_for r0 add mul 2 A u -> unit_for r0 add mul 2 B v ->
    (forall c d, 0 <= c < 2 -> 0 <= d < 2 -> mmul r0 add mul 2 B A c d = delta r0 r1 c d) ->
    (forall a b m, 0 <= m -> Z.testbit (OP a b) m = f (Z.testbit a m) (Z.testbit b m)) -> f false false = false -> OP 0 0 = 0 ->
    (forall a b, 0 <= a -> 0 <= b -> 0 <= OP a b) ->
    (forall s c d, 0 <= s < 2 -> 0 <= c < 2 -> 0 <= d < 2 -> A s (OP c d) = mul (A s c) (A s d)) ->
    pow2len a k -> zlen b = zlen a ->
    transform_convolution mul (kron r0 2 u) (kron r0 2 v) a b = Ok (bit_convolution r0 add mul OP a b).
  Proof.
    intros Hu Hv HI Hf F0 O0 Opos HA Ha Hb. assert (Hb' : pow2len b k) by (red; rewrite Hb; exact Ha).
    destruct (tconv_ok _ _ _ _ _ _ RT 2 ltac:(lia) A B u v OP OP k a b _ _ r1 Hu Hv HI (digitwise_bits f OP Hf F0)
      (fun i j => range_bits f OP Hf F0 O0 Opos (Z.of_nat k) i j ltac:(lia)) HA (rep_list a k Ha) (rep_list b k Hb') Ok) as (c & E & Rc).
    rewrite (tconv_ext _ _ (fun x => let* y := kron r0 2 v x in Ok y)) by (intro; symmetry; apply bind_ok_id). rewrite E. f_equal.
    rewrite (rep_map _ _ _ Rc). unfold bit_convolution, tabulate. rewrite Ha. apply map_ext. intro i. rewrite (rpow_1 _ _ _ _ _ _ RT). rewrite (conv_at OP a b k i Ha Hb). ring.
  Qed.
  Lemma or_conv_ok a b k : pow2len a k -> zlen b = zlen a -> or_convolution r0 add sub mul a b = Ok (bit_convolution r0 add mul Z.lor a b).
  Proof.
    apply (bit_conv szeta smob _ _ orb Z.lor a b k szeta_u smob_u sms lor_bits eq_refl eq_refl).
    - intros. apply Z.lor_nonneg. auto.
    - intros. dig; cbn; ring.
  Qed.
  Lemma and_conv_ok a b k : pow2len a k -> zlen b = zlen a -> and_convolution r0 add sub mul a b = Ok (bit_convolution r0 add mul Z.land a b).
  Proof.
    apply (bit_conv pzeta pmob _ _ andb Z.land a b k pzeta_u pmob_u pms land_bits eq_refl eq_refl).
    - intros. apply Z.land_nonneg. auto.
    - intros. dig; cbn; ring.
  Qed.
  Lemma pow2_iter k : rpow r1 mul (add r1 r1) k = int_pow2 r1 add k.
  Proof.
    unfold int_pow2. induction k; [reflexivity|]. cbn [rpow]. rewrite IHk. change (Nat.iter (S k) (fun x => add x x) r1) with ((fun x => add x x) (Nat.iter k (fun x => add x x) r1)). cbn beta. ring.
  Qed.
  Section Scale.
    Variable scale : Z -> T -> res T.
    Variable k : nat.
    (* dividing by the size undoes the multiplication by it *)
    Hypothesis Hscale : forall v, scale (2 ^ Z.of_nat k) (mul (int_pow2 r1 add k) v) = Ok v.
    Lemma scale_loop c g : rep c (2 ^ Z.of_nat k) (fun i => mul (rpow r1 mul (add r1 r1) k) (g i)) ->
      exists d, for_ 0 (zlen c) (fun i a => let* v := vget a i in let* v := scale (zlen a) v in vset a i v) c = Ok d /\ rep d (2 ^ Z.of_nat k) g.
    Proof.
      intro Rc. pose proof (p2 k). set (n := 2 ^ Z.of_nat k) in *. destruct Rc as [L Rc]. rewrite L.
      destruct (for_inv (fun i a => rep a n (fun j => if j <? i then g j else mul (rpow r1 mul (add r1 r1) k) (g j))) 0 n
        (fun i a => let* v := vget a i in let* v := scale (zlen a) v in vset a i v) c) as (d & E & Rd); [lia| | |].
      - split; auto. intros i Hi. rewrite Rc by auto. destruct (Z.ltb_spec i 0); auto; lia.
      - intros i a Hi Ra. rewrite (rep_get _ _ _ _ Ra) by lia. rewrite (proj2 (Z.ltb_ge i i)) by lia. cbn [bind].
        rewrite (proj1 Ra), pow2_iter. unfold n. rewrite Hscale. fold n. cbn [bind]. rewrite (rep_set _ _ _ _ _ Ra) by lia. eexists; split; [reflexivity|].
        eapply rep_ext; [apply rep_upd; [exact Ra|lia]|]. intros j Hj. unfold fupd. rewrite pow2_iter. destruct (Z.eqb_spec j i); destruct (Z.ltb_spec j (i + 1)); destruct (Z.ltb_spec j i); subst; auto; lia.
      - exists d. split; auto. eapply rep_ext; [exact Rd|]. intros j Hj. cbn beta. destruct (Z.ltb_spec j n); auto; lia.
    Qed.
    Lemma wh_inverse a : pow2len a k -> (let* y := walsh_hadamard r0 add sub a in walsh_hadamard_inv r0 add sub scale y) = Ok a.
    Proof.
      intro Ha. destruct (kron_inverse _ _ _ _ _ _ RT 2 ltac:(lia) hada hada _ _ k a _ _ hada_u hada_u hh (rep_list a k Ha)) as (y & z & E1 & E2 & Rz).
      unfold walsh_hadamard_inv, walsh_hadamard. rewrite E1. cbn [bind]. rewrite E2. cbn [bind]. destruct (scale_loop z _ Rz) as (d & Ed & Rd).
      rewrite Ed. f_equal. eapply rep_eq; [exact Rd|now apply rep_list].
    Qed.
    Lemma xor_conv_ok a b : pow2len a k -> zlen b = zlen a -> xor_convolution r0 add sub mul scale a b = Ok (bit_convolution r0 add mul Z.lxor a b).
    Proof.
      intros Ha Hb. assert (Hb' : pow2len b k) by (red; rewrite Hb; exact Ha).
      destruct (tconv_ok _ _ _ _ _ _ RT 2 ltac:(lia) hada hada _ _ Z.lxor Z.lxor k a b _ _ _ hada_u hada_u hh (digitwise_bits xorb Z.lxor lxor_bits eq_refl)
        (fun i j => range_bits xorb Z.lxor lxor_bits eq_refl eq_refl ltac:(intros; apply Z.lxor_nonneg; tauto) (Z.of_nat k) i j ltac:(lia))
        ltac:(intros; dig; cbn; ring) (rep_list a k Ha) (rep_list b k Hb')
        (fun a => for_ 0 (zlen a) (fun i a => let* v := vget a i in let* v := scale (zlen a) v in vset a i v) a)) as (c & E & Rc).
      unfold xor_convolution, walsh_hadamard_inv, walsh_hadamard. rewrite E. destruct (scale_loop c _ Rc) as (d & Ed & Rd). rewrite Ed. f_equal.
      rewrite (rep_map _ _ _ Rd). unfold bit_convolution, tabulate. rewrite Ha. apply map_ext. intro i. now rewrite (conv_at Z.lxor a b k i Ha Hb).
    Qed.
  End Scale.
  Lemma tconv_size f g a b : zlen b <> zlen a -> transform_convolution mul f g a b = Abort.
  Proof. intro H. unfold transform_convolution. rewrite (proj2 (Z.eqb_neq _ _)) by congruence. reflexivity. Qed.
End Inst.

(* built-in integers: division truncates, and is exact here *)
Definition int_div (n v : Z) : res Z := if n =? 0 then UB else Ok (Z.quot v n).
Lemma int_pow2_Z k : int_pow2 1 Z.add k = 2 ^ Z.of_nat k.
Proof. induction k; [reflexivity|]. rewrite Nat2Z.inj_succ, Z.pow_succ_r by lia. rewrite <- IHk. unfold int_pow2. change (Nat.iter (S k) (fun x => x + x) 1) with ((fun x => x + x) (Nat.iter k (fun x => x + x) 1)). cbn beta. lia. Qed.
Lemma int_div_ok k v : int_div (2 ^ Z.of_nat k) (int_pow2 1 Z.add k * v) = Ok v.
Proof. rewrite int_pow2_Z. unfold int_div. pose proof (Z.pow_pos_nonneg 2 (Z.of_nat k)). rewrite (proj2 (Z.eqb_neq _ _)) by lia. rewrite Z.mul_comm, Z.quot_mul by lia. reflexivity. Qed.
