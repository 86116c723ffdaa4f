From Coq Require Import Znumtheory Zpow_facts.
From Verif Require Import Base BaseLemmas ListZ Dlog_spec Dlog_model.
Import ListNotations.
Open Scope Z_scope.

Lemma cg m u v : 0 < m -> u mod m = v mod m <-> exists k, u = v + k * m.
Proof.
  intros H. split.
  - intros E. exists (u / m - v / m). rewrite (Z.div_mod u m) at 1 by lia. rewrite (Z.div_mod v m) at 1 by lia. rewrite E. ring.
  - intros (k & ->). apply Z.mod_add. lia.
Qed.
Lemma cancel m X I U Y : 0 < m -> (X * I) mod m = 1 mod m -> (U mod m = (Y * I) mod m <-> (U * X) mod m = Y mod m).
Proof.
  intros H E. apply cg in E; auto. destruct E as (c & E). rewrite !cg by auto. split; intros (k & K).
  - exists (k * X + Y * c). rewrite K. replace ((Y * I + k * m) * X) with (Y * (X * I) + k * X * m) by ring. rewrite E. ring.
  - exists (k * I - U * c). replace U with (U * (1 + c * m) - U * c * m) at 1 by ring. rewrite <- E.
    replace (U * (X * I)) with ((U * X) * I) by ring. rewrite K. ring.
Qed.
Lemma pow_inv m x xi k : 0 < m -> 0 <= k -> (x * xi) mod m = 1 mod m -> (x ^ k * xi ^ k) mod m = 1 mod m.
Proof.
  intros H Hk E. rewrite <- Z.pow_mul_l. rewrite Zpower_mod, E, <- Zpower_mod by lia. rewrite Z.pow_1_l by lia. reflexivity.
Qed.

(* without a solution below m there is none at all *)
Lemma php (f : Z -> Z) m y : 0 < m -> (forall i, 0 <= i -> 0 <= f i < m) ->
  (forall i j k, 0 <= i -> 0 <= j -> 0 <= k -> f i = f j -> f (k + i) = f (k + j)) ->
  (forall t, 0 <= t < m -> f t <> y) -> forall t, 0 <= t -> f t <> y.
Proof.
  intros H B S N t Ht. pattern t. apply Zlt_0_ind; [|exact Ht]. clear t Ht. intros t IH Ht E.
  destruct (Z_lt_ge_dec t m) as [L|L]; [apply (N t); auto|].
  assert (D : forall i j, 0 <= i -> i < j -> j <= m -> f i <> f j).
  { intros i j Hi Hj Hm F. assert (R : 0 <= t - j + i < t) by (clear -Hi Hj Hm L; lia). refine (IH (t - j + i) R _). rewrite <- E. replace t with ((t - j) + j) at 2 by (clear; lia). apply S; auto; clear -Hi Hj Hm L; lia. }
  assert (ND : NoDup (map f (zrange (m + 1)))).
  { assert (G : forall l, NoDup l -> (forall i, In i l -> 0 <= i <= m) -> NoDup (map f l)).
    { induction l as [|a l IHl]; intros Nl Hl; [constructor|]. inversion Nl; subst. cbn [map]. constructor.
      - intros F. apply in_map_iff in F. destruct F as (b & Fb & Ib). pose proof (Hl a (or_introl eq_refl)). pose proof (Hl b (or_intror Ib)).
        destruct (Z.lt_trichotomy a b) as [C|[C|C]]; [apply (D a b); auto; lia|subst; contradiction|apply (D b a); auto; lia].
      - apply IHl; auto. intros i Hi. apply Hl. right; auto. }
    apply G; [apply NoDup_zrange|]. intros i Hi. apply In_zrange in Hi. lia. }
  assert (Inc : incl (map f (zrange (m + 1))) (zrange m)).
  { intros a Ha. apply in_map_iff in Ha. destruct Ha as (b & <- & Hb). apply In_zrange in Hb. apply In_zrange. apply B. lia. }
  pose proof (NoDup_incl_length ND Inc) as Len.
  pose proof (zlen_map f (zrange (m + 1))) as L1. pose proof (zlen_zrange (m + 1)) as L2. pose proof (zlen_zrange m) as L3.
  unfold zlen in *. lia.
Qed.
Lemma no_big m x y : 0 < m -> (forall t, 0 <= t < m -> x ^ t mod m <> y) -> forall t, 0 <= t -> x ^ t mod m <> y.
Proof.
  intros H N. apply (php (fun t => x ^ t mod m) m y H); [| |exact N].
  - intros i _. apply Z.mod_pos_bound. exact H.
  - intros i j k Hi Hj Hk F. rewrite (Z.pow_add_r x k i Hk Hi), (Z.pow_add_r x k j Hk Hj). rewrite Z.mul_mod, F, <- Z.mul_mod by (clear -H; lia). reflexivity.
Qed.

(* an oracle for modular inverses *)
Definition inv_ok (inv : Z -> Z -> res Z) : Prop :=
  forall m a, 1 <= m -> 0 <= a < m -> Z.gcd a m = 1 -> exists b, inv m a = Ok b /\ 0 <= b < m /\ (a * b) mod m = 1 mod m.

Lemma sq_bound m : 1 <= m < 2 ^ 30 -> let p := Z.sqrt m + 1 in 1 <= p <= 2 ^ 15 /\ m <= p * p.
Proof.
  intros H. cbn zeta. pose proof (Z.sqrt_spec m ltac:(lia)) as S. unfold Z.succ in S. pose proof (Z.sqrt_nonneg m).
  assert (Z.sqrt m < 2 ^ 15) by (apply Z.sqrt_lt_square; lia). lia.
Qed.
Lemma i32_id x : 0 <= x < 2 ^ 31 -> i32 x = Ok x.
Proof. intros H. unfold i32. destruct (Z.leb_spec (- 2 ^ 31) x); [|lia]. destruct (Z.ltb_spec x (2 ^ 31)); [reflexivity|lia]. Qed.

Lemma coprime_is inv m x y : inv_ok inv -> 1 <= m < 2 ^ 30 -> 0 <= x < m -> 0 <= y < m -> Z.gcd x m = 1 ->
  exists r, dlog_coprime inv m x y = Ok r /\ least_log m x y r /\ r < 2 ^ 30.
Proof.
  intros IO Hm Hx Hy G. unfold dlog_coprime.
  destruct (Z.eqb_spec y (1 mod m)) as [->|Ny].
  { exists 0. cbn [orb]. split; [reflexivity|]. split; [right; rewrite Z.pow_0_r; split; [lia|split; [reflexivity|intros; lia]]|lia]. }
  destruct (Z.eqb_spec m 1) as [->|Nm].
  { cbn [orb]. exists 0. split; [reflexivity|]. split; [right; rewrite Z.pow_0_r; split; [lia|split; [rewrite Z.mod_1_r; lia|intros; lia]]|lia]. }
  cbn [orb]. destruct (Z.eqb_spec x 0) as [->|Nx]. { rewrite Z.gcd_0_l in G. lia. }
  destruct (sq_bound m Hm) as [Hp Hpp]. cbn zeta. set (p := Z.sqrt m + 1) in *. clearbody p.
  destruct (IO m x ltac:(lia) Hx G) as (xi & Exi & Bxi & Hxi). rewrite Exi. cbn [bind].
  set (a := xi ^ p mod m).
  match goal with |- context [for_ 0 p ?b ?s] =>
    destruct (for_inv (fun J (st : list (Z * Z) * Z) => let '(mp, pw) := st in pw = x ^ J mod m /\
       forall k, match find_key mp k with
         | Some j => 0 <= j < J /\ x ^ j mod m = k /\ forall j', 0 <= j' < j -> x ^ j' mod m <> k
         | None => forall j, 0 <= j < J -> x ^ j mod m <> k end) 0 p b s) as ([mp pw] & E & _ & T) end.
  { lia. }
  { split; [rewrite Z.pow_0_r; reflexivity|]. intros k. cbn [find_key]. intros; lia. }
  { intros J [mp pw] HJ (Ep & T). eexists; split; [reflexivity|]. split.
    - rewrite Ep, Z.mul_mod_idemp_l by lia. rewrite Z.pow_add_r, Z.pow_1_r by lia. reflexivity.
    - intros k. unfold try_emplace. pose proof (T pw) as Tp. destruct (find_key mp pw) as [j0|] eqn:F.
      + pose proof (T k) as Tk. destruct (find_key mp k) as [j|]; [destruct Tk as (A & B & C); repeat split; auto; lia|].
        intros j Hj. destruct (Z.eq_dec j J) as [->|D]; [|apply Tk; lia]. intros K. apply (Tk j0); [lia|]. rewrite <- K, <- Ep. apply Tp.
      + cbn [find_key]. destruct (Z.eqb_spec pw k) as [->|D].
        * split; [lia|]. split; [auto|]. intros j' Hj'. apply Tp; lia.
        * pose proof (T k) as Tk. destruct (find_key mp k) as [j|]; [destruct Tk as (A & B & C); repeat split; auto; lia|].
          intros j Hj. destruct (Z.eq_dec j J) as [->|D2]; [rewrite <- Ep; exact D|apply Tk; lia]. }
  rewrite E. cbn [bind].
  assert (Key : forall i j, 0 <= i -> 0 <= j -> (x ^ j mod m = (y * xi ^ (p * i)) mod m <-> x ^ (p * i + j) mod m = y)).
  { intros i j Hi Hj. assert (Pi : 0 <= p * i) by (clear -Hp Hi; nia). rewrite (cancel m (x ^ (p * i)) (xi ^ (p * i)) (x ^ j) y); [|clear -Hm; lia|apply pow_inv; [clear -Hm; lia|exact Pi|exact Hxi]].
    rewrite <- (Z.pow_add_r x j (p * i) Hj Pi). rewrite (Z.mod_small y m Hy). rewrite (Z.add_comm j (p * i)). reflexivity. }
  match goal with |- context [loop ?f ?b ?s] =>
    destruct (loop_inv (fun st : Z * Z => let '(i, ya) := st in 0 <= i <= p /\ ya = (y * xi ^ (p * i)) mod m /\ forall t, 0 <= t < p * i -> x ^ t mod m <> y)
      (fun st : Z * Z => Z.to_nat (p - fst st))
      (fun r => least_log m x y r /\ r < 2 ^ 30) b f s) as (r & E2 & R) end.
  - split; [lia|]. split; [rewrite Z.mul_0_r, Z.pow_0_r, Z.mul_1_r, Z.mod_small; lia|]. intros; lia.
  - cbn [fst]. clear -Hp. lia.
  - intros [i ya] (Hi & Eya & No). cbn [fst]. destruct (Z.ltb_spec i p) as [L|L].
    + pose proof (T ya) as Ty. destruct (find_key mp ya) as [j|].
      * destruct Ty as (A & B & C). assert (Bd : 0 <= p * i /\ p * i + j < p * p) by (clear -Hp Hi L A; nia). assert (Bp : p * p <= 2 ^ 30) by (clear -Hp; nia).
        rewrite i32_id by (clear -Bd Bp A; lia). cbn [bind]. rewrite i32_id by (clear -Bd Bp A; lia). cbn [bind]. eexists; split; [reflexivity|].
        split; [|clear -Bd Bp A; lia]. right. split; [clear -Bd A; lia|]. split; [apply Key; [apply Hi|apply A|rewrite <- Eya; exact B]|].
        intros t Ht. destruct (Z_lt_ge_dec t (p * i)) as [Q|Q]; [apply No; split; [apply Ht|exact Q]|]. intros F. refine (C (t - p * i) _ _); [clear -Ht Q; lia|]. rewrite Eya. apply Key; [apply Hi|clear -Q; lia|].
        replace (p * i + (t - p * i)) with t by (clear; lia). exact F.
      * eexists; split; [reflexivity|]. cbn [fst]. split; [|clear -L Hi; lia]. split; [clear -L Hi; lia|]. split.
        -- rewrite Eya. unfold a. rewrite Z.mul_mod_idemp_r, Z.mul_mod_idemp_l by (clear -Hm; lia). f_equal. replace (p * (i + 1)) with (p * i + p) by (clear; ring).
           rewrite (Z.pow_add_r xi (p * i) p) by (clear -Hp Hi; nia). clear; ring.
        -- intros t Ht. destruct (Z_lt_ge_dec t (p * i)) as [Q|Q]; [apply No; split; [apply Ht|exact Q]|]. intros F. refine (Ty (t - p * i) _ _); [clear -Ht Q; lia|]. rewrite Eya. apply Key; [apply Hi|clear -Q; lia|].
           replace (p * i + (t - p * i)) with t by (clear; lia). exact F.
    + eexists; split; [reflexivity|]. split; [|clear; lia]. left. split; [reflexivity|]. apply no_big; [clear -Hm; lia|]. intros t Ht. apply No. clear -Ht Hpp Hi L. nia.
  - exists r. rewrite E2. auto.
Qed.

Lemma log2_is m : 1 <= m < 2 ^ 30 -> exists d, floor_log2 m = Ok d /\ 0 <= d < 30 /\ 2 ^ d <= m < 2 ^ (d + 1).
Proof.
  intros H. unfold floor_log2.
  destruct (loop_inv (fun r => 0 <= r < 30 /\ 2 ^ r <= m) (fun r => Z.to_nat (30 - r)) (fun d => 0 <= d < 30 /\ 2 ^ d <= m < 2 ^ (d + 1))
    (fun r => let* s := i32 (2 ^ (r + 1)) in if s <=? m then Ok (inl (r + 1)) else Ok (inr r)) 40 0) as (d & E & P).
  - lia.
  - lia.
  - intros r (Hr & Lr). assert (B : 2 ^ (r + 1) <= 2 ^ 30) by (apply Z.pow_le_mono_r; lia).
    assert (B0 : 0 < 2 ^ (r + 1)) by (apply Z.pow_pos_nonneg; lia). rewrite i32_id by lia. cbn [bind].
    destruct (Z.leb_spec (2 ^ (r + 1)) m) as [L|L]; eexists; (split; [reflexivity|]); [|cbv beta iota; lia].
    assert (r + 1 < 30). { destruct (Z_lt_ge_dec (r + 1) 30); [auto|]. assert (r + 1 = 30) by lia. rewrite H0 in L. lia. } cbv beta iota; lia.
  - exists d. auto.
Qed.
(* what is left of m after dividing by gcd(x^d, m) is prime to x *)
Lemma left_coprime m x d : 1 <= m -> 0 <= d -> m < 2 ^ (d + 1) -> let g := Z.gcd (x ^ d) m in Z.gcd x (m / g) = 1.
Proof.
  intros Hm Hd L. cbn zeta. set (g := Z.gcd (x ^ d) m). set (m' := m / g).
  assert (Hg : 0 < g). { pose proof (Z.gcd_nonneg (x ^ d) m) as A. assert (g <> 0) by (intros F; apply Z.gcd_eq_0_r in F; lia). fold g in A. lia. }
  assert (Em : m = g * m'). { unfold m'. apply Z.div_exact; [lia|]. apply Z.mod_divide; [lia|]. apply Z.gcd_divide_r. }
  set (c := Z.gcd x m'). assert (Hc0 : 0 <= c) by apply Z.gcd_nonneg.
  assert (M' : 0 < m') by nia.
  assert (Hc : 0 < c). { assert (c <> 0) by (intros F; apply Z.gcd_eq_0_r in F; lia). lia. }
  destruct (Z.eq_dec c 1) as [|N]; [auto|exfalso].
  assert (K : forall k, 0 <= k -> k <= d + 1 -> (c ^ k | m)).
  { intros k Hk. pattern k. apply natlike_ind; [| |exact Hk].
    - intros _. exists m. rewrite Z.pow_0_r. lia.
    - clear k Hk. intros k Hk IH Lk. unfold Z.succ in *. specialize (IH ltac:(lia)).
      assert (D1 : (c ^ k | g)).
      { apply Z.gcd_greatest; [|exact IH]. apply Z.divide_trans with (c ^ d).
        - exists (c ^ (d - k)). rewrite <- Z.pow_add_r by lia. f_equal; lia.
        - assert (Dx : (c | x)) by apply Z.gcd_divide_l. destruct Dx as (w & Ew). exists (w ^ d). rewrite Ew at 1. apply Z.pow_mul_l. }
      assert (D2 : (c | m')) by apply Z.gcd_divide_r. destruct D1 as (u & D1), D2 as (v & D2). exists (u * v).
      rewrite Z.pow_add_r, Z.pow_1_r by lia. rewrite Em, D1, D2 at 1. 
      replace (u * v * (c ^ k * c)) with (u * c ^ k * (v * c)) by ring. reflexivity. }
  specialize (K (d + 1) ltac:(lia) ltac:(lia)). apply Z.divide_pos_le in K; [|lia].
  assert (2 ^ (d + 1) <= c ^ (d + 1)) by (apply Z.pow_le_mono_l; lia). lia.
Qed.
Lemma pow_coprime x m d : 0 <= d -> Z.gcd x m = 1 -> Z.gcd (x ^ d) m = 1.
Proof.
  intros Hd G. pattern d. apply natlike_ind; [| |exact Hd].
  - rewrite Z.pow_0_r. apply Z.gcd_1_l.
  - intros k Hk IH. unfold Z.succ. rewrite Z.pow_add_r, Z.pow_1_r by lia.
    apply Zgcd_1_rel_prime. apply rel_prime_sym. apply rel_prime_mult; apply rel_prime_sym; apply Zgcd_1_rel_prime; auto.
Qed.
Lemma gcd_mod_l a m : 0 < m -> Z.gcd (a mod m) m = Z.gcd a m.
Proof. intros H. rewrite Z.gcd_mod by lia. apply Z.gcd_comm. Qed.

Lemma dlog_is inv m x y : inv_ok inv -> 1 <= m < 2 ^ 30 -> 0 <= x < m -> 0 <= y < m ->
  exists r, dlog inv m x y = Ok (r, m) /\ least_log m x y r.
Proof.
  intros IO Hm Hx Hy. unfold dlog. destruct (Z.eqb_spec m 1) as [->|Nm].
  { exists 0. split; [reflexivity|]. right. rewrite Z.pow_0_r, Z.mod_1_r. repeat split; lia. }
  destruct (log2_is m Hm) as (d & Ed & Hd & Bd). rewrite Ed. cbn [bind].
  match goal with |- context [loop ?f ?b ?s] =>
    destruct (loop_inv (fun st : Z * Z => let '(i, pw) := st in 0 <= i <= d /\ pw = x ^ i mod m /\ forall t, 0 <= t < i -> x ^ t mod m <> y)
      (fun st : Z * Z => Z.to_nat (d - fst st))
      (fun e => match e with inl i => least_log m x y i | inr pw => pw = x ^ d mod m /\ forall t, 0 <= t < d -> x ^ t mod m <> y end) b f s) as (e & Ee & Pe) end.
  { split; [lia|]. split; [rewrite Z.pow_0_r; reflexivity|intros; lia]. }
  { cbn [fst]; lia. }
  { intros [i pw] (Hi & Ep & No). cbn [fst]. destruct (Z.ltb_spec i d) as [L|L].
    - destruct (Z.eqb_spec pw y) as [E|E]; eexists; (split; [reflexivity|]).
      + right. split; [lia|]. split; [congruence|exact No].
      + cbn [fst]. split; [|lia]. split; [lia|]. split.
        * rewrite Ep, Z.mul_mod_idemp_l by lia. rewrite Z.pow_add_r, Z.pow_1_r by lia. reflexivity.
        * intros t Ht. destruct (Z.eq_dec t i) as [->|D]; [congruence|apply No; lia].
    - eexists; split; [reflexivity|]. assert (i = d) by lia. subst i. auto. }
  rewrite Ee. cbn [bind]. destruct e as [i|pw]; [exists i; auto|]. destruct Pe as [Ep No]. cbn zeta.
  assert (Eg : Z.gcd pw m = Z.gcd (x ^ d) m) by (rewrite Ep; apply gcd_mod_l; lia). rewrite Eg.
  pose proof (left_coprime m x d ltac:(lia) ltac:(lia) ltac:(lia)) as LC. cbn zeta in LC.
  set (g := Z.gcd (x ^ d) m) in *.
  assert (Hg : 0 < g). { pose proof (Z.gcd_nonneg (x ^ d) m) as A. assert (g <> 0) by (intros F; apply Z.gcd_eq_0_r in F; lia). fold g in A. lia. }
  assert (Em : m = g * (m / g)). { apply Z.div_exact; [lia|]. apply Z.mod_divide; [lia|]. apply Z.gcd_divide_r. }
  set (m' := m / g) in *. clearbody m'. assert (Hm' : 1 <= m') by (clear -Hm Em Hg; nia). assert (Hm2 : m' <= m) by (clear -Em Hg Hm'; nia).
  assert (Dgx : (g | x ^ d)) by apply Z.gcd_divide_l.
  destruct (Z.eqb_spec (y mod g) 0) as [Yg|Yg]; cbn [negb].
  2: { exists (-1). split; [reflexivity|]. left. split; [reflexivity|]. intros t Ht F. destruct (Z_lt_ge_dec t d) as [L|L]; [apply (No t); auto; lia|].
       apply Yg. apply Z.mod_divide; [lia|]. rewrite <- F. rewrite Z.mod_eq by lia. apply Z.divide_sub_r.
       - replace t with (d + (t - d)) by lia. rewrite Z.pow_add_r by lia. apply Z.divide_mul_l. exact Dgx.
       - rewrite Em at 1. rewrite <- Z.mul_assoc. apply Z.divide_mul_l. apply Z.divide_refl. }
  assert (Dgy : (g | y)) by (apply Z.mod_divide; [lia|exact Yg]).
  assert (Gx : Z.gcd (x ^ d) m' = 1) by (apply pow_coprime; [lia|exact LC]).
  assert (Epw : pw mod m' = x ^ d mod m').
  { rewrite Ep. rewrite Em. rewrite Z.mul_comm. rewrite Z.rem_mul_r by lia. rewrite (Z.mul_comm m' ((x ^ d / m') mod g)).
    rewrite Z.mod_add by lia. apply Z.mod_mod. lia. }
  rewrite Epw.
  assert (M0 : 0 < m') by (clear -Hm'; lia).
  destruct (IO m' (x ^ d mod m') Hm' (Z.mod_pos_bound (x ^ d) m' M0)) as (iv & Eiv & Biv & Hiv). { rewrite gcd_mod_l by lia. exact Gx. }
  rewrite Eiv. cbn [bind]. rewrite Z.mul_mod_idemp_l in Hiv by lia. rewrite Z.mul_mod_idemp_l by lia.
  destruct (coprime_is inv m' (x mod m') ((y * iv) mod m') IO ltac:(clear -Hm Hm' Hm2; lia) (Z.mod_pos_bound x m' M0) (Z.mod_pos_bound (y * iv) m' M0)) as (t & Et & Lt & Bt).
  { rewrite gcd_mod_l by lia. exact LC. }
  rewrite Et. cbn [bind].
  clear Ep Epw Eg Ee Ed Et Eiv Yg Biv.
  (* solutions modulo m' are the solutions modulo m, shifted by d *)
  assert (Key : forall s, 0 <= s -> ((x mod m') ^ s mod m' = (y * iv) mod m' <-> x ^ (d + s) mod m = y)).
  { intros s Hs. rewrite <- Zpower_mod by lia. rewrite (cancel m' (x ^ d) iv (x ^ s) y); [|lia|exact Hiv].
    rewrite <- Z.pow_add_r by lia. replace (s + d) with (d + s) by lia. rewrite <- (Z.mod_small y m) at 2 by lia. rewrite !cg by lia. split.
    - intros (k & K). assert (Dk : (g | k)).
      { assert (D : (g | m' * k)). { replace (m' * k) with (x ^ (d + s) - y) by (clear -K; lia). apply Z.divide_sub_r; [|exact Dgy]. rewrite Z.pow_add_r by lia. apply Z.divide_mul_l. exact Dgx. }
        apply Z.gauss with m'; [exact D|]. 
        (* gcd g m' = 1 *)
        apply Z.divide_antisym_nonneg; [apply Z.gcd_nonneg|lia| |apply Z.divide_1_l].
        rewrite <- Gx. apply Z.gcd_greatest; [apply Z.divide_trans with g; [apply Z.gcd_divide_l|exact Dgx]|apply Z.gcd_divide_r]. }
      destruct Dk as (w & ->). exists w. rewrite K. rewrite Em. ring.
    - intros (k & K). exists (k * g). rewrite K. rewrite Em. ring. }
  clear Hiv Em Dgx Dgy Gx LC.
  destruct Lt as [(-> & No2)|(T0 & T1 & T2)].
  - cbn [Z.eqb negb]. exists (-1). split; [reflexivity|]. left. split; [reflexivity|]. intros t Ht F.
    destruct (Z_lt_ge_dec t d) as [L|L]; [apply (No t); auto; lia|]. apply (No2 (t - d)); [lia|]. apply Key; [lia|]. replace (d + (t - d)) with t by lia. exact F.
  - destruct (Z.eqb_spec t (-1)); [lia|]. cbn [negb]. rewrite i32_id by (clear -Hd T0 Bt; lia). cbn [bind]. exists (d + t). split; [reflexivity|].
    right. split; [clear -Hd T0; lia|]. split; [apply Key; auto|]. intros s Hs F. destruct (Z_lt_ge_dec s d) as [L|L]; [apply (No s); auto; lia|].
    apply (T2 (s - d)); [lia|]. apply Key; [lia|]. replace (d + (s - d)) with s by lia. exact F.
Qed.
