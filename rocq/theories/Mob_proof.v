(* MobiusFunction: proofs *)
From Verif Require Import Base BaseLemmas ZMod Smooth Sieve_model Sieve_spec Sieve_proof Centroid_proof CSort_proof Mob_spec Mob_model.
From Coq Require Import Znumtheory.

Definition sq (P q : Z) : bool := existsb (fun p => primeb p && (q mod (p * p) =? 0)) (zrange P).
Definition np (P q : Z) : list Z := filter (fun p => primeb p && (q mod p =? 0)) (zrange P).
Definition mu (P q : Z) : Z := if sq P q then 0 else (-1) ^ zlen (np P q).
Definition mm (P q : Z) : Z := if (2 <=? q) && (lpf q <? P) then lpf q else 0.
Lemma dvd q p : p <> 0 -> (q mod p =? 0) = true <-> (p | q).
Proof. intros H. rewrite Z.eqb_eq. now apply Z.mod_divide. Qed.
Lemma prime2 p : prime p -> 2 <= p. Proof. apply prime_ge_2. Qed.
Lemma mu_S P q : 0 <= P -> mu (P + 1) q = if primeb P && (q mod P =? 0) then (if q mod (P * P) =? 0 then 0 else - mu P q) else mu P q.
Proof.
  intros H. unfold mu, sq, np. rewrite zrange_S by auto. rewrite existsb_app, filter_app. cbn [existsb filter]. rewrite orb_false_r. destruct (primeb P) eqn:Ep; cbn [andb]; [|rewrite orb_false_r, app_nil_r; reflexivity].
  apply primeb_spec, prime2 in Ep. destruct (q mod P =? 0) eqn:E.
  - rewrite zlen_app. change (zlen [P]) with 1. destruct (q mod (P * P) =? 0); [now rewrite orb_true_r|]. rewrite orb_false_r. destruct (existsb _ _); [reflexivity|]. rewrite Z.pow_add_r by (try apply zlen_nonneg; lia). lia.
  - destruct (q mod (P * P) =? 0) eqn:F; [|now rewrite orb_false_r, app_nil_r]. exfalso. rewrite dvd in F by nia. assert (X : (P | q)) by (destruct F as (z & ->); exists (z * P); ring). apply dvd in X; [congruence|lia].
Qed.
Lemma mu_2 q : mu 2 q = 1.
Proof.
  unfold mu, sq, np. change (zrange 2) with [0; 1]. cbn [existsb filter]. assert (A : primeb 0 = false) by (apply primeb_false; intros X; apply prime2 in X; lia). assert (B : primeb 1 = false) by (apply primeb_false; intros X; apply prime2 in X; lia). rewrite A, B. reflexivity.
Qed.
Lemma mu_self p : prime p -> mu p p = 1.
Proof.
  intros Pp. pose proof (prime2 p Pp) as P2. destruct (lpf_ok p P2) as (_ & _ & L & _). rewrite (lpf_prime p Pp) in L. unfold mu.
  assert (A : sq p p = false). { apply not_true_is_false. intros X. apply existsb_exists in X as (r & Ir & X). apply In_zrange in Ir. apply andb_prop in X as (X & Y). apply primeb_spec, prime2 in X. rewrite dvd in Y by nia. assert (Z1 : (r | p)) by (destruct Y as (z & ->); exists (z * r); ring). specialize (L r X Z1). lia. }
  assert (B : np p p = []). { unfold np. destruct (filter _ _) as [|r l] eqn:E; auto. exfalso. assert (I : In r (r :: l)) by now left. rewrite <- E in I. apply filter_In in I as (Ir & X). apply In_zrange in Ir. apply andb_prop in X as (X & Y). apply primeb_spec, prime2 in X. rewrite dvd in Y by lia. specialize (L r X Y). lia. }
  rewrite A, B. reflexivity.
Qed.
Lemma mm_same P q : ~ (2 <= q /\ lpf q = P) -> mm (P + 1) q = mm P q.
Proof. intros H. unfold mm. destruct (Z.leb_spec 2 q); cbn [andb]; [|reflexivity]. destruct (Z.ltb_spec (lpf q) (P + 1)), (Z.ltb_spec (lpf q) P); auto; lia. Qed.

Section New.
  Variable N : Z.
  Hypothesis HN : 0 <= N.
  Definition mu0 (P q : Z) : Z := if q =? 0 then 1 else mu P q.
  Lemma new_ok : mob_new N = Ok (MF N (vec (N + 1) (mm (Z.max 2 (N + 1)))) (vec (N + 1) (mu0 (Z.max 2 (N + 1))))).
  Proof.
    unfold mob_new. rewrite !vrep_vec by lia. match goal with |- context [for_ 2 (N + 1) ?f ?s0] => set (F := f) end.
    assert (Ini : (vec (N + 1) (fun _ => 0), vec (N + 1) (fun _ => 1)) = (vec (N + 1) (mm 2), vec (N + 1) (mu0 2))).
    { f_equal; apply vec_ext; intros q Hq; [unfold mm|unfold mu0; destruct (q =? 0); auto; symmetry; apply mu_2]. destruct (Z.leb_spec 2 q) as [L|L]; cbn [andb]; [|reflexivity]. destruct (lpf_ok q L) as (B & _). destruct (Z.ltb_spec (lpf q) 2); [lia|reflexivity]. }
    rewrite Ini. destruct (Z.lt_ge_cases N 2) as [LN|LN].
    { rewrite Z.max_l by lia. unfold for_. replace (Z.to_nat (N + 1 - 2)) with 0%nat by lia. reflexivity. }
    rewrite Z.max_r by lia. destruct (for_inv (fun p s => s = (vec (N + 1) (mm p), vec (N + 1) (mu0 p))) 2 (N + 1) F (vec (N + 1) (mm 2), vec (N + 1) (mu0 2))) as (s & E & ->); auto; [lia| |rewrite E; reflexivity].
    intros p s Hp ->. unfold F. rewrite vget_vec by lia. cbn [bind]. destruct (lpf_ok p ltac:(lia)) as (Bp & Dp & Lp & Pp). unfold mm at 1. destruct (Z.leb_spec 2 p); [|lia]. cbn [andb].
    destruct (Z.ltb_spec (lpf p) p) as [L|L].
    - (* composite *) destruct (Z.eqb_spec (lpf p) 0); [lia|]. cbn [negb]. eexists. split; [reflexivity|]. assert (Np : ~ prime p) by (intros X; apply lpf_prime in X; lia).
      f_equal; apply vec_ext; intros q Hq; symmetry; [|unfold mu0; destruct (q =? 0); auto; rewrite mu_S by lia; apply primeb_false in Np; rewrite Np; reflexivity].
      apply mm_same. intros (H2 & X). destruct (lpf_ok q H2) as (_ & _ & _ & Pq). rewrite X in Pq. contradiction.
    - assert (Prp : prime p) by (replace p with (lpf p) by lia; exact Pp). cbn [negb Z.eqb]. rewrite vset_vec by lia. cbn [bind]. rewrite vset_vec by lia. cbn [bind]. clear F.
      set (T := fun k q => (q mod p =? 0) && (p <=? q) && (q <? p * k)).
      set (A := fun k q => if T k q then mm (p + 1) q else mm p q). set (B := fun k q => if q =? 0 then 1 else if T k q then mu (p + 1) q else mu p q).
      assert (Qp : 1 <= N / p) by (apply Z.div_le_lower_bound; lia).
      match goal with |- exists s', for_ 2 (N / p + 1) ?f ?s0 = _ /\ _ => destruct (for_inv (fun k s => s = (vec (N + 1) (A k), vec (N + 1) (B k))) 2 (N / p + 1) f s0) as (s & E & ->); [lia| | |rewrite E; eexists; split; [reflexivity|]] end.
      + assert (T2 : forall q, 0 <= q -> T 2 q = (q =? p)). { intros q Hq. unfold T. destruct (Z.eqb_spec q p) as [->|Ne]; [rewrite Z_mod_same_full, Z.leb_refl; destruct (Z.ltb_spec p (p * 2)); [reflexivity|lia]|]. destruct (Z.eqb_spec (q mod p) 0) as [X|X]; cbn [andb]; auto. apply Z.mod_divide in X as (z & ->); [|lia]. destruct (Z.leb_spec p (z * p)), (Z.ltb_spec (z * p) (p * 2)); cbn [andb]; auto. exfalso. assert (z = 1) by nia. subst z. lia. }
        f_equal; apply vec_ext; intros q Hq; unfold A, B, fput; rewrite T2 by lia; destruct (Z.eqb_spec q p) as [->|Ne].
        * unfold mm. destruct (Z.leb_spec 2 p); [|lia]. rewrite (lpf_prime p Prp). destruct (Z.ltb_spec p (p + 1)); [reflexivity|lia].
        * reflexivity.
        * destruct (Z.eqb_spec p 0); [lia|]. rewrite mu_S by lia. rewrite (proj2 (primeb_spec p) Prp), Z_mod_same_full, Z.eqb_refl. cbn [andb]. rewrite Z.mod_small by nia. destruct (Z.eqb_spec p 0); [lia|]. now rewrite mu_self.
        * reflexivity.
      + intros k s Hk ->. assert (Hq : 2 <= p * k < N + 1) by (assert (k <= N / p) by lia; pose proof (Z.mul_div_le N p ltac:(lia)); nia).
        assert (Md : p * k mod p = 0) by (rewrite Z.mul_comm; apply Z.mod_mul; lia). destruct (lpf_ok (p * k) ltac:(lia)) as (Bq & Dq & Lq & Pq). specialize (Lq p ltac:(lia) ltac:(exists k; ring)).
        assert (Tk : T k (p * k) = false) by (unfold T; destruct (Z.ltb_spec (p * k) (p * k)); [lia|apply andb_false_r]).
        assert (TS : forall q, 0 <= q -> q <> p * k -> T (k + 1) q = T k q). { intros q Hq0 Ne. unfold T. destruct (Z.eqb_spec (q mod p) 0) as [X|X]; cbn [andb]; auto. f_equal. apply Z.mod_divide in X as (z & ->); [|lia]. destruct (Z.ltb_spec (z * p) (p * (k + 1))), (Z.ltb_spec (z * p) (p * k)); auto; exfalso; [apply Ne; assert (z = k) by nia; subst z; ring|nia]. }
        assert (TSk : T (k + 1) (p * k) = true) by (unfold T; rewrite Md, Z.eqb_refl; destruct (Z.leb_spec p (p * k)), (Z.ltb_spec (p * k) (p * (k + 1))); auto; nia).
        rewrite vget_vec by lia. cbn [bind]. unfold A at 1. rewrite Tk.
        assert (EA : (if mm p (p * k) =? 0 then vset (vec (N + 1) (A k)) (p * k) p else Ok (vec (N + 1) (A k))) = Ok (vec (N + 1) (A (k + 1)))).
        { unfold mm at 1. destruct (Z.leb_spec 2 (p * k)); [|lia]. cbn [andb]. destruct (Z.ltb_spec (lpf (p * k)) p) as [X|X].
          - destruct (Z.eqb_spec (lpf (p * k)) 0); [lia|]. f_equal. apply vec_ext. intros q Hq0. unfold A. destruct (Z.eq_dec q (p * k)) as [->|Ne]; [|now rewrite TS by lia]. rewrite Tk, TSk. symmetry. apply mm_same. lia.
          - cbn [Z.eqb]. rewrite vset_vec by lia. f_equal. apply vec_ext. intros q Hq0. unfold A, fput. destruct (Z.eqb_spec q (p * k)) as [->|Ne]; [|now rewrite TS by lia]. rewrite TSk. unfold mm. destruct (Z.leb_spec 2 (p * k)); [|lia]. cbn [andb]. destruct (Z.ltb_spec (lpf (p * k)) (p + 1)); lia. }
        rewrite EA. cbn [bind]. rewrite vget_vec by lia. cbn [bind]. rewrite vset_vec by lia. cbn [bind]. eexists. split; [reflexivity|]. f_equal. apply vec_ext. intros q Hq0. unfold B, fput. destruct (Z.eqb_spec q (p * k)) as [->|Ne]; [|destruct (q =? 0); auto; now rewrite TS by lia].
        destruct (Z.eqb_spec (p * k) 0); [lia|]. rewrite Tk, TSk, mu_S by lia. rewrite (proj2 (primeb_spec p) Prp), Md, Z.eqb_refl. cbn [andb]. rewrite Z.rem_mod_nonneg by nia. reflexivity.
      + f_equal; apply vec_ext; intros q Hq.
        * unfold A. destruct (T (N / p + 1) q) eqn:E1; auto. symmetry. apply mm_same. intros (H2 & X). destruct (lpf_ok q H2) as (_ & Dq & _). rewrite X in Dq. unfold T in E1. rewrite (proj2 (dvd q p ltac:(lia)) Dq) in E1. destruct Dq as (z & ->). destruct (Z.leb_spec p (z * p)) as [Lz|Lz]; [|clear - Lz H2 Hp; assert (0 < z) by nia; nia]. cbn [andb] in E1. destruct (Z.ltb_spec (z * p) (p * (N / p + 1))); [discriminate|]. pose proof (Z.mul_succ_div_gt N p ltac:(lia)). lia.
        * unfold B, mu0. destruct (Z.eqb_spec q 0) as [|Nq]; auto. destruct (T (N / p + 1) q) eqn:E1; auto. rewrite mu_S by lia. destruct (q mod p =? 0) eqn:X; [|now rewrite andb_false_r]. exfalso. unfold T in E1. rewrite X in E1. cbn [andb] in E1. rewrite dvd in X by lia. destruct X as (z & ->). destruct (Z.leb_spec p (z * p)) as [Lz|Lz]; [|clear - Lz Hq Nq Hp; assert (0 < z) by nia; nia]. cbn [andb] in E1. destruct (Z.ltb_spec (z * p) (p * (N / p + 1))); [discriminate|]. pose proof (Z.mul_succ_div_gt N p ltac:(lia)). lia.
  Qed.
  Lemma mu_spec n : 1 <= n <= N -> moebius n (mu (Z.max 2 (N + 1)) n).
  Proof.
    intros Hn. unfold mu. set (P := Z.max 2 (N + 1)). assert (HP : N < P) by lia. clearbody P. destruct (sq P n) eqn:E.
    - left. split; auto. apply existsb_exists in E as (p & _ & E). apply andb_prop in E as (E1 & E2). apply primeb_spec in E1. pose proof (prime2 p E1). rewrite dvd in E2 by nia. eauto.
    - right. split.
      + intros p Pp Dv. pose proof (prime2 p Pp). assert (X : sq P n = true); [|congruence]. apply existsb_exists. exists p. pose proof (Z.divide_pos_le (p * p) n ltac:(lia) Dv). assert (p <= p * p) by nia; split; [apply In_zrange; lia|]. rewrite (proj2 (primeb_spec p) Pp). apply dvd; [nia|auto].
      + exists (np P n). split; [apply NoDup_filter, NoDup_zrange|]. split; auto. intros p. unfold np. rewrite filter_In, In_zrange, andb_true_iff, primeb_spec. split.
        * intros (_ & Pp & Dv). pose proof (prime2 p Pp). rewrite dvd in Dv by lia. auto.
        * intros (Pp & Dv). pose proof (prime2 p Pp). pose proof (Z.divide_pos_le p n ltac:(lia) Dv). split; [lia|]. split; auto. apply dvd; [lia|auto].
  Qed.
  Lemma mm_spec n : 2 <= n <= N -> mm (Z.max 2 (N + 1)) n = lpf n.
  Proof. intros H. unfold mm. destruct (lpf_ok n ltac:(lia)) as (B & _). destruct (Z.leb_spec 2 n), (Z.ltb_spec (lpf n) (Z.max 2 (N + 1))); auto; lia. Qed.
  Lemma mobius_ok : exists f, mob_new N = Ok f /\
    (forall n, 1 <= n <= N -> exists x, mob_at f n = Ok x /\ moebius n x) /\
    (forall n, 2 <= n <= N -> exists p, mob_mpf f n = Ok p /\ least_prime_factor n p) /\
    (forall n, 1 <= n <= N -> exists l, mob_factorize f n = Ok l /\ factorization n l) /\
    (forall n, 0 <= n <= N -> exists b, mob_is_prime f n = Ok b /\ (b = true <-> prime n)).
  Proof.
    eexists. split; [exact new_ok|]. split; [|split; [|split]]; intros n Hn; unfold mob_at, mob_mpf, mob_factorize, mob_is_prime; cbn [mf_n mf_mpf mf_dat].
    - destruct (Z.ltb_spec 0 n), (Z.leb_spec n N); try lia. cbn [andb assert_ bind]. rewrite vget_vec by lia. eexists. split; [reflexivity|]. unfold mu0. destruct (Z.eqb_spec n 0); [lia|]. now apply mu_spec.
    - destruct (Z.leb_spec 2 n), (Z.leb_spec n N); try lia. cbn [andb assert_ bind]. rewrite vget_vec by lia. eexists. split; [reflexivity|]. rewrite mm_spec by auto. apply lpf_least. lia.
    - destruct (Z.ltb_spec 0 n), (Z.leb_spec n N); try lia. cbn [andb assert_ bind]. apply (factor_loop (vget (vec (N + 1) (mm (Z.max 2 (N + 1)))))); [lia|]. intros m Hm. rewrite vget_vec by lia. f_equal. apply mm_spec. lia.
    - destruct (Z.leb_spec n N); try lia. cbn [assert_ bind]. destruct (Z.leb_spec 2 n) as [L|L].
      + rewrite vget_vec by lia. cbn [bind]. eexists. split; [reflexivity|]. rewrite mm_spec by lia. rewrite Z.eqb_eq. now apply lpf_self.
      + eexists. split; [reflexivity|]. split; [discriminate|]. intros X. apply prime2 in X. lia.
  Qed.
End New.
