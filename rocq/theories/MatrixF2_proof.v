(* det, inv and rank *)
From Verif Require Import Base BaseLemmas ListZ ListMore MatrixF2_model MatrixF2_spec MatrixF2_lin MatrixF2_elim.

Notation brow := (row (@nil bool)).
Notation bmat m := (mat (@nil bool) (fun r : list bool => zlen r = m)).
Notation bequiv m := (equiv (@nil bool) (fun r : list bool => zlen r = m) plus).

Lemma shape_mat n m a : shape n m a <-> bmat m n a.
Proof.
  split; intros [Z1 W]; split; auto.
  - intros i Hi. apply W. apply vget_In with i. apply vget_row. lia.
  - intros r Hr. apply In_vget in Hr as (i & Hi & E). rewrite (vget_row []) in E by auto. injection E as <-. apply W. lia.
Qed.
Lemma kernel_row n m a x : zlen a = n -> (kernel m a x <-> zlen x = m /\ forall i, 0 <= i < n -> inner (brow a i) x = false).
Proof.
  intros Z1. split; intros [Zx K]; split; auto.
  - intros i Hi. apply K. apply vget_In with i. apply vget_row. lia.
  - intros r Hr. apply In_vget in Hr as (i & Hi & E). rewrite (vget_row []) in E by auto. injection E as <-. apply K. lia.
Qed.
Lemma bs_xor_ok x y m : zlen x = m -> zlen y = m -> bs_xor x y = Ok (plus x y).
Proof. intros. unfold bs_xor. rewrite (proj2 (Z.eqb_eq _ _)) by lia. cbn. now rewrite map2_plus. Qed.
Lemma test_bits_ok m (r : list bool) j : zlen r = m -> 0 <= j < m -> test_bits j r = Ok (bit r j).
Proof. intros. apply vget_bit. lia. Qed.

Definition b_below m := clear_below_ok (@nil bool) test_bits bs_xor (fun r => zlen r = m) m (fun j r => bit r j) plus
  (fun r j => test_bits_ok m r j) (fun r s Hr Hs => bs_xor_ok r s m Hr Hs)
  (fun r s (Hr : zlen r = m) (Hs : zlen s = m) => eq_trans (plus_len r s (eq_trans Hr (eq_sym Hs))) Hr)
  (fun r s j (Hr : zlen r = m) (Hs : zlen s = m) (Hj : 0 <= j < m) => bit_plus r s j (eq_trans Hr (eq_sym Hs)) (proj1 Hj)).
Definition b_above m := clear_above_ok (@nil bool) test_bits bs_xor (fun r => zlen r = m) m (fun j r => bit r j) plus
  (fun r j => test_bits_ok m r j) (fun r s Hr Hs => bs_xor_ok r s m Hr Hs)
  (fun r s (Hr : zlen r = m) (Hs : zlen s = m) => eq_trans (plus_len r s (eq_trans Hr (eq_sym Hs))) Hr)
  (fun r s j (Hr : zlen r = m) (Hs : zlen s = m) (Hj : 0 <= j < m) => bit_plus r s j (eq_trans Hr (eq_sym Hs)) (proj1 Hj)).
Definition b_tri m := triangulate_ok (@nil bool) test_bits bs_xor (fun r => zlen r = m) m (fun j r => bit r j) plus
  (fun r j => test_bits_ok m r j) (fun r s Hr Hs => bs_xor_ok r s m Hr Hs)
  (fun r s (Hr : zlen r = m) (Hs : zlen s = m) => eq_trans (plus_len r s (eq_trans Hr (eq_sym Hs))) Hr)
  (fun r s j (Hr : zlen r = m) (Hs : zlen s = m) (Hj : 0 <= j < m) => bit_plus r s j (eq_trans Hr (eq_sym Hs)) (proj1 Hj)).
Definition b_at m := at_ok (@nil bool) test_bits bs_xor (fun r => zlen r = m) m (fun j r => bit r j) plus
  (fun r j => test_bits_ok m r j) (fun r s Hr Hs => bs_xor_ok r s m Hr Hs)
  (fun r s (Hr : zlen r = m) (Hs : zlen s = m) => eq_trans (plus_len r s (eq_trans Hr (eq_sym Hs))) Hr)
  (fun r s j (Hr : zlen r = m) (Hs : zlen s = m) (Hj : 0 <= j < m) => bit_plus r s j (eq_trans Hr (eq_sym Hs)) (proj1 Hj)).

Lemma b_equiv_kernel n m a a' : bmat m n a -> bmat m n a' -> bequiv m n a a' -> forall x, kernel m a x <-> kernel m a' x.
Proof.
  intros [Z1 W] [Z2 W2] E x. rewrite (kernel_row n m a), (kernel_row n m a') by auto.
  specialize (E (fun r => inner r x)). unfold linear, vanish in E.
  rewrite E by (intros; apply inner_plus_l; lia). reflexivity.
Qed.

(* consecutive integers *)
Fixpoint zs (lo : Z) (k : nat) : list Z := match k with O => [] | S k => lo :: zs (lo + 1) k end.
Lemma In_zs k : forall lo x, In x (zs lo k) <-> lo <= x < lo + Z.of_nat k.
Proof. induction k; intros lo x; cbn [zs In]; [lia|]. rewrite IHk. lia. Qed.
Lemma zlen_zs lo k : zlen (zs lo k) = Z.of_nat k.
Proof. unfold zlen. f_equal. revert lo. induction k; intros; cbn; auto. Qed.
Lemma triangular_zs m (f : Z -> list bool) (p : Z -> Z) k : forall lo,
  (forall i, lo <= i < lo + Z.of_nat k -> 0 <= p i < m /\ bit (f i) (p i) = true /\ forall l, i < l < lo + Z.of_nat k -> bit (f l) (p i) = false) ->
  triangular m (map (fun i => (f i, p i)) (zs lo k)).
Proof.
  induction k; intros lo H; cbn [zs map triangular]; auto.
  destruct (H lo ltac:(lia)) as (A & B & C). split; auto. split; auto. split.
  - intros r' p' Hin. apply in_map_iff in Hin as (l & E & Hl). injection E as <- <-. apply In_zs in Hl. apply C. lia.
  - apply IHk. intros i Hi. destruct (H i ltac:(lia)) as (A' & B' & C'). split; auto. split; auto. intros l Hl. apply C'. lia.
Qed.
Lemma kernel_count n m a r (p : Z -> Z) : zlen a = n -> 0 <= m -> 0 <= r <= n ->
  (forall i, 0 <= i < r -> 0 <= p i < m /\ bit (brow a i) (p i) = true /\ forall l, i < l < r -> bit (brow a l) (p i) = false) ->
  (forall i, r <= i < n -> forall x, zlen x = m -> inner (brow a i) x = false) ->
  r <= m /\ dim (kernel m a) (m - r).
Proof.
  intros Z1 Hm Hr T Z0. destruct (triangular_count m (map (fun i => (brow a i, p i)) (zs 0 (Z.to_nat r))) Hm) as (Le & D).
  { apply triangular_zs. intros i Hi. destruct (T i ltac:(lia)) as (A & B & C). split; auto. split; auto. intros l Hl. apply C. lia. }
  rewrite zlen_map, zlen_zs, Z2Nat.id in Le, D by lia. split; auto.
  eapply dim_ext; [|exact D]. intro x. rewrite (kernel_row n m a) by auto. rewrite map_map. cbn [fst]. unfold kernel. split; intros (Zx & K); split; auto.
  - intros i Hi. destruct (Z_lt_le_dec i r); [|apply Z0; auto; lia]. apply K. apply (in_map (fun i => brow a i)). apply In_zs. lia.
  - intros s Hs. apply in_map_iff in Hs as (i & <- & Hi). apply In_zs in Hi. apply K. lia.
Qed.
Lemma dim0_unique P x y : dim P 0 -> P x -> P y -> x = y.
Proof.
  intros (L & N & I & Z1) X Y. apply I in X, Y. change (2 ^ 0) with 1 in Z1. destruct L as [|a [|b L]]; try (unfold zlen in Z1; cbn in Z1; lia).
  destruct X as [<-|[]], Y as [<-|[]]. reflexivity.
Qed.
Lemma dim1_other P x : dim P 1 -> exists y, P y /\ y <> x.
Proof.
  intros (L & N & I & Z1). change (2 ^ 1) with 2 in Z1. destruct L as [|a [|b L]]; try (unfold zlen in Z1; cbn in Z1; lia).
  inversion N; subst. destruct (list_eq_dec Bool.bool_dec a x) as [->|Ne].
  - exists b. split; [apply I; right; now left|]. intros ->. apply H1. now left.
  - exists a. split; auto. apply I. now left.
Qed.

Lemma bit_firstn r c j : 0 <= j < c -> c <= zlen r -> bit (firstn (Z.to_nat c) r) j = bit r j.
Proof. intros. apply bit_vget. rewrite vget_firstn by lia. apply vget_bit. lia. Qed.
Lemma inner_zero_bits r x : (forall j, 0 <= j < zlen r -> bit r j = false) -> inner r x = false.
Proof.
  intros H. replace r with (zeros (zlen r)); [apply inner_zeros_l|]. pose proof (zlen_nonneg r).
  apply bits_eq; rewrite zeros_len; auto. intros j Hj. now rewrite bit_zeros, H.
Qed.
Lemma inner_pad r x k : zlen x <= zlen r -> inner r (x ++ zeros k) = inner (firstn (Z.to_nat (zlen x)) r) x.
Proof.
  intros H. pose proof (zlen_nonneg x). rewrite <- (firstn_skipn (Z.to_nat (zlen x)) r) at 1.
  rewrite inner_app by (rewrite zlen_firstn; lia). now rewrite inner_zeros, xorb_false_r.
Qed.
(* a zero on the diagonal of a triangular matrix gives a non-zero element of the kernel *)
Lemma singular n a i : bmat n n a -> 0 <= i < n ->
  (forall c, 0 <= c < i -> bit (brow a c) c = true /\ forall k, c < k < n -> bit (brow a k) c = false) ->
  (forall k, i <= k < n -> bit (brow a k) i = false) ->
  exists x, kernel n a x /\ x <> zeros n.
Proof.
  intros [Z1 W] Hi T Z0. set (f := fun k => firstn (Z.to_nat (i + 1)) (brow a k)).
  assert (Lf : forall k, 0 <= k < n -> zlen (f k) = i + 1) by (intros; unfold f; rewrite zlen_firstn; rewrite ?W; lia).
  assert (Bf : forall k j, 0 <= k < n -> 0 <= j <= i -> bit (f k) j = bit (brow a k) j) by (intros; unfold f; rewrite bit_firstn; rewrite ?W; try lia; auto).
  destruct (triangular_count (i + 1) (map (fun k => (f k, k)) (zs 0 (Z.to_nat i))) ltac:(lia)) as (_ & D).
  { apply triangular_zs with (p := fun k => k). intros k Hk. destruct (T k ltac:(lia)) as [A B]. split; [lia|]. split; [now rewrite Bf by lia|].
    intros l Hl. rewrite Bf by lia. apply B. lia. }
  rewrite zlen_map, zlen_zs, Z2Nat.id in D by lia. replace (i + 1 - i) with 1 in D by lia.
  destruct (dim1_other _ (zeros (i + 1)) D) as (y & (Zy & K) & Ne).
  exists (y ++ zeros (n - (i + 1))). split.
  - rewrite (kernel_row n n a) by auto. split; [rewrite zlen_app, zeros_len; lia|]. intros k Hk.
    rewrite inner_pad by (rewrite W; lia). rewrite Zy. fold (f k). destruct (Z_lt_le_dec k i).
    + apply K. rewrite map_map. cbn [fst]. apply (in_map f). apply In_zs. lia.
    + apply inner_zero_bits. intros j Hj. rewrite Lf in Hj by auto. rewrite Bf by lia.
      destruct (Z.eq_dec j i) as [->|]; [apply Z0; lia|]. apply T; lia.
  - intros E. apply Ne. apply bits_eq; [rewrite zeros_len; lia|]. intros j Hj.
    assert (Q : bit (y ++ zeros (n - (i + 1))) j = bit (zeros n) j) by now rewrite E.
    rewrite bit_app1, bit_zeros in Q by auto. now rewrite bit_zeros.
Qed.
Lemma zeros_kernel m a : 0 <= m -> kernel m a (zeros m).
Proof. intros. split; [now apply zeros_len|]. intros. apply inner_zeros. Qed.

Lemma det_ok n a : 0 <= n -> shape n n a ->
  exists b, mf_det n a = Ok b /\ (b = true <-> forall x, kernel n a x -> x = zeros n).
Proof.
  intros Hn S. apply shape_mat in S. unfold mf_det.
  destruct (b_tri n n a S ltac:(lia)) as (oa & E & Q). rewrite E. cbn [bind]. eexists. split; [reflexivity|].
  destruct oa as [a'|].
  - destruct Q as (M & Eq & T). split; auto. intros _ x Kx. apply (b_equiv_kernel n n a a' S M Eq) in Kx.
    destruct (kernel_count n n a' n (fun i => i) (proj1 M) Hn ltac:(lia)) as (_ & D).
    + intros i Hi. destruct (T i Hi) as [A B]. split; auto.
    + intros; lia.
    + rewrite Z.sub_diag in D. apply (dim0_unique _ _ _ D); auto. now apply zeros_kernel.
  - destruct Q as (a' & i & M & Eq & Hi & T & Z0). split; [discriminate|]. intros U.
    destruct (singular n a' i M Hi T Z0) as (x & Kx & Nx). exfalso. apply Nx, U.
    now apply (b_equiv_kernel n n a a' S M Eq).
Qed.

(* rank *)
Lemma rank_ok n m a d : 0 <= n -> 0 <= m -> shape n m a -> 0 <= d -> dim (kernel m a) d -> m <= n \/ m - d < n ->
  mf_rank n m a = Ok (m - d).
Proof.
  intros Hn Hm S Hd D Side. apply shape_mat in S. unfold mf_rank.
  assert (F : exists ar, for_ 0 m (fun j '(a, r) => let* a := clear_below test_bits bs_xor n a r j in
    let* b := at_ test_bits a r j in Ok (a, if b then r + 1 else r)) (a, 0) = Ok ar /\
    (fun j ar => let '(a', r) := ar in bmat m n a' /\ bequiv m n a a' /\ 0 <= r <= n /\ r <= j /\
      (exists p, forall i, 0 <= i < r -> 0 <= p i < j /\ bit (brow a' i) (p i) = true /\ forall k, i < k < n -> bit (brow a' k) (p i) = false) /\
      forall i c, r <= i < n -> 0 <= c < j -> bit (brow a' i) c = false) m ar).
  { apply (for_inv (fun j ar => let '(a', r) := ar in bmat m n a' /\ bequiv m n a a' /\ 0 <= r <= n /\ r <= j /\
      (exists p, forall i, 0 <= i < r -> 0 <= p i < j /\ bit (brow a' i) (p i) = true /\ forall k, i < k < n -> bit (brow a' k) (p i) = false) /\
      forall i c, r <= i < n -> 0 <= c < j -> bit (brow a' i) c = false)); auto.
    - split; auto. split; [apply equiv_refl|]. split; [lia|]. split; [lia|]. split; [exists (fun i => i); intros; lia|intros; lia].
    - intros j [a1 r] Hj (M & Eq & Hr & Hrj & (p & P) & Z0).
      assert (r < n).
      { destruct (Z_lt_le_dec r n); auto. exfalso. assert (r = n) by lia. subst r.
        destruct (kernel_count n m a1 n p (proj1 M) Hm ltac:(lia)) as (Le & D1).
        - intros i Hi. destruct (P i Hi) as (A & B & C). split; [lia|]. split; auto.
        - intros; lia.
        - assert (D2 : dim (kernel m a) (m - n)) by (eapply dim_ext; [|exact D1]; intro; symmetry; now apply (b_equiv_kernel n m a a1)).
          pose proof (dim_unique (kernel m a) d (m - n) Hd ltac:(lia) D D2). lia. }
      destruct (b_below m n a1 r j M ltac:(lia) ltac:(lia)) as (a2 & E2 & M2 & Eq2 & L2 & B2 & C2). rewrite E2. cbn [bind].
      rewrite (b_at m n) by (auto; lia). cbn [bind]. eexists. split; [reflexivity|]. cbn beta iota.
      assert (P2 : forall i, 0 <= i < r -> 0 <= p i < j /\ bit (brow a2 i) (p i) = true /\ forall k, i < k < n -> bit (brow a2 k) (p i) = false).
      { intros i Hi. destruct (P i Hi) as (A & B & C). split; auto. split; [rewrite L2 by lia; auto|]. intros k Hk.
        destruct (Z_lt_le_dec k r); [rewrite L2 by lia; apply C; lia|].
        apply (C2 (p i)); [lia| |lia]. intros u Hu. apply C. lia. }
      assert (Z2 : forall i c, r <= i < n -> 0 <= c < j -> bit (brow a2 i) c = false).
      { intros i c Hi Hc. apply (C2 c); [lia| |lia]. intros u Hu. apply Z0; lia. }
      split; auto. split; [eapply equiv_trans; [exact Eq|exact Eq2]|].
      destruct (bit (brow a2 r) j) eqn:Bj.
      + split; [lia|]. split; [lia|]. split.
        * exists (fun i => if i =? r then j else p i). intros i Hi. destruct (Z.eqb_spec i r) as [->|Ne].
          -- split; [lia|]. split; auto.
          -- destruct (P2 i ltac:(lia)) as (A & B & C). split; [lia|]. split; auto.
        * intros i c Hi Hc. destruct (Z.eq_dec c j) as [->|]; [apply B2; lia|apply Z2; lia].
      + split; [lia|]. split; [lia|]. split.
        * exists p. intros i Hi. destruct (P2 i Hi) as (A & B & C). split; [lia|]. split; auto.
        * intros i c Hi Hc. destruct (Z.eq_dec c j) as [->|]; [|apply Z2; lia].
          destruct (Z.eq_dec i r) as [->|]; auto. apply B2; lia. }
  destruct F as ([a' r] & E & M & Eq & Hr & Hrj & (p & P) & Z0). rewrite E. cbn [bind]. f_equal.
  destruct (kernel_count n m a' r p (proj1 M) Hm Hr) as (Le & D1).
  - intros i Hi. destruct (P i Hi) as (A & B & C). split; auto. split; auto. intros l Hl. apply C. lia.
  - intros i Hi x Zx. apply inner_zero_bits. intros j Hj. rewrite (proj2 M) in Hj by lia. now apply Z0.
  - assert (D2 : dim (kernel m a) (m - r)) by (eapply dim_ext; [|exact D1]; intro; symmetry; now apply (b_equiv_kernel n m a a')).
    pose proof (dim_unique (kernel m a) d (m - r) Hd ltac:(lia) D D2). lia.
Qed.
