(* BinaryTrie: the tree of counts *)
From Verif Require Import Base BaseLemmas ListZ ListMore Seq Sorting Hist Trie_model Trie_spec Heap_spec Wavelet_model Wavelet_spec Wavelet_proof Wavelet_proof2 Wavelet_proof3 PArray_proof2.
From Coq Require Import Permutation Sorted.

Notation cnt := (@count_if Z).
Lemma tbit_of v i : tbit v i = bit_of v (Z.of_nat i).
Proof. reflexivity. Qed.
Lemma tbit_tb v i : tbit v i = Z.testbit v (Z.of_nat i).
Proof. rewrite tbit_of. apply bit_of_testbit. lia. Qed.
Definition f0 (k : nat) (a : list Z) := filter (fun v => negb (tbit v k)) a.
Definition f1 (k : nat) (a : list Z) := filter (fun v => tbit v k) a.
Definition fb (b : bool) (k : nat) (a : list Z) := if b then f1 k a else f0 k a.
Lemma fb_eq b k a : fb b k a = filter (fun v => Bool.eqb b (tbit v k)) a.
Proof. destruct b; unfold fb, f0, f1; apply filter_ext; intro v; destruct (tbit v k); reflexivity. Qed.

Fixpoint rep (k : nat) (t : trie) (a : list Z) : Prop :=
  match t with
  | Nil => a = []
  | Nd s c0 c1 => s = zlen a /\ match k with O => c0 = Nil /\ c1 = Nil | S k => rep k c0 (f0 k a) /\ rep k c1 (f1 k a) end
  end.
Lemma rep_size k t a : rep k t a -> tsize t = zlen a.
Proof. destruct k, t; cbn; [intros ->; auto|tauto|intros ->; auto|tauto]. Qed.
Lemma rep_perm k : forall t a a', Permutation a a' -> rep k t a -> rep k t a'.
Proof.
  induction k as [|k IH]; intros [|s c0 c1] a a' P; cbn [rep].
  - intros ->. now apply Permutation_nil.
  - now rewrite (perm_zlen _ _ P).
  - intros ->. now apply Permutation_nil.
  - rewrite (perm_zlen _ _ P). intros (-> & H0 & H1). split; auto. split; [apply (IH _ (f0 k a))|apply (IH _ (f1 k a))]; auto; now apply perm_filter.
Qed.
Lemma rep_child k s c0 c1 a (b : bool) : rep (S k) (Nd s c0 c1) a -> rep k (if b then c1 else c0) (fb b k a).
Proof. cbn. intros (_ & H0 & H1). destruct b; auto. Qed.
Lemma rep_nil k : rep k Nil []. Proof. destruct k; reflexivity. Qed.
Lemma rep_norm k t a : rep k t a -> let '(s, c0, c1) := match t with Nil => (0, Nil, Nil) | Nd s c0 c1 => (s, c0, c1) end in rep k (Nd s c0 c1) a.
Proof. destruct t; auto. destruct k; cbn; intros ->; cbn; auto using rep_nil. Qed.

Lemma filter_vrep {A} (p : A -> bool) n v : filter p (vrep n v) = if p v then vrep n v else [].
Proof. unfold vrep. induction (Z.to_nat n) as [|m IH]; cbn [repeat filter]; [now destruct (p v)|]. destruct (p v) eqn:E; [f_equal|]; auto. Qed.
Lemma fb_vrep b k n v : fb b k (vrep n v) = if Bool.eqb b (tbit v k) then vrep n v else [].
Proof. now rewrite fb_eq, filter_vrep. Qed.
Lemma fb_app b k u v : fb b k (u ++ v) = fb b k u ++ fb b k v.
Proof. rewrite !fb_eq. apply filter_app. Qed.

(* v and w have the same lowest k bits *)
Fixpoint agr (k : nat) (v w : Z) : bool := match k with O => true | S k => Bool.eqb (tbit v k) (tbit w k) && agr k v w end.
Lemma agr_spec k v w : agr k v w = true <-> forall i, (i < k)%nat -> tbit v i = tbit w i.
Proof.
  induction k as [|k IH]; cbn [agr]; [split; [lia|auto]|]. rewrite andb_true_iff, eqb_true_iff, IH. split.
  - intros (H1 & H2) i Hi. destruct (Nat.eq_dec i k) as [->|]; auto. apply H2. lia.
  - intro H. split; [apply H; lia|]. intros i Hi. apply H. lia.
Qed.
Lemma word_bits L v i : 0 <= v < 2 ^ Z.of_nat L -> (L <= i)%nat -> tbit v i = false.
Proof.
  intros H Hi. rewrite tbit_tb. rewrite Z.testbit_eqb by lia. rewrite Z.div_small; auto. split; [lia|].
  pose proof (Z.pow_le_mono_r 2 (Z.of_nat L) (Z.of_nat i) ltac:(lia) ltac:(lia)). lia.
Qed.
Lemma tbit_inj v w : 0 <= v -> 0 <= w -> (forall i, tbit v i = tbit w i) -> v = w.
Proof. intros Hv Hw H. apply Z.bits_inj'. intros n Hn. specialize (H (Z.to_nat n)). rewrite !tbit_tb, Z2Nat.id in H by auto. exact H. Qed.
Lemma agr_eq L v w : 0 <= v < 2 ^ Z.of_nat L -> 0 <= w < 2 ^ Z.of_nat L -> agr L v w = (v =? w).
Proof.
  intros Hv Hw. destruct (Z.eqb_spec v w) as [->|N]; [now apply agr_spec|]. destruct (agr L v w) eqn:E; auto. exfalso. apply N.
  apply tbit_inj; try lia. intro i. destruct (Nat.lt_ge_cases i L); [rewrite agr_spec in E; auto|]. now rewrite !(word_bits L).
Qed.
Lemma cnt_fb k v a b (p q : Z -> bool) : tbit v k = b -> (forall w, q w = Bool.eqb b (tbit w k) && p w) -> cnt q a = cnt p (fb b k a).
Proof.
  intros E H. rewrite fb_eq. unfold count_if. rewrite filter_filter. f_equal. apply filter_ext. auto.
Qed.
Lemma cnt_ext (p q : Z -> bool) a : (forall w, In w a -> p w = q w) -> cnt p a = cnt q a.
Proof. intro H. unfold count_if. f_equal. now apply filter_ext_in. Qed.

Lemma insert_ok v num : 0 <= num -> forall k t a, rep k t a ->
  fst (trie_insert k t v num) = num + cnt (agr k v) a /\ rep k (snd (trie_insert k t v num)) (vrep num v ++ a).
Proof.
  intro Hn. assert (Zn : forall a : list Z, zlen (vrep num v ++ a) = zlen a + num) by (intro a; rewrite zlen_app, zlen_vrep; lia).
  induction k as [|k IH]; intros t a R; apply rep_norm in R; cbn [trie_insert];
    destruct (match t with Nil => (0, Nil, Nil) | Nd s c0 c1 => (s, c0, c1) end) as ((s, c0), c1); pose proof (rep_size _ _ _ R) as Es; cbn [tsize] in Es.
  - cbn in R. destruct R as (_ & -> & ->). cbn [fst snd rep agr]. unfold count_if. rewrite filter_all by auto. rewrite Zn. split; [lia|]. split; auto. lia.
  - pose proof (rep_child _ _ _ _ _ true R) as R1. pose proof (rep_child _ _ _ _ _ false R) as R0. cbn iota in *.
    rewrite (cnt_fb k v a (tbit v k) (agr k v) (agr (S k) v)) by (auto; intro w; reflexivity).
    destruct (tbit v k) eqn:B.
    + destruct (IH _ _ R1) as (H1 & H2). destruct (trie_insert k c1 v num) as (r, c'). cbn [fst snd] in *. split; auto.
      cbn [rep]. split; [rewrite Zn; lia|]. change (f0 k) with (fb false k). change (f1 k) with (fb true k). rewrite !fb_app, !fb_vrep, B. cbn [Bool.eqb app]. auto.
    + destruct (IH _ _ R0) as (H1 & H2). destruct (trie_insert k c0 v num) as (r, c'). cbn [fst snd] in *. split; auto.
      cbn [rep]. split; [rewrite Zn; lia|]. change (f0 k) with (fb false k). change (f1 k) with (fb true k). rewrite !fb_app, !fb_vrep, B. cbn [Bool.eqb app]. auto.
Qed.

Lemma zlen_fb k a : zlen a = zlen (f0 k a) + zlen (f1 k a).
Proof. symmetry. exact (zlen_filter_split (fun v => tbit v k) a). Qed.
Lemma erase_ok v num : 0 <= num -> forall k t a, t <> Nil -> rep k t a -> (forall w, In w a -> agr k v w = true -> w = v) ->
  exists r t', trie_erase k t v num = Ok (r, t') /\ t' <> Nil /\ r = Z.min (cnt (Z.eqb v) a) num /\ forall a', Permutation a (vrep r v ++ a') -> rep k t' a'.
Proof.
  intro Hn. induction k as [|k IH]; intros [|s c0 c1] a N R U; try tauto; cbn [trie_erase].
  - cbn in R. destruct R as (-> & -> & ->). assert (E : cnt (Z.eqb v) a = zlen a).
    { unfold count_if. rewrite filter_all; auto. intros w Hw. apply Z.eqb_eq. symmetry. now apply U. }
    rewrite E. eexists. eexists. split; [reflexivity|]. split; [congruence|]. split; auto. intros a' P. cbn [rep]. split; auto.
    apply perm_zlen in P. rewrite zlen_app, zlen_vrep in P by (pose proof (zlen_nonneg a); lia). lia.
  - pose proof (rep_child _ _ _ _ _ true R) as R1. pose proof (rep_child _ _ _ _ _ false R) as R0. cbn iota in *.
    assert (Hc : cnt (Z.eqb v) a = cnt (Z.eqb v) (fb (tbit v k) k a)).
    { apply (cnt_fb k v); auto. intro w. destruct (Z.eqb_spec v w) as [->|]; [|now rewrite andb_false_r]. now rewrite eqb_reflx. }
    assert (U' : forall w, In w (fb (tbit v k) k a) -> agr k v w = true -> w = v).
    { intros w Hw A. rewrite fb_eq in Hw. apply filter_In in Hw. destruct Hw as (Hw & E). apply U; auto. cbn [agr]. now rewrite E. }
    assert (Pn : forall r a', Permutation a (vrep r v ++ a') -> forall b, Permutation (fb b k a) ((if Bool.eqb b (tbit v k) then vrep r v else []) ++ fb b k a')).
    { intros r a' P b. rewrite <- fb_vrep, <- fb_app. rewrite !fb_eq. now apply perm_filter. }
    destruct (tbit v k) eqn:B.
    + destruct c1 as [|s1 d0 d1] eqn:C1.
      * exists 0. eexists. split; [reflexivity|]. split; [congruence|]. assert (E : fb true k a = []) by (destruct k; exact R1). split.
        { rewrite Hc, E. unfold count_if. cbn. change (zlen []) with 0. lia. }
        intros a' P. apply (rep_perm _ _ a); auto.
      * destruct (IH (Nd s1 d0 d1) _ ltac:(discriminate) R1 U') as (r & t' & E & N' & Er & H'). rewrite E. cbn [bind]. eexists. eexists. split; [reflexivity|]. split; [congruence|].
        split; [now rewrite Hc|]. intros a' P. pose proof (Pn _ _ P true) as P1. pose proof (Pn _ _ P false) as P0. cbn [Bool.eqb app] in P1, P0.
        pose proof (H' _ P1) as Q1. pose proof (rep_perm _ _ _ _ P0 R0) as Q0. cbn [rep]. split; auto.
        rewrite (rep_size _ _ _ Q1), (rep_size _ _ _ Q0). pose proof (zlen_fb k a'). unfold fb. lia.
    + destruct c0 as [|s1 d0 d1] eqn:C1.
      * exists 0. eexists. split; [reflexivity|]. split; [congruence|]. assert (E : fb false k a = []) by (destruct k; exact R0). split.
        { rewrite Hc, E. unfold count_if. cbn. change (zlen []) with 0. lia. }
        intros a' P. apply (rep_perm _ _ a); auto.
      * destruct (IH (Nd s1 d0 d1) _ ltac:(discriminate) R0 U') as (r & t' & E & N' & Er & H'). rewrite E. cbn [bind]. eexists. eexists. split; [reflexivity|]. split; [congruence|].
        split; [now rewrite Hc|]. intros a' P. pose proof (Pn _ _ P true) as P1. pose proof (Pn _ _ P false) as P0. cbn [Bool.eqb app] in P1, P0.
        pose proof (H' _ P0) as Q1. pose proof (rep_perm _ _ _ _ P1 R1) as Q0. cbn [rep]. split; auto.
        rewrite (rep_size _ _ _ Q1), (rep_size _ _ _ Q0). pose proof (zlen_fb k a'). unfold fb. lia.
Qed.
Lemma take_copies v (a : list Z) : forall r, 0 <= r <= cnt (Z.eqb v) a -> exists a', Permutation a (vrep r v ++ a').
Proof.
  induction a as [|w a IH]; intros r H.
  - unfold count_if in H. cbn in H. change (zlen []) with 0 in H. assert (r = 0) by lia. subst. exists []. constructor.
  - unfold count_if in H. cbn [filter] in H. destruct (Z.eqb_spec v w) as [<-|N].
    + rewrite zlen_cons in H. destruct (Z.eq_dec r 0) as [->|]; [exists (v :: a); reflexivity|]. destruct (IH (r - 1)) as (a' & P); [unfold count_if; lia|]. exists a'.
      replace (vrep r v) with (v :: vrep (r - 1) v); [cbn [app]; now constructor|]. unfold vrep. replace (Z.to_nat r) with (S (Z.to_nat (r - 1))) by lia. reflexivity.
    + destruct (IH r H) as (a' & P). exists (w :: a'). rewrite <- Permutation_middle. now constructor.
Qed.

(* agreement on bits l .. k-1 *)
Fixpoint agrl (l : Z) (k : nat) (v w : Z) : bool := match k with O => true | S k' => if Z.of_nat k >? l then Bool.eqb (tbit v k') (tbit w k') && agrl l k' v w else true end.
Lemma prefix_ok v l : forall k t a, rep k t a -> trie_prefix k t v l = cnt (agrl l k v) a.
Proof.
  induction k as [|k IH]; intros t a R.
  - cbn [trie_prefix agrl]. rewrite (rep_size _ _ _ R). unfold count_if. now rewrite filter_all.
  - cbn [trie_prefix agrl]. destruct (Z.of_nat (S k) >? l).
    + destruct t as [|s c0 c1]; [cbn in R; subst; reflexivity|]. rewrite (IH _ _ (rep_child _ _ _ _ _ (tbit v k) R)).
      symmetry. now apply (cnt_fb k v).
    + rewrite (rep_size _ _ _ R). unfold count_if. now rewrite filter_all.
Qed.
Lemma agrl_spec l v w : 0 <= l -> forall k, agrl l k v w = true <-> forall i, l <= Z.of_nat i < Z.of_nat k -> tbit v i = tbit w i.
Proof.
  intro Hl. induction k as [|k IH]; cbn [agrl]; [split; [lia|auto]|]. destruct (Z.gtb_spec (Z.of_nat (S k)) l).
  - rewrite andb_true_iff, eqb_true_iff, IH. split.
    + intros (H1 & H2) i Hi. destruct (Nat.eq_dec i k) as [->|]; auto. apply H2. lia.
    + intro H0. split; [apply H0; lia|]. intros i Hi. apply H0. lia.
  - split; auto. lia.
Qed.
Lemma agrl_word L l v w : 0 <= l -> 0 <= v < 2 ^ Z.of_nat L -> 0 <= w < 2 ^ Z.of_nat L -> agrl l L v w = (Z.shiftr w l =? Z.shiftr v l).
Proof.
  intros Hl Hv Hw.
  assert (T : forall u i, 0 <= i -> Z.testbit (Z.shiftr u l) i = tbit u (Z.to_nat (i + l))).
  { intros u i Hi. rewrite tbit_tb, Z2Nat.id by lia. now rewrite Z.shiftr_spec. }
  destruct (Z.eqb_spec (Z.shiftr w l) (Z.shiftr v l)) as [E|N].
  - apply agrl_spec; auto. intros i Hi. rewrite !tbit_tb. replace (Z.of_nat i) with ((Z.of_nat i - l) + l) by lia. rewrite <- !Z.shiftr_spec by lia. congruence.
  - destruct (agrl l L v w) eqn:E; auto. exfalso. apply N. apply Z.bits_inj'. intros i Hi. rewrite !T by auto.
    destruct (Nat.lt_ge_cases (Z.to_nat (i + l)) L); [|now rewrite !(word_bits L)]. symmetry. apply (agrl_spec l v w Hl L); auto. lia.
Qed.
Lemma agrl_0 k v w : agrl 0 k v w = agr k v w.
Proof. induction k as [|k IH]; cbn [agrl agr]; auto. destruct (Z.gtb_spec (Z.of_nat (S k)) 0); [now rewrite IH|lia]. Qed.

(* u < w judged on the lowest k bits *)
Fixpoint ltl (k : nat) (u w : Z) : bool := match k with O => false | S k => if Bool.eqb (tbit u k) (tbit w k) then ltl k u w else tbit w k end.
Lemma tbit_lxor x v k : tbit (Z.lxor x v) k = xorb (tbit x k) (tbit v k).
Proof. rewrite !tbit_of. apply bit_of_lxor. lia. Qed.
Lemma cnt_split p k a b : cnt p a = cnt p (fb b k a) + cnt p (fb (negb b) k a).
Proof.
  unfold count_if. rewrite !fb_eq, !filter_filter.
  pose proof (zlen_filter_split (fun v => Bool.eqb b (tbit v k)) (filter p a)) as H. rewrite !filter_filter in H.
  rewrite (filter_ext (fun x => Bool.eqb b (tbit x k) && p x) (fun x => p x && Bool.eqb b (tbit x k))) by (intro; apply andb_comm).
  rewrite (filter_ext (fun x => Bool.eqb (negb b) (tbit x k) && p x) (fun x => p x && negb (Bool.eqb b (tbit x k)))).
  - lia.
  - intro w. rewrite andb_comm. f_equal. destruct b, (tbit w k); reflexivity.
Qed.
Lemma trie_lt_ok x v : forall k t a acc, rep k t a -> trie_lt k t x v acc = acc + cnt (fun w => ltl k (Z.lxor x w) v) a.
Proof.
  induction k as [|k IH]; intros t a acc R.
  - cbn [trie_lt ltl]. unfold count_if. rewrite filter_none by auto. change (zlen []) with 0. lia.
  - cbn [trie_lt]. destruct t as [|s c0 c1]; [cbn in R; subst; unfold count_if; cbn; change (zlen []) with 0; lia|].
    rewrite (IH _ _ _ (rep_child _ _ _ _ _ (tbit (Z.lxor x v) k) R)).
    rewrite (rep_size _ _ _ (rep_child _ _ _ _ _ (tbit x k) R)).
    rewrite (cnt_split _ k a (tbit (Z.lxor x v) k)).
    assert (E1 : cnt (fun w => ltl (S k) (Z.lxor x w) v) (fb (tbit (Z.lxor x v) k) k a) = cnt (fun w => ltl k (Z.lxor x w) v) (fb (tbit (Z.lxor x v) k) k a)).
    { apply cnt_ext. intros w Hw. rewrite fb_eq in Hw. apply filter_In in Hw. destruct Hw as (_ & Hw). apply eqb_prop in Hw. cbn [ltl]. rewrite tbit_lxor, <- Hw, tbit_lxor.
      rewrite <- xorb_assoc, xorb_nilpotent, xorb_false_l, eqb_reflx. reflexivity. }
    rewrite E1.
    assert (E2 : cnt (fun w => ltl (S k) (Z.lxor x w) v) (fb (negb (tbit (Z.lxor x v) k)) k a) = if tbit v k then zlen (fb (negb (tbit (Z.lxor x v) k)) k a) else 0).
    { rewrite (cnt_ext _ (fun _ => tbit v k)).
      - unfold count_if. destruct (tbit v k); [rewrite filter_all by auto; auto|rewrite filter_none by auto; auto].
      - intros w Hw. rewrite fb_eq in Hw. apply filter_In in Hw. destruct Hw as (_ & Hw). apply eqb_prop in Hw. cbn [ltl]. rewrite tbit_lxor, <- Hw, tbit_lxor. destruct (tbit x k), (tbit v k); reflexivity. }
    rewrite E2. rewrite tbit_lxor. destruct (tbit x k), (tbit v k); cbn [xorb Bool.eqb negb]; lia.
Qed.
Lemma ltl_mod k u w : 0 <= u -> 0 <= w -> ltl k u w = (u mod 2 ^ Z.of_nat k <? w mod 2 ^ Z.of_nat k).
Proof.
  intros Hu Hw. induction k as [|k IH]; cbn [ltl].
  - now rewrite !Z.mod_1_r.
  - assert (M : forall y, 0 <= y -> y mod 2 ^ Z.of_nat (S k) = y mod 2 ^ Z.of_nat k + Z.b2z (tbit y k) * 2 ^ Z.of_nat k).
    { intros y Hy. rewrite Nat2Z.inj_succ, Z.pow_succ_r by lia. rewrite (Z.mul_comm 2), Z.rem_mul_r by (try apply Z.pow_nonzero; lia).
      rewrite tbit_tb, Z.testbit_spec' by lia. lia. }
    rewrite !M by auto. pose proof (Z.mod_pos_bound u (2 ^ Z.of_nat k) ltac:(apply Z.pow_pos_nonneg; lia)). pose proof (Z.mod_pos_bound w (2 ^ Z.of_nat k) ltac:(apply Z.pow_pos_nonneg; lia)).
    rewrite IH. destruct (tbit u k), (tbit w k); cbn [Bool.eqb Z.b2z]; lia.
Qed.
Lemma lxor_word L x v : 0 <= x < 2 ^ Z.of_nat L -> 0 <= v < 2 ^ Z.of_nat L -> 0 <= Z.lxor x v < 2 ^ Z.of_nat L.
Proof.
  intros Hx Hv. assert (0 <= Z.lxor x v) by (apply Z.lxor_nonneg; lia). split; auto.
  assert (Z.shiftr (Z.lxor x v) (Z.of_nat L) = 0) as E by (rewrite Z.shiftr_lxor, !shiftr_top by lia; reflexivity).
  rewrite Z.shiftr_div_pow2 in E by lia. apply Z.div_small_iff in E; [|apply Z.pow_nonzero; lia]. pose proof (Z.pow_pos_nonneg 2 (Z.of_nat L)). lia.
Qed.
Lemma ltl_word L u w : 0 <= u < 2 ^ Z.of_nat L -> 0 <= w < 2 ^ Z.of_nat L -> ltl L u w = (u <? w).
Proof. intros Hu Hw. rewrite ltl_mod by lia. now rewrite !Z.mod_small. Qed.

Lemma order_bit x k u v : (forall t, Z.of_nat k < t -> Z.testbit u t = Z.testbit v t) -> 0 <= u -> 0 <= v -> tbit u k = tbit x k -> tbit v k = negb (tbit x k) -> 0 <= x -> Z.lxor x u <= Z.lxor x v.
Proof.
  intros H Hu Hv Eu Ev Hx. apply Z.lt_le_incl. apply (shiftr_lt _ _ (Z.of_nat k)); [lia|]. rewrite !(shiftr_step _ (Z.of_nat k)) by lia.
  rewrite !bit_of_lxor by lia. rewrite <- !tbit_of, Eu, Ev.
  assert (E : Z.shiftr (Z.lxor x u) (Z.of_nat k + 1) = Z.shiftr (Z.lxor x v) (Z.of_nat k + 1)).
  { apply Z.bits_inj'. intros t Ht. rewrite !Z.shiftr_spec, !Z.lxor_spec by lia. rewrite (H (t + (Z.of_nat k + 1))) by lia. reflexivity. }
  rewrite E. destruct (tbit x k); cbn; lia.
Qed.
Lemma kth_ok x mx : 0 <= x -> forall k t a rest acc, rep k t a -> (forall w, In w a -> 0 <= w /\ agree acc w (Z.of_nat k)) -> 0 <= rest < zlen a ->
  exists y, trie_kth mx k t x rest acc = Ok y /\ kth_smallest (map (Z.lxor x) a) (if mx then zlen a - 1 - rest else rest) y.
Proof.
  intro Hx. induction k as [|k IH]; intros t a rest acc R A Hr.
  - cbn [trie_kth]. eexists. split; [reflexivity|]. apply kth_const.
    + intros z Hz. apply in_map_iff in Hz. destruct Hz as (w & <- & Hw). f_equal. apply agree_0. now apply A.
    + replace (zlen (map (Z.lxor x) a)) with (zlen a) by (unfold zlen; now rewrite map_length). destruct mx; lia.
  - cbn [trie_kth]. destruct t as [|s c0 c1]. { cbn in R. subst a. change (zlen []) with 0 in Hr. lia. }
    cbn [child bind]. set (b := xorb mx (tbit x k)).
    pose proof (rep_size _ _ _ (rep_child _ _ _ _ _ b R)) as Sz. rewrite Sz.
    assert (Zl : zlen a = zlen (fb b k a) + zlen (fb (negb b) k a)).
    { rewrite (zlen_fb k a). destruct b; cbn [negb fb]; lia. }
    assert (Ag : forall c w, In w (fb c k a) -> 0 <= w /\ agree (Z.lor acc (Z.shiftl (Z.b2z c) (Z.of_nat k))) w (Z.of_nat k)).
    { intros c w Hw. rewrite fb_eq in Hw. apply filter_In in Hw. destruct Hw as (Hw & E). apply eqb_prop in E. destruct (A w Hw) as (W0 & Aw). split; auto.
      apply agree_step; [lia| |now rewrite <- tbit_of]. rewrite Nat2Z.inj_succ in Aw. exact Aw. }
    set (F := fb (tbit x k) k a). set (G := fb (negb (tbit x k)) k a).
    assert (P : Permutation (map (Z.lxor x) F ++ map (Z.lxor x) G) (map (Z.lxor x) a)).
    { rewrite <- map_app. apply Permutation_map. unfold F, G. rewrite !fb_eq. rewrite (filter_ext (fun v => Bool.eqb (negb (tbit x k)) (tbit v k)) (fun v => negb (Bool.eqb (tbit x k) (tbit v k)))); [apply perm_split|].
      intro w. destruct (tbit x k), (tbit w k); reflexivity. }
    assert (O : forall u v, In u (map (Z.lxor x) F) -> In v (map (Z.lxor x) G) -> u <= v).
    { intros u v Hu Hv. apply in_map_iff in Hu. destruct Hu as (u' & <- & Hu). apply in_map_iff in Hv. destruct Hv as (v' & <- & Hv).
      unfold F, G in *. rewrite fb_eq in Hu, Hv. apply filter_In in Hu, Hv. destruct Hu as (Iu & Eu), Hv as (Iv & Ev). apply eqb_prop in Eu, Ev.
      destruct (A u' Iu) as (U0 & (_ & U)), (A v' Iv) as (V0 & (_ & V)). apply (order_bit x k); auto. intros t Ht. rewrite U, V by lia. reflexivity. }
    assert (ZM : forall l : list Z, zlen (map (Z.lxor x) l) = zlen l) by (intro l; unfold zlen; now rewrite map_length).
    destruct (Z.leb_spec (zlen (fb b k a)) rest) as [Le|Gt]; cbv beta iota zeta.
    + cbn [child bind].
      destruct (IH _ _ (rest - zlen (fb b k a)) _ (rep_child _ _ _ _ _ (negb b) R) (Ag (negb b)) ltac:(lia)) as (y & E & K).
      exists y. split; [exact E|]. subst b. destruct mx; cbn [xorb] in *.
      * destruct (tbit x k) eqn:Bx; cbn [xorb negb] in *.
        -- apply (kth_low _ (map (Z.lxor x) F) (map (Z.lxor x) G) _ _ P O); [rewrite ZM; unfold F; rewrite Zl; lia|]. unfold F. replace (zlen a - 1 - rest) with (zlen (fb true k a) - 1 - (rest - zlen (fb false k a))) by lia. exact K.
        -- apply (kth_low _ (map (Z.lxor x) F) (map (Z.lxor x) G) _ _ P O); [rewrite ZM; unfold F; rewrite Zl; lia|]. unfold F. replace (zlen a - 1 - rest) with (zlen (fb false k a) - 1 - (rest - zlen (fb true k a))) by lia. exact K.
      * destruct (tbit x k) eqn:Bx; cbn [xorb negb] in *;
          (apply (kth_high _ (map (Z.lxor x) F) (map (Z.lxor x) G) _ _ P O); rewrite ZM; exact K).
    + cbn [child bind].
      destruct (IH _ _ rest _ (rep_child _ _ _ _ _ b R) (Ag b) ltac:(lia)) as (y & E & K).
      exists y. split; [exact E|]. subst b. destruct mx; cbn [xorb] in *.
      * destruct (tbit x k) eqn:Bx; cbn [xorb negb] in *;
          (apply (kth_high _ (map (Z.lxor x) F) (map (Z.lxor x) G) _ _ P O); rewrite ZM; unfold F).
        -- replace (zlen a - 1 - rest - zlen (fb true k a)) with (zlen (fb false k a) - 1 - rest) by lia. exact K.
        -- replace (zlen a - 1 - rest - zlen (fb false k a)) with (zlen (fb true k a) - 1 - rest) by lia. exact K.
      * destruct (tbit x k) eqn:Bx; cbn [xorb negb] in *;
          (apply (kth_low _ (map (Z.lxor x) F) (map (Z.lxor x) G) _ _ P O); [rewrite ZM; unfold F; lia|exact K]).
Qed.
