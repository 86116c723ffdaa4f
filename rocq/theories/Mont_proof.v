From Verif Require Import Base BaseLemmas Seq Kron_alg Mont_spec Mont_model.
From Coq Require Import Factorial.
(* placements of a values at a positions where k of the values are barred from one position each *)
Fixpoint E (k a : nat) : Z := match k with O => Z.of_nat (fact a) | S k => E k a - E k (a - 1) end.
Lemma E_I k : forall a, (k < a)%nat -> E k a = Z.of_nat k * E (k - 1) (a - 1) + (Z.of_nat a - Z.of_nat k) * E k (a - 1).
Proof.
  induction k as [|k IH]; intros a Ha.
  - destruct a; [lia|]. replace (S a - 1)%nat with a by lia. cbn [E]. change (fact (S a)) with (S a * fact a)%nat. lia.
  - pose proof (IH a ltac:(lia)) as I1. pose proof (IH (a - 1)%nat ltac:(lia)) as I2. cbn [E]. replace (S k - 1)%nat with k by lia.
    assert (H : Z.of_nat k * E (k - 1) (a - 1) = Z.of_nat k * E k (a - 1) + Z.of_nat k * E (k - 1) (a - 1 - 1)).
    { destruct k; [lia|]. cbn [E]. replace (S k - 1)%nat with k by lia. lia. }
    rewrite I1, H. replace (Z.of_nat (a - 1)) with (Z.of_nat a - 1) in I2 by lia. rewrite Nat2Z.inj_succ. unfold Z.succ. lia.
Qed.
Lemma E_J k a : (1 <= k <= a)%nat -> E k a = (Z.of_nat k - 1) * E (k - 2) (a - 1) + (Z.of_nat a - Z.of_nat k) * E (k - 1) (a - 1).
Proof.
  intros H. destruct k as [|k]; [lia|]. cbn [E]. rewrite (E_I k a) at 1 by lia. replace (S k - 2)%nat with (k - 1)%nat by lia. replace (S k - 1)%nat with k by lia.
  rewrite Nat2Z.inj_succ. unfold Z.succ. lia.
Qed.
Lemma E_diag n : E (S (S n)) (S (S n)) = (Z.of_nat n + 1) * (E (S n) (S n) + E n n).
Proof.
  rewrite E_J by lia. replace (S (S n) - 2)%nat with n by lia. replace (S (S n) - 1)%nat with (S n) by lia.
  assert (E (S n) (S n) = E n (S n) - E n n) by (cbn [E]; now replace (S n - 1)%nat with n by lia). rewrite !Nat2Z.inj_succ. unfold Z.succ. lia.
Qed.
Definition mem (l : list Z) (v : Z) : bool := existsb (Z.eqb v) l.
Lemma mem_iff l v : mem l v = true <-> In v l.
Proof. unfold mem. rewrite existsb_exists. split; [intros (x & H & e); apply Z.eqb_eq in e; now subst|]. intros H. exists v. split; [exact H|apply Z.eqb_refl]. Qed.
Definition rm := remove Z.eq_dec.
Lemma rm_perm v vs : NoDup vs -> In v vs -> Permutation vs (v :: rm v vs).
Proof.
  induction vs as [|x vs IH]; intros N H; [easy|]. inversion N as [|? ? Nx N']; subst. unfold rm. cbn [remove]. destruct (Z.eq_dec v x) as [<-|Ne].
  - rewrite notin_remove by exact Nx. reflexivity.
  - destruct H as [H|H]; [congruence|]. rewrite perm_swap. constructor. now apply IH.
Qed.
Lemma rm_nodup v vs : NoDup vs -> NoDup (rm v vs).
Proof.
  induction 1 as [|x vs Nx N IH]; unfold rm; cbn; [constructor|]. destruct (Z.eq_dec v x); [exact IH|]. constructor; [|exact IH]. intros H. apply in_remove in H. tauto.
Qed.
(* all ways to put the values vs at the positions ps, none at its own position *)
Fixpoint fill (ps vs : list Z) : list (list Z) :=
  match ps with
  | [] => [[]]
  | p :: ps => flat_map (fun v => if v =? p then [] else map (cons v) (fill ps (rm v vs))) vs
  end.
Lemma in_fill ps : forall vs q, NoDup vs -> length ps = length vs -> (In q (fill ps vs) <-> Permutation q vs /\ Forall2 (fun v p => v <> p) q ps).
Proof.
  induction ps as [|p ps IH]; intros vs q N L; cbn [fill].
  - destruct vs; [|easy]. cbn. split.
    + intros [<-|[]]. split; constructor.
    + intros [P _]. left. symmetry. now apply Permutation_sym, Permutation_nil in P.
  - rewrite in_flat_map. split.
    + intros (v & Hv & H). destruct (Z.eqb_spec v p) as [|Np]; [easy|]. apply in_map_iff in H. destruct H as (q' & <- & H).
      pose proof (rm_perm v vs N Hv) as P. apply IH in H; [|now apply rm_nodup|apply Permutation_length in P; cbn in *; lia].
      destruct H as [H1 H2]. split; [rewrite P; now constructor|now constructor].
    + intros [P F]. inversion F as [|v ? q' ? Np F']; subst. assert (Hv : In v vs) by (eapply Permutation_in; [exact P|now left]).
      exists v. split; [exact Hv|]. destruct (Z.eqb_spec v p); [easy|]. apply in_map. pose proof (rm_perm v vs N Hv) as P'.
      apply IH; [now apply rm_nodup|apply Permutation_length in P'; cbn in *; lia|]. split; [|exact F']. apply Permutation_cons_inv with v. now rewrite P.
Qed.
Lemma nodup_app_ {A} (a b : list A) : NoDup a -> NoDup b -> (forall x, In x a -> ~ In x b) -> NoDup (a ++ b).
Proof.
  induction 1 as [|x a Nx N IH]; intros Nb H; cbn; [exact Nb|]. constructor; [|apply IH; [exact Nb|intros y Hy; apply H; now right]].
  rewrite in_app_iff. intros [K|K]; [easy|]. apply (H x); [now left|exact K].
Qed.
Lemma nodup_flat {A B} (f : A -> list B) l : NoDup l -> (forall x, In x l -> NoDup (f x)) -> (forall x y z, In z (f x) -> In z (f y) -> x = y) -> NoDup (flat_map f l).
Proof.
  induction 1 as [|x l Nx N IH]; intros H1 H2; cbn; [constructor|]. apply nodup_app_; [apply H1; now left|apply IH; [intros; apply H1; now right|exact H2]|].
  intros z Hz K. apply in_flat_map in K. destruct K as (y & Hy & K). now rewrite (H2 _ _ _ Hz K) in Nx.
Qed.
Lemma fill_nodup ps : forall vs, NoDup vs -> NoDup (fill ps vs).
Proof.
  induction ps as [|p ps IH]; intros vs N; cbn [fill]; [repeat constructor; easy|]. apply nodup_flat; [exact N| |].
  - intros v Hv. destruct (v =? p); [constructor|]. apply FinFun.Injective_map_NoDup; [intros a b e; now injection e|]. apply IH. now apply rm_nodup.
  - intros x y z Hx Hy. destruct (x =? p); [easy|]. destruct (y =? p); [easy|]. apply in_map_iff in Hx, Hy. destruct Hx as (a & <- & _), Hy as (b & e & _). now injection e.
Qed.
Definition cnt (f : Z -> bool) (l : list Z) : nat := length (filter f l).
Lemma cnt_perm f a b : Permutation a b -> cnt f a = cnt f b.
Proof. unfold cnt. induction 1; cbn; auto; try (destruct (f x); cbn; congruence). destruct (f x), (f y); reflexivity. congruence. Qed.
Lemma cnt_ext f g l : (forall x, In x l -> f x = g x) -> cnt f l = cnt g l.
Proof. intros H. unfold cnt. now rewrite (filter_ext_in f g l H). Qed.
Lemma len_flat (f : Z -> list (list Z)) p (A : Z -> bool) x y l : (forall v, In v l -> zlen (f v) = if v =? p then 0 else if A v then x else y) -> A p = false ->
  zlen (flat_map f l) = Z.of_nat (cnt A l) * x + (Z.of_nat (length l) - Z.of_nat (cnt A l) - Z.of_nat (cnt (fun v => v =? p) l)) * y.
Proof.
  intros H Ap. induction l as [|v l IH]; [reflexivity|]. cbn [flat_map]. unfold zlen in *. rewrite app_length, Nat2Z.inj_add, (H v (or_introl eq_refl)).
  rewrite IH by (intros; apply H; now right). unfold cnt. cbn [filter length]. destruct (Z.eqb_spec v p) as [->|N]; [rewrite Ap|destruct (A v)]; cbn [length]; lia.
Qed.
Lemma cnt_eq p l : NoDup l -> cnt (fun v => v =? p) l = if mem l p then 1%nat else 0%nat.
Proof.
  intros N. destruct (mem l p) eqn:M.
  - apply mem_iff in M. rewrite (cnt_perm _ _ _ (rm_perm p l N M)). unfold cnt. cbn. rewrite Z.eqb_refl. cbn. f_equal.
    enough (H : filter (fun v => v =? p) (rm p l) = []) by now rewrite H.
    destruct (filter _ _) as [|x t] eqn:F; [reflexivity|]. assert (K : In x (filter (fun v => v =? p) (rm p l))) by (rewrite F; now left).
    apply filter_In in K. destruct K as [K e]. apply Z.eqb_eq in e. subst x. now apply remove_In in K.
  - unfold cnt. destruct (filter _ _) as [|x t] eqn:F; [reflexivity|]. assert (K : In x (filter (fun v => v =? p) l)) by (rewrite F; now left).
    apply filter_In in K. destruct K as [K e]. apply Z.eqb_eq in e. subst x. apply mem_iff in K. congruence.
Qed.
Lemma cnt_or p ps l : ~ In p ps -> cnt (mem (p :: ps)) l = (cnt (fun v => (v =? p)%Z) l + cnt (mem ps) l)%nat.
Proof.
  intros Hp. unfold cnt. induction l as [|v l IH]; [reflexivity|]. cbn [filter]. change (mem (p :: ps) v) with ((v =? p) || mem ps v).
  destruct (Z.eqb_spec v p) as [->|N]; cbn [orb].
  - destruct (mem ps p) eqn:M; [apply mem_iff in M; easy|]. cbn [length]. lia.
  - destruct (mem ps v); cbn [length]; lia.
Qed.
Lemma cnt_le f l : (cnt f l <= length l)%nat.
Proof. unfold cnt. induction l; cbn; [lia|]. destruct (f a); cbn; lia. Qed.
Lemma fill_len ps : forall vs, NoDup ps -> NoDup vs -> length ps = length vs -> zlen (fill ps vs) = E (cnt (mem ps) vs) (length vs).
Proof.
  induction ps as [|p ps IH]; intros vs Np Nv L; cbn [fill]; [destruct vs; [reflexivity|easy]|].
  inversion Np as [|? ? Hp Np']; subst. set (C := cnt (mem ps) vs). set (a := length vs).
  assert (Mp : mem ps p = false) by (destruct (mem ps p) eqn:M; auto; apply mem_iff in M; easy).
  rewrite (len_flat _ p (mem ps) (E (C - 1) (a - 1)) (E C (a - 1))).
  - fold C a. rewrite cnt_or by exact Hp. fold C. rewrite !cnt_eq by exact Nv. pose proof (cnt_le (mem ps) vs) as Hc. fold C a in Hc.
    pose proof (cnt_le (mem (p :: ps)) vs) as Hc'. rewrite cnt_or, cnt_eq in Hc' by auto. fold C a in Hc'.
    destruct (mem vs p) eqn:M; cbn [Nat.add] in Hc'.
    + rewrite (E_J (1 + C) a) by lia. replace (1 + C - 2)%nat with (C - 1)%nat by lia. replace (1 + C - 1)%nat with C by lia. rewrite Nat2Z.inj_add. lia.
    + cbn [Nat.add]. rewrite (E_I C a); [lia|].
      (* the position p is not a value, so fewer than a values have their position among ps *)
      cbn in L. assert ((C <= length ps)%nat); [|lia]. unfold C, cnt. apply NoDup_incl_length; [now apply NoDup_filter|]. intros v K. apply filter_In in K. now apply mem_iff.
  - intros v Hv. destruct (v =? p); [reflexivity|]. pose proof (rm_perm v vs Nv Hv) as P. pose proof (Permutation_length P) as PL. cbn [length] in PL, L.
    unfold zlen. rewrite map_length. change (Z.of_nat (length (fill ps (rm v vs)))) with (zlen (fill ps (rm v vs))). rewrite IH by (auto using rm_nodup; lia).
    assert (HC : C = ((if mem ps v then 1 else 0) + cnt (mem ps) (rm v vs))%nat) by (unfold C; rewrite (cnt_perm _ _ _ P); unfold cnt; cbn [filter]; now destruct (mem ps v)).
    destruct (mem ps v); f_equal; unfold a; lia.
  - exact Mp.
Qed.
Lemma zr_nth n i : nth_error (zrange n) i = if (i <? Z.to_nat n)%nat then Some (Z.of_nat i) else None.
Proof.
  unfold zrange. rewrite nth_error_map. destruct (Nat.ltb_spec i (Z.to_nat n)) as [H|H].
  - rewrite (nth_error_nth' (seq 0 (Z.to_nat n)) O) by (rewrite seq_length; lia). rewrite seq_nth by lia. reflexivity.
  - replace (nth_error (seq 0 (Z.to_nat n)) i) with (@None nat); [reflexivity|]. symmetry. apply nth_error_None. rewrite seq_length. lia.
Qed.
Lemma zr_nodup n : NoDup (zrange n).
Proof. unfold zrange. apply FinFun.Injective_map_NoDup; [intros a b; apply Nat2Z.inj|apply seq_NoDup]. Qed.
Lemma forall2_nth (q r : list Z) : length q = length r -> (Forall2 (fun v p => v <> p) q r <-> forall i x, nth_error q i = Some x -> nth_error r i <> Some x).
Proof.
  revert r. induction q as [|v q IH]; intros [|p r] L; try easy; cbn in L.
  - split; [intros _ [|i] x; easy|constructor].
  - split.
    + intros F. inversion F as [|? ? ? ? N F']; subst. intros [|i] x; cbn; [intros [= <-] [= e]; now apply N|]. now apply (proj1 (IH r ltac:(lia)) F').
    + intros H. constructor; [intros e; apply (H O v); cbn; congruence|]. apply IH; [lia|]. intros i x. exact (H (S i) x).
Qed.
Lemma derangements_E n : 0 <= n -> derangements n (E (Z.to_nat n) (Z.to_nat n)).
Proof.
  intros Hn. exists (fill (zrange n) (zrange n)). split; [apply fill_nodup, zr_nodup|]. split.
  - intros p. rewrite in_fill by (auto using zr_nodup). unfold derangement. split; intros [P H]; split; auto.
    + pose proof (proj1 (forall2_nth _ _ (Permutation_length P)) H) as H0. clear H. rename H0 into H. intros i K. pose proof (H i _ K) as K'. rewrite zr_nth in K'. destruct (Nat.ltb_spec i (Z.to_nat n)); [easy|].
      assert (nth_error p i <> None) by congruence. apply nth_error_Some in H1. apply Permutation_length in P. unfold zrange in P. rewrite map_length, seq_length in P. lia.
    + apply forall2_nth; [now apply Permutation_length|]. intros i x K K'. rewrite zr_nth in K'. destruct (i <? Z.to_nat n)%nat; [|easy]. injection K' as <-. now apply (H i).
  - rewrite fill_len by auto using zr_nodup. assert (length (zrange n) = Z.to_nat n) as L by (unfold zrange; now rewrite map_length, seq_length).
    rewrite L. f_equal. transitivity (length (zrange n)); [|exact L]. unfold cnt. f_equal.
    rewrite <- (filter_ext_in (fun _ => true)); [clear; induction (zrange n); cbn; congruence|]. intros v Hv. symmetry. now apply mem_iff.
Qed.
Lemma derangements_fun n c c' : derangements n c -> derangements n c' -> c = c'.
Proof.
  intros (L & N & H & <-) (L' & N' & H' & <-). unfold zlen. f_equal. apply Permutation_length. apply NoDup_Permutation; auto. intros x. now rewrite H, H'.
Qed.
Lemma rep_snoc_ {A} (v : list A) n g x : 0 <= n -> rep v n g -> x = g n -> rep (v ++ [x]) (n + 1) g.
Proof.
  intros Hn [L R] ->. unfold zlen in L. split; [unfold zlen; rewrite app_length; cbn; lia|]. intros i Hi. unfold vget. destruct (Z.ltb_spec i 0); [lia|]. destruct (Z.eqb_spec i n) as [->|N].
  - rewrite nth_error_app2 by lia. now replace (Z.to_nat n - length v)%nat with O by lia.
  - rewrite nth_error_app1 by lia. specialize (R i ltac:(lia)). unfold vget in R. destruct (Z.ltb_spec i 0); [lia|exact R].
Qed.
Definition D (i : Z) : Z := E (Z.to_nat i) (Z.to_nat i).
Lemma D_rec i : 2 <= i -> D i = (i - 1) * (D (i - 1) + D (i - 2)).
Proof.
  intros Hi. unfold D. destruct (Z.to_nat i) as [|[|k]] eqn:K; try lia. replace (Z.to_nat (i - 1)) with (S k) by lia. replace (Z.to_nat (i - 2)) with k by lia.
  rewrite E_diag. f_equal. lia.
Qed.
Lemma montmort_ok m n : 0 < m -> -1 <= n -> montmort_number m n = Ok (map (fun i => D i mod m) (zrange (n + 1))).
Proof.
  intros Hm Hn. unfold montmort_number. assert (R0 : rep [1 mod m; 0] 2 (fun i => D i mod m)).
  { split; [reflexivity|]. intros i Hi. assert (i = 0 \/ i = 1) as [->| ->] by lia; reflexivity. }
  rewrite (proj2 (Z.ltb_ge (n + 1) 0)) by lia. destruct (Z.leb_spec 2 (n + 1)) as [H|H].
  - match goal with |- context [for_ 2 (n + 1) ?b ?s0] => destruct (for_inv (fun i r => rep r i (fun i => D i mod m)) 2 (n + 1) b s0) as (r & Er & Rr) end; [lia|exact R0| |].
    + intros i r Hi Rr. rewrite (rep_get _ _ _ _ Rr) by lia. cbn [bind]. rewrite (rep_get _ _ _ _ Rr) by lia. cbn [bind]. eexists; split; [reflexivity|].
      apply rep_snoc_; [lia|exact Rr|]. rewrite (D_rec i) by lia. rewrite <- Zmult_mod_idemp_r, <- Zplus_mod, Zmult_mod_idemp_r. reflexivity.
    + rewrite Er. cbn [bind]. f_equal. rewrite (proj1 Rr). replace (n + 1 - (n + 1)) with 0 by lia. cbn [vrep Z.to_nat repeat]. unfold vrep. cbn [Z.to_nat repeat]. rewrite app_nil_r.
      pose proof (proj1 Rr) as Lr. unfold zlen in Lr. rewrite firstn_all2 by lia. now apply rep_map.
  - unfold for_. replace (Z.to_nat (n + 1 - 2)) with O by lia. cbn [for_up bind]. assert (n = -1 \/ n = 0) as [->| ->] by lia; reflexivity.
Qed.
