(* C61 - C63: red-black trees *)
From Verif Require Import Base BaseLemmas Seq HLD_spec RBT_model RBT_spec RBT_proof RBT_proof2 PRBT_model.

Section Props.
  Context {T F : Type}.
  Variables (op : T -> T -> T) (e : T) (mapping : F -> T -> Z -> T) (composition : F -> F -> F) (id : F) (feqb : F -> F -> bool).
  Hypothesis M : is_monoid op e.
  Hypothesis A : acts op mapping composition id feqb.
  Notation holds := (holds op e mapping composition id feqb).
  Notation rep_of H := (holds_rep op e mapping composition id feqb M A _ _ H).
  (* ---- C61: the sequence ---- *)
  Theorem rbt_contents t s : holds t s -> dump mapping composition id t = s /\ size t = zlen s /\ prod_all e t = lprod op e s.
  Proof. exact (fun H => conj (dump_rep op e mapping composition id feqb A t s (rep_of H)) (conj (rep_size op e mapping t s (rep_of H)) (rep_value op e mapping M t s (rep_of H)))). Qed.
  (* every call of the interface with its arguments in range returns, and what it returns besides
     trees is right; [holds] says which sequences the trees stand for *)
  Theorem rbt_calls t s : holds t s ->
    (forall k, 0 <= k <= zlen s -> exists a b, split op mapping composition id feqb t k = Ok (a, b)) /\
    (forall l r, 0 <= l <= r -> r <= zlen s -> exists a b c, split_range op mapping composition id feqb t l r = Ok (a, b, c)) /\
    (forall k v, 0 <= k <= zlen s -> exists t', insert op mapping composition id feqb t k v = Ok t') /\
    (forall k, 0 <= k < zlen s -> exists t' x, erase op mapping composition id feqb t k = Ok (t', x) /\ vget s k = Ok x) /\
    (forall k f, 0 <= k < zlen s -> exists t', update_value op mapping composition id feqb t k f = Ok t') /\
    (forall k, 0 <= k < zlen s -> exists t' x, get op mapping composition id feqb t k = Ok (t', x) /\ vget s k = Ok x) /\
    (forall l r, 0 <= l <= r -> r <= zlen s -> exists t', prod op e mapping composition id feqb t l r = Ok (t', lprod op e (slice l r s))) /\
    (forall l r f, 0 <= l <= r -> r <= zlen s -> exists t', apply op mapping composition id feqb t l r f = Ok t') /\
    (forall l r, commutes op -> 0 <= l <= r -> r <= zlen s -> exists t', reverse op mapping composition id feqb t l r = Ok t').
  Proof.
    intros H. pose proof (rep_of H) as R. split; [|split; [|split; [|split; [|split; [|split; [|split; [|split]]]]]]].
    - intros k Hk. destruct (split_rep op e mapping composition id feqb M A t s k R Hk) as (a & b & E & _). eauto.
    - intros l r H1 H2. destruct (range_rep op e mapping composition id feqb M A t s l r R H1 H2) as (a & b & c & E & _). eauto.
    - intros k v Hk. destruct (insert_rep op e mapping composition id feqb M A t s k v R Hk) as (t' & E & _). eauto.
    - intros k Hk. destruct (erase_rep op e mapping composition id feqb M A t s k R Hk) as (t' & x & E & E2 & _). eauto.
    - intros k f Hk. destruct (update_rep op e mapping composition id feqb M A t s k f R Hk) as (t' & E & _). eauto.
    - intros k Hk. destruct (get_rep op e mapping composition id feqb M A t s k R Hk) as (t' & x & E & E2 & _). eauto.
    - intros l r H1 H2. destruct (prod_rep op e mapping composition id feqb M A t s l r R H1 H2) as (t' & E & _). eauto.
    - intros l r f H1 H2. destruct (apply_rep op e mapping composition id feqb M A t s l r f R H1 H2) as (t' & E & _). eauto.
    - intros l r C H1 H2. destruct (reverse_rep op e mapping composition id feqb M A t s l r C R H1 H2) as (t' & E & _). eauto.
  Qed.
  Theorem rbt_merge t1 s1 t2 s2 : holds t1 s1 -> holds t2 s2 -> exists t, merge op mapping composition id feqb t1 t2 = Ok t.
  Proof. intros H1 H2. destruct (merge_ok op e mapping composition id feqb M A _ _ _ _ (rep_of H1) (rep_of H2)) as (t & E & _). eauto. Qed.
  Theorem rbt_build a : exists t, build op mapping composition id feqb a = Ok t.
  Proof. destruct (build_rep op e mapping composition id feqb M A a) as (t & E & _). eauto. Qed.
  (* ---- C62: the balance ---- *)
  Theorem rbt_balanced t s : holds t s -> check_rbtree_properties t = Ok tt /\ Z.of_nat (odepth t) <= 2 * Z.log2 (zlen s) + 1.
  Proof. exact (fun H => conj (check_rep op e mapping t s (rep_of H)) (depth_rep op e mapping t s (rep_of H))). Qed.
End Props.
Print Assumptions rbt_contents.
Print Assumptions rbt_calls.
Print Assumptions rbt_merge.
Print Assumptions rbt_build.
Print Assumptions rbt_balanced.

(* sums under range addition *)
Definition ex_map (f v n : Z) : Z := v + f * n.
Lemma ex_acts : acts Z.add ex_map Z.add 0 Z.eqb.
Proof. constructor; unfold ex_map; intros; lia. Qed.
Definition get_tree (x : res (otree Z Z)) : otree Z Z := match x with Ok t => t | _ => None end.
Definition ex_t0 := get_tree (build Z.add ex_map Z.add 0 Z.eqb [1; 2; 3; 4; 5; 6; 7]).
Definition ex_t1 := get_tree (reverse Z.add ex_map Z.add 0 Z.eqb ex_t0 1 6).
Definition ex_t2 := get_tree (apply Z.add ex_map Z.add 0 Z.eqb ex_t1 2 7 10).
Definition ex_t3 := get_tree (insert Z.add ex_map Z.add 0 Z.eqb ex_t2 3 99).
Example rbt_example : is_monoid Z.add 0 /\ commutes Z.add /\ holds Z.add 0 ex_map Z.add 0 Z.eqb ex_t3 [1; 6; 15; 99; 14; 13; 12; 17] /\
  dump ex_map Z.add 0 ex_t3 = [1; 6; 15; 99; 14; 13; 12; 17] /\ (let* (_, x) := prod Z.add 0 ex_map Z.add 0 Z.eqb ex_t3 1 4 in Ok x) = Ok 120 /\
  (let* (_, x) := erase Z.add ex_map Z.add 0 Z.eqb ex_t3 3 in Ok x) = Ok 99.
Proof.
  assert (C : commutes Z.add) by (intros x y; lia). split; [constructor; intros; lia|]. split; [exact C|]. split; [|split; [vm_compute; reflexivity|split; vm_compute; reflexivity]].
  apply (h_insert Z.add 0 ex_map Z.add 0 Z.eqb ex_t2 [1; 6; 15; 14; 13; 12; 17] 3 99 ex_t3); [|change (zlen [1; 6; 15; 14; 13; 12; 17]) with 7; lia|vm_compute; reflexivity].
  apply (h_apply Z.add 0 ex_map Z.add 0 Z.eqb ex_t1 [1; 6; 5; 4; 3; 2; 7] 2 7 10 ex_t2); [|lia|vm_compute; discriminate|vm_compute; reflexivity].
  apply (h_reverse Z.add 0 ex_map Z.add 0 Z.eqb ex_t0 [1; 2; 3; 4; 5; 6; 7] 1 6 ex_t1); [exact C| |lia|vm_compute; discriminate|vm_compute; reflexivity].
  apply h_build. vm_compute. reflexivity.
Qed.
(* with a product that is not commutative, turning a range round leaves the old product *)
Theorem rbt_reverse_noncommutative_refuted : ~ (forall (s : list (list Z)) t, build (@app Z) (fun (_ : unit) x _ => x) (fun _ _ => tt) tt (fun _ _ => true) s = Ok t ->
  prod_all [] (reverse_all t) = lprod (@app Z) [] (dump (fun (_ : unit) x _ => x) (fun _ _ => tt) tt (reverse_all t))).
Proof. intros H. specialize (H [[1]; [2]] _ eq_refl). vm_compute in H. discriminate. Qed.
Print Assumptions rbt_reverse_noncommutative_refuted.

(* ---- C63: the persistent classes ---- *)
(* the plain class and the one with op alone: inserting into a version destroys that version *)
Theorem persistent_rbt_refuted : ~ (forall (a : list Z) h t k x h' t', hbuild 0 false 50 (pool_new 0 100) a = Ok (h, t) -> 0 <= k <= zlen a -> hinsert 0 false 50 h t k x = Ok (h', t') -> hdump 50 h' t = Ok a).
Proof.
  intros H. specialize (H [0; 1; 2]). destruct (hbuild 0 false 50 (pool_new 0 100) [0; 1; 2]) as [(h, t)| | |] eqn:E; try (vm_compute in E; discriminate).
  specialize (H h t 1 99). destruct (hinsert 0 false 50 h t 1 99) as [(h', t')| | |] eqn:E2.
  - specialize (H h' t' eq_refl ltac:(change (zlen [0; 1; 2]) with 3; lia) eq_refl). vm_compute in E. injection E as <- <-. vm_compute in E2. injection E2 as <- <-. vm_compute in H. discriminate.
  - vm_compute in E. injection E as <- <-. vm_compute in E2. discriminate.
  - vm_compute in E. injection E as <- <-. vm_compute in E2. discriminate.
  - vm_compute in E. injection E as <- <-. vm_compute in E2. discriminate.
Qed.
Print Assumptions persistent_rbt_refuted.
(* the lazy classes: the old version keeps its contents here, but its nodes are recoloured and it is
   no longer a red-black tree *)
Theorem persistent_rbt_balance_refuted : ~ (forall (a : list Z) h t k x h' t', hbuild 0 true 50 (pool_new 0 100) a = Ok (h, t) -> 0 <= k <= zlen a -> hinsert 0 true 50 h t k x = Ok (h', t') -> hcheck 50 h' t = Ok tt).
Proof.
  intros H. specialize (H [0; 1; 2]). destruct (hbuild 0 true 50 (pool_new 0 100) [0; 1; 2]) as [(h, t)| | |] eqn:E; try (vm_compute in E; discriminate).
  specialize (H h t 1 99). destruct (hinsert 0 true 50 h t 1 99) as [(h', t')| | |] eqn:E2.
  - specialize (H h' t' eq_refl ltac:(change (zlen [0; 1; 2]) with 3; lia) eq_refl). vm_compute in E. injection E as <- <-. vm_compute in E2. injection E2 as <- <-. vm_compute in H. discriminate.
  - vm_compute in E. injection E as <- <-. vm_compute in E2. discriminate.
  - vm_compute in E. injection E as <- <-. vm_compute in E2. discriminate.
  - vm_compute in E. injection E as <- <-. vm_compute in E2. discriminate.
Qed.
Print Assumptions persistent_rbt_balance_refuted.
(* the runs behind the two: the new version is right, the old one is not *)
Example persistent_rbt_example :
  (let* (h, t) := hbuild 0 false 50 (pool_new 0 100) [0; 1; 2] in let* a := hdump 50 h t in
   let* (h', t') := hinsert 0 false 50 h t 1 99 in let* b := hdump 50 h' t' in let* a' := hdump 50 h' t in Ok (a, b, a')) = Ok ([0; 1; 2], [0; 99; 1; 2], [99]) /\
  (let* (h, t) := hbuild 0 true 50 (pool_new 0 100) [0; 1; 2] in
   let* (h', t') := hinsert 0 true 50 h t 1 99 in let* b := hdump 50 h' t' in let* a' := hdump 50 h' t in Ok (b, a', hcheck 50 h t, hcheck 50 h' t)) = Ok ([0; 99; 1; 2], [0; 1; 2], Ok tt, Abort).
Proof. split; vm_compute; reflexivity. Qed.
