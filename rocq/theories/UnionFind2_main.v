From Verif Require Import Base BaseLemmas UnionFind_model UnionFind_spec UnionFind2_model UnionFind2_spec UnionFind2_run UnionFind2_proof UnionFind2_wproof UnionFind2_lproof.

Lemma component_sum_ {T} (op : T -> T -> T) vals merges x c cs h :
  (forall a b c, op a (op b c) = op (op a b) c) -> (forall a b, op a b = op b a) ->
  (forall i, 0 <= i < zlen vals -> vget vals i = Ok (h i)) ->
  Forall (fun '(u, v) => 0 <= u < zlen vals /\ 0 <= v < zlen vals) merges ->
  0 <= x < zlen vals -> component_list (zlen vals) (rev merges) x c cs ->
  exists bs s s', ufs_merges op (ufs_init vals) merges = Ok (bs, s) /\
    ufs_sumof s x = Ok (fold_left op (map h cs) (h c), s').
Proof.
  intros A C H Fm Hx HC.
  destruct (ufs_merges_ok op A C _ h _ [] merges (ufs_init_ok op vals h H) Fm) as (bs & s & E & I).
  rewrite app_nil_r in I. destruct (ufs_sumof_ok op A C _ h _ _ _ _ _ I Hx HC) as (s' & E' & _). eauto 6.
Qed.

Lemma weighted_union_find_ {T} (op : T -> T -> T) e neg n ops : is_group op e neg -> 0 <= n ->
  Forall (wop_ok n) ops ->
  exists answers aborted, wuf_run op e neg (wuf_init e n) ops = Ok (answers, aborted) /\
    wruns op e neg n [] ops answers aborted.
Proof. intros G Hn Fo. apply wuf_run_ok; auto. now apply wuf_init_ok. Qed.

Lemma weighted_union_find_potential_ {T} (op : T -> T -> T) e neg (p : Z -> T) A x y d :
  is_group op e neg -> (forall u v d, In (u, v, d) A -> d = op (neg (p u)) (p v)) ->
  dist op e neg A x y d -> d = op (neg (p x)) (p y).
Proof. intros G H. eapply dist_pot; eauto. Qed.

Lemma lazy_union_find_ {T F} (add : T -> T -> T) neg (mapping : F -> T -> Z -> T) comp idf inv zero vals a ops :
  lazy_laws add neg mapping comp idf inv zero ->
  (forall i, 0 <= i < zlen vals -> vget vals i = Ok (a i)) ->
  Forall (lop_ok (zlen vals)) ops ->
  exists answers s, ufl_run add neg mapping comp idf inv (ufl_init idf vals) ops = Ok (answers, s) /\
    lruns add mapping (zlen vals) ([], a) ops answers.
Proof. intros LL H Fo. eapply ufl_run_ok; eauto. eapply ufl_init_ok; eauto. Qed.
