(* Heavy-light decomposition (library/tree/heavy_light_decomposition.hpp). *)
From Verif Require Import Base Seq BaseLemmas Graph_spec Tree_spec Tree_proof4 HLD_model HLD_spec HLD_proof6 HLD_proof7.
From Coq Require Import Permutation.

(* a tree and a forest to try things on; ex_par roots the tree at 0 *)
Definition ex_g : list (list Z) := [[1; 2]; [0; 3; 4]; [0]; [1]; [1]].
Definition ex_par (v : Z) : Z := if v =? 0 then -1 else if v <=? 2 then 0 else 1.
Definition ex_h : hld := Hld 5 [0; 1; 4; 2; 3] [5; 4; 5; 3; 4] [0; 0; 2; 0; 4] [0; 1; 3; 4; 2] [5; 3; 1; 1; 1] [-1; 0; 0; 1; 1] [0; 1; 1; 2; 2].
Example ex_rooted : rooted ex_g ex_par.
Proof.
  assert (V : forall v, vertex ex_g v -> v = 0 \/ v = 1 \/ v = 2 \/ v = 3 \/ v = 4) by (intros v (A & B); change (zlen ex_g) with 5 in B; lia).
  assert (W : forall v, 0 <= v < 5 -> vertex ex_g v) by (intros v A; exact A). split; [|split].
  - intros v Hv. destruct (V v Hv) as [->|[->|[->|[->| ->]]]]; [now left|right; apply W; unfold ex_par; cbn; lia..].
  - intros u Hu. destruct (V u Hu) as [->|[->|[->|[->| ->]]]].
    all: eexists; split; [reflexivity|]; split; [repeat (constructor; [cbn; lia|]); constructor|]; intros v; cbn [In]; split.
    all: try (intros I; assert (Hv : vertex ex_g v) by (apply W; lia); split; [exact Hv|]; destruct (V v Hv) as [->|[->|[->|[->| ->]]]]; first [now left|now right|exfalso; lia]).
    all: intros (Hv & [E|E]); destruct (V v Hv) as [->|[->|[->|[->| ->]]]]; first [discriminate E|lia].
  - intros v Hv. destruct (V v Hv) as [->|[->|[->|[->| ->]]]].
    + exists 0, 0. split; [constructor|reflexivity].
    + exists (0 + 1), 0. split; [repeat constructor; discriminate|reflexivity].
    + exists (0 + 1), 0. split; [repeat constructor; discriminate|reflexivity].
    + exists (0 + 1 + 1), 0. split; [repeat constructor; discriminate|reflexivity].
    + exists (0 + 1 + 1), 0. split; [repeat constructor; discriminate|reflexivity].
Qed.
Example ex_new : hld_new ex_g = Ok (ex_h, [[1; 2]; [3; 0; 4]; [0]; [1]; [1]]).
Proof. reflexivity. Qed.

(* ---- C57: construction and numbering ---- *)
Theorem tree_is_forest g : tree g -> forest g.
Proof. exact (tree_forest g). Qed.
Print Assumptions tree_is_forest.
Example tree_is_forest_example : tree [[1]; [0]].
Proof.
  assert (V : forall v, vertex [[1]; [0]] v -> v = 0 \/ v = 1) by (intros v (A & B); change (zlen [[1]; [0]]) with 2 in B; lia).
  assert (E : edge [[1]; [0]] 0 1 /\ edge [[1]; [0]] 1 0) by (split; [exists [1]|exists [0]]; split; try reflexivity; now left).
  assert (Ed : forall u v, edge [[1]; [0]] u v -> (u = 0 /\ v = 1) \/ (u = 1 /\ v = 0)).
  { intros u v (adj & Eu & Iv). assert (Hu : u = 0 \/ u = 1) by (apply V, (BaseLemmas.vget_range _ _ _ Eu)).
    destruct Hu as [->| ->]; injection Eu as <-; destruct Iv as [<-|[]]; auto. }
  split; [now cbn|]. split; [|split; [|split; [|reflexivity]]].
  - intros u v Euv. destruct (Ed u v Euv) as [(_ & ->)|(_ & ->)]; change (zlen [[1]; [0]]) with 2; lia.
  - intros u v Euv. destruct (Ed u v Euv) as [(-> & ->)|(-> & ->)]; apply E.
  - intros u v Hu Hv. destruct (V u Hu) as [->| ->], (V v Hv) as [->| ->].
    + exists 0, [0]. constructor.
    + exists (1 + 0), [0; 1]. econstructor; [split; [apply E|reflexivity]|constructor].
    + exists (1 + 0), [1; 0]. econstructor; [split; [apply E|reflexivity]|constructor].
    + exists 0, [1]. constructor.
Qed.

Theorem hld_construct g : forest g -> exists h g' par, hld_new g = Ok (h, g') /\ hld_of g par h.
Proof. exact (new_exists g). Qed.
Print Assumptions hld_construct.
Theorem hld_construct_roots g rs : forest g -> one_each g rs ->
  exists h g' par, hld_new_roots g rs = Ok (h, g') /\ hld_of g par h /\ forall r, vertex g r -> (par r = -1 <-> In r rs).
Proof. exact (new_roots_exists g rs). Qed.
Print Assumptions hld_construct_roots.
(* the constructor reorders the caller's adjacency lists and changes nothing else *)
Theorem hld_graph g h g' : forest g -> hld_new g = Ok (h, g') ->
  zlen g' = zlen g /\ forall u adj, vget g u = Ok adj -> exists adj', vget g' u = Ok adj' /\ Permutation adj' adj.
Proof. exact (hld_graph_ok g h g'). Qed.
Print Assumptions hld_graph.
(* every subtree is a block of visit times, every vertex lies below its head on a stretch of
   consecutive visit times *)
Theorem hld_numbering g par h v : hld_of g par h -> vertex g v ->
  exists t s d hd th, visit_ h v = Ok t /\ ord_ h t = Ok v /\ siz_ h v = Ok s /\ leave_ h v = Ok (t + s) /\
    par_ h v = Ok (par v) /\ dep_ h v = Ok d /\ depth par v d /\
    NoDup (visited h t (t + s)) /\ zlen (visited h t (t + s)) = s /\ (forall w, In w (visited h t (t + s)) <-> vertex g w /\ ancestor par v w) /\
    head_ h v = Ok hd /\ visit_ h hd = Ok th /\ climb par (t - th) v hd /\ simple_path g v hd (rev (visited h th (t + 1))).
Proof. exact (hld_numbering_ok g par h v). Qed.
Print Assumptions hld_numbering.
Theorem hld_order g par h : hld_of g par h ->
  Permutation (h_ord h) (zrange (zlen g)) /\ inv_ids h = Ok (h_ord h) /\ get_roots h = Ok (filter (fun v => par v =? -1) (zrange (zlen g))).
Proof. exact (hld_order_ok g par h). Qed.
Print Assumptions hld_order.
(* a vertex that heads its chain has less than half of its parent's subtree *)
Theorem hld_light g par h v a b : hld_of g par h -> vertex g v -> par v <> -1 -> head_ h v = Ok v -> siz_ h v = Ok a -> siz_ h (par v) = Ok b -> 2 * a < b.
Proof. exact (hld_light_ok g par h v a b). Qed.
Print Assumptions hld_light.
Example hld_of_example : hld_of ex_g ex_par ex_h.
Proof.
  split; [exact ex_rooted|]. eexists. right. exists [0]. split; [reflexivity|]. split.
  - split; [intros r [<-|[]]; split; [lia|reflexivity]|]. split; [repeat constructor|]. intros v Hv. exists 0. split; [now left|].
    assert (E : edge ex_g 0 1 /\ edge ex_g 0 2 /\ edge ex_g 1 3 /\ edge ex_g 1 4) by (repeat split; eexists; (split; [reflexivity|cbn; tauto])).
    destruct E as (E1 & E2 & E3 & E4). destruct Hv as (A & B). change (zlen ex_g) with 5 in B. assert (V : v = 0 \/ v = 1 \/ v = 2 \/ v = 3 \/ v = 4) by lia.
    assert (St : forall x y z p c, edge ex_g x y -> route (hop ex_g) y z p c -> route (hop ex_g) x z (x :: p) (1 + c)) by (intros; eapply route_step; [split; [eassumption|reflexivity]|assumption]).
    destruct V as [->|[->|[->|[->| ->]]]]; eexists; eexists.
    + apply route_end.
    + eapply St; [exact E1|apply route_end].
    + eapply St; [exact E2|apply route_end].
    + eapply St; [exact E1|]. eapply St; [exact E3|apply route_end].
    + eapply St; [exact E1|]. eapply St; [exact E4|apply route_end].
  - intros r (A & B). change (zlen ex_g) with 5 in B. assert (V : r = 0 \/ r = 1 \/ r = 2 \/ r = 3 \/ r = 4) by lia.
    destruct V as [->|[->|[->|[->| ->]]]]; cbn; split; try tauto; try discriminate; intros [X|[]]; lia.
Qed.

(* ---- C58: ancestors, distances, paths ---- *)
Theorem hld_lca g par h u v : hld_of g par h -> vertex g u -> vertex g v -> connected g u v -> exists a, lca h u v = Ok a /\ is_lca par u v a.
Proof. exact (hld_lca_ok g par h u v). Qed.
Print Assumptions hld_lca.
Theorem hld_la g par h u k dflt : hld_of g par h -> vertex g u ->
  (forall a, climb par k u a -> la h u k dflt = Ok a) /\ ((forall a, ~ climb par k u a) -> la h u k dflt = Ok dflt).
Proof. exact (hld_la_ok g par h u k dflt). Qed.
Print Assumptions hld_la.
Theorem hld_dist g par h u v : hld_of g par h -> vertex g u -> vertex g v -> connected g u v -> exists d, dist h u v = Ok d /\ best (hop g) u v d.
Proof. exact (hld_dist_ok g par h u v). Qed.
Print Assumptions hld_dist.
(* there is one simple path between connected vertices *)
Theorem hld_path g par h u v : hld_of g par h -> vertex g u -> vertex g v -> connected g u v -> exists p, simple_path g u v p /\ forall q, simple_path g u v q -> q = p.
Proof. exact (hld_path_ok g par h u v). Qed.
Print Assumptions hld_path.
Theorem hld_jump g par h u v p d dflt : hld_of g par h -> vertex g u -> vertex g v -> simple_path g u v p ->
  (forall x, vget p d = Ok x -> jump h u v d dflt = Ok x) /\ (~ 0 <= d < zlen p -> jump h u v d dflt = Ok dflt).
Proof. exact (hld_jump_ok g par h u v p d dflt). Qed.
Print Assumptions hld_jump.
Example hld_query_example : lca ex_h 3 2 = Ok 0 /\ lca ex_h 4 3 = Ok 1 /\ la ex_h 4 2 (-1) = Ok 0 /\ la ex_h 4 3 (-7) = Ok (-7) /\ dist ex_h 4 2 = Ok 3 /\
  jump ex_h 4 2 2 (-1) = Ok 0 /\ jump ex_h 4 2 3 (-1) = Ok 2 /\ jump ex_h 4 2 4 (-1) = Ok (-1).
Proof. repeat split. Qed.

(* ---- C59: folds and updates over paths and subtrees ---- *)
Theorem hld_fold_path {T} (op : T -> T -> T) (e : T) w q g par h u v p a is_edge : is_monoid op e -> (forall x y, op x y = op y x) -> hld_of g par h -> answers h op e w q ->
  vertex g u -> vertex g v -> simple_path g u v p -> is_lca par u v a -> fold_path h op e q u v is_edge = Ok (lprod op e (map w (queried is_edge a p))).
Proof. exact (hld_fold_ok op e w q g par h u v p a is_edge). Qed.
Print Assumptions hld_fold_path.
Theorem hld_fold_path_noncommutative {T} (op : T -> T -> T) (e : T) w q qr g par h u v p a is_edge : is_monoid op e -> hld_of g par h -> answers h op e w q -> answers_rev h op e w qr ->
  vertex g u -> vertex g v -> simple_path g u v p -> is_lca par u v a -> fold_path_noncommutative h op e q qr u v is_edge = Ok (lprod op e (map w (queried is_edge a p))).
Proof. exact (hld_fold_nc_ok op e w q qr g par h u v p a is_edge). Qed.
Print Assumptions hld_fold_path_noncommutative.
(* an update touches every vertex of the path once, in at most 2 log2 n + 1 calls *)
Theorem hld_update_path g par h u v p a is_edge : hld_of g par h -> vertex g u -> vertex g v -> simple_path g u v p -> is_lca par u v a ->
  exists rs, (forall l r, In (l, r) rs -> 0 <= l <= r /\ r <= zlen g) /\ zlen rs <= 2 * Z.log2 (zlen g) + 1 /\
    Permutation (flat_map (fun '(l, r) => visited h l r) rs) (queried is_edge a p) /\
    forall S (upd : Z -> Z -> S -> res S) st, update_path h upd u v is_edge st = for_each rs (fun '(l, r) st => upd l r st) st.
Proof. exact (hld_update_ok g par h u v p a is_edge). Qed.
Print Assumptions hld_update_path.
Theorem hld_subtree g par h u is_edge : hld_of g par h -> vertex g u ->
  exists l r, 0 <= l <= r /\ r <= zlen g /\ NoDup (visited h l r) /\ (forall w, In w (visited h l r) <-> vertex g w /\ ancestor par u w /\ (is_edge = true -> w <> u)) /\
    (forall T (q : Z -> Z -> res T), fold_subtree h q u is_edge = q l r) /\
    (forall S (upd : Z -> Z -> S -> res S) st, update_subtree h upd u is_edge st = upd l r st).
Proof. exact (hld_subtree_ok g par h u is_edge). Qed.
Print Assumptions hld_subtree.
(* words: the path from 4 to 2 reads 4 1 0 2 *)
Example hld_fold_example : 
  fold_path_noncommutative ex_h (@app Z) [] (fun l r => Ok (visited ex_h l r)) (fun l r => Ok (rev (visited ex_h l r))) 4 2 false = Ok [4; 1; 0; 2] /\
  fold_path_noncommutative ex_h (@app Z) [] (fun l r => Ok (visited ex_h l r)) (fun l r => Ok (rev (visited ex_h l r))) 4 2 true = Ok [4; 1; 2] /\
  fold_path ex_h Z.add 0 (fun l r => Ok (r - l)) 4 2 false = Ok 4 /\ fold_subtree ex_h (fun l r => Ok (visited ex_h l r)) 1 false = Ok [1; 3; 4].
Proof. repeat split. Qed.
