(* C81: tries and Aho-Corasick. *)
From Verif Require Import Base BaseLemmas ListZ Seq AhoC_spec AhoC_model AhoC_proof AhoC_proof2 AhoC_proof3.

(* Every list of nonempty patterns over any characters: the automaton is built, reading any text from the initial state succeeds, and the count
   stored at the state reached is the number of patterns (with multiplicity) that are suffixes of that text. *)
Theorem ac_correct (ps : list (list Z)) : ~ In [] ps ->
  exists a, ac_of ps = Ok a /\ forall t, exists s q, ac_read a t = Ok s /\ ac_count a s = Ok q /\ matches ps t q.
Proof.
  intro NE. destruct (ac_of_ok ps NE) as (a & X & K). exists a. split; [exact X|]. intro t. destruct (K t) as (s & q & Y & C & ->). exists s, (nm ps t). split; [exact Y|]. split; [exact C|apply matches_nm].
Qed.
Print Assumptions ac_correct.

(* The array version: patterns may be empty; every character of the patterns and of the text lies in [off, off + al). *)
Theorem aca_correct (al off : Z) (ps : list (list Z)) : 0 <= al -> (forall p c, In p ps -> In c p -> off <= c < off + al) ->
  exists a, aca_of al off ps = Ok a /\ forall t, (forall c, In c t -> off <= c < off + al) -> exists s q, aca_read off a t = Ok s /\ aca_count a s = Ok q /\ matches ps t q.
Proof.
  intros HA HC. destruct (aca_of_ok al off HA ps) as (a & X & K); [intros p c I J; specialize (HC p c I J); lia|]. exists a. split; [exact X|]. intros t Ht. destruct (K t) as (s & q & Y & C & ->); [intros c I; specialize (Ht c I); lia|]. exists s, (nm ps t). split; [exact Y|]. split; [exact C|apply matches_nm].
Qed.
Print Assumptions aca_correct.

(* the indices MapTrie::add returns for a list of strings *)
Definition trie_ids (ps : list (list Z)) : res (list (list (Z * Z)) * list Z) :=
  for_each ps (fun s st => let* (nx, w) := trie_add (fst st) s 0 in Ok (nx, snd st ++ [w])) (trie_new, []).
(* two strings get the same index exactly when they are equal, whatever was added before, between or after *)
Theorem trie_index_correct (ps : list (list Z)) : exists nx ids, trie_ids ps = Ok (nx, ids) /\ zlen ids = zlen ps /\
  forall i j p q, vget ps i = Ok p -> vget ps j = Ok q -> exists v w, vget ids i = Ok v /\ vget ids j = Ok w /\ 0 <= v < zlen nx /\ (v = w <-> p = q).
Proof.
  unfold trie_ids. destruct (for_each_inv (fun done st => exists n sig M, trie (fst st) n sig M /\ zlen (snd st) = zlen done /\ forall i p, vget done i = Ok p -> exists v, vget (snd st) i = Ok v /\ 0 <= v < n /\ sig v = p) ps
    (fun s st => let* (nx, w) := trie_add (fst st) s 0 in Ok (nx, snd st ++ [w])) (trie_new, [])) as ((nx, ids) & X & n & sig & M & T & L & K).
  - exists 1, (fun _ => []), (fun _ => []). split; [apply trie_start|]. split; [reflexivity|]. intros i p Y. apply vget_range in Y. change (zlen (@nil (list Z))) with 0 in Y. lia.
  - intros done s t (nx, ids) Eq (n & sig & M & T & L & K). cbn [fst snd] in *. pose proof (t_n _ _ (r_tri _ _ _ _ T)). destruct (trie_add_ok s nx n sig M 0 T ltac:(lia)) as (nx' & n' & sig' & M' & w & X & T' & Ln & Ko & Hw & E). rewrite X. cbn [bind]. eexists. split; [reflexivity|]. exists n', sig', M'. cbn [fst snd]. split; [auto|]. rewrite !zlen_app, L. split; [reflexivity|].
    intros i p Y. destruct (Z_lt_ge_dec i (zlen done)) as [Li|Li].
    + pose proof (vget_range _ _ _ Y). rewrite vget_app1 in Y by lia. destruct (K i p Y) as (v & Yv & Hv & Ev). exists v. rewrite vget_app1 by (rewrite L; lia). split; [auto|]. split; [lia|]. rewrite Ko; auto.
    + pose proof (vget_range _ _ _ Y) as Rg. rewrite zlen_app in Rg. change (zlen [s]) with 1 in Rg. replace i with (zlen done) in * by lia. rewrite vget_app2 in Y by lia. rewrite Z.sub_diag in Y. injection Y as <-. exists w. rewrite vget_app2 by lia. rewrite L, Z.sub_diag. split; [reflexivity|]. split; [auto|]. rewrite E, (t_0 _ _ (r_tri _ _ _ _ T)). reflexivity.
  - exists nx, ids. cbn [fst snd] in *. split; [exact X|]. split; [auto|]. intros i j p q Yi Yj. destruct (K i p Yi) as (v & Yv & Hv & Ev). destruct (K j q Yj) as (w & Yw & Hw & Ew). exists v, w. split; [auto|]. split; [auto|]. rewrite (proj1 (r_rep _ _ _ _ T)). split; [auto|]. split; [congruence|]. intros ->. apply (t_inj _ _ (r_tri _ _ _ _ T)); auto. congruence.
Qed.
Print Assumptions trie_index_correct.
(* add(t, start) continues from a node: adding s and then t from the node returned is adding s ++ t *)
Theorem trie_add_start (nx : list (list (Z * Z))) (s t : list Z) (cur : Z) :
  trie_add nx (s ++ t) cur = (let* (nx', v) := trie_add nx s cur in trie_add nx' t v).
Proof.
  revert nx cur. induction s as [|c s IH]; intros nx cur; [reflexivity|]. cbn [app trie_add]. destruct (vget nx cur) as [m| | |]; cbn [bind]; auto. destruct (mfind c m); [apply IH|]. destruct (vset nx cur _) as [nx'| | |]; cbn [bind]; auto.
Qed.
Print Assumptions trie_add_start.

(* FINDING: with an empty pattern among them the map version does not count it away from the initial state
   (the failure step is skipped for the children of the root), although the array version does. *)
Theorem ac_empty_refuted : exists ps t a s q, ac_of ps = Ok a /\ ac_read a t = Ok s /\ ac_count a s = Ok q /\ ~ matches ps t q /\
  exists b s' q', aca_of 4 0 ps = Ok b /\ aca_read 0 b t = Ok s' /\ aca_count b s' = Ok q' /\ matches ps t q' /\ q' <> q.
Proof.
  exists [[]; [1; 2]], [1]. eexists. exists 1, 0. split; [vm_compute; reflexivity|]. split; [vm_compute; reflexivity|]. split; [vm_compute; reflexivity|]. split.
  - intros (l & ND & H & L). assert (l = []) by (destruct l; [auto|rewrite zlen_cons in L; pose proof (zlen_nonneg l); lia]). subst l. destruct (H 0) as (_ & H'). destruct H'. split; [vm_compute; split; congruence|]. exists []. split; [reflexivity|]. exists [1]. reflexivity.
  - eexists. exists 1, 1. split; [vm_compute; reflexivity|]. split; [vm_compute; reflexivity|]. split; [vm_compute; reflexivity|]. split; [|lia]. apply (matches_nm [[]; [1; 2]] [1]).
Qed.
Print Assumptions ac_empty_refuted.
(* FINDING: build, add, build again: the map version adds every mark a second time. *)
Theorem ac_rebuild_refuted : exists ps p t a s q, ~ In [] (ps ++ [p]) /\ (let* a := ac_of ps in let* a := ac_add a p in ac_build a) = Ok a /\ ac_read a t = Ok s /\ ac_count a s = Ok q /\ ~ matches (ps ++ [p]) t q.
Proof.
  exists [[1]], [2], [1]. eexists. exists 1, 2. split; [cbn; intros [Q|[Q|[]]]; discriminate|]. split; [vm_compute; reflexivity|]. split; [vm_compute; reflexivity|]. split; [vm_compute; reflexivity|].
  intros (l & ND & H & L). assert (A : forall i, In i l -> i = 0). { intros i I. apply H in I. destruct I as (R & p & Y & q & E). change (zlen ([[1]] ++ [[2]])) with 2 in R. assert (C : i = 0 \/ i = 1) by lia. destruct C as [->| ->]; [auto|]. injection Y as <-. destruct q as [|x [|y q]]; discriminate. }
  destruct l as [|x [|y l]]; [discriminate|discriminate|]. inversion ND as [|? ? N1 _]; subst. apply N1. left. rewrite (A x), (A y); cbn; auto.
Qed.
Print Assumptions ac_rebuild_refuted.
(* FINDING: a second build() of the array version never returns: the missing transitions were replaced by links, so the search runs around in circles. *)
Theorem aca_rebuild_refuted : exists a, aca_of 1 0 [] = Ok a /\ forall fuel, aca_loop 1 fuel (r_nodes a) = OutOfFuel.
Proof.
  eexists. split; [vm_compute; reflexivity|]. intro fuel. unfold aca_loop. cbn [r_nodes vget bind]. 
  assert (K : forall fuel, loop fuel (aca_bfs 1) ([mkAN [0] 0 0], [0]) = OutOfFuel) by (induction fuel0 as [|k IH]; [reflexivity|exact IH]).
  apply K.
Qed.
Print Assumptions aca_rebuild_refuted.

Example ac_example : let ps := [[1; 2]; [2]; [1; 2; 3]; [2; 3; 1]; [1; 2]] in
  (let* a := ac_of ps in let* s := ac_read a [3; 1; 2] in let* q := ac_count a s in Ok (s, q)) = Ok (2, 3) /\
  (let* a := aca_of 4 0 ps in let* s := aca_read 0 a [3; 1; 2] in let* q := aca_count a s in Ok (s, q)) = Ok (2, 3) /\ ~ In [] ps /\
  (let* (_, ids) := trie_ids ps in Ok ids) = Ok [2; 3; 4; 6; 2].
Proof. split; [vm_compute; reflexivity|]. split; [vm_compute; reflexivity|]. split; [cbn; intuition discriminate|vm_compute; reflexivity]. Qed.
