(* Property C85: BipartiteMatching. *)
From Verif Require Import Base BaseLemmas ListZ Seq BM_spec BM_model BM_proof2 BM_proof3 BM_proof4.

(* b has been reached from BipartiteMatching(n, m) by calls in any order; E is the list of the edges added so far *)
Inductive reached (n m : Z) : list (Z * Z) -> bm -> Prop :=
| r_new : reached n m [] (bm_new n m)
| r_add E b l r b' : reached n m E b -> 0 <= l < n -> 0 <= r < m -> bm_add b l r = Ok b' -> reached n m (E ++ [(l, r)]) b'
| r_solve E b f b' : reached n m E b -> bm_solve b = Ok (f, b') -> reached n m E b'
| r_match E b M b' : reached n m E b -> bm_max_matching b = Ok (M, b') -> reached n m E b'
| r_cover E b C b' : reached n m E b -> bm_min_vertex_cover b = Ok (C, b') -> reached n m E b'
| r_indep E b C b' : reached n m E b -> bm_max_independent_set b = Ok (C, b') -> reached n m E b'
| r_edge E b F b' : reached n m E b -> m <= n -> (forall l, 0 <= l < n -> exists r, In (l, r) E) -> (forall r, 0 <= r < m -> exists l, In (l, r) E) ->
    bm_min_edge_cover b = Ok (F, b') -> reached n m E b'.

Lemma reached_inv n m E b : 0 <= n -> 0 <= m -> reached n m E b -> exists TR TL G, OInv n m E b TR TL G.
Proof.
  intros Hn Hm R. induction R as [|E b l r b' R (TR & TL & G & O) Hl Hr X|E b f b' R (TR & TL & G & O) X|E b M b' R (TR & TL & G & O) X|E b C b' R (TR & TL & G & O) X|E b C b' R (TR & TL & G & O) X|E b F b' R (TR & TL & G & O) LE I1 I2 X].
  - exists (fun _ => -1), (fun _ => -1), (fun _ => []). apply new_ok; auto.
  - destruct (add_ok n m Hn Hm E b TR TL G l r O Hl Hr) as (b1 & G' & Y & O' & _). rewrite X in Y. injection Y as <-. eauto.
  - destruct (solve_ok n m Hn Hm E b TR TL G O) as (f1 & b1 & TR' & TL' & Y & O' & _). rewrite X in Y. injection Y as <- <-. eauto.
  - destruct (matching_ok n m Hn Hm E b TR TL G O) as (f1 & b1 & TR' & TL' & Y & O' & _). rewrite X in Y. injection Y as <- <-. eauto.
  - destruct (cover_ok n m Hn Hm E b TR TL G O) as (f1 & b1 & TR' & TL' & Y & O' & _). rewrite X in Y. injection Y as <- <-. eauto.
  - destruct (indep_ok n m Hn Hm E b TR TL G O) as (f1 & b1 & TR' & TL' & Y & O' & _). rewrite X in Y. injection Y as <- <-. eauto.
  - destruct (ecover_ok n m Hn Hm E b TR TL G O LE I1 I2) as (f1 & b1 & TR' & TL' & Y & O' & _). rewrite X in Y. injection Y as <- <-. eauto.
Qed.

(* In every reachable state max_matching() returns a maximum matching of the edges added so far, and right(l) / left(r)
   afterwards tell the partner of each vertex in it, -1 for an unmatched vertex. *)
Theorem bm_matching_max n m E b : 0 <= n -> 0 <= m -> reached n m E b -> exists M b', bm_max_matching b = Ok (M, b') /\ is_max_matching E M /\
  (forall l, 0 <= l < n -> exists r, bm_right b' l = Ok r /\ (r <> -1 -> In (l, r) M) /\ (r = -1 -> ~ In l (map fst M))) /\
  (forall r, 0 <= r < m -> exists l, bm_left b' r = Ok l /\ (l <> -1 -> In (l, r) M) /\ (l = -1 -> ~ In r (map snd M))).
Proof.
  intros Hn Hm R. destruct (reached_inv n m E b Hn Hm R) as (TR & TL & G & O). destruct (matching_ok n m Hn Hm E b TR TL G O) as (M & b' & TR' & TL' & X & O' & F & EM). exists M, b'. split; [auto|]. split; [rewrite EM; apply (max_of n m Hn Hm E b' TR' TL' G); auto|]. destruct (o_co _ _ _ _ _ _ _ O') as (C1 & C2). split.
  - intros l Hl. exists (TR' l). unfold bm_right. rewrite (proj2 (Z.leb_le 0 (b_f b')) F). cbn [assert_ bind]. split; [apply (rep_get _ _ _ l (o_tr _ _ _ _ _ _ _ O')); auto|]. split; [intro N; rewrite EM; apply In_mlist; auto|]. intros N J. apply in_map_iff in J. destruct J as ((a, c) & J1 & J2). cbn [fst] in J1. rewrite EM, In_mlist in J2. destruct J2 as (J2 & J3 & J4). congruence.
  - intros r Hr. exists (TL' r). unfold bm_left. rewrite (proj2 (Z.leb_le 0 (b_f b')) F). cbn [assert_ bind]. split; [apply (rep_get _ _ _ r (o_tl _ _ _ _ _ _ _ O')); auto|]. split; [intro N; rewrite EM; destruct (C2 r Hr N); apply In_mlist; split; [auto|split; [auto|lia]]|]. intros N J. apply in_map_iff in J. destruct J as ((a, c) & J1 & J2). cbn [snd] in J1. rewrite EM, In_mlist in J2. destruct J2 as (J2 & J3 & J4). destruct (C1 a J2) as (_ & T & _); [lia|]. rewrite J3, J1, N in T. lia.
Qed.
Print Assumptions bm_matching_max.

(* the first solve() returns the size of a maximum matching, and calling it again changes nothing *)
Theorem bm_solve_size n m E : 0 <= n -> 0 <= m -> edges_ok n m E -> exists b f b', for_each E (fun e b => bm_add b (fst e) (snd e)) (bm_new n m) = Ok b /\
  bm_solve b = Ok (f, b') /\ (forall M, is_max_matching E M -> f = zlen M) /\ bm_solve b' = Ok (f, b').
Proof.
  intros Hn Hm EO. destruct (for_each_inv (fun done b => exists G, OInv n m done b (fun _ => -1) (fun _ => -1) G /\ b_f b <= 0) E (fun e b => bm_add b (fst e) (snd e)) (bm_new n m)) as (b & X & G & O & F).
  { exists (fun _ => []). split; [apply new_ok; auto|unfold bm_new; cbn [b_f]; lia]. }
  { intros done (l, r) todo b Eq (G & O & F). destruct (EO l r) as (Hl & Hr); [rewrite Eq; apply in_or_app; right; left; auto|]. destruct (add_ok n m Hn Hm done b _ _ G l r O Hl Hr) as (b1 & G' & Y & O' & F'). exists b1. split; [auto|]. exists G'. split; [auto|lia]. }
  assert (Z0 : cnt n (fun _ => -1) = 0). { rewrite <- zlen_mlist. unfold mlist. replace (filter _ (zrange n)) with (@nil Z); [reflexivity|]. induction (zrange n); cbn [filter]; auto. }
  destruct (Z.eq_dec (b_f b) 0) as [F0|F0].
  { exists b, 0, b. assert (SO : bm_solve b = Ok (0, b)) by (unfold bm_solve; rewrite F0; reflexivity). split; [auto|]. split; [auto|]. split; [|auto]. intros M (M1 & M2). pose proof (max_of n m Hn Hm E b _ _ G O ltac:(lia)) as (MM & MX). specialize (MX M M1). rewrite zlen_mlist in MX. pose proof (zlen_nonneg M). lia. }
  destruct (solve_ok n m Hn Hm E b _ _ G O) as (f & b' & TR' & TL' & Y & O' & F' & K & _). exists b, f, b'. split; [auto|]. split; [auto|]. pose proof (max_of n m Hn Hm E b' TR' TL' G O' F') as (MM & MX). specialize (K ltac:(lia)). split.
  - intros M (M1 & M2). specialize (MX M M1). specialize (M2 _ MM). rewrite zlen_mlist in *. lia.
  - destruct (solve_ok n m Hn Hm E b' _ _ G O') as (f2 & b2 & _ & _ & Y2 & _ & _ & _ & K2). destruct (K2 F') as (-> & ->). rewrite Y2. unfold bm_solve in Y. destruct (Z.leb_spec 0 (b_f b)) as [L|L]; [lia|]. destruct (bm_reversed b); cbn [bind] in Y; try discriminate. match type of Y with bind ?c _ = _ => destruct c as [((tr, tl), f0)| | |] end; cbn [bind] in Y; try discriminate. injection Y as <- <-. reflexivity.
Qed.
Print Assumptions bm_solve_size.

(* in every reachable state min_vertex_cover() returns a minimum vertex cover *)
Theorem bm_cover_min n m E b : 0 <= n -> 0 <= m -> reached n m E b -> exists C b', bm_min_vertex_cover b = Ok (C, b') /\ is_min_cover n m E C.
Proof. intros Hn Hm R. destruct (reached_inv n m E b Hn Hm R) as (TR & TL & G & O). destruct (cover_ok n m Hn Hm E b TR TL G O) as (C & b' & TR' & TL' & X & _ & _ & K & _). exists C, b'. auto. Qed.
Print Assumptions bm_cover_min.

(* in every reachable state max_independent_set() returns a maximum independent set *)
Theorem bm_independent_max n m E b : 0 <= n -> 0 <= m -> reached n m E b -> exists C b', bm_max_independent_set b = Ok (C, b') /\ is_max_independent n m E C.
Proof. intros Hn Hm R. destruct (reached_inv n m E b Hn Hm R) as (TR & TL & G & O). destruct (indep_ok n m Hn Hm E b TR TL G O) as (C & b' & TR' & TL' & X & _ & _ & K & _). exists C, b'. auto. Qed.
Print Assumptions bm_independent_max.

(* min_edge_cover() returns a minimum edge cover when no vertex is isolated and m <= n *)
Theorem bm_edge_cover_min n m E b : 0 <= n -> 0 <= m -> reached n m E b -> m <= n ->
  (forall l, 0 <= l < n -> exists r, In (l, r) E) -> (forall r, 0 <= r < m -> exists l, In (l, r) E) ->
  exists F b', bm_min_edge_cover b = Ok (F, b') /\ is_min_edge_cover n m E F.
Proof. intros Hn Hm R LE I1 I2. destruct (reached_inv n m E b Hn Hm R) as (TR & TL & G & O). destruct (ecover_ok n m Hn Hm E b TR TL G O LE I1 I2) as (C & b' & TR' & TL' & X & _ & _ & K). exists C, b'. auto. Qed.
Print Assumptions bm_edge_cover_min.

(* Refuted: min_edge_cover() works for every graph without isolated vertices.  The table of the right vertices has n
   entries, so with m > n it is accessed out of bounds. *)
Theorem bm_edge_cover_refuted : exists n m E b, reached n m E b /\ (forall l, 0 <= l < n -> exists r, In (l, r) E) /\ (forall r, 0 <= r < m -> exists l, In (l, r) E) /\ bm_min_edge_cover b = UB.
Proof.
  exists 1, 2, [(0, 0); (0, 1)]. eexists. split; [eapply (r_add 1 2 [(0, 0)] _ 0 1); [eapply (r_add 1 2 [] _ 0 0); [constructor|lia|lia|reflexivity]|lia|lia|reflexivity]|]. split; [intros l Hl; exists 0; left; f_equal; lia|]. split; [|vm_compute; reflexivity].
  intros r Hr. exists 0. assert (r = 0 \/ r = 1) as [->| ->] by lia; cbn; auto.
Qed.
Print Assumptions bm_edge_cover_refuted.

(* Refuted: solve() returns the size of a maximum matching in every reachable state.  After a solve(), add_edge() and a
   second solve() the counter restarts at 0 while the pairs of the first solve() stay matched. *)
Theorem bm_resolve_refuted : exists n m E b f b' M, reached n m E b /\ bm_solve b = Ok (f, b') /\ is_max_matching E M /\ f <> zlen M.
Proof.
  exists 2, 2, [(0, 0); (1, 1)]. do 3 eexists. exists [(0, 0); (1, 1)]. split; [eapply (r_add 2 2 [(0, 0)] _ 1 1); [eapply (r_solve 2 2); [eapply (r_add 2 2 [] _ 0 0); [constructor|lia|lia|reflexivity]|vm_compute; reflexivity]|lia|lia|reflexivity]|]. split; [vm_compute; reflexivity|]. split; [|vm_compute; discriminate].
  split.
  - split; [apply incl_refl|]. cbn. split; repeat constructor; cbn; intuition lia.
  - intros M' (I & ND & _). apply (NoDup_incl_length) with (l' := [0; 1]) in ND; [rewrite map_length in ND; unfold zlen; cbn [length] in *; lia|]. intros x J. apply in_map_iff in J. destruct J as (e & <- & J). apply I in J. cbn in J. destruct J as [<-|[<-|[]]]; cbn; auto.
Qed.
Print Assumptions bm_resolve_refuted.

(* the hypotheses are met; all results at once for a graph with a repeated edge *)
Example bm_example : let E := [(0,0);(1,0);(1,1);(2,1);(0,2);(3,2);(3,3);(0,0);(2,0)] in
  (let* b := for_each E (fun e b => bm_add b (fst e) (snd e)) (bm_new 4 4) in
   let* (f, b) := bm_solve b in let* (M, b) := bm_max_matching b in let* (C, b) := bm_min_vertex_cover b in
   let* (J, b) := bm_max_independent_set b in let* (F, b) := bm_min_edge_cover b in Ok (f, M, C, J, F)) =
  Ok (4, [(0,2);(1,1);(2,0);(3,3)], [0;1;2;3], [4;5;6;7], [(0,2);(1,1);(2,0);(3,3)]).
Proof. vm_compute. reflexivity. Qed.
Example bm_example_cover : let E := [(0,0);(1,0);(2,0);(2,1);(2,2)] in
  (let* b := for_each E (fun e b => bm_add b (fst e) (snd e)) (bm_new 3 3) in
   let* (f, b) := bm_solve b in let* (M, b) := bm_max_matching b in let* (C, b) := bm_min_vertex_cover b in
   let* (J, b) := bm_max_independent_set b in let* (F, b) := bm_min_edge_cover b in Ok (f, zlen M, C, J, zlen F)) =
  Ok (2, 2, [2;3], [0;1;4;5], 4).
Proof. vm_compute. reflexivity. Qed.
