(* C87: Eulerian circuits and trails of a directed multigraph. *)
From Verif Require Import Base BaseLemmas Eul_spec Eul_model Eul_proof Eul_proof2.
From Coq Require Import Permutation.

(* the edges added join vertices of the graph *)
Definition edges_in (n : Z) (E : list (Z * Z)) : Prop := forall x y, In (x, y) E -> 0 <= x < n /\ 0 <= y < n.

(* eulerian_circuit(): an answer is a closed walk using each edge exactly once; no answer means there is none *)
Theorem eul_circuit_any n E : 0 < n -> edges_in n E -> exists e r, eul_build n E = Ok e /\ eul_circuit e (-1) = Ok r /\
  match r with
  | Some w => exists a, is_trail E a w a
  | None => ~ exists a w, is_trail E a w a
  end.
Proof.
  intros Hn EO. destruct (build_gi n E ltac:(lia) EO) as (e & B & G). destruct (circuit_any n E e Hn G) as (r & C & K). exists e, r. split; [auto|]. split; [auto|]. destruct r as [w|]; [destruct K as (s & _ & K); eauto|]. intros (a & w & T). apply (K a w T).
Qed.
Print Assumptions eul_circuit_any.

(* eulerian_circuit(start): the closed walk starts and ends at start; no answer means no such walk exists *)
Theorem eul_circuit_from n E s : edges_in n E -> 0 <= s < n -> exists e r, eul_build n E = Ok e /\ eul_circuit e s = Ok r /\
  match r with
  | Some w => is_trail E s w s
  | None => ~ exists w, is_trail E s w s
  end.
Proof.
  intros EO Hs. destruct (build_gi n E ltac:(lia) EO) as (e & B & G). destruct (circuit_from n E e s ltac:(lia) G Hs) as (r & C & K). exists e, r. split; [auto|]. split; [auto|]. destruct r as [w|]; [auto|]. intros (w & T). apply (K s w T). destruct T as (((q & ->) & _) & _). left. auto.
Qed.
Print Assumptions eul_circuit_from.

(* eulerian_trail(different_endpoints): an answer uses each edge exactly once, between different vertices when that is asked for;
   no answer means there is no such walk.  After an answer the object behaves exactly as before the call. *)
Theorem eul_trail_any n E diff : 0 < n -> edges_in n E -> exists e r e', eul_build n E = Ok e /\ eul_trail e diff = Ok (r, e') /\
  match r with
  | Some w => e' = e /\ exists a b, is_trail E a w b /\ (diff = true -> a <> b)
  | None => ~ exists a w b, is_trail E a w b /\ (diff = true -> a <> b)
  end.
Proof.
  intros Hn EO. destruct (build_gi n E ltac:(lia) EO) as (e & B & G). destruct (trail_ok n E e diff Hn G) as (r & e' & C & K). exists e, r, e'. split; [auto|]. split; [auto|]. destruct r as [w|].
  - destruct K as (G' & a & b & _ & _ & T & D). split; [|eauto]. destruct G as [A1 A2 A3 _], G' as [B1 B2 B3 _]. destruct e as [m g i], e' as [m' g' i']. cbn [e_n e_g e_in] in *. f_equal; [congruence| |]; apply vget_ext; [destruct A2, A3, B2, B3; congruence| |destruct A2, A3, B2, B3; congruence|]; intros j Hj; [destruct A2 as (L & A2), B2 as (L' & B2); rewrite A2, B2 by lia; auto|destruct A3 as (L & A3), B3 as (L' & B3); rewrite A3, B3 by lia; auto].
  - intros (a & w & b & T & D). destruct (K a w b T) as (-> & ->). apply D; auto.
Qed.
Print Assumptions eul_trail_any.

(* Refuted: asking for a trail leaves the graph unchanged.  When the odd vertices are fine but the graph is not connected, the
   helper edge stays in the graph, and a later answer uses it: 0->1, 2->3, 3->2, ask, then 1->2. *)
Theorem eul_trail_keeps_edge_refuted : exists e e1 e2 w e3,
  eul_build 4 [(0, 1); (2, 3); (3, 2)] = Ok e /\ eul_trail e false = Ok (None, e1) /\ eul_add e1 1 2 = Ok e2 /\ eul_trail e2 false = Ok (Some w, e3) /\
  (exists w', is_trail [(0, 1); (2, 3); (3, 2); (1, 2)] 0 w' 2) /\ ~ exists a b, is_trail [(0, 1); (2, 3); (3, 2); (1, 2)] a w b.
Proof.
  eexists _, _, _, _, _. split; [vm_compute; reflexivity|]. split; [vm_compute; reflexivity|]. split; [vm_compute; reflexivity|]. split; [vm_compute; reflexivity|]. split.
  - exists [0; 1; 2; 3; 2]. split; [split; [eexists; reflexivity|exists [0; 1; 2; 3]; reflexivity]|]. cbn [steps]. constructor. apply perm_trans with [(2, 3); (1, 2); (3, 2)]; [constructor|constructor; constructor].
  - intros (a & b & _ & P). apply Permutation_length in P. cbn in P. discriminate.
Qed.
Print Assumptions eul_trail_keeps_edge_refuted.
(* Refuted: the empty graph has an answer; eulerian_circuit() of a graph without vertices indexes an empty vector *)
Theorem eul_empty_refuted : eul_circuit (eul_new 0) (-1) = UB.
Proof. reflexivity. Qed.
Print Assumptions eul_empty_refuted.

(* the hypotheses are met, with a self-loop, parallel edges and a walk that has to be rotated *)
Example eul_example : edges_in 4 [(0, 1); (1, 2); (2, 0); (1, 1); (0, 3); (3, 0); (0, 1)] /\
  (let* e := eul_build 4 [(0, 1); (1, 2); (2, 0); (1, 1); (0, 3); (3, 0); (0, 1)] in let* (r, e') := eul_trail e true in Ok r) = Ok (Some [0; 1; 2; 0; 3; 0; 1; 1]) /\
  (let* e := eul_build 4 [(2, 0); (0, 1); (1, 2); (0, 3)] in let* (r, e') := eul_trail e true in Ok r) = Ok (Some [0; 1; 2; 0; 3]) /\
  (let* e := eul_build 3 [(0, 1); (1, 0); (2, 2)] in let* (r, e') := eul_trail e true in Ok r) = Ok None.
Proof. split; [|split; [|split]; vm_compute; reflexivity]. intros x y I. cbn [In] in I. repeat (destruct I as [I|I]; [injection I as <- <-; lia|]). destruct I. Qed.
