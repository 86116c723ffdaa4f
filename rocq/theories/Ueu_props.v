(* C88: Eulerian circuits and trails of an undirected multigraph. *)
From Verif Require Import Base BaseLemmas Eul_spec Eul_proof Eul_proof2 Ueu_spec Ueu_model Ueu_proof Ueu_proof2.
From Coq Require Import Permutation.

(* the edges added join vertices of the graph *)
Definition uedges_in (n : Z) (E : list (Z * Z)) : Prop := forall x y, In (x, y) E -> 0 <= x < n /\ 0 <= y < n.

(* eulerian_circuit(): an answer is a closed walk using each edge exactly once; no answer means there is none *)
Theorem ueu_circuit_any n E : 0 < n -> uedges_in n E -> exists e r, ueu_build n E = Ok e /\ ueu_circuit e (-1) = Ok r /\
  match r with
  | Some w => exists a, is_utrail E a w a
  | None => ~ exists a w, is_utrail E a w a
  end.
Proof.
  intros Hn EO. destruct (build_ui n E ltac:(lia) EO) as (e & IV & B & G). destruct (ucircuit_any n E e IV Hn G) as (r & C & K). exists e, r. split; [auto|]. split; [auto|]. destruct r as [w|]; [destruct K as (s & _ & K); eauto|]. intros (a & w & T). apply (K a w T).
Qed.
Print Assumptions ueu_circuit_any.

(* eulerian_circuit(start): the closed walk starts and ends at start; no answer means no such walk exists *)
Theorem ueu_circuit_from n E s : uedges_in n E -> 0 <= s < n -> exists e r, ueu_build n E = Ok e /\ ueu_circuit e s = Ok r /\
  match r with
  | Some w => is_utrail E s w s
  | None => ~ exists w, is_utrail E s w s
  end.
Proof.
  intros EO Hs. destruct (build_ui n E ltac:(lia) EO) as (e & IV & B & G). destruct (ucircuit_from n E e IV s ltac:(lia) G Hs) as (r & C & K). exists e, r. split; [auto|]. split; [auto|]. destruct r as [w|]; [auto|]. intros (w & T). apply (K s w T). destruct T as (((q & ->) & _) & _). left. auto.
Qed.
Print Assumptions ueu_circuit_from.

(* eulerian_trail(different_endpoints): an answer uses each edge exactly once, between different vertices when that is asked for;
   no answer means there is no such walk.  After an answer the object is the one before the call. *)
Theorem ueu_trail_any n E diff : 0 < n -> uedges_in n E -> exists e r e', ueu_build n E = Ok e /\ ueu_trail e diff = Ok (r, e') /\
  match r with
  | Some w => e' = e /\ exists a b, is_utrail E a w b /\ (diff = true -> a <> b)
  | None => ~ exists a w b, is_utrail E a w b /\ (diff = true -> a <> b)
  end.
Proof.
  intros Hn EO. destruct (build_ui n E ltac:(lia) EO) as (e & IV & B & G). destruct (utrail_ok n E e IV diff Hn G) as (r & e' & C & K). exists e, r, e'. split; [auto|]. split; [auto|]. destruct r as [w|]; [auto|]. intros (a & w & b & T & D). destruct (K a w b T) as (-> & ->). apply D; auto.
Qed.
Print Assumptions ueu_trail_any.

(* rev_edge(u, i): the i-th neighbour v of u and the position of the same edge in the list of v, an involution without fixed points *)
Theorem ueu_rev_edge n E : 0 <= n -> uedges_in n E -> exists e, ueu_build n E = Ok e /\
  forall u i g, vget (u_g e) u = Ok g -> 0 <= i < zlen g -> exists v j iv gv ivv,
    vget g i = Ok v /\ vget (u_inv e) u = Ok iv /\ vget iv i = Ok j /\ vget (u_g e) v = Ok gv /\ vget gv j = Ok u /\ vget (u_inv e) v = Ok ivv /\ vget ivv j = Ok i /\ ~ (v = u /\ j = i).
Proof.
  intros Hn EO. destruct (build_ui n E Hn EO) as (e & IV & B & [A1 A2 A3 A4 A5 A6]). exists e. split; [auto|]. intros u i g X Hi. assert (Hu : 0 <= u < n) by (destruct A2 as (L & _); apply vget_range in X; lia). rewrite (Seq.rep_get _ _ _ u A2) in X by auto. injection X as <-. destruct (vget_Ok _ _ Hi) as (v & V). destruct (A4 u i v Hu V) as (Hv & j & J1 & J2 & J3 & J4). exists v, j, (IV u), (nb E v), (IV v). rewrite (Seq.rep_get _ _ _ u A3), (Seq.rep_get _ _ _ v A3), (Seq.rep_get _ _ _ v A2) by auto. auto 10.
Qed.
Print Assumptions ueu_rev_edge.

(* Refuted: asking for a trail leaves the graph unchanged.  When exactly two vertices are odd but the graph is not connected, the
   helper edge stays in the graph, and a later answer uses it: 0-1, 2-3, 3-2, ask, then 1-2. *)
Theorem ueu_trail_keeps_edge_refuted : exists e e1 e2 w e3,
  ueu_build 4 [(0, 1); (2, 3); (3, 2)] = Ok e /\ ueu_trail e false = Ok (None, e1) /\ ueu_add e1 1 2 = Ok e2 /\ ueu_trail e2 false = Ok (Some w, e3) /\
  (exists w', is_utrail [(0, 1); (2, 3); (3, 2); (1, 2)] 0 w' 2) /\ ~ exists a b, is_utrail [(0, 1); (2, 3); (3, 2); (1, 2)] a w b.
Proof.
  eexists _, _, _, _, _. split; [vm_compute; reflexivity|]. split; [vm_compute; reflexivity|]. split; [vm_compute; reflexivity|]. split; [vm_compute; reflexivity|]. split.
  - exists [0; 1; 2; 3; 2]. split; [split; [eexists; reflexivity|exists [0; 1; 2; 3]; reflexivity]|]. cbn [steps map]. constructor. apply perm_trans with [norm (2, 3); norm (1, 2); norm (3, 2)]; [constructor|constructor; constructor].
  - intros (a & b & _ & P). apply Permutation_length in P. cbn in P. discriminate.
Qed.
Print Assumptions ueu_trail_keeps_edge_refuted.
(* Refuted: the empty graph has an answer; eulerian_circuit() of a graph without vertices indexes an empty vector *)
Theorem ueu_empty_refuted : ueu_circuit (ueu_new 0) (-1) = UB.
Proof. reflexivity. Qed.
Print Assumptions ueu_empty_refuted.

(* the hypotheses are met, with a self-loop, parallel edges and a walk that has to be rotated *)
Example ueu_example : uedges_in 4 [(0, 1); (1, 2); (2, 0); (1, 1); (0, 3); (3, 0); (0, 1)] /\
  (let* e := ueu_build 4 [(0, 1); (1, 2); (2, 0); (1, 1); (0, 3); (3, 0); (0, 1)] in let* (r, e') := ueu_trail e true in Ok r) = Ok (Some [0; 1; 1; 0; 3; 0; 2; 1]) /\
  (let* e := ueu_build 4 [(2, 0); (0, 1); (1, 2); (0, 3)] in let* (r, e') := ueu_trail e true in Ok r) = Ok (Some [3; 0; 1; 2; 0]) /\
  (let* e := ueu_build 3 [(0, 1); (1, 0); (2, 2)] in let* (r, e') := ueu_trail e true in Ok r) = Ok None.
Proof. split; [|split; [|split]; vm_compute; reflexivity]. intros x y I. cbn [In] in I. repeat (destruct I as [I|I]; [injection I as <- <-; lia|]). destruct I. Qed.
