(* C95: rolling hash *)
From Verif Require Import Base BaseLemmas Hist Lucas Montgomery_model RHash_spec RHash_model RHash_proof RHash_proof2.
From Coq Require Import Znumtheory.

(* C95.  Any number of strings of non-negative ints share the static tables of powers.  Through every sequence of calls on them, operator()(l, r) is the array of
   polynomial hashes of the substring, and concat(h, l, r) applied to the hashes of t is the array of hashes of t followed by the substring. *)
Theorem rolling_hash_history :
  forall bases strs, (forall b, In b bases -> 0 <= b < 2 ^ 61 - 1) -> (forall s x, In s strs -> In x s -> 0 <= x < 2 ^ 31) ->
  exists objs, rh_make_all bases strs = Ok objs /\
  forall calls, Forall (rh_meets bases strs) calls ->
  exists outs, run (rh_step bases objs) (rh_init bases) calls = (outs, Ok tt) /\ Forall2 (rh_right bases strs) calls outs.
Proof.
  intros bases strs Hb Hs. destruct (make_all_ok bases Hb strs) as (objs & E & _). exists objs. split; auto. intros calls F.
  assert (Es : map as_u64 strs = strs).
  { rewrite <- (map_id strs) at 2. apply map_ext_in. intros s Is. unfold as_u64. rewrite <- (map_id s) at 2. apply map_ext_in. intros x Ix. apply Z.mod_small. specialize (Hs s x Is Ix). lia. }
  pose proof (rh_history bases Hb strs objs calls E) as H. rewrite Es in H. auto.
Qed.
Print Assumptions rolling_hash_history.

(* C95.  Two different strings over 1 .. 2^31-1 (of equal or different lengths) have the same hash for fewer bases than the longer has characters. *)
Theorem rolling_hash_collisions :
  forall s t bs, s <> t -> (forall x, In x s -> 0 < x < 2 ^ 31) -> (forall x, In x t -> 0 < x < 2 ^ 31) ->
  NoDup bs -> (forall b, In b bs -> 0 <= b < 2 ^ 61 - 1) -> (forall b, In b bs -> hashes [b] s = hashes [b] t) ->
  zlen bs < Z.max (zlen s) (zlen t).
Proof.
  intros s t bs Ne Hs Ht ND Rb Ev.
  apply (collisions (2 ^ 61 - 1) prime_m61 s t bs Ne); auto.
  - intros x Hx. specialize (Hs x Hx). lia.
  - intros x Hx. specialize (Ht x Hx). lia.
  - intros b Ib. specialize (Ev b Ib). unfold hashes in Ev. cbn [map] in Ev. injection Ev as Ev. exact Ev.
Qed.
Print Assumptions rolling_hash_collisions.

(* C95, negative elements: the int is converted to uint64_t, so -1 and 7 are the same character whatever the bases. *)
Theorem rolling_hash_negative_refuted :
  forall bases, (forall b, In b bases -> 0 <= b < 2 ^ 61 - 1) -> exists o, rh_make bases [-1] = Ok o /\ rh_make bases [7] = Ok o.
Proof.
  intros bases Hb. unfold rh_make. cbn zeta. change (zlen [-1]) with 1. change (zlen [7]) with 1.
  match goal with |- context [for_each bases ?b []] => assert (E : exists o, for_each bases b [] = Ok o) end.
  { pose proof (rh_make_ok bases Hb [-1]) as (o & E & _). exists o. exact E. }
  destruct E as (o & E). exists o. split; [exact E|]. rewrite <- E. clear. generalize (@nil (list Z)). induction bases as [|b l IH]; intros hs; [reflexivity|].
  cbn [for_each]. cbn zeta.
  match goal with |- bind (bind ?x _) _ = bind (bind ?y _) _ => assert (Exy : x = y) by reflexivity; rewrite Exy; destruct y; cbn [bind]; auto end.
Qed.
Print Assumptions rolling_hash_negative_refuted.

Example rolling_hash_example :
  exists objs, rh_make_all [1000; 12345] [[1; 2; 3; 1; 2]; [2; 3]] = Ok objs /\
  fst (run (rh_step [1000; 12345] objs) (rh_init [1000; 12345]) [RhSub 0 0 2; RhSub 0 3 5; RhSub 0 1 3; RhSub 1 0 2; RhConcat (hashes [1000; 12345] [1]) 1 0 2; RhSub 0 0 3])
    = [[1002; 12347]; [1002; 12347]; [2003; 24693]; [2003; 24693]; [1002003; 152423718]; [1002003; 152423718]].
Proof. eexists. split; [vm_compute; reflexivity|vm_compute; reflexivity]. Qed.
