(* Properties of maximum_square and maximum_rectangle (C75). *)
From Verif Require Import Base BaseLemmas MaxRect_model MaxRect_spec MaxRect_proof MaxRect_proof2 MaxRect_proof3.

(* the square returned is one of ones and no square of ones has a larger area *)
Theorem maximum_square_correct :
  forall g m, grid g m -> 0 <= m ->
  exists a b, maximum_square g = Ok (a, b) /\ a = area b /\ square b /\ all_ones g m b /\
    forall c, all_ones g m c -> square c -> area c <= a.
Proof. intros g m Hg Hm. exact (square_ok g m Hg Hm). Qed.
Print Assumptions maximum_square_correct.

(* the rectangle returned is one of ones and no rectangle of ones has a larger area *)
Theorem maximum_rectangle_correct :
  forall g m, grid g m -> 0 <= m ->
  exists a b, maximum_rectngle g = Ok (a, b) /\ a = area b /\ all_ones g m b /\ forall c, all_ones g m c -> area c <= a.
Proof. intros g m Hg Hm. exact (rectangle_ok g m Hg Hm). Qed.
Print Assumptions maximum_rectangle_correct.

(* the callback receives only rectangles of ones, among them every maximal one *)
Theorem maximal_rectangles_reports :
  forall g m, grid g m -> 0 <= m ->
  exists out, maximal_rectangles g = Ok out /\ (forall b, In b out -> all_ones g m b) /\ forall b, maximal_block g m b -> In b out.
Proof.
  intros g m Hg Hm. destruct (rects_ok g m Hg Hm) as (out & E & I). exists out. split; [exact E|]. split.
  - intros (((u, d), l), r) B. apply I in B. destruct B as (x & -> & F). exact (found_ones g m Hg d l r x F).
  - intros (((u, d), l), r) M. apply I. exists (d - u). split; [lia|]. exact (maximal_found g m Hg u d l r M).
Qed.
Print Assumptions maximal_rectangles_reports.

(* histogram version: without repetition; every rectangle has the height of a minimum and cannot be
   extended to the left, and all that cannot be extended to the right either are reported *)
Theorem maximal_rectangles_hist_reports :
  forall h, (forall x, In x h -> 0 <= x) ->
  exists out, maximal_rectangles_hist h = Ok out /\ NoDup out /\
    (forall l r x, In (l, r, x) out -> minimum_of h l r x /\ left_maximal h l x) /\
    (forall l r x, minimum_of h l r x -> left_maximal h l x -> right_maximal h r x -> In (l, r, x) out).
Proof.
  intros h Hp. assert (Hp' : forall j x, vget h j = Ok x -> 0 <= x) by (intros j x E; apply Hp; exact (vget_In _ _ _ E)).
  destruct (hist_ok h Hp') as (out & E & ND & I). exists out. split; [exact E|]. split; [exact ND|]. split.
  - intros l r x B. apply I in B. destruct B as (R & B & _). apply (P_spec h Hp') in B; [exact B|lia].
  - intros l r x M L R. apply I. pose proof M as (M1 & M2 & _ & j & Hj & Ej). split; [lia|]. split; [apply (P_spec h Hp'); auto|].
    unfold HR. destruct (Z.ltb_spec r (zlen h)).
    + destruct R as [->|(y & G & Ly)]; [lia|]. rewrite (H_get h r) in G by lia. injection G as <-. lia.
    + exact (Hp' _ _ Ej).
Qed.
Print Assumptions maximal_rectangles_hist_reports.

(* what the names promise, that everything reported is maximal, is false: equal neighbouring heights
   produce rectangles that can be extended, and zeros produce empty rectangles *)
Theorem maximal_rectangles_refuted :
  (exists h l r x, (forall y, In y h -> 0 <= y) /\ (exists out, maximal_rectangles_hist h = Ok out /\ In (l, r, x) out) /\ ~ right_maximal h r x) /\
  (exists g m b, grid g m /\ (exists out, maximal_rectangles g = Ok out /\ In b out) /\ 0 < area b /\ ~ maximal_block g m b) /\
  (exists g m b, grid g m /\ (exists out, maximal_rectangles g = Ok out /\ In b out) /\ area b = 0).
Proof.
  split; [|split].
  - exists [1; 1], 0, 1, 1. split; [cbn; lia|]. split; [eexists; split; [vm_compute; reflexivity|cbn; auto]|].
    intros [E|(y & E & L)]; [discriminate|]. vm_compute in E. injection E as <-. lia.
  - exists [[true; true]], 2, (0, 1, 0, 1). split; [intros row [<-|[]]; reflexivity|]. split; [eexists; split; [vm_compute; reflexivity|cbn; auto]|].
    split; [reflexivity|]. intros (_ & _ & M). specialize (M (0, 1, 0, 2)). assert (E : (0, 1, 0, 2) = (0, 1, 0, 1)); [|discriminate]. apply M.
    + split; [lia|]. split; [vm_compute; congruence|]. split; [lia|]. split; [lia|]. intros i j Hi Hj. assert (i = 0) as -> by lia.
      exists [true; true]. split; [reflexivity|]. assert (j = 0 \/ j = 1) as [->| ->] by lia; reflexivity.
    + cbn. lia.
  - exists [[false]], 1, (1, 1, 0, 1). split; [intros row [<-|[]]; reflexivity|]. split; [eexists; split; [vm_compute; reflexivity|cbn; auto]|]. reflexivity.
Qed.
Print Assumptions maximal_rectangles_refuted.

Example maximum_rectangle_example :
  let g := [[true; true; false; true]; [true; true; true; true]; [true; true; true; true]] in
  grid g 4 /\ maximum_square g = Ok (4, (0, 2, 0, 2)) /\ maximum_rectngle g = Ok (8, (1, 3, 0, 4)) /\
  maximal_rectangles_hist [2; 1; 3] = Ok [(0, 1, 2); (2, 3, 3); (0, 3, 1)].
Proof. split; [intros row [<-|[<-|[<-|[]]]]; reflexivity|]. repeat split. Qed.
