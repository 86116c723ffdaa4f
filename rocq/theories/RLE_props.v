(* Property C66. *)
From Verif Require Import Base BaseLemmas RLE_model RLE_spec.
From Verif Require RLE_proof.

(* C66: built from a sequence and extended by push_backs, the encoder holds the maximal
   runs of the whole sequence, and length() is its length. *)
Theorem rle_correct :
  forall (T : Type) (eqb : T -> T -> bool), (forall x y, eqb x y = true <-> x = y) ->
  forall c vs, (forall v num, In (v, num) vs -> 0 < num) ->
  exists s, (let* s := rle_of eqb c in for_each vs (fun '(v, num) s => rle_push_back eqb s v num) s) = Ok s /\
    expand (rl_comp s) = c ++ expand vs /\ maximal_runs (rl_comp s) /\ rl_length s = zlen (c ++ expand vs).
Proof.
  intros T eqb Heq c vs Hv. destruct (RLE_proof.rle_of_ok eqb Heq c) as (s & -> & R). cbn [bind].
  revert c s R Hv. induction vs as [|(v, num) vs IH]; intros c s R Hv; cbn [for_each].
  - exists s. destruct R as (Hm & He & Hl). change (expand (@nil (T * Z))) with (@nil T). rewrite app_nil_r. auto.
  - destruct (RLE_proof.push_ok eqb Heq s c v num R) as (s1 & -> & R1); [apply (Hv v); now left|]. cbn [bind].
    destruct (IH _ _ R1) as (s2 & E2 & H2); [intros; apply (Hv v0); now right|]. exists s2. split; auto.
    change (expand ((v, num) :: vs)) with (vrep num v ++ expand vs). now rewrite app_assoc.
Qed.
Print Assumptions rle_correct.

(* the same from the default constructor *)
Theorem rle_default_correct :
  forall (T : Type) (eqb : T -> T -> bool), (forall x y, eqb x y = true <-> x = y) ->
  forall vs, (forall v num, In (v, num) vs -> 0 < num) ->
  exists s, for_each vs (fun '(v, num) s => rle_push_back eqb s v num) rle_default = Ok s /\
    expand (rl_comp s) = expand vs /\ maximal_runs (rl_comp s) /\ rl_length s = zlen (expand vs).
Proof. intros T eqb Heq vs Hv. exact (rle_correct T eqb Heq [] vs Hv). Qed.
Print Assumptions rle_default_correct.

Example rle_example :
  (let* s := rle_of Z.eqb [1; 1; 2; 2; 2; 1] in let* s := rle_push_back Z.eqb s 1 2 in rle_push_back Z.eqb s 5 1)
  = Ok (RLE 9 [(1, 2); (2, 3); (1, 3); (5, 1)]).
Proof. vm_compute. reflexivity. Qed.

(* C66, finding: clear() and swap() leave the lengths behind. *)
Theorem rle_clear_swap_refuted :
  exists s t : rle Z, rle_of Z.eqb [1; 1; 2] = Ok s /\ rle_of Z.eqb [7] = Ok t /\
    rl_length (rle_clear s) <> zlen (expand (rl_comp (rle_clear s))) /\
    rl_length (fst (rle_swap s t)) <> zlen (expand (rl_comp (fst (rle_swap s t)))).
Proof.
  exists (RLE 3 [(1, 2); (2, 1)]), (RLE 1 [(7, 1)]). repeat split; vm_compute; discriminate.
Qed.
Print Assumptions rle_clear_swap_refuted.
