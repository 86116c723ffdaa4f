(* Factorial, inverse and power tables. *)
From Coq Require Import Znumtheory.
From Verif Require Import Base BaseLemmas FactTab_model FactTab_spec Hist Heap_spec FactTab_proof FactTab_proof2.

(* For every prime p and every sequence of queries on one table, each answer is the factorial,
   inverse factorial, binomial, permutation or multinomial coefficient modulo p, whatever the table
   held before.  A query fails only by making the table grow beyond p entries or by a negative
   index. *)
Theorem factorial_history (p : Z) (Hp : prime p) (ops : list fop) :
  answers (ft_spec p) 1 ops (run (ft_step p) (ft_new p) ops).
Proof. exact (ft_history p Hp ops). Qed.
Print Assumptions factorial_history.

(* Queries up to p / 2 never fail, in any order. *)
Theorem factorial_no_abort (p : Z) (Hp : prime p) (ops : list fop) :
  (forall o, In o ops -> ~ negative o /\ 2 * findex o <= p) -> snd (run (ft_step p) (ft_new p) ops) = Ok tt.
Proof.
  intro H. pose proof (ft_history p Hp ops) as A. destruct (run (ft_step p) (ft_new p) ops) as (rs, f). cbn [snd].
  pose proof (NumTheory.prime_gt1 p Hp) as P1. 
  assert (G : forall rs f c, 1 <= c <= p -> answers (ft_spec p) c ops (rs, f) -> f = Ok tt); [|apply (G rs f 1); auto; lia]. clear A rs f.
  induction ops as [|o ops IH]; intros rs f c C A; inversion A; subst; auto.
  - match goal with Q : ft_spec _ _ _ _ |- _ => destruct Q as (E & B & _) end. subst.
    eapply IH; [intros; apply H; right; auto| |eassumption]. unfold grow in *. destruct (Z.ltb_spec (findex o) c); lia.
  - match goal with Q : ft_spec _ _ _ _ |- _ => cbn in Q; unfold grow in Q end. destruct (H o ltac:(left; auto)) as (_ & B). destruct (Z.ltb_spec (findex o) c); lia.
  - match goal with Q : ft_spec _ _ _ _ |- _ => cbn in Q end. destruct (H o ltac:(left; auto)) as (N & _). contradiction.
Qed.
Print Assumptions factorial_no_abort.

(* Queries below p may fail: the table doubles past p. *)
Theorem factorial_below_modulus_refuted :
  ~ (forall p ops, prime p -> (forall o, In o ops -> 0 <= findex o < p) -> snd (run (ft_step p) (ft_new p) ops) = Ok tt).
Proof.
  intro H. specialize (H 11 [FFac 6; FFac 8]). vm_compute in H. discriminate H.
  - apply prime_intro; [lia|]. intros n Hn. apply Zgcd_1_rel_prime.
    assert (n = 1 \/ n = 2 \/ n = 3 \/ n = 4 \/ n = 5 \/ n = 6 \/ n = 7 \/ n = 8 \/ n = 9 \/ n = 10) as C by lia.
    repeat (destruct C as [->|C]; [reflexivity|]). subst. reflexivity.
  - intros o [<-|[<-|[]]]; cbn; split; congruence || reflexivity.
Qed.
Print Assumptions factorial_below_modulus_refuted.

Example factorial_example :
  run (ft_step 13) (ft_new 13) [FFac 4; FInv 4; FBinom 6 2; FBinom 2 6; FPerm 5 3; FPoly 6 [1; 2]; FPoly 3 [2; 2]] = ([11; 6; 2; 0; 8; 8; 0], Ok tt) /\
  bin 6 2 = 15 /\ falling 5 3 = 60 /\ multi 6 [1; 2]%nat = 60.
Proof. repeat split. Qed.

(* Every sequence of lookups in the inverse table. *)
Theorem inv_mods_history (p : Z) (Hp : prime p) (is : list Z) :
  answers (im_spec p) tt is (run (im_step p) [] is).
Proof. exact (im_history p Hp is). Qed.
Print Assumptions inv_mods_history.

(* The entry of an index above p is 0 although the index is invertible. *)
Theorem inv_mods_above_modulus_refuted :
  ~ (forall p i x, prime p -> 0 <= i -> ~ (p | i) -> fst (run (im_step p) [] [i]) = [x] -> (x * i) mod p = 1).
Proof.
  intro H. assert (N : ~ (2 | 3)) by (intros (k & K); lia). specialize (H 2 3 0 prime_2 ltac:(lia) N eq_refl). discriminate H.
Qed.
Print Assumptions inv_mods_above_modulus_refuted.
Example inv_mods_example : run (im_step 7) [] [3; 0; 6; 1] = ([5; 0; 6; 1], Ok tt).
Proof. reflexivity. Qed.

(* get_invs inverts every element, or aborts if one is zero. *)
Theorem get_invs_correct (p : Z) (Hp : prime p) (vs : list Z) : (forall v, In v vs -> 0 <= v < p) ->
  match get_invs p vs with
  | Ok r => ~ In 0 vs /\ zlen r = zlen vs /\ forall i v, vget vs i = Ok v -> exists x, vget r i = Ok x /\ inverse p v x
  | Abort => In 0 vs
  | _ => False
  end.
Proof. exact (get_invs_ok p Hp vs). Qed.
Print Assumptions get_invs_correct.
Example get_invs_example : get_invs 7 [3; 5; 6] = Ok [5; 3; 6] /\ get_invs 7 [3; 0] = Abort.
Proof. split; reflexivity. Qed.

(* Every sequence of lookups in a power table, for any modulus. *)
Theorem pow_mods_history (m base : Z) (Hm : 0 < m) (is : list Z) :
  answers (pw_spec m base) tt is (run (pw_step m base) [1 mod m] is).
Proof. exact (pw_history m base Hm is). Qed.
Print Assumptions pow_mods_history.
Example pow_mods_example : run (pw_step 10 3) [1] [4; 0; 5; 2] = ([1; 1; 3; 9], Ok tt).
Proof. reflexivity. Qed.
