(* C34: XorBase *)
From Verif Require Import Base XorBase_model XorBase_spec XorBase_proof.

(* C34.  Every object built by the constructors, add, +=, + and intersection holds a basis of
   the subspace it stands for; dim() is the dimension of that subspace. *)
Theorem xor_base_represents :
  forall b P, built b P -> basis_of b P.
Proof. exact built_basis. Qed.
Print Assumptions xor_base_represents.

(* C34.  add answers true exactly when the word is outside the subspace. *)
Theorem xor_base_add_new :
  forall b P v, built b P -> 0 <= v -> (snd (xb_add b v) = true <-> ~ P v).
Proof. exact built_add_new. Qed.
Print Assumptions xor_base_add_new.

Example xor_base_example :
  built (xb_intersection (xb_of [6; 3; 5; 12]) (xb_plus_word (xb_of [9; 10]) 1))
        (fun x => span [6; 3; 5; 12] x /\ (span [9; 10] x \/ span [9; 10] (Z.lxor 1 x))) /\
  xb_of [6; 3; 5; 12] = [6; 3; 9] /\ xb_dim (xb_of [6; 3; 5; 12]) = 3 /\
  xb_intersection (xb_of [6; 3; 5; 12]) (xb_plus_word (xb_of [9; 10]) 1) = [9; 3].
Proof.
  split; [|vm_compute; auto].
  assert (W1 : words [6; 3; 5; 12]) by (intros x H; repeat (destruct H as [<-|H]; [lia|]); destruct H).
  assert (W2 : words [9; 10]) by (intros x H; repeat (destruct H as [<-|H]; [lia|]); destruct H).
  apply built_intersection; [apply built_of; auto|]. apply (built_plus_word _ (span [9; 10])); [apply built_of; auto|lia].
Qed.
