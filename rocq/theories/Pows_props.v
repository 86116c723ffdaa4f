(* C113: the table of k-th powers. *)
From Verif Require Import Base BaseLemmas ZMod Seq Kron_alg Sieve_model Sieve_spec Sieve_proof Pows_model.
From Coq Require Import Znumtheory Zpow_facts.
(* powers(n, k) is 0^k, 1^k, ..., n^k modulo m, with 0^0 = 1 *)
Theorem powers_correct m n k : 0 < m -> 0 <= n -> 0 <= k -> powers m n k = Ok (map (fun i => i ^ k mod m) (zrange (n + 1))).
Proof.
  intros Hm Hn Hk. unfold powers. destruct (sieve_spec_ok n ltac:(lia)) as (s & E & _ & _ & H). rewrite E. cbn [bind]. cbv zeta.
  pose proof (rep_vrep (n + 1) 0 ltac:(lia)) as R0. rewrite (rep_set _ _ _ _ _ R0) by lia. cbn [bind].
  match goal with |- for_ 1 (n + 1) ?b ?s = _ =>
    destruct (for_inv (fun i r => rep r (n + 1) (fun j => if j <? i then j ^ k mod m else 0)) 1 (n + 1) b s) as (r & Er & Rr) end; [lia| | |].
  - eapply rep_ext; [apply rep_upd; [exact R0|lia]|]. intros j Hj. unfold fupd. destruct (Z.eqb_spec j 0) as [Ej|Nj]; destruct (Z.ltb_spec j 1); try lia.
    subst j. f_equal. destruct (Z.eqb_spec k 0) as [->|]; [reflexivity|]. now rewrite Z.pow_0_l by lia.
  - intros i r Hi Rr.
    assert (W : forall v, v = i ^ k mod m -> exists r', vset r i v = Ok r' /\ rep r' (n + 1) (fun j => if j <? i + 1 then j ^ k mod m else 0)).
    { intros v ->. rewrite (rep_set _ _ _ _ _ Rr) by lia. eexists; split; [reflexivity|]. eapply rep_ext; [apply rep_upd; [exact Rr|lia]|]. intros j Hj. unfold fupd.
      destruct (Z.eqb_spec j i) as [Ej|Nj]; destruct (Z.ltb_spec j i), (Z.ltb_spec j (i + 1)); try lia; auto. now subst j. }
    destruct (Z.eqb_spec i 1) as [->|N1]; [apply W; now rewrite Z.pow_1_l by lia|].
    destruct (H i ltac:(lia)) as (p & Ep & Hp & Hd & _). rewrite Ep. cbn [bind]. destruct (Z.eqb_spec p i) as [->|Np].
    { apply W. symmetry. apply Zpower_mod. lia. }
    pose proof (prime_ge_2 p Hp). destruct Hd as [q Eq]. assert (0 < q < i) by nia. assert (p < i) by nia.
    rewrite (rep_get _ _ _ _ Rr) by lia. cbn [bind]. replace (Z.quot i p) with q by (rewrite Eq, Z.quot_mul; lia).
    rewrite (rep_get _ _ _ _ Rr) by lia. cbn [bind]. rewrite !(proj2 (Z.ltb_lt _ _)) by lia. apply W.
    rewrite <- Zmult_mod. f_equal. rewrite <- Z.pow_mul_l. f_equal. lia.
  - rewrite Er. f_equal. apply rep_map. eapply rep_ext; [exact Rr|]. intros j Hj. cbn beta. now rewrite (proj2 (Z.ltb_lt j (n + 1))) by lia.
Qed.
Print Assumptions powers_correct.
Example powers_example : powers 1000 12 3 = Ok [0; 1; 8; 27; 64; 125; 216; 343; 512; 729; 0; 331; 728] /\ powers 7 2 0 = Ok [1; 1; 1].
Proof. split; vm_compute; reflexivity. Qed.
