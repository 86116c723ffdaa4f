From Verif Require Import Base BaseLemmas ListZ Quot_spec Quot_model Quot_proof Quot_proof2.
Import ListNotations.
Open Scope Z_scope.

(* C91: the quotients are visited once each, in ascending order, and stored by enumerate_quotients; quotient_num counts them *)
Theorem quot_enumerate : forall n, 0 <= n < 2 ^ 60 -> exists qs,
  enumerate_quotients n = Ok qs /\ quotient_num n = Ok (zlen qs) /\
  (forall S (f : Z -> S -> res S) s, foreach_quotients n f s = for_each qs f s) /\
  ascending qs /\ forall q, In q qs <-> quotient_of n q.
Proof.
  intros n H. exists (qlist n). split; [apply enumerate_is; auto|]. split; [apply num_is; auto|]. split; [apply foreach_is; auto|].
  split; [apply qlist_asc; lia|]. intros q. apply qlist_in; lia.
Qed.
Print Assumptions quot_enumerate.
Example quot_enumerate_ex : enumerate_quotients 30 = Ok [1; 2; 3; 4; 5; 6; 7; 10; 15; 30] /\ quotient_num 30 = Ok 10.
Proof. split; reflexivity. Qed.

(* the ranges follow each other from 1 to n, and d lies in a range exactly when floor(n / d) is the quotient of that range *)
Theorem quot_ranges : forall n, 0 <= n < 2 ^ 60 -> exists rs,
  quotient_ranges n = Ok rs /\ ranges_ok (fun q d => n / d = q) 1 n rs.
Proof. exact ranges_is. Qed.
Print Assumptions quot_ranges.
Example quot_ranges_ex : quotient_ranges 10 = Ok [(1, 1, 10); (2, 2, 5); (3, 3, 3); (4, 5, 2); (6, 10, 1)].
Proof. reflexivity. Qed.

(* the same for several numerators at once: up to the greatest numerator *)
Theorem quot_multiple : forall tmax vs, vs <> [] -> (forall v, In v vs -> 0 <= v < tmax) ->
  exists rs mx, multiple_quotients_ranges tmax vs = Ok rs /\ In mx vs /\ (forall v, In v vs -> v <= mx) /\
    ranges_ok (fun qs d => map (fun v => v / d) vs = qs) 1 mx rs.
Proof. exact mult_is. Qed.
Print Assumptions quot_multiple.
Example quot_multiple_ex : multiple_quotients_ranges 127 [6; 0; 4] =
  Ok [(1, 1, [6; 0; 4]); (2, 2, [3; 0; 2]); (3, 3, [2; 0; 1]); (4, 4, [1; 0; 1]); (5, 6, [1; 0; 0])].
Proof. reflexivity. Qed.

(* for n >= 2^60 the int expression 2 * h of foreach_quotients overflows *)
Theorem quot_large_refuted : forall n, 2 ^ 60 <= n < 2 ^ 62 -> forall S (f : Z -> S -> res S) s, foreach_quotients n f s = UB.
Proof.
  intros n H S f s. unfold foreach_quotients. destruct (Z.leb_spec 0 n); [|lia]. cbn [assert_ bind]. destruct (Z.eqb_spec n 0); [lia|].
  rewrite sqrtl_ok by lia.
  assert (A : 2 ^ 30 <= Z.sqrt n) by (apply Z.sqrt_le_square; lia).
  assert (B : Z.sqrt n < 2 ^ 31) by (apply Z.sqrt_lt_square; lia).
  assert (I1 : i32 (Z.sqrt n) = Ok (Z.sqrt n)). { unfold i32. destruct (Z.leb_spec (- 2 ^ 31) (Z.sqrt n)); [|lia]. destruct (Z.ltb_spec (Z.sqrt n) (2 ^ 31)); [reflexivity|lia]. }
  rewrite I1. cbn [bind]. unfold i32. destruct (Z.ltb_spec (2 * Z.sqrt n) (2 ^ 31)); [lia|]. rewrite Bool.andb_false_r. reflexivity.
Qed.
Print Assumptions quot_large_refuted.

(* a numerator equal to the greatest value of T makes the loop step l = r + 1 overflow *)
Lemma loop_ub {S R} (P : S -> Prop) (m : S -> nat) (body : S -> res (S + R)) : forall fuel s, P s -> (m s < fuel)%nat ->
  (forall s, P s -> body s = UB \/ exists s', body s = Ok (inl s') /\ P s' /\ (m s' < m s)%nat) -> loop fuel body s = UB.
Proof.
  induction fuel as [|k IH]; intros s H0 M H; [lia|]. cbn [loop]. destruct (H s H0) as [E|(s' & E & A & B)]; rewrite E; cbn [bind]; [reflexivity|].
  apply IH; auto. lia.
Qed.
Theorem quot_multiple_max_refuted : forall tmax, 1 <= tmax -> multiple_quotients_ranges tmax [tmax] = UB.
Proof.
  intros tmax H. unfold multiple_quotients_ranges. cbn [fold_right]. cbn zeta. rewrite Z.max_id, Z.min_id.
  destruct (Z.leb_spec 0 tmax); [|lia]. cbn [assert_ bind].
  apply (loop_ub (fun st : Z * list (Z * Z * list Z) => 1 <= fst st <= tmax) (fun st : Z * list (Z * Z * list Z) => Z.to_nat (tmax - fst st))); cbn [fst]; [lia|lia|].
  intros [l rs] Hl. cbn [fst] in *. destruct (Z.leb_spec l tmax); [|lia].
  change (zlen [tmax]) with 1. unfold for_. change (Z.to_nat (1 - 0)) with 1%nat. cbn [for_up].
  rewrite vget_cons0. cbn [bind]. change (vrep 1 0) with [0]. change (vset [0] 0 (tmax / l)) with (Ok [tmax / l]). cbn [bind].
  assert (P : 0 < tmax / l) by (apply Z.div_str_pos; lia). destruct (Z.eqb_spec (tmax / l) 0); [lia|].
  assert (Q : l <= tmax / (tmax / l)) by (apply Z.div_le_lower_bound; [lia|]; rewrite Z.mul_comm; apply Z.mul_div_le; lia).
  assert (Q2 : tmax / (tmax / l) <= tmax) by (apply Z.div_le_upper_bound; nia).
  rewrite Z.min_r by lia. destruct (Z.ltb_spec (tmax / (tmax / l)) tmax) as [L|L]; [right|left; reflexivity].
  eexists; split; [reflexivity|]. cbn [fst]. lia.
Qed.
Print Assumptions quot_multiple_max_refuted.
