(* Property C68. *)
From Verif Require Import Base BaseLemmas Compress_model Compress_spec.
From Verif Require Compress_proof.

(* C68: the compressor built from any values [xs]: indices are ranks among the distinct
   values, decomp inverts comp, and the neighbour queries return the least / greatest
   registered value. *)
Theorem compressor_correct :
  forall xs, exists c, build xs = Ok c /\
    cc_size c = zlen (nodup Z.eq_dec xs) /\
    (forall e, has_key c e = Ok (if in_dec Z.eq_dec e xs then true else false)) /\
    (forall e d, comp c e d = Ok (if in_dec Z.eq_dec e xs then distinct_with (fun x => x <? e) xs else d)) /\
    (forall i, 0 <= i < cc_size c -> exists e, decomp c i = Ok e /\ In e xs /\ distinct_with (fun x => x <? e) xs = i) /\
    (forall e d, exists r, min_gt c e d = Ok r /\ least_with (fun x => e < x) xs d r) /\
    (forall e d, exists r, min_geq c e d = Ok r /\ least_with (fun x => e <= x) xs d r) /\
    (forall e d, exists r, max_lt c e d = Ok r /\ greatest_with (fun x => x < e) xs d r) /\
    (forall e d, exists r, max_leq c e d = Ok r /\ greatest_with (fun x => x <= e) xs d r) /\
    (forall e, min_gt_index c e = distinct_with (fun x => x <=? e) xs) /\
    (forall e, min_geq_index c e = distinct_with (fun x => x <? e) xs) /\
    (forall e, max_lt_index c e = distinct_with (fun x => x <? e) xs - 1) /\
    (forall e, max_leq_index c e = distinct_with (fun x => x <=? e) xs - 1).
Proof.
  intro xs. destruct (Compress_proof.build_ok xs) as (c & E & S & H). exists c. split; [exact E|].
  assert (LW : forall P Q d r, (forall x, P x <-> Q x) -> least_with P xs d r -> least_with Q xs d r).
  { intros P Q d r I [(A & B & C)|(A & B)]; [left|right]; repeat split; auto; try (now apply I).
    - intros y Hy Qy. apply C; auto. now apply I.
    - intros y Hy Qy. apply (A y Hy). now apply I. }
  assert (GW : forall P Q d r, (forall x, P x <-> Q x) -> greatest_with P xs d r -> greatest_with Q xs d r).
  { intros P Q d r I [(A & B & C)|(A & B)]; [left|right]; repeat split; auto; try (now apply I).
    - intros y Hy Qy. apply C; auto. now apply I.
    - intros y Hy Qy. apply (A y Hy). now apply I. }
  split; [exact (Compress_proof.size_ok xs c S H)|].
  split; [exact (Compress_proof.has_key_ok xs c S H)|].
  split; [exact (Compress_proof.comp_ok xs c S H)|].
  split; [exact (Compress_proof.decomp_ok xs c S H)|].
  split; [|split; [|split; [|split]]].
  - intros e d. destruct (Compress_proof.first_least xs c S H _ d (Compress_proof.up_gt c e S)) as (r & R & L). exists r. split; [exact R|].
    revert L. apply LW. intro. lia.
  - intros e d. destruct (Compress_proof.first_least xs c S H _ d (Compress_proof.up_ge c e S)) as (r & R & L). exists r. split; [exact R|].
    revert L. apply LW. intro. rewrite negb_true_iff. lia.
  - intros e d. destruct (Compress_proof.last_greatest xs c S H _ d (Compress_proof.down_lt c e S)) as (r & R & L). exists r. split; [exact R|].
    revert L. apply GW. intro. lia.
  - intros e d. destruct (Compress_proof.last_greatest xs c S H _ d (Compress_proof.down_le c e S)) as (r & R & L). exists r. split; [exact R|].
    revert L. apply GW. intro. rewrite negb_true_iff. lia.
  - split; [exact (Compress_proof.upper_rank xs c S H)|]. split; [exact (Compress_proof.lower_rank xs c S H)|].
    split; intro e; [unfold max_lt_index; now rewrite (Compress_proof.upper_rank_gt xs c S H)|
                     unfold max_leq_index; now rewrite (Compress_proof.lower_rank_gt xs c S H)].
Qed.
Print Assumptions compressor_correct.

(* C68: inversion_number counts the pairs i < j with a_i > a_j. *)
Theorem inversion_number_correct : forall a, inversion_number a = Ok (inversions a).
Proof. exact Compress_proof.inversion_ok. Qed.
Print Assumptions inversion_number_correct.

Example compressor_example :
  (let* c := build [30; 10; 20; 10; 30] in
   let* k := comp c 20 (-1) in let* k2 := comp c 25 (-1) in let* x := decomp c 2 in let* y := max_lt c 30 0 in Ok (cc_size c, k, k2, x, y))
  = Ok (3, 1, -1, 30, 20) /\ inversion_number [3; 1; 2; 1] = Ok 4.
Proof. split; vm_compute; reflexivity. Qed.
