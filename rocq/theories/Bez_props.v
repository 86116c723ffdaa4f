(* Property C86: BezoutEquation. *)
From Verif Require Import Base BaseLemmas ExtGcd_model ExtGcd_props Bez_spec Bez_model Bez_proof Bez_proof2.

Definition bez_ok (a b z : Z) (cs : list con) : Prop := Z.abs a <= 2 ^ 60 /\ Z.abs b <= 2 ^ 60 /\ Z.abs z <= 2 ^ 60 /\ b <> 0 /\ Forall (fun c => Z.abs (con_val c) <= 2 ^ 60) cs.
(* BezoutEquation(a, b).solve(z) followed by the restrictions cs, in order *)
Definition bez_run (a b z : Z) (cs : list con) : res bez := let* s := bez_solve a b z in
  Ok (fold_left (fun s c => match c with MinX v => bez_min_x s v | MaxX v => bez_max_x s v | MinY v => bez_min_y s v | MaxY v => bez_max_y s v end) cs s).
Lemma bez_run_ok a b z cs : bez_ok a b z cs -> exists s, bez_run a b z cs = Ok s /\ Final a b z cs s.
Proof. intros (H1 & H2 & H3 & H4 & H5). destruct (final_ok a b z cs H1 H2 H3 H4 H5) as (s & E & F). unfold bez_run. rewrite E. cbn [bind]. eauto. Qed.

(* has_solution() tells whether a x + b y = z has a solution that meets all the restrictions, and count() is the number
   of such solutions, or nullopt when there are infinitely many *)
Theorem bez_solutions a b z cs : bez_ok a b z cs -> exists s c, bez_run a b z cs = Ok s /\ bez_count s = Ok c /\
  (bez_has s = true <-> exists p, solves a b z cs p) /\
  match c with
  | Some c => exists L, NoDup L /\ zlen L = c /\ forall p, In p L <-> solves a b z cs p
  | None => forall L, exists p, solves a b z cs p /\ ~ In p L
  end.
Proof. intro O. destruct (bez_run_ok a b z cs O) as (s & E & F). destruct (final_count a b z cs s F) as (c & C & K). exists s, c. split; [auto|]. split; [auto|]. split; [apply final_has; auto|auto]. Qed.
Print Assumptions bez_solutions.

(* xmin_solution() etc. return a solution that is extreme among all solutions, whenever that coordinate is bounded *)
Theorem bez_extremes a b z cs : bez_ok a b z cs -> (exists p, solves a b z cs p) -> exists s, bez_run a b z cs = Ok s /\
  ((exists lo, forall p, solves a b z cs p -> lo <= fst p) -> exists p, bez_xmin s = Ok p /\ solves a b z cs p /\ forall q, solves a b z cs q -> fst p <= fst q) /\
  ((exists hi, forall p, solves a b z cs p -> fst p <= hi) -> exists p, bez_xmax s = Ok p /\ solves a b z cs p /\ forall q, solves a b z cs q -> fst q <= fst p) /\
  ((exists lo, forall p, solves a b z cs p -> lo <= snd p) -> exists p, bez_ymin s = Ok p /\ solves a b z cs p /\ forall q, solves a b z cs q -> snd p <= snd q) /\
  ((exists hi, forall p, solves a b z cs p -> snd p <= hi) -> exists p, bez_ymax s = Ok p /\ solves a b z cs p /\ forall q, solves a b z cs q -> snd q <= snd p).
Proof.
  intros O EX. destruct (bez_run_ok a b z cs O) as (s & E & F). exists s. split; [auto|].
  assert (CX : z_t s <> BNone -> forall x0 cx y0 cy, LInv x0 cx y0 cy s cs -> z_cx s = fst (cx, cy) /\ z_x0 s = fst (x0, y0)) by (intros _ x0 cx y0 cy [A1 A2 A3 A4 _ _]; auto).
  assert (CY : z_t s <> BNone -> forall x0 cx y0 cy, LInv x0 cx y0 cy s cs -> z_cy s = snd (cx, cy) /\ z_y0 s = snd (x0, y0)) by (intros _ x0 cx y0 cy [A1 A2 A3 A4 _ _]; auto).
  assert (N1 : forall c, (c <=? 0) = (0 <=? -1 * c)) by (intro c; destruct (Z.leb_spec c 0), (Z.leb_spec 0 (-1 * c)); auto; lia).
  assert (P1 : forall c, (0 <=? c) = (0 <=? 1 * c)) by (intro c; rewrite Z.mul_1_l; auto).
  split; [|split; [|split]]; intros (lo & L).
  - destruct (ends_ok a b z cs s fst (z_cx s) (z_x0 s) (z_xl s, z_yl s) _ 1 F CX (or_introl eq_refl) (or_introl eq_refl) (P1 _) EX) as (p & X & Y & Z0); [exists lo; intros p P; specialize (L p P); lia|]. exists p. split; [exact X|]. split; [auto|]. intros q Q. specialize (Z0 q Q). lia.
  - destruct (ends_ok a b z cs s fst (z_cx s) (z_x0 s) (z_xh s, z_yh s) _ (-1) F CX (or_introl eq_refl) (or_intror eq_refl) (N1 _) EX) as (p & X & Y & Z0); [exists (- lo); intros p P; specialize (L p P); lia|]. exists p. split; [exact X|]. split; [auto|]. intros q Q. specialize (Z0 q Q). lia.
  - destruct (ends_ok a b z cs s snd (z_cy s) (z_y0 s) (z_xl s, z_yl s) _ 1 F CY (or_intror eq_refl) (or_introl eq_refl) (P1 _) EX) as (p & X & Y & Z0); [exists lo; intros p P; specialize (L p P); lia|]. exists p. split; [exact X|]. split; [auto|]. intros q Q. specialize (Z0 q Q). lia.
  - destruct (ends_ok a b z cs s snd (z_cy s) (z_y0 s) (z_xh s, z_yh s) _ (-1) F CY (or_intror eq_refl) (or_intror eq_refl) (N1 _) EX) as (p & X & Y & Z0); [exists (- lo); intros p P; specialize (L p P); lia|]. exists p. split; [exact X|]. split; [auto|]. intros q Q. specialize (Z0 q Q). lia.
Qed.
Print Assumptions bez_extremes.

(* Refuted: solve works for every a, b not both zero.  With b = 0 it divides by b / g = 0 for every solvable z. *)
Theorem bez_b_zero_refuted a z : Z.abs a < 2 ^ 63 -> a <> 0 -> (a | z) -> bez_solve a 0 z = UB.
Proof.
  intros Ha Na D. unfold bez_solve. destruct (ext_gcd_bezout a 0 Ha ltac:(lia)) as (x & y & -> & _). cbn [bind]. rewrite Z.gcd_0_r. destruct (Z.eqb_spec (Z.abs a) 0); [lia|]. rewrite (proj2 (Z.eqb_eq (Z.rem z (Z.abs a)) 0)) by (apply Z.rem_divide; [lia|]; apply Z.divide_abs_l; auto). cbn [negb]. cbv zeta. rewrite Z.quot_0_l by lia. reflexivity.
Qed.
Print Assumptions bez_b_zero_refuted.
(* Refuted: count() of the equation 0 x + 0 y = 0; the length of the unrestricted interval, 2^63, does not fit *)
Theorem bez_count_refuted : exists s, bez_solve 0 0 0 = Ok s /\ bez_has s = true /\ bez_count s = UB.
Proof. eexists. split; [vm_compute; reflexivity|]. split; vm_compute; reflexivity. Qed.
Print Assumptions bez_count_refuted.
(* the bool returned by set_min_y (and its siblings) does not tell whether a solution is left: x + y = 0, x >= 1, y >= 1 *)
Theorem bez_set_refuted : exists s, bez_run 1 1 0 [MinX 1; MinY 1] = Ok s /\ bez_live s = true /\ ~ exists p, solves 1 1 0 [MinX 1; MinY 1] p.
Proof. eexists. split; [vm_compute; reflexivity|]. split; [reflexivity|]. intros ((x, y) & E & F). rewrite Forall_forall in F. pose proof (F (MinX 1) ltac:(left; auto)) as F1. pose proof (F (MinY 1) ltac:(right; left; auto)) as F2. cbn [holds fst snd] in *. lia. Qed.
Print Assumptions bez_set_refuted.

(* the hypotheses are met: 6 x - 10 y = 8 with -7 <= x, y <= 5 *)
Example bez_example : bez_ok 6 (-10) 8 [MinX (-7); MaxY 5] /\
  (let* s := bez_run 6 (-10) 8 [MinX (-7); MaxY 5] in let* c := bez_count s in let* p := bez_xmin s in let* q := bez_ymax s in Ok (c, p, q)) = Ok (Some 4, (-7, -5), (8, 4)).
Proof. split; [unfold bez_ok; repeat split; try lia; repeat constructor; cbn [con_val]; lia|vm_compute; reflexivity]. Qed.
