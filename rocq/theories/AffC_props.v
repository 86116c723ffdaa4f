(* C117: composition of clamped affine functions. *)
From Verif Require Import Base BaseLemmas AffC_spec AffC_model AffC_proof.
(* applying f to x is a x + b clamped to [l, r], computed without overflow *)
Theorem affine_clamp_apply a b l r x : l <= r -> affine_clamp (AC a b l r) x = Ok (clamp_affine a b l r x).
Proof. intros H. exact (eval_ok (AC a b l r) x H). Qed.
Print Assumptions affine_clamp_apply.
(* compose(f, g) is the function x -> f(g(x)), provided the slope a_f a_g and the intercept a_f b_g + b_f (and its first product) fit in T *)
Theorem affine_clamp_compose f g : fits f -> fits g -> in64 (ca f * ca g) -> in64 (ca f * cb g) -> in64 (ca f * cb g + cb f) ->
  exists h, ac_compose f g = Ok h /\ fits h /\ forall x, affine_clamp h x = (let* y := affine_clamp g x in affine_clamp f y).
Proof.
  intros F G H1 H2 H3. destruct (compose_ok f g F G H1 H2 H3) as (h & E & Fh & V). exists h. split; [exact E|]. split; [exact Fh|]. intros x.
  rewrite (eval_ok g) by apply G. cbn [bind]. rewrite (eval_ok f) by apply F. rewrite eval_ok by apply Fh. now rewrite V.
Qed.
Print Assumptions affine_clamp_compose.
(* otherwise composing overflows, whatever the bounds are *)
Theorem affine_clamp_compose_overflow f g : ~ (in64 (ca f * ca g) /\ in64 (ca f * cb g) /\ in64 (ca f * cb g + cb f)) -> ac_compose f g = UB.
Proof. exact (compose_ub f g). Qed.
Print Assumptions affine_clamp_compose_overflow.
(* id() is neutral on both sides: on the left exactly, on the right as a function on T *)
Theorem affine_clamp_identity f : fits f ->
  ac_compose ac_id f = Ok f /\ exists h, ac_compose f ac_id = Ok h /\ forall x, in64 x -> affine_clamp h x = affine_clamp f x.
Proof.
  intros F. pose proof F as (F1 & F2 & F3 & F4 & F5). split.
  - unfold ac_compose, affine_T. cbn [ac_id ca cb]. rewrite !Z.mul_1_l, (i64_ok _ F1). cbn [bind]. rewrite (i64_ok _ F2). cbn [bind]. rewrite Z.add_0_r, (i64_ok _ F2). cbn [bind].
    rewrite !eval_ok by (cbn; lia). cbn [bind]. rewrite !id_val by auto. rewrite (proj2 (Z.ltb_ge _ _)) by lia. now destruct f.
  - destruct (compose_ok f ac_id F id_fits) as (h & E & Fh & V).
    + cbn. now rewrite Z.mul_1_r. + cbn. rewrite Z.mul_0_r. unfold in64. lia. + cbn. now rewrite Z.mul_0_r.
    + exists h. split; [exact E|]. intros x Hx. rewrite !eval_ok by (apply Fh || apply F). now rewrite V, id_val.
Qed.
Print Assumptions affine_clamp_identity.
(* any number of functions composed in turn, when no composition overflows, act as applying them one after the other *)
Theorem affine_clamp_fold fs h : Forall fits fs -> ac_fold fs = Ok h ->
  fits h /\ forall x, in64 x -> affine_clamp h x = for_each fs affine_clamp x.
Proof.
  intros F E. destruct (fold_ok fs ac_id h id_fits F E) as [Fh V]. split; [exact Fh|]. intros x Hx. rewrite eval_ok by apply Fh. rewrite V, id_val by exact Hx.
  clear - F. revert x. induction F as [|f fs Ff F IH]; intros x; cbn; [reflexivity|]. rewrite eval_ok by apply Ff. cbn [bind]. apply IH.
Qed.
Print Assumptions affine_clamp_fold.
(* operator== is inherited from Affine and ignores the bounds: functions that compare equal can have different values *)
Theorem affine_clamp_equality_refuted : ~ (forall f g x, fits f -> fits g -> in64 x -> ac_eqb f g = true -> affine_clamp f x = affine_clamp g x).
Proof. intros H. specialize (H (AC 1 0 0 5) (AC 1 0 0 9) 7). cbn in H. enough (Ok 5 = Ok 7) by discriminate. apply H; unfold fits, in64; cbn; lia || reflexivity. Qed.
Print Assumptions affine_clamp_equality_refuted.
(* repeated doubling clamped to [0, 10] maps T to [0, 10], yet composing 64 of them overflows *)
Theorem affine_clamp_doubling_refuted : ~ (forall fs, Forall (fun f => f = AC 2 0 0 10) fs -> exists h, ac_fold fs = Ok h).
Proof. intros H. destruct (H (repeat (AC 2 0 0 10) 64)) as [h E]; [apply Forall_forall; intros f Hf; now apply repeat_spec in Hf|]. vm_compute in E. discriminate. Qed.
Print Assumptions affine_clamp_doubling_refuted.
Example affine_clamp_example : Forall fits [AC 2 1 0 100; AC (-3) 4 (-50) 50] /\ exists h, ac_fold [AC 2 1 0 100; AC (-3) 4 (-50) 50] = Ok h /\
  affine_clamp h 7 = Ok (-41) /\ affine_clamp h 1000 = Ok (-50) /\ affine_clamp h (-9) = Ok 4.
Proof. split; [repeat constructor; cbn; lia|]. eexists. split; [vm_compute; reflexivity|]. repeat split; vm_compute; reflexivity. Qed.
