(* find_denominators: proofs *)
From Verif Require Import Base BaseLemmas ExtGcd_proof Denom_spec Denom_model.

Lemma fld_pos_iff n x q : 0 < x -> n / x = q <-> q * x <= n < (q + 1) * x.
Proof. intros H. split; [intros <-; pose proof (Z.div_mod n x ltac:(lia)); pose proof (Z.mod_pos_bound n x H); nia|]. intros B. symmetry. apply Z.div_unique with (n - x * q); lia. Qed.
Lemma fld_neg_iff n x q : x < 0 -> n / x = q <-> (q + 1) * x < n <= q * x.
Proof. intros H. split; [intros <-; pose proof (Z.div_mod n x ltac:(lia)); pose proof (Z.mod_neg_bound n x H); nia|]. intros B. symmetry. apply Z.div_unique with (n - x * q); lia. Qed.
Lemma quot_nn a d : 0 <= a -> 0 < d -> exists r, a = d * Z.quot a d + r /\ 0 <= r < d.
Proof. intros Ha Hd. exists (Z.rem a d). split; [apply Z.quot_rem'|]. apply Z.rem_bound_pos; lia. Qed.
Lemma quot_any a d : d <> 0 -> exists r, a = d * Z.quot a d + r /\ Z.abs r < Z.abs d /\ (0 <= a -> 0 <= r) /\ (a <= 0 -> r <= 0).
Proof.
  intros Hd. exists (Z.rem a d). split; [apply Z.quot_rem'|]. split; [now apply Z.rem_bound_abs|]. split; intros H; [now apply Z.rem_nonneg|now apply Z.rem_nonpos].
Qed.
Lemma pick_range S l r : (forall x, S x <-> l <= x <= r) -> the_range S (pick l r).
Proof. intros H. unfold pick. destruct (Z.leb_spec l r); cbn [the_range]; [auto|]. intros x Sx. apply H in Sx. lia. Qed.
Ltac qs a d := let r := fresh "r" in let E := fresh "E" in let A := fresh "A" in let B := fresh "B" in let C := fresh "C" in
  destruct (quot_any a d ltac:(lia)) as (r & E & A & B & C); let k := fresh "k" in set (k := Z.quot a d) in *; clearbody k.
Ltac done_ := f_equal; lia.
Section Den.
  Variables (n q lim : Z).
  Hypothesis Hn : Z.abs n < 2 ^ 62.
  Hypothesis Hq : Z.abs q < 2 ^ 62.
  Lemma fld_pos_ok : exists o, fld_pos n q lim = Ok o /\ the_range (fun x => 0 < x <= lim /\ n / x = q) o.
  Proof.
    unfold fld_pos. rewrite Z.geb_leb. destruct (Z.leb_spec 0 q) as [Lq|Lq].
    - destruct (Z.ltb_spec n 0) as [Ln|Ln]; [eexists; split; [reflexivity|]; cbn [the_range]; intros x (Hx & E); apply fld_pos_iff in E; [|lia]; clear Hn Hq; nia|].
      repeat (rewrite i64_ok by lia; cbn [bind]). eexists. split; [reflexivity|]. apply pick_range. intros x. clear Hn Hq. qs (n + 1 + q) (q + 1). destruct (Z.eqb_spec q 0) as [->|N].
      + split; [intros (Hx & F); apply fld_pos_iff in F; [nia|lia]|]. intros H. assert (0 < x) by nia. split; [lia|]. apply fld_pos_iff; nia.
      + qs n q. split; [intros (Hx & F); apply fld_pos_iff in F; [|lia]; split; [nia|]; apply Z.min_glb; nia|]. intros H. assert (0 < x) by nia. split; [lia|]. apply fld_pos_iff; auto. assert (x <= k0) by lia. split; nia.
    - rewrite Z.geb_leb. destruct (Z.leb_spec 0 n) as [Ln|Ln]; [eexists; split; [reflexivity|]; cbn [the_range]; intros x (Hx & E); apply fld_pos_iff in E; [|lia]; clear Hn Hq; nia|].
      repeat (rewrite i64_ok by lia; cbn [bind]). eexists. split; [reflexivity|]. apply pick_range. intros x. clear Hn Hq. qs (n + q + 1) q. destruct (Z.eqb_spec q (-1)) as [->|N].
      + split; [intros (Hx & F); apply fld_pos_iff in F; [nia|lia]|]. intros H. assert (0 < x) by nia. split; [lia|]. apply fld_pos_iff; nia.
      + qs (n + 1) (q + 1). split; [intros (Hx & F); apply fld_pos_iff in F; [|lia]; split; [nia|]; apply Z.min_glb; nia|]. intros H. assert (0 < x) by nia. split; [lia|]. apply fld_pos_iff; auto. assert (x <= k0) by lia. split; nia.
  Qed.
  Lemma fld_neg_ok : exists o, fld_neg n q lim = Ok o /\ the_range (fun x => lim <= x < 0 /\ n / x = q) o.
  Proof.
    unfold fld_neg. rewrite Z.geb_leb. destruct (Z.leb_spec 0 q) as [Lq|Lq].
    - rewrite Z.gtb_ltb. destruct (Z.ltb_spec 0 n) as [Ln|Ln]; [eexists; split; [reflexivity|]; cbn [the_range]; intros x (Hx & E); apply fld_neg_iff in E; [|lia]; clear Hn Hq; nia|].
      repeat (rewrite i64_ok by lia; cbn [bind]). eexists. split; [reflexivity|]. apply pick_range. intros x. clear Hn Hq. qs (n - 1 - q) (q + 1). destruct (Z.eqb_spec q 0) as [->|N].
      + split; [intros (Hx & F); apply fld_neg_iff in F; [nia|lia]|]. intros H. assert (x < 0) by nia. split; [lia|]. apply fld_neg_iff; nia.
      + qs n q. split; [intros (Hx & F); apply fld_neg_iff in F; [|lia]; split; [apply Z.max_lub; nia|nia]|]. intros H. assert (x < 0) by nia. split; [lia|]. apply fld_neg_iff; auto. assert (k0 <= x) by lia. split; nia.
    - destruct (Z.leb_spec n 0) as [Ln|Ln]; [eexists; split; [reflexivity|]; cbn [the_range]; intros x (Hx & E); apply fld_neg_iff in E; [|lia]; clear Hn Hq; nia|].
      repeat (rewrite i64_ok by lia; cbn [bind]). eexists. split; [reflexivity|]. apply pick_range. intros x. clear Hn Hq. qs (n - q - 1) q. destruct (Z.eqb_spec q (-1)) as [->|N].
      + split; [intros (Hx & F); apply fld_neg_iff in F; [nia|lia]|]. intros H. assert (x < 0) by nia. split; [lia|]. apply fld_neg_iff; nia.
      + qs (n - 1) (q + 1). split; [intros (Hx & F); apply fld_neg_iff in F; [|lia]; split; [apply Z.max_lub; nia|nia]|]. intros H. assert (x < 0) by nia. split; [lia|]. apply fld_neg_iff; auto. assert (k0 <= x) by lia. split; nia.
  Qed.
End Den.
Section Cld.
  Variables (n q lim : Z).
  Hypothesis Hn : Z.abs n < 2 ^ 62.
  Hypothesis Hq : Z.abs q < 2 ^ 62.
  Lemma quot_oo a b c d : a = - c -> b = - d -> d <> 0 -> Z.quot a b = Z.quot c d.
  Proof. intros -> -> H. now apply Z.quot_opp_opp. Qed.
  Ltac sgn := match goal with |- context [?a >? ?b] => rewrite (Z.gtb_ltb a b); destruct (Z.ltb_spec b a) | |- context [?a >=? ?b] => rewrite (Z.geb_leb a b); destruct (Z.leb_spec b a)
    | |- context [?a <? ?b] => destruct (Z.ltb_spec a b) | |- context [?a <=? ?b] => destruct (Z.leb_spec a b) | |- context [?a =? ?b] => destruct (Z.eqb_spec a b) end.
  Ltac go := do 9 (try (sgn; try (exfalso; lia))); auto; repeat (rewrite i64_ok by lia; cbn [bind]); do 2 f_equal; auto; try (f_equal; apply quot_oo; lia); apply quot_oo; lia.
  Lemma cld_pos_fld : cld_pos n q lim = fld_pos (- n) (- q) lim.
  Proof. unfold cld_pos, fld_pos. go. Qed.
  Lemma cld_neg_fld : cld_neg n q lim = fld_neg (- n) (- q) lim.
  Proof. unfold cld_neg, fld_neg. go. Qed.
  Lemma range_ext S S' o : (forall x, S x <-> S' x) -> the_range S o -> the_range S' o.
  Proof. intros H. destruct o as [(l & r)|]; cbn [the_range]; [|intros G x Sx; apply (G x), H, Sx]. intros (L & G). split; auto. intros x. rewrite <- H. apply G. Qed.
  Lemma cld_pos_ok : exists o, cld_pos n q lim = Ok o /\ the_range (fun x => 0 < x <= lim /\ - (- n / x) = q) o.
  Proof. rewrite cld_pos_fld. destruct (fld_pos_ok (- n) (- q) lim) as (o & E & G); try lia. exists o. split; auto. revert G. apply range_ext. intros x. lia. Qed.
  Lemma cld_neg_ok : exists o, cld_neg n q lim = Ok o /\ the_range (fun x => lim <= x < 0 /\ - (- n / x) = q) o.
  Proof. rewrite cld_neg_fld. destruct (fld_neg_ok (- n) (- q) lim) as (o & E & G); try lia. exists o. split; auto. revert G. apply range_ext. intros x. lia. Qed.
End Cld.
