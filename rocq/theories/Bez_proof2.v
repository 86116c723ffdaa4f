(* Proofs about Bez_model: the answers of the queries. *)
From Verif Require Import Base BaseLemmas ListZ ListMore ExtGcd_model ExtGcd_props Bez_spec Bez_model Bez_proof.

Lemma none_stays cs : forall s, z_t s = BNone -> z_t (fold_left bez_apply cs s) = BNone.
Proof. induction cs as [|c cs IH]; intros s T; [auto|]. cbn [fold_left]. apply IH. destruct c; cbn [bez_apply]; unfold bez_min_x, bez_max_x, bez_min_y, bez_max_y, bez_live; rewrite T; cbn [negb]; auto. Qed.

(* what is known after solve(z) and the restrictions cs *)
Definition Final (a b z : Z) (cs : list con) (s : bez) : Prop :=
  (z_t s = BNone /\ forall p, ~ solves a b z cs p) \/
  exists x0 cx y0 cy, cx <> 0 /\ (forall p, a * fst p + b * snd p = z <-> exists k, p = at_k x0 cx y0 cy k) /\ LInv x0 cx y0 cy s cs.
Lemma final_ok a b z cs : Z.abs a <= 2 ^ 60 -> Z.abs b <= 2 ^ 60 -> Z.abs z <= 2 ^ 60 -> b <> 0 -> Forall (fun c => Z.abs (con_val c) <= 2 ^ 60) cs ->
  exists s, bez_solve a b z = Ok s /\ Final a b z cs (fold_left bez_apply cs s).
Proof.
  intros Ha Hb Hz Nb Fc. destruct (Znumtheory.Zdivide_dec (Z.gcd a b) z) as [D|D].
  - destruct (solve_lin a b z Ha Hb Hz Nb D) as (x0 & cx & y0 & cy & -> & N & X & Y & _ & G). eexists. split; [reflexivity|]. right. exists x0, cx, y0, cy. split; [auto|]. split; [auto|]. apply (applies_ok x0 cx y0 cy X Y cs _ [] Fc). apply init_inv.
  - exists bez_none. split.
    + unfold bez_solve. destruct (ext_gcd_bezout a b ltac:(lia) ltac:(lia)) as (x & y & -> & _). cbn [bind]. destruct (Z.eqb_spec (Z.gcd a b) 0) as [Q|Q]; [apply Z.gcd_eq_0_r in Q; lia|]. destruct (Z.eqb_spec (Z.rem z (Z.gcd a b)) 0) as [R|R]; [|auto]. exfalso. apply D. apply Z.rem_divide; auto.
    + left. split; [apply none_stays; auto|]. intros p (E & _). apply D. rewrite <- E. apply Z.divide_add_r; apply Z.divide_mul_l; [apply Z.gcd_divide_l|apply Z.gcd_divide_r].
Qed.
Lemma final_has a b z cs s : Final a b z cs s -> (bez_has s = true <-> exists p, solves a b z cs p).
Proof.
  intros [(T & N)|(x0 & cx & y0 & cy & Nc & G & LI)].
  - unfold bez_has. rewrite T. split; [discriminate|]. intros (p & P). exfalso. apply (N p P).
  - rewrite (has_ok x0 cx y0 cy s cs LI). split.
    + intros (k & F). exists (at_k x0 cx y0 cy k). split; [apply G; eauto|auto].
    + intros (p & E & F). apply G in E. destruct E as (k & ->). eauto.
Qed.
Lemma solves_k a b z cs x0 cx y0 cy : (forall p, a * fst p + b * snd p = z <-> exists k, p = at_k x0 cx y0 cy k) -> forall p, solves a b z cs p <-> exists k, p = at_k x0 cx y0 cy k /\ Forall (holds (at_k x0 cx y0 cy k)) cs.
Proof. intros G p. unfold solves. rewrite G. split; [intros ((k & ->) & F); eauto|intros (k & -> & F); eauto]. Qed.
Lemma map_at_nodup x0 cx y0 cy (L : list Z) : cx <> 0 -> NoDup L -> NoDup (map (at_k x0 cx y0 cy) L).
Proof. intros N ND. apply FinFun.Injective_map_NoDup; [|auto]. intros k k' E. unfold at_k in E. injection E as E1 _. nia. Qed.
Lemma final_count a b z cs s : Final a b z cs s -> exists c, bez_count s = Ok c /\
  match c with
  | Some c => exists L, NoDup L /\ zlen L = c /\ forall p, In p L <-> solves a b z cs p
  | None => forall L, exists p, solves a b z cs p /\ ~ In p L
  end.
Proof.
  intros FI. assert (EMP : (forall p, ~ solves a b z cs p) -> exists L, NoDup L /\ zlen L = 0 /\ forall p, In p L <-> solves a b z cs p). { intro N. exists []. split; [constructor|]. split; [reflexivity|]. intro p. cbn. specialize (N p). tauto. }
  destruct FI as [(T & N)|(x0 & cx & y0 & cy & Nc & G & LI)].
  - unfold bez_count. rewrite T. eexists. split; [reflexivity|]. apply EMP. auto.
  - pose proof (solves_k a b z cs x0 cx y0 cy G) as SK. destruct (z_t s) eqn:T.
    + unfold bez_count. rewrite T. eexists. split; [reflexivity|]. apply EMP. intros p P. apply SK in P. destruct P as (k & _ & F). apply (l_none _ _ _ _ _ _ LI T k F).
    + exfalso. destruct (l_lin _ _ _ _ _ _ LI ltac:(congruence)) as (Q & _). congruence.
    + unfold bez_count. rewrite T. pose proof (range_ok x0 cx y0 cy s cs LI ltac:(congruence)) as R. destruct (bez_range s) as [(kl, kr)|].
      * destruct R as (R1 & R2 & R3 & R4). destruct infs as (I1 & I2). destruct (Z.eqb_spec kl bez_neginf) as [Q1|Q1]; cbn [orb]; [|destruct (Z.eqb_spec kr bez_posinf) as [Q2|Q2]].
        -- eexists. split; [reflexivity|]. cbn beta iota. intro L. unfold okh, wi in *. pose (top := Z.min kr 0). assert (IN : forall i, In (at_k x0 cx y0 cy (top - i)) L \/ ~ In (at_k x0 cx y0 cy (top - i)) L) by (intro i; destruct (in_dec (fun p q : Z * Z => ltac:(decide equality; apply Z.eq_dec)) (at_k x0 cx y0 cy (top - i)) L); auto).
           destruct (Exists_dec (fun i => ~ In (at_k x0 cx y0 cy (top - i)) L) (zrange (zlen L + 1)) ltac:(intro i; destruct (in_dec (fun p q : Z * Z => ltac:(decide equality; apply Z.eq_dec)) (at_k x0 cx y0 cy (top - i)) L); [right; tauto|left; auto])) as [EX|NE].
           ++ apply Exists_exists in EX. destruct EX as (i & Hi & NI). apply In_zrange in Hi. exists (at_k x0 cx y0 cy (top - i)). split; [|auto]. apply SK. eexists. split; [reflexivity|]. apply R4. split; [auto|right; unfold top; lia].
           ++ exfalso. pose proof (map_at_nodup x0 cx y0 cy (map (fun i => top - i) (zrange (zlen L + 1))) Nc ltac:(apply FinFun.Injective_map_NoDup; [intros u v E; lia|apply NoDup_zrange])) as ND. apply NoDup_incl_length with (l' := L) in ND; [rewrite !map_length in ND; pose proof (zlen_zrange (zlen L + 1)); unfold zlen in *; lia|]. intros p P. apply in_map_iff in P. destruct P as (k & <- & P). apply in_map_iff in P. destruct P as (i & <- & P). destruct (IN i) as [Y|Y]; [auto|]. exfalso. apply NE. apply Exists_exists. eauto.
        -- eexists. split; [reflexivity|]. cbn beta iota. intro L. unfold okl, wi in *. pose (top := Z.max kl 0). assert (IN : forall i, In (at_k x0 cx y0 cy (top + i)) L \/ ~ In (at_k x0 cx y0 cy (top + i)) L) by (intro i; destruct (in_dec (fun p q : Z * Z => ltac:(decide equality; apply Z.eq_dec)) (at_k x0 cx y0 cy (top + i)) L); auto).
           destruct (Exists_dec (fun i => ~ In (at_k x0 cx y0 cy (top + i)) L) (zrange (zlen L + 1)) ltac:(intro i; destruct (in_dec (fun p q : Z * Z => ltac:(decide equality; apply Z.eq_dec)) (at_k x0 cx y0 cy (top + i)) L); [right; tauto|left; auto])) as [EX|NE].
           ++ apply Exists_exists in EX. destruct EX as (i & Hi & NI). apply In_zrange in Hi. exists (at_k x0 cx y0 cy (top + i)). split; [|auto]. apply SK. eexists. split; [reflexivity|]. apply R4. split; [right; unfold top; lia|auto].
           ++ exfalso. pose proof (map_at_nodup x0 cx y0 cy (map (fun i => top + i) (zrange (zlen L + 1))) Nc ltac:(apply FinFun.Injective_map_NoDup; [intros u v E; lia|apply NoDup_zrange])) as ND. apply NoDup_incl_length with (l' := L) in ND; [rewrite !map_length in ND; pose proof (zlen_zrange (zlen L + 1)); unfold zlen in *; lia|]. intros p P. apply in_map_iff in P. destruct P as (k & <- & P). apply in_map_iff in P. destruct P as (i & <- & P). destruct (IN i) as [Y|Y]; [auto|]. exfalso. apply NE. apply Exists_exists. eauto.
        -- eexists. split; [reflexivity|]. cbn beta iota. exists (map (at_k x0 cx y0 cy) (map (fun i => kl + i) (zrange (kr - kl + 1)))). split; [apply map_at_nodup; [auto|]; apply FinFun.Injective_map_NoDup; [intros u v E; lia|apply NoDup_zrange]|]. split; [rewrite !zlen_map, zlen_zrange; lia|]. intro p. rewrite SK. split.
           ++ intro P. apply in_map_iff in P. destruct P as (k & <- & P). apply in_map_iff in P. destruct P as (i & <- & P). apply In_zrange in P. eexists. split; [reflexivity|]. apply R4. split; right; lia.
           ++ intros (k & -> & F). apply R4 in F. destruct F as ([F1|F1] & [F2|F2]); try contradiction. apply in_map. apply in_map_iff. exists (k - kl). split; [lia|]. apply In_zrange. lia.
      * eexists. split; [reflexivity|]. cbn beta iota. apply EMP. intros p P. apply SK in P. destruct P as (k & _ & F). apply (R k F).
Qed.
(* the extreme solutions: pr is one of the two coordinates, sg = 1 for a minimum, -1 for a maximum *)
Lemma ends_ok a b z cs s pr c f0 arb low sg : Final a b z cs s -> (z_t s <> BNone -> forall x0 cx y0 cy, LInv x0 cx y0 cy s cs -> c = pr (cx, cy) /\ f0 = pr (x0, y0)) -> (pr = fst \/ pr = snd) -> (sg = 1 \/ sg = -1) -> low = (0 <=? sg * c) ->
  (exists p, solves a b z cs p) -> (exists lo, forall p, solves a b z cs p -> lo <= sg * pr p) ->
  exists p, bez_ends s arb c low = Ok p /\ solves a b z cs p /\ forall q, solves a b z cs q -> sg * pr p <= sg * pr q.
Proof.
  intros FI CF PR SG LO EX BD. assert (HS : bez_has s = true) by (apply (final_has _ _ _ _ _ FI); auto). unfold bez_ends. rewrite HS. cbn [assert_ bind]. destruct FI as [(T & N)|(x0 & cx & y0 & cy & Nc & G & LI)]; [exfalso; destruct EX as (p & P); apply (N p P)|].
  pose proof (solves_k a b z cs x0 cx y0 cy G) as SK. destruct (z_t s) eqn:T; [unfold bez_has in HS; rewrite T in HS; discriminate|exfalso; destruct (l_lin _ _ _ _ _ _ LI ltac:(congruence)) as (Q & _); congruence|].
  destruct (CF ltac:(congruence) x0 cx y0 cy LI) as (-> & ->). set (c := pr (cx, cy)) in *. set (f0 := pr (x0, y0)) in *. assert (PK : forall k, pr (at_k x0 cx y0 cy k) = f0 + k * c) by (intro k; unfold f0, c; destruct PR as [->| ->]; reflexivity).
  pose proof (range_ok x0 cx y0 cy s cs LI ltac:(congruence)) as R. destruct (bez_range s) as [(kl, kr)|]; [|exfalso; destruct EX as (p & P); apply SK in P; destruct P as (k & _ & F); apply (R k F)]. destruct R as (R1 & R2 & R3 & R4). destruct infs as (I1 & I2).
  assert (PE : forall k, bez_pair s k = at_k x0 cx y0 cy k) by (intro k; unfold bez_pair, at_k; destruct LI as [A1 A2 A3 A4 _ _]; rewrite A1, A2, A3, A4; auto).
  assert (CHO : forall k, wi kl kr k -> (forall k', wi kl kr k' -> 0 <= sg * c * (k' - k)) -> exists p, Ok (bez_pair s k) = Ok p /\ solves a b z cs p /\ forall q, solves a b z cs q -> sg * pr p <= sg * pr q).
  { intros k W M. exists (at_k x0 cx y0 cy k). rewrite PE. split; [auto|]. split; [apply SK; eexists; split; [reflexivity|]; apply R4; auto|]. intros q Q. apply SK in Q. destruct Q as (k' & -> & F). apply R4 in F. specialize (M k' F). rewrite !PK. nia. }
  destruct BD as (lo & BD). assert (BK : forall k, wi kl kr k -> lo <= sg * f0 + k * (sg * c)) by (intros k W; assert (P : solves a b z cs (at_k x0 cx y0 cy k)) by (apply SK; eexists; split; [reflexivity|]; apply R4; auto); specialize (BD _ P); rewrite PK in BD; nia).
  destruct (Z.eqb_spec c 0) as [C0|C0].
  - apply CHO; [|intros k' _; rewrite C0; lia]. unfold bez_pick, wi, okl, okh in *. destruct (Z.eqb_spec kl bez_neginf) as [Q1|Q1]; cbn [negb]; [destruct (Z.eqb_spec kr bez_posinf) as [Q2|Q2]; cbn [negb]; [auto|split; [auto|right; lia]]|split; right; lia].
  - set (d := sg * c) in *. assert (D0 : d <> 0) by (unfold d; nia). rewrite LO. destruct (Z.leb_spec 0 d) as [D|D].
    + assert (KN : kl <> bez_neginf). { intro Q. pose (k := Z.min (- Z.abs (lo - sg * f0) - 1) (Z.min kr 0)). assert (W : wi kl kr k) by (split; [auto|right; unfold k; lia]). specialize (BK k W). assert (k <= - Z.abs (lo - sg * f0) - 1) by (unfold k; lia). clearbody d. nia. }
      apply CHO; [split; right; lia|]. intros k' ([W|W] & _); [contradiction|]. clearbody d. nia.
    + assert (KN : kr <> bez_posinf). { intro Q. pose (k := Z.max (Z.abs (lo - sg * f0) + 1) (Z.max kl 0)). assert (W : wi kl kr k) by (split; [right; unfold k; lia|auto]). specialize (BK k W). assert (Z.abs (lo - sg * f0) + 1 <= k) by (unfold k; lia). clearbody d. nia. }
      apply CHO; [split; right; lia|]. intros k' (_ & [W|W]); [contradiction|]. clearbody d. nia.
Qed.
