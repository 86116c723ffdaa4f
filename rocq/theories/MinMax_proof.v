(* minmax_floyd_warshall: proofs *)
From Verif Require Import Base BaseLemmas ListZ ListMore Centroid_proof CSort_proof MinMax_spec MinMax_model.
From Coq Require Import Permutation Sorted.

Definition fput2 {X} (f : Z -> Z -> X) (i j : Z) (x : X) : Z -> Z -> X := fun a b => if (a =? i) && (b =? j) then x else f a b.
Definition mat {X} (n : Z) (f : Z -> Z -> X) : list (list X) := vec n (fun i => vec n (f i)).
Lemma mat_ext {X} n (f h : Z -> Z -> X) : (forall i j, 0 <= i < n -> 0 <= j < n -> f i j = h i j) -> mat n f = mat n h.
Proof. intros H. apply vec_ext. intros i Hi. apply vec_ext. auto. Qed.
Lemma mget_mat {X} n (f : Z -> Z -> X) i j : 0 <= i < n -> 0 <= j < n -> mget (mat n f) i j = Ok (f i j).
Proof. intros Hi Hj. unfold mget, mat. rewrite vget_vec by auto. cbn [bind]. now apply vget_vec. Qed.
Lemma mset_mat {X} n (f : Z -> Z -> X) i j x : 0 <= i < n -> 0 <= j < n -> mset (mat n f) i j x = Ok (mat n (fput2 f i j x)).
Proof.
  intros Hi Hj. unfold mset, mat. rewrite vget_vec by auto. cbn [bind]. rewrite vset_vec by auto. cbn [bind]. rewrite vset_vec by auto. f_equal. apply vec_ext. intros a Ha. unfold fput. destruct (Z.eqb_spec a i) as [->|N]; apply vec_ext; intros b Hb; unfold fput2; [rewrite Z.eqb_refl|destruct (Z.eqb_spec a i); [contradiction|]]; reflexivity.
Qed.
Lemma for_emit {Y} lo hi (body : Z -> list Y -> res (list Y)) (f : Z -> list Y) : lo <= hi -> (forall i out, lo <= i < hi -> body i out = Ok (out ++ f i)) -> forall out, exists l, for_ lo hi body out = Ok (out ++ l) /\ forall y, In y l <-> exists i, lo <= i < hi /\ In y (f i).
Proof.
  intros L H out. destruct (for_inv (fun i s => exists l, s = out ++ l /\ forall y, In y l <-> exists k, lo <= k < i /\ In y (f k)) lo hi body out L) as (s & E & l & -> & I).
  - exists []. split; [now rewrite app_nil_r|]. intros y. split; [intros []|intros (k & Hk & _); lia].
  - intros i s Hi (l & -> & I). rewrite H by auto. eexists. split; [reflexivity|]. exists (l ++ f i). split; [now rewrite app_assoc|]. intros y. rewrite in_app_iff, I. split.
    + intros [(k & Hk & Y1)|Y1]; [exists k; split; auto; lia|exists i; split; auto; lia].
    + intros (k & Hk & Y1). destruct (Z.eq_dec k i) as [->|N]; [now right|left; exists k; split; auto; lia].
  - exists l. auto.
Qed.
Lemma new_ok n i (x y : Z -> bool) : 0 <= i -> 64 * i <= n -> exists l, fw_new n i (vec n x) (vec n y) = Ok l /\ forall j, In j l <-> 64 * i <= j < Z.min n (64 * i + 64) /\ x j = true /\ y j = false.
Proof.
  intros Hi Hn. unfold fw_new. destruct (for_emit (64 * i) (Z.min n (64 * i + 64)) (fun j out => let* a := vget (vec n x) j in let* b := vget (vec n y) j in Ok (if a && negb b then out ++ [j] else out)) (fun j => if x j && negb (y j) then [j] else []) ltac:(lia)) with (out := @nil Z) as (l & E & I).
  - intros j out Hj. rewrite !vget_vec by lia. cbn [bind]. destruct (x j && negb (y j)); [reflexivity|now rewrite app_nil_r].
  - exists l. split; [exact E|]. intros j. rewrite I. split.
    + intros (k & Hk & Y). destruct (x k && negb (y k)) eqn:F; [|destruct Y]. destruct Y as [<-|[]]. apply andb_prop in F as (F1 & F2). apply negb_true_iff in F2. auto.
    + intros (Hj & F1 & F2). exists j. split; auto. rewrite F1, F2. now left.
Qed.

Definition allp (n : Z) : list (Z * Z) := list_prod (zrange n) (zrange n).
Definition nf (n : Z) (G : Z -> Z -> bool) : nat := length (filter (fun ab => negb (G (fst ab) (snd ab))) (allp n)).
Lemma allp_In n a b : In (a, b) (allp n) <-> 0 <= a < n /\ 0 <= b < n.
Proof. unfold allp. rewrite in_prod_iff, !In_zrange. reflexivity. Qed.
Lemma flt_le {A} (P Q : A -> bool) l : (forall x, In x l -> Q x = true -> P x = true) -> (length (filter Q l) <= length (filter P l))%nat.
Proof. induction l as [|x l IH]; intros H; [auto|]. cbn [filter]. specialize (IH (fun y I => H y (or_intror I))). pose proof (H x (or_introl eq_refl)) as Hx. destruct (Q x); [rewrite Hx by auto; cbn [length]; lia|destruct (P x); cbn [length]; lia]. Qed.
Lemma flt_lt {A} (P Q : A -> bool) l y : (forall x, In x l -> Q x = true -> P x = true) -> In y l -> P y = true -> Q y = false -> (length (filter Q l) < length (filter P l))%nat.
Proof.
  induction l as [|x l IH]; intros H I Py Qy; [destruct I|]. cbn [filter]. pose proof (H x (or_introl eq_refl)) as Hx. destruct I as [->|I].
  - rewrite Py, Qy. cbn [length]. pose proof (flt_le P Q l (fun y I => H y (or_intror I))). lia.
  - specialize (IH (fun y I => H y (or_intror I)) I Py Qy). destruct (Q x); [rewrite Hx by auto; cbn [length]; lia|destruct (P x); cbn [length]; lia].
Qed.
Lemma nf_max n G : 0 <= n -> (nf n G <= Z.to_nat (n * n))%nat.
Proof.
  intros H. unfold nf. etransitivity; [apply (flt_le (fun _ => true)); auto|]. assert (E : forall l : list (Z * Z), filter (fun _ => true) l = l) by (induction l as [|x l IH]; cbn [filter]; congruence). rewrite E. unfold allp. rewrite prod_length. pose proof (zlen_zrange n H) as Z1. unfold zlen in Z1. nia.
Qed.

Section Rec.
  Variables (cost : list (list Z)) (c : Z).
  Notation n := (zlen cost).
  Variable G0 : Z -> Z -> bool.
  Notation rg a := (0 <= a < n).
  Hypothesis Lo : forall a b, rg a -> rg b -> G0 a b = false -> forall y, walk cost a b y -> c <= y.
  Definition W (a b : Z) : Prop := exists y, walk cost a b y /\ y <= c.
  Lemma walk_app a b d x y : walk cost a b x -> walk cost b d y -> walk cost a d (Z.max x y).
  Proof. clear Lo. induction 1 as [u v k E|u w v k x E Wk IH]; intros H; [now apply walk_step with v|]. rewrite <- Z.max_assoc. apply walk_step with w; auto. Qed.
  Lemma W_trans a b d : W a b -> W b d -> W a d.
  Proof. clear Lo. intros (x & A & Hx) (y & B & Hy). exists (Z.max x y). split; [now apply walk_app with b|lia]. Qed.
  Definition st (G : Z -> Z -> bool) (R : Z -> Z -> Z) : fw_st := (mat n G, mat n (fun v u => G u v), mat n R).
  Definition good (G : Z -> Z -> bool) (R : Z -> Z -> Z) : Prop :=
    (forall a b, rg a -> rg b -> G a b = true -> W a b /\ bottleneck cost a b (R a b)) /\ (forall a b, rg a -> rg b -> G0 a b = true -> G a b = true).
  Definition inv (G : Z -> Z -> bool) (T : Z -> Z -> Z -> Prop) : Prop := forall a b d, rg a -> rg b -> rg d -> G a b = true -> G b d = true -> G a d = true \/ T a b d.
  Definition sub (G G' : Z -> Z -> bool) : Prop := forall a b, G a b = true -> G' a b = true.
  Definition tri (ab : Z * Z) (a b d : Z) : Prop := (a, b) = ab \/ (b, d) = ab.
  Lemma add_ok G R u v : rg u -> rg v -> good G R -> W u v -> exists G' R' fr, fw_add c u v (st G R) = Ok (st G' R', fr) /\ good G' R' /\ (forall a b, G' a b = true <-> G a b = true \/ (a, b) = (u, v)) /\ (fr = negb (G u v)).
  Proof.
    intros Hu Hv (Gd & G0s) Wuv. unfold fw_add, st. rewrite mget_mat by auto. cbn [bind]. destruct (G u v) eqn:E.
    - exists G, R, false. split; auto. split; [split; auto|]. split; auto. intros a b. split; auto. intros [|X]; auto. now injection X as -> ->.
    - rewrite !mset_mat by auto. cbn [bind]. exists (fput2 G u v true), (fput2 R u v c), true. split; [assert (Q : mat n (fput2 (fun v u : Z => G u v) v u true) = mat n (fun v0 u0 : Z => fput2 G u v true u0 v0)) by (apply mat_ext; intros a b _ _; unfold fput2; rewrite andb_comm; reflexivity); rewrite Q; reflexivity|].
      assert (B : bottleneck cost u v c). { assert (L0 : G0 u v = false) by (destruct (G0 u v) eqn:X; auto; apply G0s in X; auto; congruence). pose proof (Lo u v Hu Hv L0) as L. split; auto. destruct Wuv as (y & Wy & Hy). specialize (L y Wy). now replace c with y by lia. }
      split; [split|split; auto].
      + intros a b Ha Hb. unfold fput2. destruct (Z.eqb_spec a u) as [->|]; cbn [andb]; [|apply Gd; auto]. destruct (Z.eqb_spec b v) as [->|]; [auto|apply Gd; auto].
      + intros a b Ha Hb X. unfold fput2. destruct ((a =? u) && (b =? v)); auto.
      + intros a b. unfold fput2. destruct (Z.eqb_spec a u) as [->|N]; cbn [andb]; [destruct (Z.eqb_spec b v) as [->|N]; [tauto|]|]; split; auto; intros [X|X]; auto; injection X; congruence.
  Qed.
  Variable pr : Z -> Z * Z.
  Lemma adds_ok l : forall G R, good G R -> (forall j, In j l -> rg (fst (pr j)) /\ rg (snd (pr j)) /\ W (fst (pr j)) (snd (pr j))) ->
    exists G' R', for_each l (fun j s => let* r := fw_add c (fst (pr j)) (snd (pr j)) s in Ok (fst r)) (st G R) = Ok (st G' R') /\ good G' R' /\ forall a b, G' a b = true <-> G a b = true \/ exists j, In j l /\ pr j = (a, b).
  Proof.
    induction l as [|j l IH]; intros G R Gd H.
    - exists G, R. split; auto. split; auto. intros a b. split; auto. intros [|(j & [] & _)]; auto.
    - cbn [for_each]. destruct (H j (or_introl eq_refl)) as (A & B & C). destruct (add_ok G R _ _ A B Gd C) as (G1 & R1 & fr & E1 & Gd1 & S1 & _). rewrite E1. cbn [bind fst]. destruct (IH G1 R1 Gd1 (fun k I => H k (or_intror I))) as (G2 & R2 & E2 & Gd2 & S2). exists G2, R2. split; auto. split; auto. intros a b. rewrite S2, S1. split.
      + intros [[X|X]|(k & I & X)]; [auto|right; exists j; split; [now left|rewrite X; now destruct (pr j)]|right; exists k; split; [now right|auto]].
      + intros [X|(k & [->|I] & X)]; auto; [left; right; rewrite X; reflexivity|right; eauto].
  Qed.
  Variable rc : Z * Z -> fw_st -> res fw_st.
  Variable fuel : nat.
  Hypothesis Rc : forall u v G R T, rg u -> rg v -> G u v = true -> good G R -> inv G (fun a b d => T a b d \/ tri (u, v) a b d) -> (nf n G < fuel)%nat ->
    exists G' R', rc (u, v) (st G R) = Ok (st G' R') /\ good G' R' /\ inv G' T /\ sub G G'.
  Lemma nf_sub G G' : sub G G' -> (nf n G' <= nf n G)%nat.
  Proof. clear. intros H. unfold nf. apply flt_le. intros (a & b) _ X. cbn [fst snd] in *. destruct (G a b) eqn:E; auto. rewrite (H a b E) in X. discriminate. Qed.
  Lemma recs_ok l : forall G R T, good G R -> (forall j, In j l -> rg (fst (pr j)) /\ rg (snd (pr j)) /\ G (fst (pr j)) (snd (pr j)) = true) -> inv G (fun a b d => T a b d \/ exists j, In j l /\ tri (pr j) a b d) -> (nf n G < fuel)%nat ->
    exists G' R', for_each l (fun j s => rc (pr j) s) (st G R) = Ok (st G' R') /\ good G' R' /\ inv G' T /\ sub G G'.
  Proof.
    induction l as [|j l IH]; intros G R T Gd H I F.
    - exists G, R. split; auto. split; auto. split; [|intros a b; auto]. intros a b d Ha Hb Hd X Y. destruct (I a b d Ha Hb Hd X Y) as [|[|(j & [] & _)]]; auto.
    - cbn [for_each]. destruct (H j (or_introl eq_refl)) as (A & B & C). destruct (Rc (fst (pr j)) (snd (pr j)) G R (fun a b d => T a b d \/ exists k, In k l /\ tri (pr k) a b d) A B C Gd) as (G1 & R1 & E1 & Gd1 & I1 & S1); auto.
      { intros a b d Ha Hb Hd X Y. destruct (I a b d Ha Hb Hd X Y) as [|[|(k & [->|Ik] & Tk)]]; auto; [|right; left; right; eauto]. right. right. rewrite <- surjective_pairing. exact Tk. }
      rewrite <- surjective_pairing in E1. rewrite E1. cbn [bind]. destruct (IH G1 R1 T Gd1) as (G2 & R2 & E2 & Gd2 & I2 & S2); auto.
      + intros k Ik. destruct (H k (or_intror Ik)) as (A' & B' & C'). split; auto.
      + pose proof (nf_sub G G1 S1). lia.
      + exists G2, R2. split; auto. split; auto. split; auto. intros a b X. apply S2, S1, X.
  Qed.
  (* one half of a block: add the missing pairs, then follow them *)
  Lemma half_ok l G R T Tc : good G R -> (forall j, In j l -> rg (fst (pr j)) /\ rg (snd (pr j)) /\ W (fst (pr j)) (snd (pr j)) /\ G (fst (pr j)) (snd (pr j)) = false) ->
    inv G (fun a b d => T a b d \/ Tc a b d) -> (forall a b d, rg a -> rg b -> rg d -> Tc a b d -> G a b = true -> G b d = true -> G a d = true \/ exists j, In j l /\ pr j = (a, d)) -> (nf n G <= fuel)%nat ->
    exists G' R', (let* s := for_each l (fun j s => let* r := fw_add c (fst (pr j)) (snd (pr j)) s in Ok (fst r)) (st G R) in for_each l (fun j s => rc (pr j) s) s) = Ok (st G' R') /\ good G' R' /\ inv G' T /\ sub G G'.
  Proof.
    intros Gd H I Hc F. destruct (adds_ok l G R Gd) as (G1 & R1 & E1 & Gd1 & S1); [intros j Ij; destruct (H j Ij) as (A & B & C & _); auto|]. rewrite E1. cbn [bind]. assert (Sb : sub G G1) by (intros a b X; apply S1; auto).
    assert (I1 : inv G1 (fun a b d => T a b d \/ exists j, In j l /\ tri (pr j) a b d)).
    { intros a b d Ha Hb Hd X Y. apply S1 in X as [X|(j & Ij & X)]; [|right; right; exists j; split; auto; left; auto]. apply S1 in Y as [Y|(j & Ij & Y)]; [|right; right; exists j; split; auto; right; auto].
      destruct (I a b d Ha Hb Hd X Y) as [Z1|[Z1|Z1]]; [left; now apply Sb|auto|]. left. apply S1. now apply (Hc a b d). }
    destruct l as [|j l]; [cbn [for_each]; exists G1, R1; split; auto; split; auto; split; auto; intros a b d Ha Hb Hd X Y; destruct (I1 a b d Ha Hb Hd X Y) as [|[|(j & [] & _)]]; auto|].
    destruct (recs_ok (j :: l) G1 R1 T Gd1) as (G2 & R2 & E2 & Gd2 & I2 & S2); auto.
    - intros k Ik. destruct (H k Ik) as (A & B & _). split; auto. split; auto. apply S1. right. exists k. split; auto. apply surjective_pairing.
    - assert (X : (nf n G1 < nf n G)%nat); [|lia]. destruct (H j (or_introl eq_refl)) as (A & B & _ & D). unfold nf. apply flt_lt with (pr j).
      + intros (a & b) _ X. cbn [fst snd] in *. destruct (G a b) eqn:E; auto. rewrite (Sb a b E) in X. discriminate.
      + rewrite (surjective_pairing (pr j)). now apply allp_In.
      + now rewrite D.
      + apply negb_false_iff, S1. right. exists j. split; [now left|]. apply surjective_pairing.
    - exists G2, R2. split; auto. split; auto. split; auto. intros a b X. now apply S2, Sb.
  Qed.
End Rec.
Lemma bind_inv {A B} (m : res A) (k : A -> res B) y : (let* x := m in k x) = Ok y -> exists x, m = Ok x /\ k x = Ok y.
Proof. destruct m; cbn [bind]; intros H; try discriminate. eauto. Qed.
Section Rec2.
  Variables (cost : list (list Z)) (c : Z).
  Notation n := (zlen cost).
  Variable G0 : Z -> Z -> bool.
  Notation rg a := (0 <= a < n).
  Hypothesis Lo : forall a b, rg a -> rg b -> G0 a b = false -> forall y, walk cost a b y -> c <= y.
  Lemma rec_ok fuel : forall u v G R T, rg u -> rg v -> G u v = true -> good cost c G0 G R -> inv cost G (fun a b d => T a b d \/ tri (u, v) a b d) -> (nf n G < fuel)%nat ->
    exists G' R', fw_rec fuel n c u v (st cost G R) = Ok (st cost G' R') /\ good cost c G0 G' R' /\ inv cost G' T /\ sub G G'.
  Proof.
    induction fuel as [|fuel IH]; intros u v G R T Hu Hv Guv Gd I F; [lia|]. cbn [fw_rec]. pose proof (zlen_nonneg cost) as Hn.
    assert (Nb : 0 <= (n + 63) / 64) by (apply Z.div_pos; lia).
    match goal with |- context [for_ 0 _ ?b _] => set (body := b) end.
    destruct (for_inv (fun i s => exists G' R', s = st cost G' R' /\ good cost c G0 G' R' /\ sub G G' /\
        inv cost G' (fun a b d => T a b d \/ ((a, b) = (u, v) /\ 64 * i <= d) \/ ((b, d) = (u, v) /\ 64 * i <= a))) 0 ((n + 63) / 64) body (st cost G R) Nb) as (s & E & G' & R' & -> & Gd' & Sb & I').
    - exists G, R. split; auto. split; auto. split; [intros a b; auto|]. intros a b d Ha Hb Hd X Y. destruct (I a b d Ha Hb Hd X Y) as [|[|[Q|Q]]]; auto; right; right; [left|right]; split; auto; lia.
    - intros i s Hi (G1 & R1 & -> & Gd1 & Sb1 & I1). unfold body, st. clear E || idtac.
      assert (Hi64 : 64 * i <= n). { pose proof (Z.mul_div_le (n + 63) 64 ltac:(lia)). lia. }
      assert (W1 : W cost c u v) by (apply Gd1; auto).
      unfold mat at 1. rewrite vget_vec by auto. cbn [bind]. unfold mat at 1. rewrite vget_vec by auto. cbn [bind]. destruct (new_ok n i (G1 v) (G1 u) ltac:(lia) Hi64) as (l1 & E1 & In1). rewrite E1. cbn [bind].
      destruct (half_ok cost c G0 Lo (fun j => (u, j)) (fun p s => fw_rec fuel n c (fst p) (snd p) s) fuel) with (l := l1) (G := G1) (R := R1)
        (T := fun a b d => T a b d \/ ((a, b) = (u, v) /\ 64 * (i + 1) <= d) \/ ((b, d) = (u, v) /\ 64 * i <= a)) (Tc := fun a b d => (a, b) = (u, v) /\ 64 * i <= d < 64 * i + 64) as (G2 & R2 & E2 & Gd2 & I2 & Sb2); auto.
      { intros j Ij. cbn [fst snd]. apply In1 in Ij as (Hj & X & Y). assert (rg j) by lia. split; auto. split; auto. split; auto. apply W_trans with v; auto. apply Gd1; auto. }
      { intros a b d Ha Hb Hd X Y. destruct (I1 a b d Ha Hb Hd X Y) as [|[|[(Q & L)|]]]; auto. destruct (Z_lt_le_dec d (64 * (i + 1))); [right; right; split; auto; lia|right; left; right; left; auto]. }
      { intros a b d Ha Hb Hd (Q & L) X Y. injection Q as -> ->. destruct (G1 u d) eqn:Z1; auto. right. exists d. split; auto. apply In1. split; auto. lia. }
      { pose proof (nf_sub cost G G1 Sb1). lia. }
      cbn [fst snd] in E2. apply bind_inv in E2 as (s2 & E2 & E3). unfold st in E2, E3. rewrite E2. cbn [bind]. rewrite E3. cbn [bind]. clear E2 E3.
      assert (W2 : W cost c u v) by (apply Gd2; auto).
      unfold mat at 1. rewrite vget_vec by auto. cbn [bind]. unfold mat at 1. rewrite vget_vec by auto. cbn [bind]. destruct (new_ok n i (fun a => G2 a u) (fun a => G2 a v) ltac:(lia) Hi64) as (l2 & E4 & In2). rewrite E4. cbn [bind].
      destruct (half_ok cost c G0 Lo (fun j => (j, v)) (fun p s => fw_rec fuel n c (fst p) (snd p) s) fuel) with (l := l2) (G := G2) (R := R2)
        (T := fun a b d => T a b d \/ ((a, b) = (u, v) /\ 64 * (i + 1) <= d) \/ ((b, d) = (u, v) /\ 64 * (i + 1) <= a)) (Tc := fun a b d => (b, d) = (u, v) /\ 64 * i <= a < 64 * i + 64) as (G3 & R3 & E5 & Gd3 & I3 & Sb3); auto.
      { intros j Ij. cbn [fst snd]. apply In2 in Ij as (Hj & X & Y). assert (rg j) by lia. split; auto. split; auto. split; auto. apply W_trans with u; auto. apply Gd2; auto. }
      { intros a b d Ha Hb Hd X Y. destruct (I2 a b d Ha Hb Hd X Y) as [|[|[|(Q & L)]]]; auto. destruct (Z_lt_le_dec a (64 * (i + 1))); [right; right; split; auto; lia|right; left; right; right; auto]. }
      { intros a b d Ha Hb Hd (Q & L) X Y. injection Q as -> ->. destruct (G2 a v) eqn:Z1; auto. right. exists a. split; auto. apply In2. split; auto. lia. }
      { pose proof (nf_sub cost G G1 Sb1). pose proof (nf_sub cost G1 G2 Sb2). lia. }
      cbn [fst snd] in E5. unfold st in E5. eexists. split; [exact E5|]. exists G3, R3. split; auto. split; auto. split; [|exact I3]. intros a b X. apply Sb3, Sb2, Sb1, X.
    - exists G', R'. split; [exact E|]. split; auto. split; auto. intros a b d Ha Hb Hd X Y. assert (n <= 64 * ((n + 63) / 64)). { pose proof (Z.mod_pos_bound (n + 63) 64 ltac:(lia)). pose proof (Z.div_mod (n + 63) 64 ltac:(lia)). lia. }
      destruct (I' a b d Ha Hb Hd X Y) as [|[|[(_ & L)|(_ & L)]]]; auto; lia.
  Qed.
End Rec2.

Lemma vrep_mat {X} n (x : X) : 0 <= n -> vrep n (vrep n x) = mat n (fun _ _ => x).
Proof. intros H. unfold mat. rewrite !vrep_vec by auto. reflexivity. Qed.
Lemma cell_fun m i j x y : cell m i j x -> cell m i j y -> x = y.
Proof. intros (r & A & B) (r' & A' & B'). congruence. Qed.
Lemma cell_range m i j x : square m -> cell m i j x -> 0 <= i < zlen m /\ 0 <= j < zlen m.
Proof. intros Q (r & A & B). split; [now apply vget_range in A|]. apply vget_range in B. now rewrite (Q r (vget_In _ _ _ A)) in B. Qed.
Lemma cell_ex m i j : square m -> 0 <= i < zlen m -> 0 <= j < zlen m -> exists x, mget m i j = Ok x /\ cell m i j x.
Proof. intros Q Hi Hj. destruct (vget_Ok m i Hi) as (r & A). destruct (vget_Ok r j) as (x & B); [rewrite (Q r (vget_In _ _ _ A)); auto|]. exists x. split; [|exists r; auto]. unfold mget. rewrite A. exact B. Qed.
Lemma walk_range m u v x : square m -> walk m u v x -> 0 <= u < zlen m /\ 0 <= v < zlen m.
Proof. intros Q. induction 1 as [u v c E|u w v c x E Wk IH]; apply cell_range in E; tauto. Qed.

Lemma edges_ok m : square m -> exists es, for_ 0 (zlen m) (fun i es => for_ 0 (zlen m) (fun j es => let* c := mget m i j in Ok (es ++ [(c, i, j)])) es) [] = Ok es /\ forall c u v, In (c, u, v) es <-> cell m u v c.
Proof.
  intros Q. pose proof (zlen_nonneg m) as Hn. pose (row := fun i j => match mget m i j with Ok c => [(c, i, j)] | _ => [] end).
  assert (Rw : forall i, 0 <= i < zlen m -> forall out, exists l, for_ 0 (zlen m) (fun j es => let* c := mget m i j in Ok (es ++ [(c, i, j)])) out = Ok (out ++ l) /\ forall y, In y l <-> exists j, 0 <= j < zlen m /\ In y (row i j)).
  { intros i Hi out. apply for_emit; auto. intros j o Hj. unfold row. destruct (cell_ex m i j Q Hi Hj) as (x & E & _). rewrite E. reflexivity. }
  destruct (for_inv (fun i es => forall c u v, In (c, u, v) es <-> cell m u v c /\ u < i) 0 (zlen m) (fun i es => for_ 0 (zlen m) (fun j es => let* c := mget m i j in Ok (es ++ [(c, i, j)])) es) [] Hn) as (es & E & I).
  - intros c u v. split; [intros []|intros (X & L)]. apply cell_range in X; auto. lia.
  - intros i es Hi I. destruct (Rw i Hi es) as (l & E & Il). rewrite E. eexists. split; [reflexivity|]. intros c u v. rewrite in_app_iff, I, Il. split.
    + intros [(A & B)|(j & Hj & Y)]; [split; auto; lia|]. destruct (cell_ex m i j Q Hi Hj) as (x & Ex & Cx). unfold row in Y. rewrite Ex in Y. destruct Y as [Y|[]]. injection Y as <- <- <-. split; auto. lia.
    + intros (A & B). destruct (Z.eq_dec u i) as [->|N]; [right|left; split; auto; lia]. destruct (cell_range m i v c Q A) as (_ & Hv). exists v. split; auto. unfold row. destruct (cell_ex m i v Q Hi Hv) as (x & Ex & Cx). rewrite Ex. rewrite (cell_fun _ _ _ _ _ A Cx). now left.
  - exists es. split; auto. intros c u v. rewrite I. split; [tauto|]. intros X. split; auto. apply cell_range in X; auto. lia.
Qed.
Lemma ss_app {A} (P : A -> A -> Prop) l x r : StronglySorted P (l ++ x :: r) -> (forall y, In y l -> P y x) /\ forall y, In y r -> P x y.
Proof.
  induction l as [|z l IH]; cbn [app]; intros H; apply StronglySorted_inv in H as (S1 & F).
  - split; [intros y []|]. now apply Forall_forall.
  - destruct (IH S1) as (A1 & A2). split; auto. intros y [->|I]; auto. rewrite Forall_forall in F. apply F, in_app_iff. right. now left.
Qed.

Theorem minmax_ok sort cost : sorts_by_cost sort -> square cost ->
  exists R, minmax_floyd_warshall sort cost = Ok R /\ forall u v, 0 <= u < zlen cost -> 0 <= v < zlen cost -> exists x, cell R u v x /\ bottleneck cost u v x.
Proof.
  intros Hs Q. unfold minmax_floyd_warshall. cbv zeta. destruct (edges_ok cost Q) as (es & E & Ies). rewrite E. cbn [bind]. destruct (Hs es) as (Pm & Ss). set (sl := sort es) in *.
  assert (Isl : forall c u v, In (c, u, v) sl <-> cell cost u v c) by (intros c u v; rewrite <- Ies; split; intros X; [now apply Permutation_in with sl|apply Permutation_in with es; auto; now apply Permutation_sym]).
  set (n := zlen cost) in *. pose proof (zlen_nonneg cost) as Hn. fold n in Hn. rewrite !vrep_mat by auto.
  match goal with |- context [for_each _ ?b _] => set (body := b) end.
  destruct (for_each_inv (fun dn s => exists G R, s = st cost G R /\ inv cost G (fun _ _ _ => False) /\
     (forall a b, 0 <= a < n -> 0 <= b < n -> G a b = true -> bottleneck cost a b (R a b) /\ exists e, In e dn /\ R a b <= fst (fst e)) /\ (forall c u v, In (c, u, v) dn -> G u v = true)) sl body (st cost (fun _ _ => false) (fun _ _ => 0))) as (s & Es & G & R & -> & I & B & Dn).
  - exists (fun _ _ => false), (fun _ _ => 0). split; auto. split; [intros a b d _ _ _ X; discriminate|]. split; [intros a b _ _ X; discriminate|]. intros c u v [].
  - intros dn e todo s Eq (G & R & -> & I & B & Dn). destruct e as ((c & u) & v). unfold body.
    assert (Ce : cell cost u v c) by (apply Isl; rewrite Eq; apply in_app_iff; right; now left).
    destruct (cell_range cost u v c Q Ce) as (Hu & Hv). rewrite Eq in Ss. apply ss_app in Ss as (S1 & S2).
    assert (Lo : forall a b, 0 <= a < n -> 0 <= b < n -> G a b = false -> forall y, walk cost a b y -> c <= y).
    { assert (Ed : forall a b k, cell cost a b k -> k < c -> G a b = true). { intros a b k Ck Lk. apply Dn with k. apply Isl in Ck. rewrite Eq in Ck. apply in_app_iff in Ck as [|[X|X]]; auto; [injection X as -> -> ->; lia|]. specialize (S2 _ X). cbn [fst] in S2. lia. }
      assert (Wk : forall a b y, walk cost a b y -> y < c -> G a b = true).
      { induction 1 as [a b k Ck|a w b k y Ck Wk IH]; intros L; [now apply Ed with k|]. destruct (cell_range cost a w k Q Ck) as (Ha & Hw). destruct (walk_range cost w b y Q Wk) as (_ & Hb). destruct (I a w b Ha Hw Hb) as [|[]]; auto; [apply Ed with k; auto; lia|apply IH; lia]. }
      intros a b Ha Hb X y Wy. destruct (Z_lt_le_dec y c) as [L|]; auto. rewrite (Wk a b y Wy L) in X. discriminate. }
    assert (Gd : good cost c G G R). { split; auto. intros a b Ha Hb X. destruct (B a b Ha Hb X) as (Bt & (k & Ik & Lk)). split; auto. specialize (S1 _ Ik). cbn [fst] in S1. exists (R a b). split; [apply Bt|lia]. }
    assert (Wuv : W cost c u v) by (exists c; split; [now constructor|lia]).
    destruct (add_ok cost c G Lo G R u v Hu Hv Gd Wuv) as (G1 & R1 & fr & E1 & Gd1 & Sp & Fr). rewrite E1. cbn [bind].
    assert (Fin : forall G' R', good cost c G G' R' -> inv cost G' (fun _ _ _ => False) -> sub G1 G' -> exists G2 R2, st cost G' R' = st cost G2 R2 /\ inv cost G2 (fun _ _ _ => False) /\
        (forall a b, 0 <= a < n -> 0 <= b < n -> G2 a b = true -> bottleneck cost a b (R2 a b) /\ exists e, In e (dn ++ [(c, u, v)]) /\ R2 a b <= fst (fst e)) /\ (forall c' u' v', In (c', u', v') (dn ++ [(c, u, v)]) -> G2 u' v' = true)).
    { intros G' R' Gd' I' Sb. exists G', R'. split; auto. split; auto. split.
      - intros a b Ha Hb X. destruct Gd' as (Gd' & _). destruct (Gd' a b Ha Hb X) as ((y & Wy & Ly) & Bt). split; auto. exists (c, u, v). split; [apply in_app_iff; right; now left|]. cbn [fst]. destruct Bt as (_ & Mn). specialize (Mn y Wy). lia.
      - intros c' u' v' X. apply Sb, Sp. apply in_app_iff in X as [X|[X|[]]]; [left; now apply Dn with c'|right; injection X as <- <- <-; auto]. }
    destruct (G u v) eqn:Guv; subst fr; cbn [negb].
    + eexists. split; [reflexivity|]. apply Fin; auto; [|intros a b; auto]. intros a b d Ha Hb Hd X Y. left. assert (K : forall a b, G1 a b = true -> G a b = true) by (intros a' b' X'; apply Sp in X' as [|X']; auto; injection X' as -> ->; auto). destruct (I a b d Ha Hb Hd (K _ _ X) (K _ _ Y)) as [Z1|[]]. apply Sp. auto.
    + destruct (rec_ok cost c G Lo (S (Z.to_nat (n * n))) u v G1 R1 (fun _ _ _ => False) Hu Hv) as (G2 & R2 & E2 & Gd2 & I2 & Sb2); auto.
      * apply Sp. auto.
      * intros a b d Ha Hb Hd X Y. apply Sp in X as [X|X]; [|right; right; left; auto]. apply Sp in Y as [Y|Y]; [|right; right; right; auto]. destruct (I a b d Ha Hb Hd X Y) as [Z1|[]]. left. apply Sp. auto.
      * pose proof (nf_max (zlen cost) G1 Hn). fold n in H |- *. lia.
      * fold n in E2. rewrite E2. eexists. split; [reflexivity|]. apply Fin; auto.
  - unfold st in Es. fold n in Es. rewrite Es. cbn [bind]. unfold st. eexists. split; [reflexivity|]. intros u v Hu Hv. exists (R u v). split; [exists (vec n (R u)); split; [unfold mat; now rewrite vget_vec|now rewrite vget_vec]|]. apply B; auto. destruct (cell_ex cost u v Q Hu Hv) as (x & _ & Cx). apply Dn with x. now apply Isl.
Qed.
