From Verif Require Import Base BaseLemmas ListZ Mcht_spec Mcht_model Mcht_proof.
Import ListNotations.
Open Scope Z_scope.

Definition sg (m : bool) (p : Z * Z) : Z * Z := if m then p else (- fst p, - snd p).
Definition okx (k : qkind) (h : cht) (x : Z) : Prop := match k with QInc => h_prev h <= x | QDec => x <= h_prev h | QAny => True end.
Record CI (tmin tmax : Z) (m : bool) (k : qkind) (A : list (Z * Z)) (X : list Z) (h : cht) : Prop := mkCI {
  ci_hull : hull (h_lines h);
  ci_sub : incl (h_lines h) (map (sg m) A);
  ci_cov : forall x, okx k h x -> covers (h_lines h) (map (sg m) A) x;
  ci_ne : A <> [] -> h_lines h <> [];
  ci_e : A = [] -> h_min h = tmax /\ h_max h = tmin;
  ci_mn : A <> [] -> In (h_min h) (map fst (map (sg m) A)) /\ In (h_max h) (map fst (map (sg m) A));
  ci_bd : forall p, In p (map (sg m) A) -> h_min h <= fst p <= h_max h;
  ci_px : (X = [] /\ h_prev h = match k with QInc => tmin | _ => tmax end) \/ In (h_prev h) X \/ k = QAny }.

Lemma sg_at m x p : at_x x (sg m p) = if m then at_x x p else - at_x x p.
Proof. destruct m, p; unfold sg, at_x; cbn [fst snd]; lia. Qed.

Lemma add_ok tmin tmax m k A X h s i : tmin <= - tmax -> Z.abs s <= tmax -> CI tmin tmax m k A X h ->
  ((forall p, In p A -> s <= fst p) \/ (forall p, In p A -> fst p <= s)) ->
  exists h', cht_add m h s i = Ok h' /\ CI tmin tmax m k (A ++ [(s, i)]) X h'.
Proof.
  intros Ht Hs [I1 I2 I3 I4 I5 I6 I7 I8] Hm.
  unfold cht_add. replace (if m then (s, i) else (- s, - i)) with (sg m (s, i)) by (destruct m; reflexivity).
  destruct (sg m (s, i)) as [s' i'] eqn:Es.
  assert (Hs' : Z.abs s' <= tmax). { destruct m; unfold sg in Es; cbn [fst snd] in Es; inversion Es; subst; lia. }
  assert (Hm' : (forall p, In p (map (sg m) A) -> s' <= fst p) \/ (forall p, In p (map (sg m) A) -> fst p <= s')).
  { destruct m; unfold sg in Es; cbn [fst snd] in Es; inversion Es; subst.
    - destruct Hm as [Hm|Hm]; [left|right]; intros p Hp; apply in_map_iff in Hp; destruct Hp as (q & <- & Hq); apply Hm; auto.
    - destruct Hm as [Hm|Hm]; [right|left]; intros p Hp; apply in_map_iff in Hp; destruct Hp as (q & <- & Hq); specialize (Hm _ Hq); cbn [sg fst]; lia. }
  assert (Em : map (sg m) (A ++ [(s, i)]) = map (sg m) A ++ [(s', i')]) by (rewrite map_app; cbn [map]; rewrite Es; reflexivity).
  assert (Hcase : s' <= h_min h \/ (h_min h < s' /\ h_max h <= s')).
  { destruct (Z_le_gt_dec s' (h_min h)) as [|G]; [auto|right]. split; [lia|].
    destruct A as [|p0 A]; [destruct (I5 eq_refl); lia|].
    destruct (I6 ltac:(discriminate)) as [M1 M2]. apply in_map_iff in M1, M2. destruct M1 as (p1 & E1 & M1), M2 as (p2 & E2 & M2).
    destruct Hm' as [Hm'|Hm']; [specialize (Hm' _ M1); lia|specialize (Hm' _ M2); lia]. }
  assert (Hslo : forall q, In q (h_lines h) -> h_min h <= fst q <= h_max h) by (intros q Hq; apply I7, I2, Hq).
  assert (Hpx : forall w, incl w (h_lines h) -> True) by auto. clear Hpx.
  (* common *)
  assert (Common : forall l' mx mn, hull l' -> l' <> [] -> incl l' ((s', i') :: h_lines h) -> (forall x, covers l' ((s', i') :: h_lines h) x) ->
     (In mn (s' :: map fst (map (sg m) A)) /\ In mx (s' :: map fst (map (sg m) A))) ->
     mn <= s' <= mx -> (A <> [] -> mn <= h_min h /\ h_max h <= mx) ->
     CI tmin tmax m k (A ++ [(s, i)]) X (mkC l' mx mn (h_prev h))).
  { intros l' mx mn G1 G2 G3 G4 G5 G6 G7. constructor; cbn [h_lines h_max h_min h_prev]; rewrite ?Em; auto.
    - intros z Hz. apply in_or_app. destruct (G3 z Hz) as [<-|Hz']; [right; left; reflexivity|left; apply I2; exact Hz'].
    - intros x Hx q Hq. apply in_app_or in Hq. destruct Hq as [Hq|[<-|[]]].
      + destruct (I3 x Hx q Hq) as (q1 & J1 & J2). destruct (G4 x q1) as (q2 & J3 & J4); [right; exact J1|]. exists q2; split; auto; lia.
      + apply G4; left; reflexivity.
    - intros E. destruct A; discriminate.
    - intros _. rewrite map_app. cbn [map fst]. destruct G5 as [[G5|G5] [G5'|G5']]; split; apply in_or_app; auto; right; left; auto.
    - intros p Hp. apply in_app_or in Hp. destruct Hp as [Hp|[<-|[]]]; [|cbn [fst]; lia].
      assert (HA : A <> []) by (intros ->; destruct Hp). specialize (I7 p Hp). specialize (G7 HA). lia. }
  destruct (Z.leb_spec s' (h_min h)) as [L|L].
  - eexists; split; [reflexivity|].
    destruct (add_right_ok (h_lines h) (s', i') I1) as (G1 & G2 & G3 & G4). { intros q Hq. specialize (Hslo q Hq). cbn [fst]. lia. }
    cbn zeta in *. apply Common; auto; [|lia|intros _; lia].
    split; [left; reflexivity|]. destruct (Z.max_spec (h_max h) s') as [[_ ->]|[F ->]]; [left; reflexivity|].
    destruct A as [|p0 A]; [destruct (I5 eq_refl) as [_ E0]; left; lia|]. right. apply (I6 ltac:(discriminate)).
  - destruct Hcase as [C|[_ C]]; [lia|]. destruct (Z.leb_spec (h_max h) s') as [L2|L2]; [|lia].
    eexists; split; [reflexivity|].
    destruct (add_left_ok (h_lines h) (s', i') I1) as (G1 & G2 & G3 & G4). { intros q Hq. specialize (Hslo q Hq). cbn [fst]. lia. }
    cbn zeta in *. apply Common; auto; [|lia|intros _; lia].
    split; [|left; reflexivity]. rewrite Z.min_l by lia. 
    destruct A as [|p0 A]; [destruct (I5 eq_refl) as [E0 _]; lia|]. right. apply (I6 ltac:(discriminate)).
Qed.
Lemma extreme_sg m A x p : In p (map (sg m) A) -> (forall q, In q (map (sg m) A) -> at_x x p <= at_x x q) ->
  extreme m A x ((if m then 1 else -1) * at_x x p).
Proof.
  intros Hp Hq. apply in_map_iff in Hp. destruct Hp as (p0 & <- & Hp). split.
  - exists p0. split; [exact Hp|]. rewrite sg_at. destruct m; lia.
  - intros q Hq0. specialize (Hq (sg m q) (in_map _ _ _ Hq0)). rewrite !sg_at in *. destruct m; lia.
Qed.
Lemma query_ok tmin tmax m k A X h x : tmin <= - tmax -> Z.abs x <= tmax -> CI tmin tmax m k A X h -> A <> [] ->
  (forall y, In y X -> match k with QInc => y <= x | QDec => x <= y | QAny => True end) ->
  exists v h', cht_query m k h x = Ok (v, h') /\ extreme m A x v /\ CI tmin tmax m k A (X ++ [x]) h'.
Proof.
  intros Ht Hx C HA HX. pose proof C as [I1 I2 I3 I4 I5 I6 I7 I8].
  assert (Hok : okx k h x).
  { unfold okx. destruct k; auto.
    - destruct I8 as [[_ ->]|[I8|I8]]; [lia|apply HX; exact I8|discriminate].
    - destruct I8 as [[_ ->]|[I8|I8]]; [lia|apply HX; exact I8|discriminate]. }
  specialize (I4 HA). assert (Hz : (zlen (h_lines h) =? 0) = false).
  { apply Z.eqb_neq. destruct (h_lines h) as [|q0 q1]; [congruence|]. rewrite zlen_cons. pose proof (zlen_nonneg q1). lia. }
  (* an answer that is least on the remaining lines is least on all *)
  assert (Ans : forall l' p, incl l' (h_lines h) -> covers l' (h_lines h) x -> In p l' -> (forall q, In q l' -> at_x x p <= at_x x q) ->
     extreme m A x ((if m then 1 else -1) * at_x x p)).
  { intros l' p B1 B2 B3 B4. apply extreme_sg; [apply I2, B1, B3|]. intros q Hq.
    destruct (I3 x Hok q Hq) as (q1 & J1 & J2). destruct (B2 q1 J1) as (q2 & J3 & J4). specialize (B4 q2 J3). lia. }
  assert (New : forall l', hull l' -> l' <> [] -> incl l' (h_lines h) -> (forall y, okx k h y -> okx k (mkC l' (h_max h) (h_min h) x) y -> covers l' (h_lines h) y) ->
     (forall y, okx k (mkC l' (h_max h) (h_min h) x) y -> okx k h y) -> CI tmin tmax m k A (X ++ [x]) (mkC l' (h_max h) (h_min h) x)).
  { intros l' B1 B2 B3 B4 B5. constructor; cbn [h_lines h_max h_min h_prev]; auto.
    - intros z Hz'. apply I2, B3, Hz'.
    - intros y Hy q Hq. destruct (I3 y (B5 y Hy) q Hq) as (q1 & J1 & J2). destruct (B4 y (B5 y Hy) Hy q1 J1) as (q2 & J3 & J4). exists q2; split; auto; lia.
    - right; left. apply in_or_app; right; left; reflexivity. }
  unfold cht_query. destruct k; cbn [okx] in Hok.
  - destruct (Z.leb_spec (h_prev h) x) as [_|F]; [|lia]. cbn [assert_ bind]. rewrite Hz. cbn [negb assert_ bind].
    destruct (h_lines h) as [|p l] eqn:El; [congruence|]. unfold ev. rewrite vget_cons0. cbn [bind]. fold (at_x x p).
    destruct (q_pop_ok x l p I1) as (p' & l' & E & B1 & B2 & B3 & B4). rewrite E. cbn [bind].
    eexists _, _. split; [reflexivity|]. split.
    + apply (Ans (p' :: l') p'); [auto|apply B3; lia|left; reflexivity|auto].
    + apply New; [auto|discriminate|auto| |].
      * intros y _ Hy. cbn [okx h_prev] in Hy. apply B3; exact Hy.
      * intros y Hy. cbn [okx h_prev] in *. lia.
  - destruct (Z.leb_spec x (h_prev h)) as [_|F]; [|lia]. cbn [assert_ bind]. rewrite Hz. cbn [negb assert_ bind].
    destruct (rev (h_lines h)) as [|p l] eqn:El; [apply (f_equal (@rev _)) in El; rewrite rev_involutive in El; cbn [rev] in El; congruence|].
    assert (El2 : h_lines h = rev l ++ [p]) by (rewrite <- (rev_involutive (h_lines h)), El; reflexivity).
    assert (Ev : ev (h_lines h) x (zlen (h_lines h) - 1) = Ok (at_x x p)).
    { unfold ev. rewrite El2, vget_mid; [reflexivity|]. rewrite zlen_app, zlen_cons. change (zlen (@nil (Z*Z))) with 0. lia. }
    rewrite Ev. cbn [bind].
    assert (Hm : hull (mir (p :: l))) by (rewrite <- El; apply rev_hull_mir; exact I1).
    cbn [mir map] in Hm. fold (mir l) in Hm. destruct (q_pop_ok (- x) (mir l) (mp p) Hm) as (p' & l' & E & B1 & B2 & B3 & B4).
    assert (Pop : forall v w, mir (snd (q_pop x v w)) = snd (q_pop (- x) v (mir w)) /\ fst (q_pop x v w) = fst (q_pop (- x) v (mir w))).
    { intros v w. revert v. induction w as [|a w IH]; intros v; [split; reflexivity|]. destruct w as [|b w]; [split; reflexivity|].
      cbn [mir map q_pop]. cbn [mir map] in IH. cbn zeta.
      assert (E1 : fst (mp b) * - x + snd (mp b) = fst b * x + snd b) by (apply (at_mp x b)). rewrite E1.
      destruct (v <? fst b * x + snd b); [split; reflexivity|]. apply IH. }
    destruct (Pop (at_x x p) (p :: l)) as [P1 P2].
    destruct (q_pop x (at_x x p) (p :: l)) as [v w]. cbn [mir map fst snd] in P1, P2. fold (mir l) in P1, P2.
    rewrite <- (at_mp x p) in P1, P2. rewrite E in P1, P2. cbn [fst snd] in P1, P2.
    assert (Ew : w = mir (p' :: l')) by (rewrite <- P1; symmetry; apply mir_mir).
    assert (Ip' : forall q, In q (rev w) <-> In (mp q) (p' :: l')).
    { intros q. rewrite <- in_rev, Ew. apply In_mir. }
    assert (Ih : forall q, In q (h_lines h) <-> In (mp q) (mir (p :: l))).
    { intros q. rewrite In_mir, mp_mp, <- El. apply in_rev. }
    assert (Cov : forall y, y <= x -> covers (rev w) (h_lines h) y).
    { intros y Hy q Hq. apply Ih in Hq. destruct (B3 (- y) ltac:(lia) (mp q) Hq) as (q1 & J1 & J2).
      exists (mp q1). split; [apply Ip'; rewrite mp_mp; exact J1|]. rewrite at_mp in J2. rewrite <- (at_mp y (mp q1)), mp_mp. exact J2. }
    assert (Inc : incl (rev w) (h_lines h)).
    { intros q Hq. apply Ih, B2, Ip', Hq. }
    assert (Vp : v = at_x x (mp p')) by (rewrite P2, <- (at_mp x (mp p')), mp_mp; reflexivity).
    eexists _, _. split; [reflexivity|]. split.
    + rewrite Vp. apply (Ans (rev w) (mp p')); auto.
      * apply Cov; lia.
      * apply Ip'. rewrite mp_mp. left; reflexivity.
      * intros q Hq. apply Ip' in Hq. specialize (B4 _ Hq). rewrite at_mp in B4. rewrite <- (at_mp x (mp p')), mp_mp. exact B4.
    + apply New.
      * apply rev_hull_mir. rewrite rev_involutive, Ew, mir_mir. exact B1.
      * rewrite Ew. intros F. apply (f_equal (@rev _)) in F. rewrite rev_involutive in F. discriminate.
      * exact Inc.
      * intros y _ Hy. cbn [okx h_prev] in Hy. apply Cov; exact Hy.
      * intros y Hy. cbn [okx h_prev] in *. lia.
  - rewrite Hz. cbn [negb assert_ bind]. destruct (q_tern_ok (h_lines h) x I1 I4) as (p & E & B1 & B2). rewrite E. cbn [bind].
    eexists _, _. split; [reflexivity|]. split.
    + apply (Ans (h_lines h) p); auto; [apply incl_refl|]. intros q Hq; exists q; split; auto; lia.
    + destruct C. constructor; auto.
Qed.
Lemma run_ok tmin tmax m k : tmin <= - tmax -> forall os A X h o, CI tmin tmax m k A X h -> allowed tmax k A X os ->
  exists h' outs, for_each os (cht_do m k) (h, o) = Ok (h', o ++ outs) /\ right_answers m A os outs.
Proof.
  intros Ht. induction os as [|[s i|x] os IH]; intros A X h o C W; cbn [allowed] in W.
  - exists h, []. rewrite app_nil_r. split; reflexivity.
  - destruct W as (W1 & W2 & W3). destruct (add_ok _ _ _ _ _ _ _ s i Ht W1 C W2) as (h' & E & C').
    destruct (IH _ _ _ o C' W3) as (h2 & outs & E2 & R). exists h2, outs. cbn [for_each cht_do]. rewrite E. cbn [bind]. split; auto.
  - destruct W as (W1 & W2 & W3 & W4). destruct (query_ok _ _ _ _ _ _ _ x Ht W2 C W1 W3) as (v & h' & E & Ex & C').
    destruct (IH _ _ _ (o ++ [v]) C' W4) as (h2 & outs & E2 & R). exists h2, (v :: outs). cbn [for_each cht_do]. rewrite E. cbn [bind].
    rewrite E2. rewrite <- app_assoc. cbn [app]. split; [reflexivity|]. cbn [right_answers]. auto.
Qed.
