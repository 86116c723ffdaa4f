From Verif Require Import Base BaseLemmas ListZ Quot_spec Quot_model Quot_proof.
Import ListNotations.
Open Scope Z_scope.

(* a list of ranges is right when its entries are right by index *)
Lemma ranges_index {Q} (same : Q -> Z -> Prop) (rs : list (Z * Z * Q)) : forall start last,
  (forall i l r q, vget rs i = Ok (l, r, q) -> l <= r <= last /\ (forall d, 0 < d -> (l <= d <= r <-> same q d))) ->
  (forall l r q, vget rs 0 = Ok (l, r, q) -> l = start) ->
  (forall i l r q l' r' q', vget rs i = Ok (l, r, q) -> vget rs (i + 1) = Ok (l', r', q') -> l' = r + 1) ->
  (forall l r q, vget rs (zlen rs - 1) = Ok (l, r, q) -> r = last) -> (rs = [] -> last = start - 1) ->
  ranges_ok same start last rs.
Proof.
  induction rs as [|[[l r] q] rs IH]; intros start last H1 H2 H3 H4 H5; cbn [ranges_ok]; [auto|].
  pose proof (zlen_nonneg rs) as Z0.
  destruct (H1 0 l r q (vget_cons0 _ _)) as [A B]. split; [eapply H2, vget_cons0|]. split; [exact A|]. split; [exact B|].
  apply IH.
  - intros i l' r' q' E. pose proof (vget_range _ _ _ E) as R. apply (H1 (i + 1)). rewrite vget_consS by lia. replace (i + 1 - 1) with i by lia. exact E.
  - intros l' r' q' E. apply (H3 0 l r q l' r' q'); [apply vget_cons0|]. rewrite vget_consS by lia. exact E.
  - intros i l1 r1 q1 l2 r2 q2 E1 E2. pose proof (vget_range _ _ _ E1) as R. apply (H3 (i + 1) l1 r1 q1 l2 r2 q2); rewrite vget_consS by lia.
    + replace (i + 1 - 1) with i by lia. exact E1.
    + replace (i + 1 + 1 - 1) with (i + 1) by lia. exact E2.
  - intros l' r' q' E. pose proof (vget_range _ _ _ E) as R. apply (H4 l' r' q'). rewrite zlen_cons, vget_consS by lia. replace (zlen rs + 1 - 1 - 1) with (zlen rs - 1) by lia. exact E.
  - intros ->. specialize (H4 l r q). rewrite zlen_cons in H4. change (zlen (@nil (Z * Z * Q))) with 0 in H4. specialize (H4 (vget_cons0 _ _)). lia.
Qed.

Lemma class_hi n q d : 0 <= n -> 0 < q -> 0 < d -> (n / (q + 1) + 1 <= d <= n / q <-> n / d = q).
Proof.
  intros Hn Hq Hd. split.
  - intros [A B]. symmetry. apply (Z.div_unique n d q (n - d * q)); [|lia]. left.
    assert (n < (q + 1) * d). { pose proof (Z.mul_succ_div_gt n (q + 1) ltac:(lia)) as G. unfold Z.succ in G. nia. }
    assert (q * d <= n). { pose proof (Z.mul_div_le n q ltac:(lia)) as G. nia. } nia.
  - intros E. pose proof (Z.div_mod n d ltac:(lia)) as D. pose proof (Z.mod_pos_bound n d ltac:(lia)) as M. rewrite E in D. split.
    + assert (n / (q + 1) < d); [|lia]. apply Z.div_lt_upper_bound; nia.
    + apply Z.div_le_lower_bound; nia.
Qed.
Definition entry (n i : Z) : Z * Z * Z :=
  let m := zlen (qlist n) in
  if i <? Z.sqrt n then (i + 1, i + 1, n / (i + 1)) else (n / (m - i + 1) + 1, n / (m - i), m - i).
Lemma entry_ok n i : 1 <= n -> 0 <= i < zlen (qlist n) ->
  exists l r q, entry n i = (l, r, q) /\ vget (qlist n) i = Ok r /\ vget (qlist n) (zlen (qlist n) - i - 1) = Ok q /\
    (if i =? 0 then l = 1 else exists x, vget (qlist n) (i - 1) = Ok x /\ l = x + 1) /\
    l <= r /\ r <= n /\ (forall d, 0 < d -> (l <= d <= r <-> n / d = q)).
Proof.
  intros H Hi. destruct (root n H) as (R1 & R2 & R3 & R4 & R5 & R6). pose proof (hb_01 n) as Hb. pose proof (qlist_zlen n H) as Hz.
  unfold entry. cbn zeta. destruct (Z.ltb_spec i (Z.sqrt n)) as [L|L].
  - exists (i + 1), (i + 1), (n / (i + 1)). split; [reflexivity|]. split; [apply qlist_lo; lia|].
    split. { replace (zlen (qlist n) - i - 1) with (zlen (qlist n) - 1 - i) by lia. apply qlist_hi; lia. }
    split. { destruct (Z.eqb_spec i 0); [lia|]. exists (i - 1 + 1). split; [apply qlist_lo; lia|lia]. }
    split; [lia|]. split; [nia|]. intros d Hd. split; [intros Hd'; f_equal; lia|]. intros E.
    destruct (Z_lt_ge_dec d (i + 1)) as [A|A]. { pose proof (div_strict n d (i + 1) H ltac:(lia) ltac:(lia)). lia. }
    destruct (Z_lt_ge_dec (i + 1) d) as [B|B]. { pose proof (div_strict n (i + 1) d H ltac:(lia) ltac:(lia)). lia. } lia.
  - set (m := zlen (qlist n)) in *. set (q := m - i). assert (Hq : 1 <= q <= Z.sqrt n) by (unfold q; lia).
    exists (n / (q + 1) + 1), (n / q), q. split; [reflexivity|].
    split. { pose proof (qlist_hi n (q - 1) H ltac:(lia)) as V. fold m in V. replace (m - 1 - (q - 1)) with i in V by (unfold q; lia). rewrite V. do 2 f_equal. lia. }
    split. { pose proof (qlist_lo n (q - 1) H ltac:(lia)) as V. replace (m - i - 1) with (q - 1) by (unfold q; lia). rewrite V. f_equal; lia. }
    split.
    { destruct (Z.eqb_spec i 0); [lia|]. exists (n / (q + 1)). split; [|reflexivity].
      destruct (Z_lt_ge_dec q (Z.sqrt n)) as [A|A].
      - pose proof (qlist_hi n q H ltac:(lia)) as V. fold m in V. replace (m - 1 - q) with (i - 1) in V by (unfold q; lia). exact V.
      - assert (hb n = 0 /\ i = Z.sqrt n) as [B ->] by (unfold q in *; lia). assert (q = Z.sqrt n) as -> by lia.
        pose proof (qlist_lo n (Z.sqrt n - 1) H ltac:(lia)) as V. rewrite V. f_equal. unfold hb in B.
        destruct (Z.eqb_spec (Z.sqrt n) (n / Z.sqrt n)) as [F|F]; [lia|].
        assert (Z.sqrt n <= n / (Z.sqrt n + 1)); [|lia]. apply Z.div_le_lower_bound; [lia|].
        destruct (Z_lt_ge_dec n (Z.sqrt n * (Z.sqrt n + 1))) as [G|G]; [apply R6 in G; lia|nia]. }
    split. { pose proof (div_strict n q (q + 1) H ltac:(lia) ltac:(lia)). lia. }
    split. { apply Z.div_le_upper_bound; [lia|]. nia. }
    intros d Hd. apply class_hi; lia.
Qed.
Lemma ranges_is n : 0 <= n < 2 ^ 60 -> exists rs, quotient_ranges n = Ok rs /\ ranges_ok (fun q d => n / d = q) 1 n rs.
Proof.
  intros H. unfold quotient_ranges. destruct (Z.leb_spec 0 n); [|lia]. cbn [assert_ bind]. rewrite enumerate_is by auto. cbn [bind]. cbn zeta.
  destruct (Z.eq_dec n 0) as [->|N]. { exists []. split; [reflexivity|]. reflexivity. }
  set (m := zlen (qlist n)). assert (Hm : 1 <= m). { unfold m. rewrite qlist_zlen by lia. destruct (root n ltac:(lia)) as (R1 & _). pose proof (hb_01 n). lia. }
  match goal with |- context [for_ 0 m ?b ?s] =>
    destruct (for_inv (fun i (rs : list (Z * Z * Z)) => zlen rs = m /\ forall j, 0 <= j < i -> vget rs j = Ok (entry n j)) 0 m b s) as (rs & E & Lr & Gr) end.
  - lia.
  - split; [rewrite zlen_vrep; lia|]. intros j Hj; lia.
  - intros i rs Hi (Lr & Gr). destruct (entry_ok n i ltac:(lia) Hi) as (l & r & q & En & V1 & V2 & V3 & V4 & V5 & V6). fold m in V2.
    assert (El : (if i =? 0 then Ok 1 else let* x := vget (qlist n) (i - 1) in Ok (x + 1)) = Ok l).
    { destruct (i =? 0); [subst l; reflexivity|]. destruct V3 as (x & -> & ->). reflexivity. }
    rewrite El. cbn [bind]. rewrite V1. cbn [bind]. rewrite V2. cbn [bind]. rewrite vset_ok by lia. eexists; split; [reflexivity|].
    split; [rewrite zlen_zupd; lia|]. intros j Hj. destruct (Z.eq_dec j i) as [->|D].
    + rewrite vget_zupd_same by lia. rewrite En. reflexivity.
    + rewrite vget_zupd_diff by lia. apply Gr. lia.
  - exists rs. split; [exact E|].
    assert (At : forall i l r q, vget rs i = Ok (l, r, q) -> 0 <= i < m /\ entry n i = (l, r, q)).
    { intros i l r q V. pose proof (vget_range _ _ _ V) as R. rewrite Lr in R. split; [lia|]. rewrite Gr in V by lia. inversion V; reflexivity. }
    apply ranges_index.
    + intros i l r q V. destruct (At _ _ _ _ V) as [Ri Ei]. destruct (entry_ok n i ltac:(lia) Ri) as (l' & r' & q' & En & V1 & V2 & V3 & V4 & V5 & V6).
      rewrite Ei in En. inversion En; subst l' r' q'. split; [lia|exact V6].
    + intros l r q V. destruct (At _ _ _ _ V) as [Ri Ei]. destruct (entry_ok n 0 ltac:(lia) Ri) as (l' & r' & q' & En & V1 & V2 & V3 & V4 & V5 & V6).
      rewrite Ei in En. inversion En; subst l' r' q'. exact V3.
    + intros i l r q l2 r2 q2 V W. destruct (At _ _ _ _ V) as [Ri Ei]. destruct (At _ _ _ _ W) as [Rj Ej].
      destruct (entry_ok n i ltac:(lia) Ri) as (a1 & a2 & a3 & En & V1 & _). destruct (entry_ok n (i + 1) ltac:(lia) Rj) as (b1 & b2 & b3 & En2 & _ & _ & V3 & _).
      rewrite Ei in En. rewrite Ej in En2. inversion En; inversion En2; subst. destruct (Z.eqb_spec (i + 1) 0); [lia|].
      destruct V3 as (x & Vx & ->). replace (i + 1 - 1) with i in Vx by lia. rewrite V1 in Vx. inversion Vx; reflexivity.
    + intros l r q V. rewrite Lr in V. destruct (At _ _ _ _ V) as [Ri Ei]. destruct (entry_ok n (m - 1) ltac:(lia) Ri) as (a1 & a2 & a3 & En & V1 & _).
      rewrite Ei in En. inversion En; subst. pose proof (qlist_hi n 0 ltac:(lia)) as V0. destruct (root n ltac:(lia)) as (R1 & _). specialize (V0 ltac:(lia)).
      fold m in V0. replace (m - 1 - 0) with (m - 1) in V0 by lia. rewrite V0 in V1. inversion V1. apply Z.div_1_r.
    + intros ->. change (zlen (@nil (Z*Z*Z))) with 0 in Lr. lia.
Qed.

(* ---- several numerators ---- *)
Lemma fmax_ge v0 vs v : In v vs -> v <= fold_right Z.max v0 vs.
Proof. induction vs as [|w vs IH]; intros []; cbn [fold_right]; [subst|specialize (IH H)]; lia. Qed.
Lemma fmax_in v0 vs : fold_right Z.max v0 vs = v0 \/ In (fold_right Z.max v0 vs) vs.
Proof.
  induction vs as [|w vs IH]; [left; reflexivity|]. cbn [fold_right]. destruct (Z.max_spec w (fold_right Z.max v0 vs)) as [[_ ->]|[_ ->]].
  - destruct IH as [IH|IH]; [left; exact IH|right; right; exact IH].
  - right; left; reflexivity.
Qed.
Lemma fmin_ge v0 vs b : b <= v0 -> (forall v, In v vs -> b <= v) -> b <= fold_right Z.min v0 vs.
Proof. intros H0 H. induction vs as [|w vs IH]; [exact H0|]. cbn [fold_right]. pose proof (H w (or_introl eq_refl)). assert (forall v, In v vs -> b <= v) by (intros; apply H; right; auto). specialize (IH H2). lia. Qed.
Lemma ranges_snoc {Q} (same : Q -> Z -> Prop) rs : forall start last l r q, ranges_ok same start last rs -> l = last + 1 -> l <= r ->
  (forall d, 0 < d -> (l <= d <= r <-> same q d)) -> ranges_ok same start r (rs ++ [(l, r, q)]).
Proof.
  induction rs as [|[[a b] c] rs IH]; intros start last l r q H E Hr Hs; cbn [app ranges_ok] in *.
  - repeat split; try lia; apply Hs; auto.
  - destruct H as (A & B & C & D). assert (Hb : b <= last) by lia. split; [exact A|]. split; [lia|]. split; [exact C|]. eapply IH; eauto.
Qed.
Definition row (vs : list Z) (l : Z) : list Z := map (fun v => v / l) vs.

Lemma mult_is tmax vs : vs <> [] -> (forall v, In v vs -> 0 <= v < tmax) ->
  exists rs mx, multiple_quotients_ranges tmax vs = Ok rs /\ In mx vs /\ (forall v, In v vs -> v <= mx) /\
    ranges_ok (fun qs d => row vs d = qs) 1 mx rs.
Proof.
  intros N H. unfold multiple_quotients_ranges. destruct vs as [|v0 vs']; [congruence|]. set (vs := v0 :: vs') in *.
  cbn zeta. set (mx := fold_right Z.max v0 vs).
  assert (Hin : In mx vs). { unfold mx. destruct (fmax_in v0 vs) as [E|E]; [rewrite E; left; reflexivity|exact E]. }
  assert (Hmx : forall v, In v vs -> v <= mx) by (intros v Hv; apply fmax_ge; auto).
  assert (Hmin : 0 <= fold_right Z.min v0 vs) by (apply fmin_ge; [apply H; left; reflexivity|intros v Hv; apply H; auto]).
  destruct (Z.leb_spec 0 (fold_right Z.min v0 vs)) as [_|]; [|lia]. cbn [assert_ bind].
  pose proof (H mx Hin) as Bm.
  match goal with |- context [loop ?f ?b ?s] =>
    destruct (loop_inv (fun st : Z * list (Z * Z * list Z) => let '(l, rs) := st in 1 <= l <= mx + 1 /\ ranges_ok (fun qs d => row vs d = qs) 1 (l - 1) rs)
      (fun st : Z * list (Z * Z * list Z) => Z.to_nat (mx + 1 - fst st))
      (ranges_ok (fun qs d => row vs d = qs) 1 mx) b f s) as (rs & E & P) end.
  - cbn [ranges_ok]. lia.
  - cbn [fst]. lia.
  - intros [l rs] (Hl & P). cbn [fst]. destruct (Z.leb_spec l mx) as [L|L].
    + match goal with |- context [for_ 0 ?n ?b ?s] =>
        destruct (for_inv (fun i (st : list Z * Z) => let '(qs, r) := st in zlen qs = zlen vs /\
           (forall j v, 0 <= j < i -> vget vs j = Ok v -> vget qs j = Ok (v / l)) /\ l <= r /\
           (r = tmax \/ exists j v, 0 <= j < i /\ vget vs j = Ok v /\ 0 < v / l /\ r = v / (v / l)) /\
           (forall j v, 0 <= j < i -> vget vs j = Ok v -> 0 < v / l -> r <= v / (v / l))) 0 n b s) as ([qs r] & E & Lq & Gq & Lr & Ar & Br) end.
      * pose proof (zlen_nonneg vs). lia.
      * split; [rewrite zlen_vrep; pose proof (zlen_nonneg vs); lia|]. split; [intros; lia|]. split; [lia|]. split; [left; reflexivity|intros; lia].
      * intros i [qs r] Hi (Lq & Gq & Lr & Ar & Br). destruct (vget_Ok vs i Hi) as (v & Ev). rewrite Ev. cbn [bind]. cbn zeta.
        pose proof (H v (vget_In _ _ _ Ev)) as Hv.
        rewrite vset_ok by lia. cbn [bind]. eexists; split; [reflexivity|].
        assert (Hd : 0 < v / l -> l <= v / (v / l)). { intros P0. apply Z.div_le_lower_bound; [lia|]. rewrite Z.mul_comm. apply Z.mul_div_le. lia. }
        assert (Q0 : 0 <= v / l) by (apply Z.div_pos; lia).
        split; [rewrite zlen_zupd; lia|]. split.
        { intros j w Hj Ew. destruct (Z.eq_dec j i) as [->|D].
          - rewrite vget_zupd_same by lia. rewrite Ev in Ew. inversion Ew; reflexivity.
          - rewrite vget_zupd_diff by lia. apply Gq; [lia|exact Ew]. }
        destruct (Z.eqb_spec (v / l) 0) as [Z0|Z0].
        -- assert (Ert : Z.min r tmax = r). { destruct Ar as [->|(j & w & J1 & J2 & J3 & ->)]; [lia|]. pose proof (H w (vget_In _ _ _ J2)).
             assert (w / (w / l) <= w) by (apply Z.div_le_upper_bound; nia). lia. }
           rewrite Ert. split; [lia|]. split.
           ++ destruct Ar as [->|(j & w & J1 & J2 & J3 & ->)]; [left; reflexivity|right; exists j, w; repeat split; auto; lia].
           ++ intros j w Hj Ew Pw. destruct (Z.eq_dec j i) as [->|D]; [rewrite Ev in Ew; inversion Ew; subst; lia|apply (Br j); auto; lia].
        -- specialize (Hd ltac:(lia)). split; [lia|]. split.
           ++ destruct (Z.min_spec r (v / (v / l))) as [[_ ->]|[_ ->]].
              ** destruct Ar as [->|(j & w & J1 & J2 & J3 & ->)]; [left; reflexivity|right; exists j, w; repeat split; auto; lia].
              ** right. exists i, v. repeat split; auto; lia.
           ++ intros j w Hj Ew Pw. destruct (Z.eq_dec j i) as [->|D].
              ** rewrite Ev in Ew; inversion Ew; subst. lia.
              ** specialize (Br j w ltac:(lia) Ew Pw). lia.
      * rewrite E. cbn [bind].
        apply In_vget in Hin. destruct Hin as (im & Rm & Em).
        assert (Pm : 0 < mx / l) by (apply Z.div_str_pos; lia).
        pose proof (Br im mx ltac:(lia) Em Pm) as Bmx.
        assert (Mle : mx / (mx / l) <= mx) by (apply Z.div_le_upper_bound; nia).
        destruct (Z.ltb_spec r tmax) as [Lt|Lt]; [|lia].
        eexists; split; [reflexivity|]. cbn [fst]. split; [|lia]. split; [lia|].
        replace (r + 1 - 1) with r by lia. apply (ranges_snoc _ rs 1 (l - 1)); [exact P|lia|lia|].
        assert (Eq : qs = row vs l).
        { apply vget_ext; [unfold row; rewrite zlen_map; lia|]. intros j Hj. destruct (vget_Ok vs j ltac:(lia)) as (v & Ev).
          rewrite (Gq j v ltac:(lia) Ev). unfold row. rewrite vget_map, Ev. reflexivity. }
        intros d Hd. rewrite Eq. split.
        -- intros Hd2. unfold row. apply map_ext_in. intros v Hv. pose proof (H v Hv) as Bv. apply In_vget in Hv. destruct Hv as (j & Rj & Ej).
           destruct (Z.eq_dec (v / l) 0) as [Z0|Z0].
           ++ rewrite Z0. apply Z.div_small. split; [lia|]. apply Z.div_small_iff in Z0; lia.
           ++ assert (0 <= v / l) by (apply Z.div_pos; lia). specialize (Br j v ltac:(lia) Ej ltac:(lia)).
              apply Z.le_antisymm; [apply div_anti; lia|]. apply Z.div_le_lower_bound; [lia|].
              apply Z.le_trans with (v / (v / l) * (v / l)); [apply Z.mul_le_mono_nonneg_r; lia|]. rewrite Z.mul_comm. apply Z.mul_div_le. lia.
        -- intros Er. assert (Pt : forall v, In v vs -> v / d = v / l).
           { intros v Hv. unfold row in Er. revert Hv. clear -Er. induction vs as [|w ws IH]; intros []; inversion Er; subst; auto. }
           split.
           ++ (* l <= d: a smaller d would have closed its own range *)
              destruct (Z_le_gt_dec l d) as [|G]; [auto|exfalso].
              assert (K : forall rs st la, ranges_ok (fun (qs : list Z) d => row vs d = qs) st la rs -> st <= d <= la -> 0 < st ->
                 exists a b q, row vs d = q /\ a <= d <= b /\ b <= la /\ forall e, 0 < e -> (a <= e <= b <-> row vs e = q)).
              { induction rs0 as [|[[a b] q] rs0 IH]; intros st la P0 Hd0 S0; cbn [ranges_ok] in P0; [lia|].
                destruct P0 as (A & B & C & D). destruct (Z_le_gt_dec d b) as [F|F].
                - exists a, b, q. split; [apply C; lia|]. split; [lia|]. split; [lia|exact C].
                - apply (IH (b + 1) la); auto; lia. }
              destruct (K rs 1 (l - 1) P ltac:(lia) ltac:(lia)) as (a & b & q & K1 & K2 & K3 & K4).
              assert (a <= l <= b) by (apply K4; [lia|rewrite <- K1; symmetry; exact Er]). lia.
           ++ destruct Ar as [->|(j & v & J1 & J2 & J3 & ->)]; [lia|]. pose proof (Pt v (vget_In _ _ _ J2)) as Ev.
              apply Z.div_le_lower_bound; [lia|]. rewrite <- Ev at 1. rewrite Z.mul_comm. apply Z.mul_div_le. lia.
    + exists (inr rs). split; [reflexivity|]. replace mx with (l - 1) by lia. exact P.
  - exists rs, mx. rewrite E. auto.
Qed.
