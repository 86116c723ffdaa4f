(* gaussian_elimination_f2 *)
From Verif Require Import Base BaseLemmas ListZ ListMore MatrixF2_model MatrixF2_spec MatrixF2_lin MatrixF2_elim MatrixF2_proof MatrixF2_proof2 PArray_proof2.

Lemma inner_single r x p : zlen r = zlen x -> 0 <= p < zlen x -> (forall c, 0 <= c < zlen x -> c <> p -> bit r c && bit x c = false) ->
  inner r x = bit r p && bit x p.
Proof.
  unfold zlen, bit. intros L Hp H.
  assert (G : forall r x k, length r = length x -> (k < length x)%nat ->
    (forall c, (c < length x)%nat -> c <> k -> nth c r false && nth c x false = false) -> inner r x = nth k r false && nth k x false).
  { clear. induction r as [|a r IH]; intros [|b x] k L Hk H; try (cbn in *; lia). rewrite inner_cons. destruct k.
    - cbn [nth]. replace (inner r x) with false; [now rewrite xorb_false_r|]. symmetry.
      assert (Q : forall c, (c < length x)%nat -> nth c r false && nth c x false = false) by (intros c Hc; apply (H (S c)); cbn; lia).
      assert (L2 : length r = length x) by (cbn in L; lia). clear -Q L2. revert x L2 Q. induction r as [|a r IH]; intros [|b x] L Q; auto. rewrite inner_cons, (IH x).
      + rewrite xorb_false_r. apply (Q 0%nat). cbn. lia.
      + cbn in L. lia.
      + intros c Hc. apply (Q (S c)). cbn. lia.
    - cbn [nth]. rewrite (IH x k).
      + pose proof (H 0%nat ltac:(cbn; lia) ltac:(lia)) as Q. cbn [nth] in Q. rewrite Q. apply xorb_false_l.
      + cbn in L. lia.
      + cbn in Hk. lia.
      + intros c Hc Ne. apply (H (S c)); cbn; lia. }
  apply G; [lia|lia|]. intros c Hc Ne. specialize (H (Z.of_nat c)). rewrite Nat2Z.id in H. apply H; lia.
Qed.
Lemma F2_vget {A B} (P : A -> B -> Prop) l k i x y : Forall2 P l k -> vget l i = Ok x -> vget k i = Ok y -> P x y.
Proof.
  intros F E1 E2. destruct (Forall2_vget P l k F i) as [(x' & y' & A1 & A2 & A3)|[A1 A2]]; congruence.
Qed.
Definition pv (ones : list Z) (i : Z) : Z := nth (Z.to_nat i) ones 0.
Lemma vget_pv ones i : 0 <= i < zlen ones -> vget ones i = Ok (pv ones i).
Proof. apply vget_nth. Qed.
Lemma pv_app1 l x i : 0 <= i < zlen l -> pv (l ++ [x]) i = pv l i.
Proof. intros. pose proof (vget_pv (l ++ [x]) i) as H1. rewrite zlen_app, vget_app1, vget_pv in H1 by lia. specialize (H1 ltac:(rewrite zlen_one; lia)). congruence. Qed.
Lemma pv_app2 l x : pv (l ++ [x]) (zlen l) = x.
Proof. unfold pv, zlen. rewrite Nat2Z.id, app_nth2, Nat.sub_diag by lia. reflexivity. Qed.
Lemma pv_In ones i : 0 <= i < zlen ones -> In (pv ones i) ones.
Proof. intros. apply vget_In with i. now apply vget_pv. Qed.
Lemma In_pv ones c : In c ones -> exists i, 0 <= i < zlen ones /\ pv ones i = c.
Proof. intros H. apply In_vget in H as (i & Hi & E). exists i. split; auto. rewrite vget_pv in E by auto. congruence. Qed.

(* the state of the elimination when it stops: [w] is the width of the rows, m + 1 *)
Record reduced (n m w : Z) (a0 a : list (list bool)) (rank : Z) (ones zs : list Z) (j : Z) : Prop := {
  rd_mat : bmat w n a;
  rd_eq : bequiv w n a0 a;
  rd_len : zlen ones = rank;
  rd_rank : 0 <= rank <= n;
  rd_j : 0 <= j <= m;
  rd_rj : rank <= j;
  rd_part : forall c, 0 <= c < j <-> In c ones \/ In c zs;
  rd_nd : NoDup (ones ++ zs);
  rd_one : forall i k, 0 <= i < rank -> 0 <= k < n -> bit (brow a k) (pv ones i) = (i =? k);
  rd_zero : forall i c, rank <= i < n -> 0 <= c < j -> bit (brow a i) c = false }.

Lemma part_step (P Q : Prop) c j : 0 <= j -> (0 <= c < j <-> P \/ Q) -> (0 <= c < j + 1 <-> P \/ Q \/ j = c).
Proof. intros Hj H. assert (0 <= c < j + 1 <-> 0 <= c < j \/ j = c) by lia. tauto. Qed.
Lemma columns_ok n m w a : 0 <= n -> 0 <= m < w -> bmat w n a ->
  exists a' rank ones zs j, ge_columns n m a = Ok (a', rank, ones, zs) /\ reduced n m w a a' rank ones zs j /\ (rank < n -> j = m).
Proof.
  intros Hn Hm M. unfold ge_columns.
  destruct (loop_inv (fun s => let '(a', rank, ones, zs, j) := s in reduced n m w a a' rank ones zs j)
    (fun s => let '(a', rank, ones, zs, j) := s in Z.to_nat (m - j))
    (fun s => let '(a', rank, ones, zs) := s in exists j, reduced n m w a a' rank ones zs j /\ (rank < n -> j = m))
    (fun '(a, rank, ones, zeros, j) =>
    if (rank <? n) && (j <? m) then
      let* a := clear_below test_bits bs_xor n a rank j in
      let* b := at_ test_bits a rank j in
      if b then
        let* a := clear_above test_bits bs_xor a rank j in
        Ok (inl (a, rank + 1, ones ++ [j], zeros, j + 1))
      else Ok (inl (a, rank, ones, zeros ++ [j], j + 1))
    else Ok (inr (a, rank, ones, zeros))) (S (Z.to_nat m)) (a, 0, [], [], 0)) as ((((a' & rank) & ones) & zs) & E & j & H).
  - split; auto; try (change (zlen (@nil Z)) with 0; lia); try (intros; lia).
    + apply equiv_refl.
    + intro c. cbn. lia.
    + constructor.
  - lia.
  - intros ((((a1 & rank) & ones) & zs) & j) [M1 Eq1 Ln Hr Hj Hrj Pt Nd One Zero].
    destruct (Z.ltb_spec rank n) as [Lr|Lr]; cbn [andb].
    2:{ eexists. split; [reflexivity|]. exists j. split; [now constructor|lia]. }
    destruct (Z.ltb_spec j m) as [Lj|Lj].
    2:{ eexists. split; [reflexivity|]. exists j. split; [now constructor|lia]. }
    destruct (b_below w n a1 rank j M1 ltac:(lia) ltac:(lia)) as (a2 & E2 & M2 & Eq2 & L2 & B2 & C2). rewrite E2. cbn [bind].
    rewrite (b_at w n) by (auto; lia). cbn [bind].
    assert (Oj : forall c, In c ones -> 0 <= c < j) by (intros; apply Pt; auto).
    assert (One2 : forall i k, 0 <= i < rank -> 0 <= k < n -> bit (brow a2 k) (pv ones i) = (i =? k)).
    { intros i k Hi Hk. assert (Hp : 0 <= pv ones i < j) by (apply Oj, pv_In; lia). destruct (Z_lt_le_dec k rank); [rewrite L2 by lia; now apply One|].
      transitivity false; [|symmetry; apply Z.eqb_neq; lia]. apply (C2 (pv ones i)); [lia| |lia]. intros u Hu. rewrite One by lia. apply Z.eqb_neq. lia. }
    assert (Zero2 : forall i c, rank <= i < n -> 0 <= c < j -> bit (brow a2 i) c = false).
    { intros i c Hi Hc. apply (C2 c); [lia| |lia]. intros u Hu. apply Zero; lia. }
    pose proof (equiv_trans _ _ _ _ _ _ _ Eq1 Eq2) as Eq3.
    assert (Nj : ~ In j (ones ++ zs)) by (rewrite in_app_iff, <- Pt; lia).
    destruct (bit (brow a2 rank) j) eqn:Bj.
    + destruct (b_above w n a2 rank j M2 ltac:(lia) ltac:(lia) Bj) as (a3 & E3 & M3 & Eq4 & L3 & B3 & C3). rewrite E3. cbn [bind].
      eexists. split; [reflexivity|]. cbn beta iota. split; [|lia]. split; auto; try lia.
      * eapply equiv_trans; eauto.
      * rewrite zlen_app, zlen_one. lia.
      * intro c. rewrite in_app_iff. cbn [In]. pose proof (part_step _ _ c j (proj1 Hj) (Pt c)). tauto.
      * rewrite <- app_assoc. cbn. apply NoDup_Add with (a := j) (l := ones ++ zs); [apply Add_app|auto].
      * intros i k Hi Hk. destruct (Z.eq_dec i rank) as [->|Ni].
        -- rewrite <- Ln, pv_app2, Ln. destruct (Z_lt_le_dec k rank); [rewrite B3 by lia; symmetry; apply Z.eqb_neq; lia|].
           rewrite L3 by lia. destruct (Z.eq_dec k rank) as [->|]; [now rewrite Z.eqb_refl|].
           rewrite B2 by lia. symmetry. apply Z.eqb_neq. lia.
        -- rewrite pv_app1 by lia. assert (Hp : 0 <= pv ones i < j) by (apply Oj, pv_In; lia).
           rewrite C3; [now apply One2; lia|lia|lia|]. rewrite One2 by lia. apply Z.eqb_neq. lia.
      * intros i c Hi Hc. rewrite L3 by lia. destruct (Z.eq_dec c j) as [->|]; [apply B2; lia|apply Zero2; lia].
    + eexists. split; [reflexivity|]. cbn beta iota. split; [|lia]. split; auto; try lia.
      * intro c. rewrite in_app_iff. cbn [In]. pose proof (part_step _ _ c j (proj1 Hj) (Pt c)). tauto.
      * rewrite app_assoc. now apply NoDup_app_snoc.
      * intros i c Hi Hc. destruct (Z.eq_dec c j) as [->|]; [|apply Zero2; lia].
        destruct (Z.eq_dec i rank) as [->|]; auto. apply B2. lia.
  - exists a', rank, ones, zs, j. split; auto.
Qed.

(* a vector supported on the pivots *)
Lemma pivots_ok w n m a rank ones (g : Z -> bool) : bmat w n a -> zlen ones = rank -> 0 <= rank <= n -> 0 <= m ->
  NoDup ones -> (forall c, In c ones -> 0 <= c < m) -> forall col, 0 <= col < w ->
  exists s, for_ 0 rank (fun i s => let* v := at_ test_bits a i col in let* c := vget ones i in vset s c v) (vrep m false) = Ok s /\
    zlen s = m /\ (forall i, 0 <= i < rank -> bit s (pv ones i) = bit (brow a i) col) /\ (forall c, 0 <= c < m -> ~ In c ones -> bit s c = false).
Proof.
  intros M Ln Hr Hm Nd Rg col Hc.
  destruct (for_inv (fun i s => zlen s = m /\ (forall k, 0 <= k < i -> bit s (pv ones k) = bit (brow a k) col) /\ (forall c, 0 <= c < m -> ~ In c ones -> bit s c = false))
    0 rank (fun i s => let* v := at_ test_bits a i col in let* c := vget ones i in vset s c v) (vrep m false)) as (s & E & Zs & B & Z0); auto; [lia| | |eauto 6].
  - split; [now apply zlen_vrep|]. split; [intros; lia|]. intros. apply bit_zeros.
  - intros i s Hi (Zs & B & Z0). rewrite (b_at w n) by (auto; lia). cbn [bind]. rewrite vget_pv by lia. cbn [bind].
    assert (Hp : 0 <= pv ones i < m) by (apply Rg, pv_In; lia).
    rewrite vset_ok by lia. eexists. split; [reflexivity|]. split; [now rewrite zlen_zupd|]. split.
    + intros k Hk. assert (Hpk : 0 <= pv ones k < m) by (apply Rg, pv_In; lia). rewrite bit_zupd by lia.
      destruct (Z.eqb_spec (pv ones i) (pv ones k)) as [Ep|Ep].
      * assert (i = k).
        { unfold pv in Ep. apply (proj1 (NoDup_nth ones 0) Nd) in Ep; unfold zlen in Ln; lia. }
        now subst.
      * apply B. destruct (Z.eq_dec k i); [subst; congruence|lia].
    + intros c Hcc Nc. rewrite bit_zupd by lia. destruct (Z.eqb_spec (pv ones i) c) as [<-|]; auto.
      exfalso. apply Nc, pv_In. lia.
Qed.

Definition aug (x : list bool) (r : list bool) : bool := inner r (x ++ [true]).
Lemma aug_linear w x : linear (fun r => zlen r = w) plus (aug x).
Proof. intros r s Hr Hs. apply inner_plus_l. lia. Qed.
Lemma aug_split m x r : zlen x = m -> zlen r = m + 1 -> aug x r = xorb (inner (firstn (Z.to_nat m) r) x) (bit r m).
Proof.
  intros Zx Zr. pose proof (zlen_nonneg x). unfold aug.
  assert (E : r = firstn (Z.to_nat m) r ++ [bit r m]).
  { apply list_eq; [rewrite zlen_app, zlen_firstn, zlen_one; lia|]. intros i Hi. destruct (Z_lt_le_dec i m).
    - rewrite vget_app1 by (rewrite zlen_firstn; lia). now rewrite vget_firstn by lia.
    - assert (i = m) by lia. subst i. rewrite vget_app2 by (rewrite zlen_firstn; lia). rewrite zlen_firstn, Z.sub_diag by lia. cbn. apply vget_bit. lia. }
  rewrite E at 1. rewrite inner_app by (rewrite zlen_firstn; lia). rewrite inner_cons, inner_nil_l, andb_true_r, xorb_false_r. reflexivity.
Qed.
Lemma xorb_xorb_l a b : xorb a (xorb a b) = b. Proof. now destruct a, b. Qed.

Section Final.
  Variables (n m : Z) (a0 a : list (list bool)) (rank : Z) (ones zs : list Z) (j : Z).
  Hypothesis Hn : 0 <= n.
  Hypothesis Hm : 0 <= m.
  Hypothesis Rd : reduced n m (m + 1) a0 a rank ones zs j.
  Hypothesis Rj : rank < n -> j = m.
  Let f (i : Z) : list bool := firstn (Z.to_nat m) (brow a i).
  Lemma f_len i : 0 <= i < n -> zlen (f i) = m.
  Proof. intros. unfold f. rewrite zlen_firstn; auto. destruct Rd as [[Z1 W] _ _ _ _ _ _ _ _ _]. rewrite W; lia. Qed.
  Lemma f_bit i c : 0 <= i < n -> 0 <= c < m -> bit (f i) c = bit (brow a i) c.
  Proof. intros. unfold f. apply bit_firstn; auto. destruct Rd as [[Z1 W] _ _ _ _ _ _ _ _ _]. rewrite W; lia. Qed.
  Lemma a_aug i x : 0 <= i < n -> zlen x = m -> aug x (brow a i) = xorb (inner (f i) x) (bit (brow a i) m).
  Proof. intros. apply aug_split; auto. destruct Rd as [[Z1 W] _ _ _ _ _ _ _ _ _]. now apply W. Qed.
  Lemma f_zero i x : rank <= i < n -> inner (f i) x = false.
  Proof.
    intros. destruct Rd. apply inner_zero_bits. intros c Hc. rewrite f_len in Hc by lia. rewrite f_bit by lia. apply rd_zero0; auto. lia.
  Qed.
  Lemma ones_range c : In c ones -> 0 <= c < m.
  Proof. intros. destruct Rd. assert (0 <= c < j) by (apply rd_part0; auto). lia. Qed.
  Lemma zs_range c : In c zs -> 0 <= c < m /\ ~ In c ones.
  Proof.
    intros. destruct Rd. assert (0 <= c < j) by (apply rd_part0; auto). split; [lia|]. intros H2.
    apply in_split in H2 as (l1 & l2 & ->). rewrite <- app_assoc in rd_nd0. cbn in rd_nd0. apply NoDup_remove_2 in rd_nd0.
    apply rd_nd0. rewrite !in_app_iff. auto.
  Qed.
  Lemma nd_ones : NoDup ones.
  Proof. destruct Rd. clear -rd_nd0. induction ones; [constructor|]. inversion rd_nd0; subst. constructor; auto. intros H. apply H1. apply in_app_iff. auto. Qed.
  (* an equation sees only its own pivot among the pivots *)
  Lemma f_single i x : 0 <= i < rank -> zlen x = m -> (forall c, 0 <= c < m -> ~ In c ones -> bit x c = false) ->
    inner (f i) x = bit x (pv ones i).
  Proof.
    intros Hi Zx Z0. destruct Rd. assert (Hp : 0 <= pv ones i < m) by (apply ones_range, pv_In; lia).
    rewrite (inner_single (f i) x (pv ones i)); [|rewrite f_len; lia|lia|].
    - rewrite f_bit by lia. rewrite rd_one0, Z.eqb_refl by lia. reflexivity.
    - intros c Hc Ne. rewrite Zx in Hc. destruct (in_dec Z.eq_dec c ones) as [I|I]; [|rewrite (Z0 c), andb_false_r; auto].
      apply In_pv in I as (k & Hk & <-). rewrite f_bit by lia. rewrite rd_one0 by lia.
      destruct (Z.eqb_spec k i) as [->|]; [congruence|reflexivity].
  Qed.
  Lemma solves x : zlen x = m -> (vanish [] n (aug x) a0 <-> (forall i, 0 <= i < rank -> inner (f i) x = bit (brow a i) m) /\ (forall i, rank <= i < n -> bit (brow a i) m = false)).
  Proof.
    intros Zx. destruct Rd. rewrite (rd_eq0 (aug x) (aug_linear _ x)). unfold vanish. split.
    - intros H. split; intros i Hi; specialize (H i ltac:(lia)); rewrite a_aug in H by (auto; lia).
      + now apply (proj1 (xorb_zero _ _)) in H.
      + rewrite f_zero in H by auto. now rewrite xorb_false_l in H.
    - intros [A B] i Hi. rewrite a_aug by auto. destruct (Z_lt_le_dec i rank).
      + rewrite A by lia. apply xorb_nilpotent.
      + rewrite f_zero, B by lia. reflexivity.
  Qed.
  Definition hom x := zlen x = m /\ forall i, 0 <= i < rank -> inner (f i) x = false.
  Definition isbase (c : Z) (v : list bool) : Prop := zlen v = m /\ bit v c = true /\
    (forall i, 0 <= i < rank -> bit v (pv ones i) = bit (brow a i) c) /\ (forall d, 0 <= d < m -> d <> c -> ~ In d ones -> bit v d = false).
  Lemma base_hom c v : In c zs -> isbase c v -> hom v.
  Proof.
    intros Hc (Zv & B1 & Bp & B0). destruct (zs_range c Hc) as [Rc Nc]. split; auto. intros i Hi.
    set (u := flip c v). assert (Zu : zlen u = m) by (unfold u; now rewrite flip_len).
    assert (Bu : forall d, 0 <= d < m -> bit u d = xorb (c =? d) (bit v d)).
    { intros d Hd. unfold u, flip. rewrite bit_plus by (rewrite ?unit_len; lia). rewrite Zv, bit_unit by lia. reflexivity. }
    replace v with (flip c u) by apply flip_flip. rewrite inner_flip by lia. rewrite f_bit by (destruct Rd; lia).
    rewrite f_single; auto.
    - assert (Hp : In (pv ones i) ones) by (apply pv_In; destruct Rd; lia).
      rewrite Bu by now apply ones_range. rewrite Bp by auto. destruct (Z.eqb_spec c (pv ones i)) as [E|E]; [rewrite E in Nc; contradiction|].
      now destruct (bit (brow a i) c).
    - intros d Hd Nd. rewrite Bu by auto. destruct (Z.eqb_spec c d) as [<-|E]; [now rewrite B1|]. rewrite B0; auto.
  Qed.
  Lemma hom_plus x y : hom x -> hom y -> hom (plus x y).
  Proof.
    intros [Zx Kx] [Zy Ky]. split; [rewrite plus_len; lia|]. intros i Hi. rewrite inner_plus_r by lia. now rewrite Kx, Ky.
  Qed.
  (* every element of the kernel is spanned, when all columns have been examined *)
  Lemma span_hom basis : Forall2 isbase zs basis -> j = m -> forall x, hom x -> spanned m basis x.
  Proof.
    intros F Ej.
    assert (G : forall todo bs done, zs = done ++ todo -> Forall2 isbase todo bs -> (forall v, In v bs -> In v basis) ->
      forall x, hom x -> (forall c, In c done -> bit x c = false) -> spanned m basis x).
    { induction todo as [|c todo IH]; intros bs done Ez Fb Inc x Hx Z0.
      - rewrite app_nil_r in Ez. subst done. replace x with (zeros m); [constructor|]. destruct Hx as [Zx K].
        apply bits_eq; [rewrite zeros_len; lia|]. intros d Hd. rewrite zeros_len in Hd by auto. rewrite bit_zeros. symmetry.
        destruct Rd. assert (Hd2 : 0 <= d < j) by lia. apply rd_part0 in Hd2 as [Hd2|Hd2]; [|auto].
        apply In_pv in Hd2 as (i & Hi & <-). rewrite <- f_single; auto; [apply K; lia|lia|].
        intros e He Ne. assert (He2 : 0 <= e < j) by lia. apply rd_part0 in He2 as [He2|He2]; [contradiction|auto].
      - inversion Fb as [|? v ? bs' Hv Fb']; subst bs. assert (Hcz : In c zs) by (rewrite Ez; apply in_app_iff; right; now left).
        assert (Nd : NoDup zs).
        { destruct Rd. clear -rd_nd0. induction ones; cbn in *; auto. inversion rd_nd0; auto. }
        assert (IH' : forall x, hom x -> (forall d, In d (done ++ [c]) -> bit x d = false) -> spanned m basis x).
        { apply (IH bs' (done ++ [c])); auto; [rewrite Ez, <- app_assoc; reflexivity|]. intros u Hu. apply Inc. now right. }
        destruct (bit x c) eqn:Bx.
        + pose proof Hv as (Zv & B1 & Bp & B0). destruct Hx as [Zx K].
          replace x with (plus v (plus v x)) by (apply plus_cancel; lia). apply spanned_add; [apply Inc; now left|].
          apply IH'; [apply hom_plus; [apply (base_hom c); auto|now split]|]. intros d Hd. rewrite bit_plus.
          * apply in_app_iff in Hd as [Hd|[<-|[]]].
            -- rewrite Z0 by auto. rewrite xorb_false_r. destruct (zs_range d ltac:(rewrite Ez; apply in_app_iff; auto)) as [Rdd Ndd].
               apply B0; auto. intros ->. rewrite Ez in Nd. apply NoDup_remove_2 in Nd. apply Nd. apply in_app_iff. auto.
            -- now rewrite B1, Bx.
          * lia.
          * apply in_app_iff in Hd as [Hd|[<-|[]]]; [|now apply zs_range]. apply zs_range. rewrite Ez. apply in_app_iff. auto.
        + apply IH'; auto. intros d Hd. apply in_app_iff in Hd as [Hd|[<-|[]]]; auto. }
    intros x Hx. apply (G zs basis [] eq_refl F); auto. intros c [].
  Qed.
  Lemma spanned_hom basis : Forall2 isbase zs basis -> forall x, spanned m basis x -> hom x.
  Proof.
    intros F x H. induction H.
    - split; [now apply zeros_len|]. intros. apply inner_zeros.
    - apply hom_plus; auto. apply In_vget in H as (i & Hi & E). destruct (vget_Ok zs i) as (c & Ec); [rewrite (Forall2_zlen _ _ _ F); auto|].
      apply (base_hom c); [now apply vget_In in Ec|]. exact (F2_vget _ _ _ _ _ _ F Ec E).
  Qed.
End Final.

(* the number of sums of vectors with private coordinates *)
Lemma spanned_len m l x : 0 <= m -> (forall v, In v l -> zlen v = m) -> spanned m l x -> zlen x = m.
Proof. intros Hm H. induction 1 as [|u y Hu Hy IH]; [now apply zeros_len|]. apply H in Hu. rewrite plus_len; lia. Qed.
Lemma spanned_mono m l l' x : incl l l' -> spanned m l x -> spanned m l' x.
Proof. intros I. induction 1; constructor; auto. Qed.
Lemma spanned_cons m v l x : 0 <= m -> zlen v = m -> (forall u, In u l -> zlen u = m) ->
  (spanned m (v :: l) x <-> spanned m l x \/ (zlen x = m /\ spanned m l (plus v x))).
Proof.
  intros Hm Zv W. assert (W' : forall u, In u (v :: l) -> zlen u = m) by (intros u [<-|H]; auto). split.
  - induction 1 as [|u y Hu Hy IH]; [left; constructor|]. pose proof (spanned_len m _ _ Hm W' Hy) as Zy. pose proof (W' u Hu) as Zu.
    destruct Hu as [<-|Hu], IH as [A|[_ A]].
    + right. split; [rewrite plus_len; lia|]. rewrite plus_cancel by lia. auto.
    + left. exact A.
    + left. constructor; auto.
    + right. split; [rewrite plus_len; lia|]. rewrite plus_assoc, (plus_comm v u), <- plus_assoc by lia. constructor; auto.
  - intros [A|[Zx A]]; [apply spanned_mono with l; auto; apply incl_tl, incl_refl|].
    rewrite <- (plus_cancel v x) by lia. constructor; [now left|]. apply spanned_mono with l; auto. apply incl_tl, incl_refl.
Qed.
Lemma spanned_bit m l c x : (forall v, In v l -> zlen v = m) -> 0 <= m -> 0 <= c -> (forall v, In v l -> bit v c = false) -> spanned m l x -> bit x c = false.
Proof.
  intros W Hm Hc H. induction 1; [apply bit_zeros|]. rewrite bit_plus; auto.
  - now rewrite IHspanned, H.
  - pose proof (spanned_len m l y Hm W H1). rewrite W by auto. lia.
Qed.
Lemma private_dim m zs : 0 <= m -> forall basis, (forall c, In c zs -> 0 <= c < m) ->
  Forall2 (fun c v => zlen v = m /\ bit v c = true /\ forall d, In d zs -> d <> c -> bit v d = false) zs basis -> NoDup zs ->
  dim (spanned m basis) (zlen basis).
Proof.
  intros Hm.
  assert (G : forall todo basis, incl todo zs -> (forall c, In c zs -> 0 <= c < m) -> NoDup todo ->
    Forall2 (fun c v => zlen v = m /\ bit v c = true /\ forall d, In d zs -> d <> c -> bit v d = false) todo basis -> dim (spanned m basis) (zlen basis) /\
    (forall u, In u basis -> zlen u = m) /\ forall c, In c zs -> ~ In c todo -> forall u, In u basis -> bit u c = false).
  { induction todo as [|c todo IH]; intros basis Inc Rg Nd F; inversion F as [|? v ? bs Hv F']; subst basis.
    - split; [|split; [intros u []|intros c _ _ u []]]. exists [zeros m]. split; [repeat constructor; intros []|]. split; [|reflexivity].
      intro x. split; [intros [<-|[]]; constructor|]. inversion 1; subst; [now left|contradiction].
    - destruct Hv as (Zv & Bv & Ov). inversion Nd as [|? ? Nc Nd']; subst x l. destruct (IH bs) as ((L & N & I & Z1) & Wb & Pb); auto; [intros x Hx; apply Inc; now right|].
      assert (Cz : In c zs) by (apply Inc; now left).
      assert (Bc : forall x, In x L -> bit x c = false).
      { intros x Hx. apply I in Hx. apply (spanned_bit m bs c x Wb Hm (proj1 (Rg c Cz))); auto. }
      split; [|split].
      + exists (L ++ map (plus v) L).
        assert (LZ : forall x, In x L -> zlen x = m) by (intros x Hx; apply (spanned_len m bs); auto; now apply I).
        split; [|split].
        * apply NoDup_app; auto.
          -- clear -N LZ Zv. induction L as [|x L IH]; cbn; [constructor|]. inversion N; subst. constructor.
             ++ intros H. apply in_map_iff in H as (y & E & Hy). apply H1.
                assert (Q : plus v (plus v y) = plus v (plus v x)) by now rewrite E.
                rewrite !plus_cancel in Q; [now subst|symmetry; apply LZ; now left|symmetry; apply LZ; now right].
             ++ apply IH; auto. intros y Hy. apply LZ. now right.
          -- intros x Hx Hy. apply in_map_iff in Hy as (y & <- & Hy). apply Bc in Hx. pose proof (LZ y Hy). rewrite bit_plus in Hx; [|lia|now apply Rg].
             rewrite Bv, (Bc y Hy) in Hx. discriminate.
        * intro x. rewrite spanned_cons, in_app_iff, in_map_iff by auto. rewrite <- !I. split.
          -- intros [A|(y & <- & A)]; auto. right. assert (zlen y = m) by auto. split; [rewrite plus_len; lia|]. now rewrite plus_cancel by lia.
          -- intros [A|[Zx A]]; auto. right. exists (plus v x). split; auto. apply plus_cancel. lia.
        * rewrite zlen_app, zlen_map, zlen_cons, Z1, Z.pow_add_r by (try lia; apply zlen_nonneg). lia.
      + intros u [<-|Hu]; auto.
      + intros d Hd Nin u [<-|Hu].
        * apply Ov; auto. intros ->. apply Nin. now left.
        * apply (Pb d); auto. intros H. apply Nin. now right. }
  intros basis Rg F Nd. apply (G zs basis); auto. apply incl_refl.
Qed.

Lemma append_ok n m a b : 0 <= n -> shape n m a -> zlen b = n ->
  exists a', for_ 0 n (fun i a => let* row := vget a i in let* bi := vget b i in vset a i (row ++ [bi])) a = Ok a' /\
    bmat (m + 1) n a' /\ forall i, 0 <= i < n -> brow a' i = brow a i ++ [bit b i].
Proof.
  intros Hn [Z1 W]%shape_mat Zb.
  destruct (for_inv (fun i a' => zlen a' = n /\ forall k, 0 <= k < n -> brow a' k = if k <? i then brow a k ++ [bit b k] else brow a k) 0 n
    (fun i a => let* row := vget a i in let* bi := vget b i in vset a i (row ++ [bi])) a) as (a' & E & Z2 & R); auto.
  - split; auto. intros k Hk. destruct (Z.ltb_spec k 0); [lia|auto].
  - intros i a1 Hi (Z2 & R). rewrite (vget_row []) by lia. cbn [bind]. rewrite vget_bit by lia. cbn [bind].
    rewrite R, Z.ltb_irrefl by auto. rewrite vset_ok by lia. eexists. split; [reflexivity|]. split; [now rewrite zlen_zupd|].
    intros k Hk. rewrite row_zupd by lia. destruct (Z.eqb_spec i k) as [->|Ne].
    + now rewrite (proj2 (Z.ltb_lt k (k + 1))) by lia.
    + rewrite R by auto. destruct (Z.ltb_spec k i), (Z.ltb_spec k (i + 1)); auto; lia.
  - exists a'. assert (Q : forall i, 0 <= i < n -> brow a' i = brow a i ++ [bit b i]) by (intros i Hi; rewrite R, (proj2 (Z.ltb_lt i n)) by lia; auto).
    split; auto. split; auto. split; auto. intros i Hi. rewrite Q by auto. rewrite zlen_app, W, zlen_one by auto. reflexivity.
Qed.

Lemma brow_firstn k a i : brow (map (firstn k) a) i = firstn k (brow a i).
Proof. unfold row. rewrite <- (map_nth (firstn k)). now rewrite firstn_nil. Qed.
Definition complete (n m : Z) (a : list (list bool)) : Prop := m <= n \/ exists d, 0 <= d /\ dim (kernel m a) d /\ m - d < n.
Lemma gauss_ok n m a b : 0 <= n -> 0 <= m -> shape n m a -> zlen b = n ->
  exists s, gaussian_elimination_f2 n m a b = Ok s /\
    match ss_solution s with
    | None => (forall x, zlen x = m -> times a x <> b) /\ ss_basis s = []
    | Some x => zlen x = m /\ times a x = b /\ (forall v, In v (ss_basis s) -> kernel m a v) /\
        dim (spanned m (ss_basis s)) (zlen (ss_basis s)) /\
        (complete n m a -> forall y, zlen y = m -> (times a y = b <-> exists k, spanned m (ss_basis s) k /\ y = plus x k))
    end.
Proof.
  intros Hn Hm S Zb. pose proof S as [Za Wa]%shape_mat. unfold gaussian_elimination_f2. rewrite (proj2 (Z.eqb_eq n _)) by lia. cbn [assert_ bind].
  destruct (append_ok n m a b Hn S Zb) as (a0 & E0 & M0 & R0). rewrite E0. cbn [bind].
  destruct (columns_ok n m (m + 1) a0 Hn ltac:(lia) M0) as (a' & rank & ones & zs & j & E1 & Rd & Rj). rewrite E1. cbn [bind].
  assert (Av : forall x, zlen x = m -> (times a x = b <-> vanish [] n (aug x) a0)).
  { intros x Zx. rewrite (times_eq n) by auto. unfold vanish. split; intros H i Hi; specialize (H i Hi).
    - rewrite R0 by auto. unfold aug. rewrite inner_app by (rewrite Wa; lia). rewrite inner_cons, inner_nil_l, andb_true_r, xorb_false_r, H. apply xorb_nilpotent.
    - rewrite R0 in H by auto. unfold aug in H. rewrite inner_app in H by (rewrite Wa; lia). rewrite inner_cons, inner_nil_l, andb_true_r, xorb_false_r in H.
      now apply (proj1 (xorb_zero _ _)) in H. }
  assert (Hom : forall x, zlen x = m -> (kernel m a x <-> hom m a' rank x)).
  { intros x Zx. rewrite (kernel_row n m a) by auto. unfold hom.
    assert (Lz : linear (fun r => zlen r = m + 1) plus (fun r => inner r (x ++ [false]))) by (intros r s Hr Hs; apply inner_plus_l; lia).
    destruct Rd as [Md Eqd Ln Hrk Hjm Hrj Pt Nd One Zero]. specialize (Eqd _ Lz). unfold vanish in Eqd.
    assert (Q0 : forall i, 0 <= i < n -> inner (brow a0 i) (x ++ [false]) = inner (brow a i) x).
    { intros i Hi. rewrite R0 by auto. rewrite inner_app by (rewrite Wa; lia). rewrite inner_cons, inner_nil_l, andb_false_r, xorb_false_r by auto. reflexivity || apply xorb_false_r. }
    assert (Q1 : forall i, 0 <= i < n -> inner (brow a' i) (x ++ [false]) = inner (firstn (Z.to_nat m) (brow a' i)) x).
    { intros i Hi. change [false] with (zeros 1). rewrite inner_pad by (destruct Md as [_ Wd]; rewrite Wd; lia). now rewrite Zx. }
    split; intros [_ H]; split; auto.
    - intros i Hi. rewrite <- Q1 by lia. apply Eqd; [|lia]. intros k Hk. rewrite Q0 by auto. auto.
    - intros i Hi. rewrite <- Q0 by auto. revert i Hi. apply Eqd. intros i Hi. rewrite Q1 by auto.
      destruct (Z_lt_le_dec i rank); [apply H; lia|]. apply inner_zero_bits. destruct Md as [_ Wd]. intros c Hc.
      rewrite zlen_firstn in Hc by (rewrite Wd; lia). rewrite bit_firstn by (rewrite ?Wd; lia). apply Zero; [lia|]. lia. }
  pose proof (solves n m a0 a' rank ones zs j Hn Hm Rd Rj) as Sol.
  assert (Md : bmat (m + 1) n a') by apply Rd.
  destruct (for_inv (fun i (bad : bool) => bad = true <-> exists k, rank <= k < i /\ bit (brow a' k) m = true) rank n
    (fun i (bad : bool) => if bad then Ok bad else at_ test_bits a' i m) false) as (bad & E2 & B).
  { destruct Rd; lia. }
  { split; [discriminate|]. intros (k & Hk & _). lia. }
  { intros i bad Hi B. assert (0 <= rank) by (destruct Rd; lia). destruct bad.
    - eexists. split; [reflexivity|]. split; auto. intros _. destruct (proj1 B eq_refl) as (k & Hk & Q). exists k. split; [lia|auto].
    - rewrite (b_at (m + 1) n) by (auto; lia). eexists. split; [reflexivity|]. cbn beta. split.
      + intros H2. exists i. split; [lia|auto].
      + intros (k & Hk & Q). destruct (Z.eq_dec k i) as [->|]; auto. exfalso. assert (false = true); [|discriminate]. apply B. exists k. split; [lia|auto]. }
  rewrite E2. cbn [bind]. destruct bad.
  - eexists. split; [reflexivity|]. cbn [ss_solution ss_basis]. split; auto. intros x Zx Ex. destruct (proj1 B eq_refl) as (k & Hk & Q).
    apply Av in Ex; auto. apply Sol in Ex; auto. destruct Ex as [_ Z0]. rewrite Z0 in Q by lia. discriminate.
  - assert (Bz : forall i, rank <= i < n -> bit (brow a' i) m = false).
    { intros i Hi. destruct (bit (brow a' i) m) eqn:Q; auto. assert (false = true); [|discriminate]. apply B. exists i. auto. }
    assert (Nd1 := nd_ones n m a0 a' rank ones zs j Rd). assert (Rg1 := ones_range n m a0 a' rank ones zs j Rd). assert (Rg2 := zs_range n m a0 a' rank ones zs j Rd).
    pose proof (rd_len _ _ _ _ _ _ _ _ _ Rd) as Ln. pose proof (rd_rank _ _ _ _ _ _ _ _ _ Rd) as Hrk.
    destruct (pivots_ok (m + 1) n m a' rank ones (fun _ => false) Md Ln Hrk Hm Nd1 Rg1 m ltac:(lia)) as (x & Ex & Zx & Bx & Ox). rewrite Ex. cbn [bind].
    destruct (for_each_inv (fun done basis => Forall2 (isbase m a' rank ones) done basis) zs (fun j basis =>
    let* base := for_ 0 rank (fun i s => let* v := at_ test_bits a' i j in let* c := vget ones i in vset s c v) (vrep m false) in
    let* base := vset base j true in Ok (basis ++ [base])) []) as (basis & Eb & Fb).
    { constructor. }
    { intros done c todo basis Ez Fb. destruct (Rg2 c) as [Rc Nc]; [rewrite Ez; apply in_app_iff; right; now left|].
      destruct (pivots_ok (m + 1) n m a' rank ones (fun _ => false) Md Ln Hrk Hm Nd1 Rg1 c ltac:(lia)) as (v & Ev & Zv & Bv & Ov). rewrite Ev. cbn [bind].
      rewrite vset_ok by lia. cbn [bind]. eexists. split; [reflexivity|]. apply Forall2_app; auto. constructor; [|constructor].
      split; [now rewrite zlen_zupd|]. split; [rewrite bit_zupd by lia; now rewrite Z.eqb_refl|]. split.
      - intros i Hi. assert (Hp : In (pv ones i) ones) by (apply pv_In; lia). rewrite bit_zupd by (try lia; rewrite Zv; now apply Rg1).
        destruct (Z.eqb_spec c (pv ones i)) as [->|]; [contradiction|]. now apply Bv.
      - intros d Hd Nd Nin. rewrite bit_zupd by lia. destruct (Z.eqb_spec c d); [lia|]. now apply Ov. }
    rewrite Eb. cbn [bind]. eexists. split; [reflexivity|]. cbn [ss_solution ss_basis]. split; auto.
    assert (Ax : times a x = b).
    { apply Av; auto. apply Sol; auto. split; auto. intros i Hi. pose proof (f_single n m a0 a' rank ones zs j Hm Rd i x Hi Zx Ox) as Q. cbn beta in Q. rewrite Q. auto. }
    split; auto.
    assert (HS := spanned_hom n m a0 a' rank ones zs j Hm Rd basis Fb).
    assert (Nz : NoDup zs).
    { destruct Rd. clear -rd_nd0. induction ones; cbn in *; auto. inversion rd_nd0; auto. }
    split; [|split].
    + intros v Hv. assert (Hh : hom m a' rank v).
      { apply In_vget in Hv as (i & Hi & Ev). destruct (vget_Ok zs i) as (c & Ec); [rewrite (Forall2_zlen _ _ _ Fb); auto|].
        apply (base_hom n m a0 a' rank ones zs j Hm Rd c); [now apply vget_In in Ec|]. exact (F2_vget _ _ _ _ _ _ Fb Ec Ev). }
      apply Hom; auto. apply Hh.
    + apply (private_dim m zs Hm); auto; [intros c Hc; apply Rg2; auto|]. eapply Forall2_imp; [|exact Fb].
      intros c v (Zv & B1 & Bp & B0). split; auto. split; auto. intros d Hd Nd. destruct (Rg2 d Hd). apply B0; auto.
    + intros Cp y Zy.
      assert (Ej : j = m).
      { destruct (Z_lt_le_dec rank n) as [Lr|Lr]; [auto|]. assert (rank = n) by lia. pose proof (rd_rj _ _ _ _ _ _ _ _ _ Rd) as Hrj. pose proof (rd_j _ _ _ _ _ _ _ _ _ Rd) as Hjm. destruct Cp as [Cp|(d & Hd & D & Cp)]; [lia|]. exfalso.
        destruct (kernel_count n m (map (firstn (Z.to_nat m)) a') n (pv ones)) as (Le & D1); auto; try lia.
        - rewrite zlen_map. apply Md.
        - intros i Hi. assert (Hp : In (pv ones i) ones) by (apply pv_In; lia). specialize (Rg1 _ Hp).
          assert (Rw : forall k, 0 <= k < n -> brow (map (firstn (Z.to_nat m)) a') k = firstn (Z.to_nat m) (brow a' k)).
          { intros k Hk. apply brow_firstn. }
          split; auto. split; [|intros l Hl]; rewrite Rw, bit_firstn by (destruct Md as [_ Wd]; rewrite ?Wd; lia); rewrite (rd_one _ _ _ _ _ _ _ _ _ Rd) by lia.
          + apply Z.eqb_refl.
          + apply Z.eqb_neq. lia.
        - assert (D2 : dim (kernel m a) (m - n)).
          { eapply dim_ext; [|exact D1]. intro z. rewrite (kernel_row n m (map _ a')) by (rewrite zlen_map; apply Md).
            split.
            - intros [Zz K]. apply Hom; auto. split; auto. intros i Hi. specialize (K i ltac:(lia)). rewrite brow_firstn in K. exact K.
            - intros Kz. assert (Zz : zlen z = m) by apply Kz. split; auto. apply Hom in Kz; auto. destruct Kz as [_ K]. intros i Hi. specialize (K i ltac:(lia)). rewrite brow_firstn. exact K. }
          pose proof (dim_unique _ d (m - n) Hd ltac:(lia) D D2). lia. }
      assert (Sp := span_hom n m a0 a' rank ones zs j Hm Rd basis Fb Ej). split.
      * intros Ey. exists (plus x y). split; [|symmetry; apply plus_cancel; lia]. apply Sp. apply Hom; [rewrite plus_len; lia|].
        apply (kernel_row n m a); auto. split; [rewrite plus_len; lia|]. intros i Hi. rewrite inner_plus_r by lia.
        apply (times_eq n) with (i := i) in Ey; auto. apply (times_eq n) with (i := i) in Ax; auto. rewrite Ey, Ax. apply xorb_nilpotent.
      * intros (k & Hk & ->). apply HS in Hk. assert (Zk : zlen k = m) by apply Hk. apply Hom in Hk; auto. apply (kernel_row n m a) in Hk as [_ K]; auto.
        apply (times_eq n); auto. intros i Hi. rewrite inner_plus_r by lia. rewrite K by auto. rewrite xorb_false_r. revert i Hi. now apply (times_eq n).
Qed.

Lemma dim_1x2 : dim (kernel 2 [[true; false]]) 1.
Proof.
  exists [[false; false]; [false; true]]. split; [|split; [|reflexivity]].
  - constructor; [|constructor; [intros []|constructor]]. intros [H|[]]. discriminate.
  - intro x. split.
    + intros H. repeat (destruct H as [<-|H]; [split; [reflexivity|]; intros r [<-|[]]; reflexivity|]). destruct H.
    + intros [Z1 K]. destruct x as [|p [|q [|? ?]]]; try (exfalso; unfold zlen in Z1; cbn [length] in Z1; lia). specialize (K _ (or_introl eq_refl)).
      destruct p, q; cbn in K; try discriminate; cbn; auto.
Qed.
Lemma shape_1x2 : shape 1 2 [[true; false]].
Proof. split; [reflexivity|]. intros r [<-|[]]. reflexivity. Qed.
Lemma rank_bad : ~ forall n m a d, 0 <= n -> 0 <= m -> shape n m a -> 0 <= d -> dim (kernel m a) d -> mf_rank n m a = Ok (m - d).
Proof. intros H. specialize (H 1 2 _ 1 ltac:(lia) ltac:(lia) shape_1x2 ltac:(lia) dim_1x2). vm_compute in H. discriminate. Qed.
Lemma gauss_bad : ~ forall n m a b s x, 0 <= n -> 0 <= m -> shape n m a -> zlen b = n -> gaussian_elimination_f2 n m a b = Ok s -> ss_solution s = Some x ->
    forall y, zlen y = m -> times a y = b -> exists k, spanned m (ss_basis s) k /\ y = plus x k.
Proof.
  intros H. destruct (H 1 2 [[true; false]] [true] {| normalized_flag := false; ss_solution := Some [true; false]; ss_basis := [] |} [true; false]
    ltac:(lia) ltac:(lia) shape_1x2 eq_refl eq_refl eq_refl [true; true] eq_refl eq_refl) as (k & Hk & E).
  inversion Hk; subst; [discriminate|contradiction].
Qed.
Lemma normalized_bad s : ss_basis s <> [] -> ss_normalized s = Abort.
Proof. intros H. unfold ss_normalized. destruct (ss_basis s) as [|e l]; [congruence|]. reflexivity. Qed.
