From Verif Require Import Base BaseLemmas Seq DVec_spec DVec_model.
Section P.
  Context {T : Type}.
  Implicit Types (s : dvec T) (l : list T).
  Lemma u32_nn i : 0 <= i < 2 ^ 31 -> u32 i = i.
  Proof. intros. apply Z.mod_small. lia. Qed.
  Lemma u32_neg i : - 2 ^ 31 <= i < 0 -> 2 ^ 31 <= u32 i.
  Proof. intros. unfold u32. replace (i mod 2 ^ 32) with (i + 2 ^ 32); [lia|]. apply (Z.mod_unique _ _ (-1)); lia. Qed.
  Lemma oob_spec s i : zlen (dv_v s) < 2 ^ 31 -> - 2 ^ 31 <= i < 2 ^ 31 -> dv_oob s i = negb ((0 <=? i) && (i <? zlen (dv_v s))).
  Proof.
    intros Hs Hi. unfold dv_oob. destruct (Z.leb_spec 0 i); cbn.
    - rewrite u32_nn by lia. apply Z.leb_antisym.
    - pose proof (u32_neg i ltac:(lia)). apply Z.leb_le. lia.
  Qed.
  (* the vector holds exactly the values of the total map f below its size *)
  Definition inv (d : T) s (n : Z) (f : Z -> T) : Prop := dv_d s = Some d /\ rep (dv_v s) n f /\ 0 <= n < 2 ^ 31 /\ (forall i, n <= i -> f i = d).
  Lemma zlen_rep (v : list T) n f : rep v n f -> zlen v = n.
  Proof. now intros [? _]. Qed.
  Lemma resize_ok d s n f m : inv d s n f -> 0 <= m < 2 ^ 31 -> exists s', dv_resize s m = Ok s' /\ inv d s' m (fun i => if m <=? i then d else f i).
  Proof.
    intros (Hd & R & Hn & Hf) Hm. pose proof (zlen_rep _ _ _ R) as L. unfold dv_resize. rewrite L. rewrite (proj2 (Z.ltb_ge m 0)) by lia.
    destruct R as [_ R]. destruct (Z.leb_spec m n).
    - eexists; split; [reflexivity|]. repeat split; cbn; auto; try lia.
      + unfold zlen in *. rewrite firstn_length. lia.
      + intros i Hi. rewrite (proj2 (Z.leb_gt m i)) by lia. rewrite <- (R i ltac:(lia)). unfold vget. destruct (Z.ltb_spec i 0); [lia|].
        rewrite <- (firstn_skipn (Z.to_nat m) (dv_v s)) at 2. rewrite nth_error_app1; [reflexivity|]. unfold zlen in L. rewrite firstn_length. lia.
      + intros i Hi. now rewrite (proj2 (Z.leb_le m i)) by lia.
    - unfold dflt. rewrite Hd. cbn [bind]. eexists; split; [reflexivity|]. repeat split; cbn; auto; try lia.
      + unfold zlen, vrep in *. rewrite app_length, repeat_length. lia.
      + intros i Hi. rewrite (proj2 (Z.leb_gt m i)) by lia. unfold vget. destruct (Z.ltb_spec i 0); [lia|]. destruct (Z.ltb_spec i n) as [Hl|Hl].
        * rewrite <- (R i ltac:(lia)). unfold vget. destruct (Z.ltb_spec i 0); [lia|]. rewrite nth_error_app1; [reflexivity|]. unfold zlen in L. lia.
        * rewrite nth_error_app2 by (unfold zlen in L; lia). unfold vrep. rewrite nth_error_repeat by (unfold zlen in L; lia). now rewrite Hf by lia.
      + intros i Hi. now rewrite (proj2 (Z.leb_le m i)) by lia.
  Qed.
  Lemma inv_ext d s n f g : inv d s n f -> (forall i, 0 <= i -> f i = g i) -> inv d s n g.
  Proof. intros (A & B & C & D) H. repeat split; auto; try lia; try apply B. - intros i Hi. rewrite <- H by lia. now apply B. - intros i Hi. rewrite <- H by lia. now apply D. Qed.
  Lemma ref_ok d s n f i : inv d s n f -> 0 <= i < 2 ^ 31 - 1 -> exists s', dv_ref s i = Ok s' /\ inv d s' (Z.max n (i + 1)) f.
  Proof.
    intros I Hi. pose proof I as (Hd & R & Hn & Hf). pose proof (zlen_rep _ _ _ R) as L. unfold dv_ref. rewrite oob_spec by lia. rewrite L.
    rewrite (proj2 (Z.leb_le 0 i)) by lia. cbn. destruct (Z.ltb_spec i n); cbn.
    - exists s. split; [reflexivity|]. now rewrite Z.max_l by lia.
    - unfold i32. rewrite (proj2 (Z.leb_le _ (i + 1))), (proj2 (Z.ltb_lt (i + 1) _)) by lia. cbn [andb bind].
      destruct (resize_ok d s n f (i + 1) I ltac:(lia)) as (s' & E & I'). exists s'. split; [exact E|]. rewrite Z.max_r by lia. eapply inv_ext; [exact I'|].
      intros j Hj. cbn beta. destruct (Z.leb_spec (i + 1) j); auto. now rewrite Hf by lia.
  Qed.
  Lemma read_ok d s n f i : inv d s n f -> 0 <= i < 2 ^ 31 - 1 -> exists s', dv_read s i = Ok (s', f i) /\ inv d s' (Z.max n (i + 1)) f.
  Proof.
    intros I Hi. destruct (ref_ok d s n f i I Hi) as (s' & E & I'). unfold dv_read. rewrite E. cbn [bind]. pose proof I' as (_ & R & _).
    rewrite (rep_get _ _ _ _ R) by lia. cbn [bind]. eauto.
  Qed.
  Lemma write_ok d s n f i x : inv d s n f -> 0 <= i < 2 ^ 31 - 1 -> exists s', dv_write s i x = Ok s' /\ inv d s' (Z.max n (i + 1)) (fupd f i x).
  Proof.
    intros I Hi. destruct (ref_ok d s n f i I Hi) as (s' & E & I'). unfold dv_write. rewrite E. cbn [bind]. pose proof I' as (Hd & R & Hn & Hf).
    rewrite (rep_set _ _ _ _ _ R) by lia. cbn [bind]. eexists; split; [reflexivity|]. split; [exact Hd|]. split; [apply rep_upd; [exact R|lia]|]. split; [lia|].
    intros j Hj. unfold fupd. destruct (Z.eqb_spec j i); [lia|]. apply Hf. lia.
  Qed.
  Lemma run_ok d l h : zlen l < 2 ^ 31 -> Forall dop_ok h -> exists s, dv_run (DV (Some d) l) h = Ok s /\ inv d s (dsize l h) (value d l h).
  Proof.
    intros Hl H. induction H as [|o h Ho H IH].
    - exists (DV (Some d) l). split; [reflexivity|]. repeat split; cbn; auto; try (unfold zlen in *; lia).
      + intros i Hi. unfold value. cbn. rewrite (proj2 (Z.leb_le 0 i)) by lia. unfold vget. destruct (Z.ltb_spec i 0); [lia|].
        destruct (nth_error l (Z.to_nat i)) eqn:E; auto. apply nth_error_None in E. unfold zlen in *. lia.
      + intros i Hi. unfold value. cbn. destruct (0 <=? i) eqn:E; auto. replace (nth_error l (Z.to_nat i)) with (@None T); auto. symmetry. apply nth_error_None. unfold zlen in *. lia.
    - destruct IH as (s & E & I). cbn [dv_run]. rewrite E. cbn [bind]. destruct o as [i x|i|n]; cbn in Ho.
      + destruct (write_ok d s _ _ i x I Ho) as (s' & E' & I'). exists s'. split; [exact E'|]. eapply inv_ext; [exact I'|]. intros j Hj. unfold fupd, value. cbn. now destruct (j =? i).
      + destruct (read_ok d s _ _ i I Ho) as (s' & E' & I'). exists s'. rewrite E'. split; [reflexivity|]. exact I'.
      + destruct (resize_ok d s _ _ n I Ho) as (s' & E' & I'). exists s'. split; [exact E'|]. eapply inv_ext; [exact I'|]. intros j Hj. unfold value. cbn. now destruct (n <=? j).
  Qed.
  Lemma stored_neg l h i : Forall dop_ok h -> i < 0 -> stored l h i = None.
  Proof.
    intros H Hi. induction H as [|o h Ho H IH]; cbn.
    - now rewrite (proj2 (Z.leb_gt 0 i)) by lia.
    - destruct o; cbn in Ho; auto. + destruct (Z.eqb_spec i i0); [lia|]. auto. + destruct (n <=? i); auto.
  Qed.
  Lemma get_ok d s n f i : inv d s n f -> - 2 ^ 31 <= i < 2 ^ 31 -> (i < 0 -> f i = d) -> dv_get s i = Ok (f i).
  Proof.
    intros (Hd & R & Hn & Hf) Hi H0. pose proof (zlen_rep _ _ _ R) as L. unfold dv_get. rewrite oob_spec by lia. rewrite L. unfold dflt. rewrite Hd.
    destruct (Z.leb_spec 0 i); cbn; [|now rewrite H0]. destruct (Z.ltb_spec i n); cbn; [now apply (rep_get _ _ _ _ R)|]. now rewrite Hf.
  Qed.
  Lemma get_or_ok d s n f i t : inv d s n f -> - 2 ^ 31 <= i < 2 ^ 31 -> dv_get_or s i t = Ok (if (0 <=? i) && (i <? n) then f i else t).
  Proof.
    intros (Hd & R & Hn & Hf) Hi. pose proof (zlen_rep _ _ _ R) as L. unfold dv_get_or. rewrite oob_spec by lia. rewrite L.
    destruct (Z.leb_spec 0 i); cbn; auto. destruct (Z.ltb_spec i n); cbn; auto. now apply (rep_get _ _ _ _ R).
  Qed.
End P.
