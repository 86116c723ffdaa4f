(* DynamicBitSet: histories, and the two calls that fail *)
From Verif Require Import Base BaseLemmas ListZ Seq Bits BitVector_spec BitVector_proof Hist PArray_proof2 DynBitset_model DynBitset_spec DynBitset_proof DynBitset_proof2 DynBitset_proof3.

Definition dsim (x : res (dret * list dbs)) (y : res (dret * dset)) : Prop :=
  match y with
  | Ok (r, a') => exists s', x = Ok (r, s') /\ Forall2 rep s' a'
  | Abort => x = Abort
  | OutOfFuel => False
  | UB => True
  end.
Lemma F2_zupd {A B} (P : A -> B -> Prop) l m i x y : Forall2 P l m -> P x y -> Forall2 P (zupd l i x) (zupd m i y).
Proof.
  intros F Hxy. unfold zupd. generalize (Z.to_nat i). clear i. induction F as [|a b l m Hab F IH]; intros [|k]; cbn [upd]; auto.
Qed.
Lemma upd_sim s a x f g : Forall2 rep s a -> (forall d l, rep d l -> rr rep (f d) (g l)) -> dsim (upd_at s x f) (upd_at a x g).
Proof.
  intros F H. unfold upd_at. destruct (Forall2_vget _ _ _ F x) as [(d & l & E1 & E2 & R)|(E1 & E2)]; rewrite E1, E2; cbn [bind dsim]; auto.
  specialize (H d l R). destruct (g l) as [l'| | |]; cbn [rr bind dsim] in *; auto; [|now rewrite H].
  destruct H as (d' & E & R'). rewrite E. cbn [bind]. pose proof (vget_range _ _ _ E1). pose proof (vget_range _ _ _ E2). rewrite !vset_ok by auto. cbn [bind dsim].
  eexists. split; [reflexivity|]. now apply F2_zupd.
Qed.
Lemma upd_ok_sim s a x f g : Forall2 rep s a -> (forall d l, rep d l -> exists d', f d = Ok d' /\ rep d' (g l)) -> dsim (upd_at s x f) (upd_at a x (fun l => Ok (g l))).
Proof. intros F H. apply upd_sim; auto. Qed.
Lemma ask_bool_sim s a (x y : res bool) : Forall2 rep s a -> rr eq x y -> dsim (ask_bool s x) (ask_bool a y).
Proof.
  intros F H. unfold ask_bool. destruct y as [b| | |]; cbn [rr bind dsim] in *; auto; [|now rewrite H]. destruct H as (b' & -> & ->). cbn [bind]. eauto.
Qed.
Lemma ask_num_sim s a (x y : res Z) : Forall2 rep s a -> rr eq x y -> dsim (ask_num s x) (ask_num a y).
Proof.
  intros F H. unfold ask_num. destruct y as [b| | |]; cbn [rr bind dsim] in *; auto; [|now rewrite H]. destruct H as (b' & -> & ->). cbn [bind]. eauto.
Qed.
Lemma one_sim {R} s a x (f : dbs -> res R) (g : list bool -> res R) : Forall2 rep s a -> (forall d l, rep d l -> rr eq (f d) (g l)) ->
  rr eq (let* d := vget s x in f d) (let* l := vget a x in g l).
Proof.
  intros F H. destruct (Forall2_vget _ _ _ F x) as [(d & l & E1 & E2 & Rp)|(E1 & E2)]; rewrite E1, E2; cbn [bind rr]; auto.
Qed.
Lemma two_sim {R} s a x y (f : dbs -> dbs -> res R) (g : list bool -> list bool -> res R) : Forall2 rep s a -> (forall d l d' l', rep d l -> rep d' l' -> rr eq (f d d') (g l l')) ->
  rr eq (with2 s x y f) (with2 a x y g).
Proof.
  intros F H. unfold with2. destruct (Forall2_vget _ _ _ F x) as [(d & l & E1 & E2 & Rp)|(E1 & E2)]; rewrite E1, E2; cbn [bind rr]; auto.
  destruct (Forall2_vget _ _ _ F y) as [(d' & l' & E1' & E2' & Rp')|(E1' & E2')]; rewrite E1', E2'; cbn [bind rr]; auto.
Qed.
Lemma rr_ok {A} (x : res A) v : x = Ok v -> rr eq x (Ok v). Proof. intros ->. exists v. auto. Qed.
Lemma rr_guard {A B} (R : A -> B -> Prop) x c y : (c = true -> rr R x y) -> rr R x (guard c y).
Proof. unfold guard. destruct c; cbn [rr]; auto. Qed.
Lemma rr_neg x y z : rr eq x y -> (let* b := y in Ok (negb b)) = z -> rr eq (negr x) z.
Proof. intros H <-. unfold negr. destruct y as [b| | |]; cbn [rr bind] in *; auto; [|now rewrite H]. destruct H as (b' & -> & ->). cbn [bind]. eauto. Qed.
Lemma rr_same {A} (p q : list bool) (x : res A) r : x = same_size p q (Ok r) -> rr eq x (same_size p q (Ok r)).
Proof. intros ->. unfold same_size, assert_. destruct (zlen p =? zlen q); cbn [bind rr]; eauto. Qed.

Lemma two_step s a y (K : dbs -> res (dret * list dbs)) (L : list bool -> res (dret * dset)) : Forall2 rep s a -> (forall d l, rep d l -> dsim (K d) (L l)) ->
  dsim (let* b := vget s y in K b) (let* q := vget a y in L q).
Proof. intros F H. destruct (Forall2_vget _ _ _ F y) as [(d & l & E1 & E2 & Rp)|(E1 & E2)]; rewrite E1, E2; cbn [bind dsim]; auto. Qed.
Lemma f_and x y : word x -> word y -> word (Z.land x y) /\ forall i, Z.testbit (Z.land x y) i = Z.testbit x i && Z.testbit y i.
Proof. intros. split; [now apply land_word|]. intros. apply Z.land_spec. Qed.
Lemma f_or x y : word x -> word y -> word (Z.lor x y) /\ forall i, Z.testbit (Z.lor x y) i = Z.testbit x i || Z.testbit y i.
Proof. intros. split; [now apply lor_word|]. intros. apply Z.lor_spec. Qed.
Lemma f_xor x y : word x -> word y -> word (Z.lxor x y) /\ forall i, Z.testbit (Z.lxor x y) i = xorb (Z.testbit x i) (Z.testbit y i).
Proof. intros. split; [now apply lxor_word|]. intros. apply Z.lxor_spec. Qed.
Lemma negb_le x y : negb (x <=? y) = (y <? x). Proof. destruct (Z.leb_spec x y), (Z.ltb_spec y x); auto; lia. Qed.
Lemma negb_lt x y : negb (x <? y) = (y <=? x). Proof. destruct (Z.ltb_spec x y), (Z.leb_spec y x); auto; lia. Qed.

Lemma with2_neg s x y (f g : list bool -> list bool -> res bool) : (forall p q, (let* b := f p q in Ok (negb b)) = g p q) ->
  (let* b := with2 s x y f in Ok (negb b)) = with2 s x y g.
Proof. intros H. unfold with2. destruct (vget s x) as [p| | |]; cbn [bind]; auto. destruct (vget s y) as [q| | |]; cbn [bind]; auto. Qed.

Lemma db_sim s a o : Forall2 rep s a -> dsim (db_step s o) (ds_step a o).
Proof.
  intros F. destruct o; cbn [db_step ds_step].
  - (* new *) unfold guard. destruct (Z.leb_spec 0 n); cbn [dsim]; auto. eexists. split; [reflexivity|]. apply Forall2_app; auto. constructor; [now apply rep_new|constructor].
  - apply ask_num_sim; auto. apply one_sim; auto. intros d l R. apply rr_ok. f_equal. apply (rep_n d l R).
  - apply ask_bool_sim; auto. apply one_sim; auto. intros d l R. apply rr_ok. do 2 f_equal. apply (rep_n d l R).
  - apply upd_sim; auto. intros d l R. apply rr_guard. intros Hn. apply Z.leb_le in Hn. now apply rep_resize.
  - apply upd_sim; auto. intros d l R. now apply rep_push.
  - apply upd_sim; auto. intros d l R. now apply rep_pop.
  - apply ask_bool_sim; auto. apply one_sim; auto. intros d l R. apply rr_guard. intros Hi. apply rr_ok. now apply rep_get.
  - apply upd_sim; auto. intros d l R. apply rep_bit; auto. apply assign_ok.
  - apply upd_sim; auto. intros d l R. apply (rep_bit _ (fun c => c || v)); auto. apply or_ok.
  - apply upd_sim; auto. intros d l R. apply (rep_bit _ (fun c => xorb c v)); auto. apply xor_ok.
  - apply upd_sim; auto. intros d l R. apply rep_bit; auto. apply flip_ok.
  - apply ask_bool_sim; auto. apply two_sim; auto. intros. apply rr_ok. now apply rep_eq.
  - apply ask_bool_sim; auto. eapply rr_neg; [apply (two_sim s a x y db_eq); [exact F|]; intros; apply rr_ok; apply rep_eq; eassumption|].
    apply with2_neg. intros p q. cbn [bind]. now destruct (list_eq_dec Bool.bool_dec p q).
  - apply ask_bool_sim; auto. apply two_sim; auto. intros. apply rr_same. now apply (rep_less false).
  - apply ask_bool_sim; auto. apply two_sim; auto. intros. apply rr_same. now apply (rep_less true).
  - apply ask_bool_sim; auto. eapply rr_neg; [apply (two_sim s a x y (db_less true)); [exact F|]; intros; apply rr_same; apply (rep_less true); eassumption|].
    apply with2_neg. intros p q. cbn [bind]. unfold same_size, assert_. destruct (zlen p =? zlen q); cbn [bind]; auto. now rewrite negb_le.
  - apply ask_bool_sim; auto. eapply rr_neg; [apply (two_sim s a x y (db_less false)); [exact F|]; intros; apply rr_same; apply (rep_less false); eassumption|].
    apply with2_neg. intros p q. cbn [bind]. unfold same_size, assert_. destruct (zlen p =? zlen q); cbn [bind]; auto. now rewrite negb_lt.
  - apply two_step; auto. intros d' l' R'. apply upd_sim; auto. intros d l R. apply rep_pairwise; auto using f_and.
  - apply two_step; auto. intros d' l' R'. apply upd_sim; auto. intros d l R. apply rep_pairwise; auto using f_or.
  - apply two_step; auto. intros d' l' R'. apply upd_sim; auto. intros d l R. apply rep_pairwise; auto using f_xor.
  - apply upd_sim; auto. intros d l R. apply rr_guard. intros Hk. apply Z.leb_le in Hk. now apply rep_shl.
  - apply upd_sim; auto. intros d l R. apply rr_guard. intros Hk. apply Z.leb_le in Hk. now apply rep_shr.
  - apply two_step; auto. intros d l R. destruct (rep_not d l R) as (d' & E & R'). rewrite E. cbn [bind dsim]. eexists. split; [reflexivity|]. apply Forall2_app; auto.
  - apply upd_sim; auto. intros d l0 R. apply rep_range; auto using acts_set.
  - apply upd_sim; auto. intros d l0 R. apply rep_range; auto using acts_reset.
  - apply upd_sim; auto. intros d l0 R. apply rep_range; auto using acts_flip.
  - apply ask_num_sim; auto. apply one_sim; auto. intros d l0 R. now apply rep_range_count.
  - apply upd_ok_sim; auto. intros d l R. eexists. split; [reflexivity|]. now apply rep_fill.
  - apply upd_ok_sim; auto. intros d l R. eexists. split; [reflexivity|]. now apply rep_fill.
  - apply ask_bool_sim; auto. apply one_sim; auto. intros d l R. apply rr_guard. intros G. apply rr_ok. now apply rep_all.
  - apply ask_bool_sim; auto. apply one_sim; auto. intros d l R. apply rr_ok. now apply rep_none.
  - apply ask_bool_sim; auto. eapply rr_neg; [apply (one_sim s a x db_none (fun l => Ok (forallb negb l))); auto; intros d l R; apply rr_ok; now apply rep_none|].
    destruct (vget a x) as [l| | |]; cbn [bind]; auto. now rewrite any_none.
  - apply ask_num_sim; auto. apply one_sim; auto. intros d l R. apply rr_ok. now apply rep_count.
  - apply ask_num_sim; auto. apply one_sim; auto. intros d l R. apply rr_ok. now apply rep_find_first.
  - apply ask_num_sim; auto. apply one_sim; auto. intros d l R. apply rr_guard. intros Hp. apply Z.leb_le in Hp. cbv zeta. apply rr_ok. now apply rep_find_next.
  - apply ask_bool_sim; auto. apply two_sim; auto. intros. apply rr_ok. now apply rep_meet.
  - apply ask_bool_sim; auto. eapply rr_neg; [apply (two_sim s a x y db_has_intersection); [exact F|]; intros; apply rr_ok; apply rep_meet; eassumption|].
    apply with2_neg. reflexivity.
Qed.
Lemma db_history ops : snd (run ds_step [] ops) <> UB -> run db_step [] ops = run ds_step [] ops.
Proof. apply run_sim with (Inv := Forall2 rep); [|constructor]. intros s a o F. exact (db_sim s a o F). Qed.

(* all() *)
Lemma all_bad k : 0 < k -> db_all (db_new (64 * k) true) = UB.
Proof.
  intros Hk. pose proof (rep_new (64 * k) true ltac:(lia)) as R. set (d := db_new (64 * k) true) in *. pose proof (rep_n _ _ R) as (E & N0). pose proof (rep_len _ _ R) as Ln.
  rewrite zlen_tab in * by lia. destruct (rep_last d _ R) as (b & Eb & _ & Rn & _ & _ & En); [lia|]. unfold db_all. rewrite (proj2 (Z.eqb_neq (db_n d) 0)) by lia.
  destruct (scan_ok (fun i => let* a := vget (db_b d) i in Ok (if negb (a =? full) then Some false else None)) (fun i => None) 0 (zlen (db_b d) - 1)) as [(Es & _)|(i & r & _ & _ & H & _)]; [lia| | |discriminate].
  - intros i Hi. rewrite (rep_mid d _ i R) by lia. cbn [bind].
    replace (wl (tab (64 * k) (fun _ => true)) i) with full; [now rewrite Z.eqb_refl|]. symmetry. apply word_full; [apply wd_word|]. intros t Ht. fold (wl (tab (64 * k) (fun _ => true)) i).
    rewrite wl_bits by lia. apply bitv_tab. lia.
  - rewrite Es. cbn [bind]. assert (L64 : last_num d = 64) by lia. rewrite L64. cbn [Z.eqb negb assert_ bind]. change (shl 1 (64 - 64)) with (Ok 1). cbn [bind].
    unfold shl. rewrite Z.ltb_irrefl, andb_false_r. reflexivity.
Qed.
Lemma all_history_bad k : 0 < k -> run db_step [] [DNew (64 * k) true; DAll 0] = ([DUnit], UB).
Proof.
  intros Hk. pose proof (all_bad k Hk) as H. cbn [run db_step]. unfold ask_bool. cbn [app]. change (vget [db_new (64 * k) true] 0) with (Ok (db_new (64 * k) true)). cbn [bind]. now rewrite H.
Qed.
Lemma ref_and_bad : ~ forall n i j d, 0 <= i < n -> 0 <= j < n -> db_ref (ref_and true) (db_new n true) i = Ok d -> db_get d j = Ok true.
Proof. intros H. specialize (H 2 0 1 (DB 2 [1]) ltac:(lia) ltac:(lia) eq_refl). discriminate. Qed.
