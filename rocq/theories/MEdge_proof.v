From Verif Require Import Base BaseLemmas ZMod Seq MEdge_spec MEdge_model.
Definition memb (x : Z) (l : list Z) : bool := existsb (Z.eqb x) l.
Lemma memb_In x l : memb x l = true <-> In x l.
Proof. unfold memb. rewrite existsb_exists. split; [intros (y & H & E); apply Z.eqb_eq in E; now subst|]. intro H. exists x. split; auto. apply Z.eqb_refl. Qed.
Lemma set_flags n vs : (forall v, In v vs -> 0 <= v < n) -> forall ex f, rep ex n f ->
  exists ex', for_each vs (fun v ex => vset ex v true) ex = Ok ex' /\ rep ex' n (fun v => f v || memb v vs).
Proof.
  induction vs as [|v vs IH]; intros Hv ex f R.
  - exists ex. split; auto. eapply rep_ext; [exact R|]. intros. cbn. now rewrite orb_false_r.
  - cbn [for_each]. rewrite (rep_set _ _ _ _ _ R) by (apply Hv; now left). cbn [bind].
    destruct (IH (fun w Hw => Hv w (or_intror Hw)) _ _ (rep_upd _ _ _ v true R (Hv v (or_introl eq_refl)))) as (ex' & E & R'). exists ex'. split; auto.
    eapply rep_ext; [exact R'|]. intros w Hw. unfold fupd. cbn [memb existsb]. fold (memb w vs). destruct (w =? v); cbn [orb]; auto. now rewrite orb_true_r.
Qed.
Lemma filter_filter {A} (p q : A -> bool) l : filter p (filter q l) = filter (fun x => q x && p x) l.
Proof. induction l as [|x l IH]; cbn; auto. destruct (q x); cbn [filter andb]; auto. destruct (p x); cbn; now rewrite IH. Qed.
Lemma keep_ok n vs : (forall v, In v vs -> 0 <= v < n) -> forall ex f, rep ex n f ->
  exists ex', keep_flagged vs ex = Ok (filter f (first_occurrences vs), ex') /\ rep ex' n (fun v => f v && negb (memb v vs)).
Proof.
  induction vs as [|v vs IH]; intros Hv ex f R.
  - exists ex. split; auto. eapply rep_ext; [exact R|]. intros. cbn. now rewrite andb_true_r.
  - cbn [keep_flagged]. assert (Hr : 0 <= v < n) by (apply Hv; now left). rewrite (rep_get _ _ _ _ R) by auto. cbn [bind]. rewrite (rep_set _ _ _ _ _ R) by auto. cbn [bind].
    destruct (IH (fun w Hw => Hv w (or_intror Hw)) _ _ (rep_upd _ _ _ v false R Hr)) as (ex' & E & R'). rewrite E. cbn [bind fst snd]. exists ex'. split.
    + do 2 f_equal. cbn [first_occurrences filter]. rewrite filter_filter.
      replace (filter (fun x => negb (x =? v) && f x) (first_occurrences vs)) with (filter (fupd f v false) (first_occurrences vs)); [reflexivity|].
      apply filter_ext. intro x. unfold fupd. now destruct (x =? v).
    + eapply rep_ext; [exact R'|]. intros w Hw. unfold fupd. cbn [memb existsb]. fold (memb w vs). destruct (w =? v); cbn [orb negb andb]; auto. now rewrite andb_false_r.
Qed.
Lemma fo_In l x : In x (first_occurrences l) <-> In x l.
Proof.
  induction l as [|y l IH]; cbn [first_occurrences In]; [tauto|]. rewrite filter_In, IH. destruct (Z.eqb_spec x y) as [->|N]; cbn; [tauto|]. split; [|tauto]. intros [H|[H _]]; auto.
Qed.
Lemma fo_NoDup l : NoDup (first_occurrences l).
Proof.
  induction l as [|y l IH]; cbn [first_occurrences]; constructor.
  - rewrite filter_In. intros [_ H]. now rewrite Z.eqb_refl in H.
  - now apply NoDup_filter.
Qed.
Lemma filter_true {A} (f : A -> bool) l : (forall x, In x l -> f x = true) -> filter f l = l.
Proof. induction l as [|x l IH]; cbn; intro H; auto. rewrite (H x) by now left. f_equal. apply IH. intros. apply H. now right. Qed.
Lemma remove_ok g : (forall vs v, In vs g -> In v vs -> 0 <= v < zlen g) -> remove_multiedges g = Ok (map first_occurrences g).
Proof.
  intro Hg. unfold remove_multiedges. set (n := zlen g) in *.
  assert (X : forall g' out ex, (forall vs v, In vs g' -> In v vs -> 0 <= v < n) -> rep ex n (fun _ => false) ->
    exists ex', for_each g' (fun vs '(out, ex) => let* ex := for_each vs (fun v ex => vset ex v true) ex in let* r := keep_flagged vs ex in Ok (out ++ [fst r], snd r)) (out, ex)
      = Ok (out ++ map first_occurrences g', ex')).
  { induction g' as [|vs g' IH]; intros out ex H R; cbn [for_each map]; [exists ex; now rewrite app_nil_r|].
    destruct (set_flags n vs (fun v Hv => H vs v (or_introl eq_refl) Hv) ex _ R) as (e1 & E1 & R1). rewrite E1. cbn [bind].
    destruct (keep_ok n vs (fun v Hv => H vs v (or_introl eq_refl) Hv) e1 _ R1) as (e2 & E2 & R2). rewrite E2. cbn [bind fst snd].
    destruct (IH (out ++ [filter (fun v => false || memb v vs) (first_occurrences vs)]) e2) as (e3 & E3).
    - intros ws w Hw Hw'. apply (H ws w); auto. now right.
    - eapply rep_ext; [exact R2|]. intros v Hv. cbn. now destruct (memb v vs).
    - exists e3. rewrite E3. rewrite <- app_assoc. cbn [app]. rewrite filter_true; [reflexivity|]. intros x Hx. cbn [orb]. apply memb_In, fo_In, Hx. }
  destruct (X g [] (vrep n false) Hg (rep_vrep n false (zlen_nonneg g))) as (ex' & E). rewrite E. reflexivity.
Qed.
Lemma remove_bad g : (exists vs v, In vs g /\ In v vs /\ ~ 0 <= v < zlen g) -> remove_multiedges g = UB.
Proof.
  unfold remove_multiedges. set (n := zlen g) in *.
  assert (W : forall vs, (exists v, In v vs /\ ~ 0 <= v < n) -> forall ex, zlen ex = n -> for_each vs (fun v ex => vset ex v true) ex = UB).
  { induction vs as [|w vs IH]; intros (v & Hv & Hn) ex Hl; [destruct Hv|]. cbn [for_each]. unfold vset at 1. rewrite Hl.
    destruct ((0 <=? w) && (w <? n)) eqn:B; [|reflexivity]. cbn [bind]. apply IH; [|now rewrite zlen_zupd]. exists v. split; auto. destruct Hv as [->|]; auto. lia. }
  assert (X : forall g' out ex, (exists vs v, In vs g' /\ In v vs /\ ~ 0 <= v < n) -> rep ex n (fun _ => false) ->
    for_each g' (fun vs '(out, ex) => let* ex := for_each vs (fun v ex => vset ex v true) ex in let* r := keep_flagged vs ex in Ok (out ++ [fst r], snd r)) (out, ex) = UB).
  { induction g' as [|vs g' IH]; intros out ex (ws & w & Hws & Hw & Hn) R; [destruct Hws|]. cbn [for_each].
    destruct (forallb (fun v => (0 <=? v) && (v <? n)) vs) eqn:B.
    - assert (Hv : forall v, In v vs -> 0 <= v < n) by (intros v Hv; apply (proj1 (forallb_forall _ _) B) in Hv; lia).
      destruct (set_flags n vs Hv ex _ R) as (e1 & E1 & R1). rewrite E1. cbn [bind].
      destruct (keep_ok n vs Hv e1 _ R1) as (e2 & E2 & R2). rewrite E2. cbn [bind fst snd]. apply IH.
      + exists ws, w. split; auto. destruct Hws as [->|]; auto. exfalso. auto.
      + eapply rep_ext; [exact R2|]. intros v Hv'. cbn. now destruct (memb v vs).
    - rewrite W; [reflexivity| |apply R].
      assert (Y : exists v, In v vs /\ (0 <=? v) && (v <? n) = false).
      { clear - B. induction vs as [|v vs IH]; cbn in B; [discriminate|]. apply andb_false_iff in B as [B|B]; [exists v; split; auto; now left|]. destruct (IH B) as (x & Hx & E). exists x. split; auto. now right. }
      destruct Y as (v & Hv & E). exists v. split; auto. lia. }
  intro H. rewrite (X g [] (vrep n false) H (rep_vrep n false (zlen_nonneg g))). reflexivity.
Qed.
