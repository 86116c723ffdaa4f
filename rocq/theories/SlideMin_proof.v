(* sliding_window_minimum *)
From Verif Require Import Base BaseLemmas ListZ ListMore Hist Heap_spec Heap_proof SlideMin_model SlideMin_spec.
From Coq Require Import Sorted.

Section Slide.
  Variable cmp : Z -> Z -> bool.
  Hypothesis Ct : forall x y z, cmp x y = true -> cmp y z = true -> cmp x z = true.
  Hypothesis Cn : forall x y z, cmp x y = false -> cmp y z = false -> cmp x z = false.
  Variable a : list Z.
  Notation n := (zlen a).
  Notation slide_ := slide.
  Definition av (i : Z) : Z := nth (Z.to_nat i) a 0.
  Lemma vget_av i : 0 <= i < n -> vget a i = Ok (av i). Proof. apply vget_nth. Qed.
  Notation C i j := (cmp (av i) (av j)).
  (* i has not been passed by an element of (i, r) *)
  Definition stays (r i : Z) : Prop := forall j, i < j < r -> C i j = false.
  Definition holds (s : slide) (w : Z * Z) : Prop :=
    sw_l s = fst w /\ sw_r s = snd w /\ 0 <= sw_l s <= sw_r s /\ sw_r s <= n /\
    StronglySorted Z.lt (sw_dq s) /\ forall i, In i (sw_dq s) <-> sw_l s <= i < sw_r s /\ stays (sw_r s) i.
  Lemma ssorted_app (u v : list Z) : StronglySorted Z.lt (u ++ v) <-> StronglySorted Z.lt u /\ StronglySorted Z.lt v /\ forall x y, In x u -> In y v -> x < y.
  Proof.
    induction u as [|x u IH]; cbn [app].
    - split; [intros H; split; [constructor|split; auto]|tauto]. intros x y [].
    - split.
      + intros H. inversion_clear H. apply IH in H0 as (A & B & D). rewrite Forall_forall in H1. split; [constructor; auto; apply Forall_forall; intros y Hy; apply H1, in_app_iff; auto|]. split; auto. intros y z [<-|Hy] Hz; auto. apply H1, in_app_iff. auto.
      + intros (A & B & D). inversion_clear A. constructor; [apply IH; split; auto; split; auto; intros y z Hy; apply D; now right|]. rewrite Forall_forall in *. intros y Hy. apply in_app_iff in Hy as [Hy|Hy]; auto. apply D; auto. now left.
  Qed.
  Lemma pop_ok l r dq : 0 <= l <= r -> r < n -> StronglySorted Z.lt dq -> (forall i, In i dq <-> l <= i < r /\ stays r i) ->
    exists d1, sw_pop_back cmp a (av r) dq = Ok d1 /\ StronglySorted Z.lt d1 /\ forall i, In i d1 <-> In i dq /\ C i r = false.
  Proof.
    intros Hl Hr So M. unfold sw_pop_back.
    apply (loop_inv (fun d1 => exists e, dq = d1 ++ e /\ forall i, In i e -> C i r = true) (fun d => length d) (fun d1 => StronglySorted Z.lt d1 /\ forall i, In i d1 <-> In i dq /\ C i r = false)).
    - exists []. split; [now rewrite app_nil_r|intros i []].
    - lia.
    - intros d1 (e & E & D). assert (Sd : StronglySorted Z.lt d1) by (rewrite E in So; now apply ssorted_app in So).
      destruct (rev d1) as [|b rest] eqn:Er.
      + assert (d1 = []) as -> by (rewrite <- (rev_involutive d1), Er; reflexivity). eexists. split; [reflexivity|]. split; [constructor|]. intros i. split; [intros []|]. intros (I & F). rewrite E in I. cbn in I. rewrite D in F by auto. discriminate.
      + assert (Ed : d1 = rev rest ++ [b]) by (rewrite <- (rev_involutive d1), Er; reflexivity).
        assert (Ib : In b dq) by (rewrite E, Ed; apply in_app_iff; left; apply in_app_iff; right; now left). pose proof (proj1 (M b) Ib) as (Hb & Sb). rewrite vget_av by lia. cbn [bind].
        destruct (C b r) eqn:Eb.
        * eexists. split; [reflexivity|]. cbv beta iota. split; [|rewrite Ed, app_length; cbn; lia]. exists ([b] ++ e). split; [now rewrite app_assoc, <- Ed|]. intros i [<-|Hi]; auto.
        * eexists. split; [reflexivity|]. cbv beta iota. split; auto. intros i. split.
          -- intros Hi. split; [rewrite E; apply in_app_iff; auto|]. rewrite Ed in Hi. apply in_app_iff in Hi as [Hi|[<-|[]]]; auto.
             assert (Hib : i < b) by (rewrite Ed in Sd; apply ssorted_app in Sd as (_ & _ & Sd); apply Sd; auto; now left).
             assert (Ii : In i dq) by (rewrite E, Ed; apply in_app_iff; left; apply in_app_iff; auto). apply M in Ii as (Ri & Si). eapply Cn; [apply (Si b); lia|exact Eb].
          -- intros (Ii & F). rewrite E in Ii. apply in_app_iff in Ii as [Ii|Ii]; auto. rewrite D in F by auto. discriminate.
  Qed.
  Lemma right_ok s l r : holds s (l, r) -> if r <? n then exists s', sw_proc_right cmp a s = Ok s' /\ holds s' (l, r + 1) else sw_proc_right cmp a s = Abort.
  Proof.
    intros (E1 & E2 & Hl & Hr & So & M). cbn [fst snd] in *. unfold sw_proc_right. rewrite E1, E2 in *. destruct (Z.ltb_spec r n) as [Lt|]; cbn [assert_ bind]; auto. rewrite vget_av by lia. cbn [bind].
    destruct (pop_ok l r (sw_dq s) Hl Lt So M) as (d1 & E & S1 & M1). rewrite E. cbn [bind]. eexists. split; [reflexivity|]. unfold holds. cbn [sw_l sw_r sw_dq fst snd]. split; auto. split; auto. split; [lia|]. split; [lia|]. split.
    - apply ssorted_app. split; auto. split; [repeat constructor|]. intros x y Hx [<-|[]]. apply M1 in Hx as (Hx & _). apply M in Hx. lia.
    - intros i. rewrite in_app_iff. cbn [In]. rewrite M1, M. split.
      + intros [((Hi & Si) & F)|[<-|[]]].
        * split; [lia|]. intros j Hj. destruct (Z.eq_dec j r) as [->|]; auto. apply Si. lia.
        * split; [lia|]. intros j Hj. lia.
      + intros (Hi & Si). destruct (Z.eq_dec i r) as [->|]; auto. left. split; [split; [lia|]; intros j Hj; apply Si; lia|]. apply Si. lia.
  Qed.
  Lemma holds_range s l r : holds s (l, r) -> 0 <= l <= r /\ r <= n.
  Proof. intros (E1 & E2 & Hl & Hr & _). cbn in *. lia. Qed.
  Lemma front_ok s l r : holds s (l, r) -> l < r -> exists f t, sw_dq s = f :: t /\ l <= f < r /\ (forall j, l <= j < f -> C j f = true) /\ (forall j, f < j < r -> C f j = false).
  Proof.
    intros (E1 & E2 & Hl & Hr & So & M) Lt. cbn [fst snd] in *. rewrite E1, E2 in *. assert (Il : In (r - 1) (sw_dq s)) by (apply M; split; [lia|]; intros j Hj; lia).
    destruct (sw_dq s) as [|f t] eqn:E; [destruct Il|]. exists f, t. split; auto. pose proof (proj1 (M f) (or_introl eq_refl)) as (Hf & Sf). split; auto. split; auto.
    assert (Least : forall i, In i (f :: t) -> f <= i). { intros i [<-|Hi]; [lia|]. inversion_clear So. rewrite Forall_forall in H0. specialize (H0 i Hi). lia. }
    intros j Hj.
    (* the last element that passes j *)
    assert (G : forall d, 0 <= d -> d < r - j -> (exists k, j < k <= j + d /\ C j k = true) -> exists k, j < k <= j + d /\ C j k = true /\ forall x, k < x <= j + d -> C j x = false).
    { intros d Hd. pattern d. apply natlike_ind; auto; clear d Hd; [intros _ (k & Hk & _); lia|]. intros d Hd IH Ld (k & Hk & Ek). destruct (C j (j + Z.succ d)) eqn:F.
      - exists (j + Z.succ d). split; [lia|]. split; auto. intros x Hx. lia.
      - destruct IH as (k' & Hk' & Ek' & Lk'); [lia|exists k; split; auto; destruct (Z.eq_dec k (j + Z.succ d)) as [->|]; [congruence|lia]|]. exists k'. split; [lia|]. split; auto. intros x Hx. destruct (Z.eq_dec x (j + Z.succ d)) as [->|]; auto. apply Lk'. lia. }
    assert (Ex : exists k, j < k <= j + (r - 1 - j) /\ C j k = true).
    { (* otherwise j would stay *)
      assert (Dec : forall d, 0 <= d -> (exists k, j < k <= j + d /\ C j k = true) \/ (forall k, j < k <= j + d -> C j k = false)).
      { intros d Hd. pattern d. apply natlike_ind; auto; clear d Hd; [right; intros k Hk; lia|]. intros d Hd [(k & Hk & Ek)|N]; [left; exists k; split; [lia|auto]|]. destruct (C j (j + Z.succ d)) eqn:F; [left; exists (j + Z.succ d); split; [lia|auto]|right; intros k Hk; destruct (Z.eq_dec k (j + Z.succ d)) as [->|]; auto; apply N; lia]. }
      destruct (Dec (r - 1 - j)) as [|N]; [lia|auto|]. exfalso. assert (Ij : In j (f :: t)) by (apply M; split; [lia|]; intros k Hk; apply N; lia). apply Least in Ij. lia. }
    destruct (G (r - 1 - j)) as (k & Hk & Ek & Lk); [lia|lia|auto|].
    assert (Sk : stays r k). { intros x Hx. destruct (C k x) eqn:F; auto. pose proof (Ct _ _ _ Ek F) as Q. rewrite Lk in Q by lia. discriminate. }
    assert (Ik : In k (f :: t)) by (apply M; split; [lia|auto]). apply Least in Ik. destruct (C j f) eqn:F; auto. exfalso. destruct (Z.eq_dec k f) as [->|]; [congruence|]. pose proof (Sf k ltac:(lia)) as Q. pose proof (Cn _ _ _ F Q). congruence.
  Qed.
  Lemma left_ok s l r : holds s (l, r) -> if l <? r then exists s', sw_proc_left s = Ok s' /\ holds s' (l + 1, r) else sw_proc_left s = Abort.
  Proof.
    intros H. pose proof (holds_range s l r H) as Hl. pose proof (front_ok s l r H) as Fr. destruct H as (E1 & E2 & _ & Hr & So & M). cbn [fst snd] in *. unfold sw_proc_left. rewrite E1, E2 in *. destruct (Z.ltb_spec l r) as [Lt|]; cbn [assert_ bind]; auto.
    destruct (Fr Lt) as (f & t & Eq & Hf & _ & _). rewrite Eq in *. change (vget (f :: t) 0) with (Ok f). cbn [bind]. eexists. split; [reflexivity|]. unfold holds. cbn [sw_l sw_r sw_dq fst snd tl]. split; auto. split; auto. split; [lia|]. split; [lia|].
    inversion So as [|x y St Sl]; subst x y. rewrite Forall_forall in Sl. destruct (Z.eqb_spec f l) as [->|Nf].
    - split; auto. intros i. split.
      + intros Hi. pose proof (proj1 (M i) (or_intror Hi)) as (Ri & Si). specialize (Sl i Hi). split; [lia|auto].
      + intros (Ri & Si). assert (Ii : In i (l :: t)) by (apply M; split; [lia|auto]). destruct Ii as [<-|Ii]; [lia|auto].
    - split; auto. intros i. rewrite M. split; [intros (Ri & Si)|intros (Ri & Si)]; (split; [|auto]); [|lia]. assert (Ii : In i (f :: t)) by (apply M; auto). destruct Ii as [<-|Ii]; [lia|]. specialize (Sl i Ii). lia.
  Qed.
  (* a loop that either finishes or aborts *)
  Lemma loop_outcome {S R} (P : S -> Prop) (m : S -> nat) (Q : R -> Prop) (Ab : Prop) body fuel s :
    P s -> (m s < fuel)%nat ->
    (forall s, P s -> (body s = Abort /\ Ab) \/ exists x, body s = Ok x /\ match x with inl s' => P s' /\ (m s' < m s)%nat | inr r => Q r end) ->
    (loop fuel body s = Abort /\ Ab) \/ exists r, loop fuel body s = Ok r /\ Q r.
  Proof.
    revert s; induction fuel as [|k IH]; intros s H0 M H; [lia|]. cbn [loop]. destruct (H s H0) as [(E & A)|(x & E & X)]; rewrite E; cbn [bind]; [now left|].
    destruct x as [s'|r]; [destruct X as (P' & L); apply IH; auto; lia|]. right. eauto.
  Qed.
  Lemma right_to_ok to s l r : holds s (l, r) -> (sw_right_to cmp a to s = Abort /\ n < to) \/ exists s', sw_right_to cmp a to s = Ok s' /\ to <= n /\ holds s' (l, Z.max r to).
  Proof.
    intros H. unfold sw_right_to. pose proof H as (E1 & E2 & _). cbn [fst snd] in *.
    apply (loop_outcome (fun s' => exists r', holds s' (l, r') /\ r <= r' /\ (r' <= to \/ r' = r)) (fun s' => Z.to_nat (to - sw_r s')) (fun s' => to <= n /\ holds s' (l, Z.max r to)) (n < to)).
    - exists r. split; auto. split; [lia|auto].
    - lia.
    - intros s' (r' & H' & Lr & Hr). pose proof (right_ok s' l r' H') as St. pose proof H' as (_ & Er & _). cbn [snd] in Er. rewrite Er. pose proof (holds_range s' l r' H') as Rg. destruct (Z.ltb_spec r' to) as [Lt|Ge].
      + destruct (Z.ltb_spec r' n) as [Ln|Gn].
        * destruct St as (s2 & E & H2). right. rewrite E. cbn [bind]. eexists. split; [reflexivity|]. cbv beta iota. pose proof H2 as (_ & Er2 & _). cbn [snd] in Er2. split; [exists (r' + 1); split; auto; lia|]. rewrite Er2. lia.
        * left. rewrite St. split; [reflexivity|lia].
      + right. eexists. split; [reflexivity|]. cbv beta iota. split; [lia|]. replace (Z.max r to) with r' by lia. auto.
  Qed.
  Lemma left_to_ok to s l r : holds s (l, r) -> (sw_left_to to s = Abort /\ r < to) \/ exists s', sw_left_to to s = Ok s' /\ to <= r /\ holds s' (Z.max l to, r).
  Proof.
    intros H. unfold sw_left_to. pose proof H as (E1 & E2 & _). cbn [fst snd] in *.
    apply (loop_outcome (fun s' => exists l', holds s' (l', r) /\ l <= l' /\ (l' <= to \/ l' = l)) (fun s' => Z.to_nat (to - sw_l s')) (fun s' => to <= r /\ holds s' (Z.max l to, r)) (r < to)).
    - exists l. split; auto. split; [lia|auto].
    - lia.
    - intros s' (l' & H' & Ll & Hl). pose proof (left_ok s' l' r H') as St. pose proof H' as (El & _). cbn [fst] in El. rewrite El. pose proof (holds_range s' l' r H') as Rg. destruct (Z.ltb_spec l' to) as [Lt|Ge].
      + destruct (Z.ltb_spec l' r) as [Ln|Gn].
        * destruct St as (s2 & E & H2). right. rewrite E. cbn [bind]. eexists. split; [reflexivity|]. cbv beta iota. pose proof H2 as (El2 & _). cbn [fst] in El2. split; [exists (l' + 1); split; auto; lia|]. rewrite El2. lia.
        * left. rewrite St. split; [reflexivity|lia].
      + right. eexists. split; [reflexivity|]. cbv beta iota. split; [lia|]. replace (Z.max l to) with l' by lia. auto.
  Qed.
  Variable best : Z -> Z -> Z -> Prop.
  Hypothesis Best : forall l r f, 0 <= l <= f -> f < r <= n -> (forall j, l <= j < f -> C j f = true) -> (forall j, f < j < r -> C f j = false) -> best l r f.
  Lemma sw_sim s w o : holds s w ->
    match sw_step cmp a s o with
    | Ok (x, s') => exists w', sw_spec a best w o (Ok (x, w')) /\ holds s' w'
    | Abort => sw_spec a best w o Abort
    | UB => sw_spec a best w o UB
    | OutOfFuel => False
    end.
  Proof.
    destruct w as [l r]. intros H. pose proof (holds_range s l r H) as Rg. pose proof H as (E1 & E2 & _). cbn [fst snd] in E1, E2.
    destruct o; cbn [sw_step sw_spec].
    - pose proof (right_ok s l r H) as St. destruct (Z.ltb_spec r n).
      + destruct St as (s' & E & H'). rewrite E. cbn [bind]. exists (l, r + 1). auto.
      + rewrite St. cbn [bind]. lia.
    - destruct (right_to_ok to s l r H) as [(E & L)|(s' & E & L & H')]; rewrite E; cbn [bind]; auto. eexists. split; [split; [auto|reflexivity]|auto].
    - pose proof (left_ok s l r H) as St. destruct (Z.ltb_spec l r).
      + destruct St as (s' & E & H'). rewrite E. cbn [bind]. exists (l + 1, r). auto.
      + rewrite St. cbn [bind]. lia.
    - destruct (left_to_ok to s l r H) as [(E & L)|(s' & E & L & H')]; rewrite E; cbn [bind]; auto. eexists. split; [split; [auto|reflexivity]|auto].
    - unfold sw_proc. destruct (right_to_ok r0 s l r H) as [(E & L)|(s' & E & L & H')]; rewrite E; cbn [bind]; auto.
      destruct (left_to_ok l0 s' l (Z.max r r0) H') as [(E' & L')|(s2 & E' & L' & H2)]; rewrite E'; cbn [bind]; auto. eexists. split; [split; [auto|split; [auto|reflexivity]]|auto].
    - unfold sw_arg_query. rewrite E1, E2. destruct (Z.ltb_spec l r) as [Lt|]; cbn [assert_ bind]; [|lia]. destruct (front_ok s l r H Lt) as (f & t & Eq & Hf & A & B). rewrite Eq. change (vget (f :: t) 0) with (Ok f). cbn [bind]. exists (l, r). split; [split; auto; apply Best; auto; lia|auto].
    - unfold sw_query, sw_arg_query. rewrite E1, E2. destruct (Z.ltb_spec l r) as [Lt|]; cbn [assert_ bind]; [|lia]. destruct (front_ok s l r H Lt) as (f & t & Eq & Hf & A & B). rewrite Eq. change (vget (f :: t) 0) with (Ok f). cbn [bind]. rewrite vget_av by lia. cbn [bind]. exists (l, r). split; [split; auto; exists f; split; [apply Best; auto; lia|apply vget_av; lia]|auto].
    - exists (l, r). auto.
    - exists (l, r). auto.
    - exists (l, r). split; auto. split; auto. lia.
  Qed.
  Lemma sw_run ops : answers (sw_spec a best) (0, 0) ops (run (sw_step cmp a) sw_init ops).
  Proof.
    eapply answers_run with (Inv := holds); [exact sw_sim|]. split; [reflexivity|]. split; [reflexivity|]. split; [cbn; lia|]. pose proof (zlen_nonneg a). split; [cbn; lia|]. split; [constructor|]. intros i. cbn. split; [intros []|lia].
  Qed.
End Slide.
Lemma slide_full a ops :
  answers (sw_spec a (left_min a)) (0, 0) ops (run (sw_step Z.gtb a) sw_init ops) /\
  answers (sw_spec a (right_min a)) (0, 0) ops (run (sw_step Z.geb a) sw_init ops) /\
  answers (sw_spec a (left_max a)) (0, 0) ops (run (sw_step Z.ltb a) sw_init ops) /\
  answers (sw_spec a (right_max a)) (0, 0) ops (run (sw_step Z.leb a) sw_init ops).
Proof.
  split; [|split; [|split]]; apply sw_run; intros *; rewrite ?Z.gtb_ltb, ?Z.geb_leb; try lia; intros Hl Hf A B;
  (split; [lia|]); exists (av a f); (split; [apply vget_av; lia|]); intros j y Hj Ey; rewrite vget_av in Ey by lia; injection Ey as <-;
  (destruct (Z.lt_total j f) as [L|[L|L]]; [specialize (A j ltac:(lia)); lia|subst j; lia|specialize (B j ltac:(lia)); lia]).
Qed.
