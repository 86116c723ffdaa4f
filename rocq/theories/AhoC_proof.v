(* Proofs about AhoC_model: strings, suffixes, and the states of the automaton as sets of strings. *)
From Verif Require Import Base BaseLemmas ListZ Seq ListMore AhoC_spec.

Lemma suffix_refl t : suffix t t.
Proof. exists []. reflexivity. Qed.
Lemma suffix_nil t : suffix [] t.
Proof. exists t. rewrite app_nil_r. reflexivity. Qed.
Lemma suffix_trans a b c : suffix a b -> suffix b c -> suffix a c.
Proof. intros (q & ->) (q' & ->). exists (q' ++ q). rewrite app_assoc. reflexivity. Qed.
Lemma suffix_len a b : suffix a b -> zlen a <= zlen b.
Proof. intros (q & ->). rewrite zlen_app. pose proof (zlen_nonneg q). lia. Qed.
Lemma suffix_cons p x t : suffix p (x :: t) <-> p = x :: t \/ suffix p t.
Proof.
  split.
  - intros ([|y q] & H); cbn in H; [left; auto|right]. injection H as -> ->. exists q. reflexivity.
  - intros [->|(q & ->)]; [apply suffix_refl|exists (x :: q); reflexivity].
Qed.
Lemma suffix_snoc s t c : suffix (s ++ [c]) (t ++ [c]) <-> suffix s t.
Proof.
  split; intros (q & H); exists q.
  - rewrite app_assoc in H. apply app_inj_tail in H. apply H.
  - rewrite H, app_assoc. reflexivity.
Qed.
Lemma suffix_last s t c : suffix s (t ++ [c]) -> s = [] \/ exists s', s = s' ++ [c] /\ suffix s' t.
Proof.
  intros H. destruct s as [|x s] using rev_ind; [left; auto|right]. clear IHs. destruct H as (q & H). rewrite app_assoc in H. apply app_inj_tail in H. destruct H as (-> & ->). exists s. split; [auto|exists q; auto].
Qed.
(* suffixes of the same string are comparable *)
Lemma suffix_total a b t : suffix a t -> suffix b t -> zlen a <= zlen b -> suffix a b.
Proof.
  intros (q & ->) (q' & H) L. revert q' H. induction q as [|x q IH]; intros q' H.
  - cbn in H. subst a. rewrite zlen_app in L. destruct q' as [|y q']; [apply suffix_refl|]. rewrite zlen_cons in L. pose proof (zlen_nonneg q'). lia.
  - destruct q' as [|y q']; [cbn in H; subst b; exists (x :: q); reflexivity|]. cbn in H. injection H as -> H. apply (IH q' H).
Qed.
Lemma suffix_same a b t : suffix a t -> suffix b t -> zlen a = zlen b -> a = b.
Proof.
  intros A B L. destruct (suffix_total a b t A B ltac:(lia)) as (q & ->). rewrite zlen_app in L. destruct q as [|x q]; [reflexivity|]. rewrite zlen_cons in L. pose proof (zlen_nonneg q). lia.
Qed.
Lemma suffix_tl p t : suffix p t -> zlen p < zlen t -> suffix p (tl t).
Proof. destruct t as [|x t]; intros H L; [pose proof (zlen_nonneg p); change (zlen (@nil Z)) with 0 in L; lia|]. apply suffix_cons in H. destruct H as [->|H]; [lia|auto]. Qed.
Lemma tl_suffix t : suffix (tl t) t.
Proof. destruct t as [|x t]; [apply suffix_nil|exists [x]; reflexivity]. Qed.
Lemma tl_snoc (t : list Z) c : t <> [] -> tl (t ++ [c]) = tl t ++ [c].
Proof. destruct t; [congruence|reflexivity]. Qed.
Lemma zlen_tl (t : list Z) : t <> [] -> zlen (tl t) = zlen t - 1.
Proof. destruct t as [|x t]; [congruence|]. intros _. rewrite zlen_cons. cbn [tl]. lia. Qed.
Fixpoint ends (p t : list Z) : bool :=
  if list_eq_dec Z.eq_dec p t then true else match t with [] => false | _ :: t => ends p t end.
Lemma ends_iff p t : ends p t = true <-> suffix p t.
Proof.
  induction t as [|x t IH]; cbn [ends].
  - destruct (list_eq_dec Z.eq_dec p []) as [->|N]; [split; [intros _; apply suffix_nil|auto]|]. split; [discriminate|]. intros (q & H). symmetry in H. apply app_eq_nil in H. tauto.
  - rewrite suffix_cons. destruct (list_eq_dec Z.eq_dec p (x :: t)) as [->|N]; [tauto|]. rewrite IH. tauto.
Qed.
Definition nm (ps : list (list Z)) (t : list Z) : Z := zlen (filter (fun p => ends p t) ps).
Definition own (ps : list (list Z)) (t : list Z) : Z := zlen (filter (fun p => if list_eq_dec Z.eq_dec p t then true else false) ps).
Lemma matches_nm ps t : matches ps t (nm ps t).
Proof.
  exists (filter (fun i => match vget ps i with Ok p => ends p t | _ => false end) (zrange (zlen ps))). split; [apply NoDup_filter, NoDup_zrange|]. split.
  - intro i. rewrite filter_In, In_zrange. split; intros (H & X); (split; [auto|]).
    + destruct (vget ps i) as [p| | |]; try discriminate. exists p. split; [auto|apply ends_iff; auto].
    + destruct X as (p & -> & X). apply ends_iff; auto.
  - unfold nm. induction ps as [|p ps IH] using rev_ind; [reflexivity|]. rewrite zlen_app. change (zlen [p]) with 1. rewrite zrange_S by apply zlen_nonneg. rewrite !filter_app, !zlen_app. f_equal.
    + rewrite <- IH. f_equal. apply filter_ext_in. intros i Hi. apply In_zrange in Hi. rewrite vget_app1 by lia. reflexivity.
    + cbn [filter]. rewrite vget_app2 by lia. rewrite Z.sub_diag. change (vget [p] 0) with (Ok p). destruct (ends p t); reflexivity.
Qed.
Lemma nm_split ps t u : (forall p, In p ps -> suffix p u -> p <> t) -> (forall p, In p ps -> (suffix p t <-> p = t \/ suffix p u)) -> nm ps t = own ps t + nm ps u.
Proof.
  unfold nm, own. induction ps as [|p ps IH]; intros H1 H2; [reflexivity|]. cbn [filter]. specialize (IH ltac:(intros q I; apply H1; right; auto) ltac:(intros q I; apply H2; right; auto)).
  specialize (H1 p (or_introl eq_refl)). specialize (H2 p (or_introl eq_refl)). rewrite <- !ends_iff in H2. rewrite <- ends_iff in H1. destruct (list_eq_dec Z.eq_dec p t) as [Q|Q].
  - destruct (ends p t); [|exfalso; assert (false = true) by tauto; discriminate]. cbv iota. destruct (ends p u); [exfalso; apply H1; auto|]. rewrite !zlen_cons. lia.
  - destruct (ends p t), (ends p u); rewrite ?zlen_cons; try lia; exfalso; assert (false = true) by tauto; discriminate.
Qed.

(* the nodes 0..n-1 of a trie and their strings *)
Record tri (n : Z) (sig : Z -> list Z) : Prop := {
  t_n : 0 < n; t_0 : sig 0 = [];
  t_inj : forall v w, 0 <= v < n -> 0 <= w < n -> sig v = sig w -> v = w;
  t_up : forall w, 0 < w < n -> exists v c, 0 <= v < w /\ sig w = sig v ++ [c] }.
Section S.
  Variable n : Z. Variable sig : Z -> list Z.
  Hypothesis T : tri n sig.
  Notation vx v := (0 <= v < n).
  Notation dep v := (zlen (sig v)).
  Lemma dep_le w : vx w -> dep w <= w.
  Proof.
    assert (K : forall k w, vx w -> w <= Z.of_nat k -> dep w <= w); [|intro Hw; apply (K (Z.to_nat w)); lia].
    induction k as [|k IH]; intros u Hu Lu.
    - replace u with 0 by lia. rewrite (t_0 _ _ T). change (zlen (@nil Z)) with 0. lia.
    - destruct (Z.eq_dec u 0) as [->|N]; [rewrite (t_0 _ _ T); change (zlen (@nil Z)) with 0; lia|]. destruct (t_up _ _ T u ltac:(lia)) as (v & c & Hv & ->). rewrite zlen_app. change (zlen [c]) with 1. specialize (IH v ltac:(lia) ltac:(lia)). lia.
  Qed.
  Lemma sig_nil v : vx v -> sig v = [] -> v = 0.
  Proof. intros Hv H. apply (t_inj _ _ T); auto; [pose proof (t_n _ _ T); lia|]. rewrite H, (t_0 _ _ T). reflexivity. Qed.
  Lemma node_prefix w s c : vx w -> sig w = s ++ [c] -> exists v, vx v /\ v < w /\ sig v = s.
  Proof.
    intros Hw H. assert (w <> 0) by (intros ->; rewrite (t_0 _ _ T) in H; destruct s; discriminate). destruct (t_up _ _ T w ltac:(lia)) as (v & d & Hv & E). rewrite H in E. apply app_inj_tail in E. destruct E as (-> & _). exists v. split; [lia|split; [lia|auto]].
  Qed.
  (* v is the node of the longest suffix of t that is in the trie *)
  Definition st (t : list Z) (v : Z) : Prop := vx v /\ suffix (sig v) t /\ forall w, vx w -> suffix (sig w) t -> dep w <= dep v.
  Lemma st_unique t v v' : st t v -> st t v' -> v = v'.
  Proof. intros (V & S & M) (V' & S' & M'). apply (t_inj _ _ T); auto. apply (suffix_same _ _ t); auto. specialize (M v' V' S'). specialize (M' v V S). lia. Qed.
  Lemma st_nil : st [] 0.
  Proof. split; [pose proof (t_n _ _ T); lia|]. rewrite (t_0 _ _ T). split; [apply suffix_nil|]. intros w Hw H. apply suffix_len in H. auto. Qed.
  Lemma st_self v : vx v -> st (sig v) v.
  Proof. intro V. split; [auto|]. split; [apply suffix_refl|]. intros w _. apply suffix_len. Qed.
  (* reading a character: x runs down the suffixes of t in the trie *)
  Definition upto (t : list Z) (c x : Z) : Prop := vx x /\ suffix (sig x) t /\ forall y w, vx y -> vx w -> suffix (sig y) t -> dep x < dep y -> sig w <> sig y ++ [c].
  Lemma upto_start t c x : st t x -> upto t c x.
  Proof. intros (V & S & M). split; [auto|]. split; [auto|]. intros y w Hy _ H L. specialize (M y Hy H). lia. Qed.
  Lemma upto_found t c x w : upto t c x -> vx w -> sig w = sig x ++ [c] -> st (t ++ [c]) w.
  Proof.
    intros (V & S & M) Vw E. split; [auto|]. rewrite E. split; [apply suffix_snoc; auto|]. intros u Hu Su. pose proof (zlen_nonneg (sig x)). apply suffix_last in Su. destruct Su as [->|(s & Es & Ss)]; [rewrite zlen_app; change (zlen (@nil Z)) with 0; change (zlen [c]) with 1; lia|].
    destruct (node_prefix u s c Hu Es) as (y & Vy & _ & Ey). subst s. destruct (Z.lt_ge_cases (dep x) (dep y)) as [L|L]; [exfalso; apply (M y u); auto|]. rewrite Es, !zlen_app. lia.
  Qed.
  Lemma upto_root t c : upto t c 0 -> (forall w, vx w -> sig w <> sig 0 ++ [c]) -> st (t ++ [c]) 0.
  Proof.
    intros (V & S & M) N. split; [auto|]. rewrite (t_0 _ _ T) in *. split; [apply suffix_nil|]. intros u Hu Su. apply suffix_last in Su. destruct Su as [->|(s & Es & Ss)]; [lia|]. exfalso.
    destruct (node_prefix u s c Hu Es) as (y & Vy & _ & Ey). subst s. destruct (Z.lt_ge_cases 0 (dep y)) as [L|L]; [apply (M y u); auto|]. apply (N u Hu). rewrite Es. f_equal. destruct (sig y) as [|z l]; [reflexivity|]. rewrite zlen_cons in L. pose proof (zlen_nonneg l). lia.
  Qed.
  Lemma upto_next t c x f : upto t c x -> x <> 0 -> (forall w, vx w -> sig w <> sig x ++ [c]) -> st (tl (sig x)) f -> upto t c f /\ dep f < dep x.
  Proof.
    intros (V & S & M) X N (Vf & Sf & Mf). assert (NE : sig x <> []) by (intro Q; apply X, sig_nil; auto). pose proof (suffix_len _ _ Sf) as L. rewrite zlen_tl in L by auto.
    split; [|lia]. split; [auto|]. split; [apply (suffix_trans _ (tl (sig x))); [auto|apply (suffix_trans _ (sig x)); [apply tl_suffix|auto]]|].
    intros y w Vy Vw Sy Ly. destruct (Z.lt_trichotomy (dep y) (dep x)) as [Q|[Q|Q]].
    - pose proof (suffix_total (sig y) (sig x) t Sy S ltac:(lia)) as Sx. specialize (Mf y Vy (suffix_tl _ _ Sx Q)). lia.
    - rewrite (suffix_same (sig y) (sig x) t); auto.
    - apply M; auto.
  Qed.
  (* patterns that end at a node *)
  Lemma nm_state ps t v : (forall p, In p ps -> exists y, vx y /\ sig y = p) -> st t v -> nm ps t = nm ps (sig v).
  Proof.
    intros HP (V & S & M). unfold nm. f_equal. apply filter_ext_in. intros p I. destruct (HP p I) as (y & Vy & <-). destruct (ends (sig y) t) eqn:Q; symmetry.
    - apply ends_iff in Q. apply ends_iff. apply (suffix_total _ _ t); auto.
    - apply Bool.not_true_iff_false. intro X. apply ends_iff in X. assert (ends (sig y) t = true) by (apply ends_iff, (suffix_trans _ (sig v)); auto). congruence.
  Qed.
  Lemma nm_fail ps v f : (forall p, In p ps -> exists y, vx y /\ sig y = p) -> vx v -> v <> 0 -> st (tl (sig v)) f -> nm ps (sig v) = own ps (sig v) + nm ps (sig f).
  Proof.
    intros HP V N F. rewrite <- (nm_state ps _ f HP F). assert (NE : sig v <> []) by (intro Q; apply N, sig_nil; auto). apply nm_split.
    - intros p _ S ->. apply suffix_len in S. rewrite zlen_tl in S by auto. lia.
    - intros p _. destruct (sig v) as [|x s]; [congruence|]. cbn [tl]. apply suffix_cons.
  Qed.

  (* breadth-first order: D done, dq the queue *)
  Definition parent_in (D : list Z) (w : Z) : Prop := exists v c, In v D /\ sig w = sig v ++ [c].
  Record bfs (D dq : list Z) : Prop := {
    b_nd : NoDup (D ++ dq); b_vx : forall v, In v (D ++ dq) -> vx v; b_root : In 0 (D ++ dq);
    b_cl : forall w, vx w -> w <> 0 -> (In w (D ++ dq) <-> parent_in D w);
    b_ord : forall a b l1 l2 l3, dq = l1 ++ a :: l2 ++ b :: l3 -> dep a <= dep b <= dep a + 1 }.
  Lemma bfs_start : bfs [] [0].
  Proof.
    pose proof (t_n _ _ T). split; cbn [app].
    - repeat constructor. intros [].
    - intros v [<-|[]]. lia.
    - left. auto.
    - intros w Hw N. split; [intros [|[]]; congruence|]. intros (v & c & [] & _).
    - intros a b l1 l2 l3 E. destruct l1 as [|? [|]]; [|discriminate|discriminate]. injection E as _ E. destruct l2; discriminate.
  Qed.
  (* all nodes no deeper than the front of the queue have been seen *)
  Lemma level D cur dq w : bfs D (cur :: dq) -> vx w -> dep w <= dep cur -> In w (D ++ cur :: dq).
  Proof.
    intros B. assert (K : forall k w, vx w -> w <= Z.of_nat k -> dep w <= dep cur -> In w (D ++ cur :: dq)); [|intro Hw; apply (K (Z.to_nat w)); lia].
    clear w. induction k as [|k IH]; intros w Hw Lk L.
    - replace w with 0 by lia. apply B.
    - destruct (Z.eq_dec w 0) as [->|N]; [apply B|]. apply (b_cl _ _ B); auto. destruct (t_up _ _ T w ltac:(lia)) as (v & c & Hv & E). exists v, c. split; [|auto]. rewrite E, zlen_app in L. change (zlen [c]) with 1 in L.
      specialize (IH v ltac:(lia) ltac:(lia) ltac:(lia)). apply in_app_or in IH. destruct IH as [|[->|I]]; [auto|lia|]. exfalso. apply in_split in I. destruct I as (l2 & l3 & ->). pose proof (b_ord _ _ B cur v [] l2 l3 eq_refl). lia.
  Qed.
  Lemma level_done D cur dq w : bfs D (cur :: dq) -> vx w -> dep w < dep cur -> In w D.
  Proof.
    intros B Hw L. pose proof (level D cur dq w B Hw ltac:(lia)) as I. apply in_app_or in I. destruct I as [|[->|I]]; [auto|lia|]. exfalso. apply in_split in I. destruct I as (l2 & l3 & ->). pose proof (b_ord _ _ B cur w [] l2 l3 eq_refl). lia.
  Qed.
  Lemma child_new D cur dq w c : bfs D (cur :: dq) -> vx w -> sig w = sig cur ++ [c] -> ~ In w (D ++ cur :: dq) /\ w <> 0.
  Proof.
    intros B Hw E. assert (N : w <> 0) by (intros ->; rewrite (t_0 _ _ T) in E; destruct (sig cur); discriminate). split; [|auto]. intro I. apply (b_cl _ _ B) in I; auto. destruct I as (v & d & Iv & E'). rewrite E in E'. apply app_inj_tail in E'. destruct E' as (E' & _).
    assert (cur = v). { apply (t_inj _ _ T); auto; apply (b_vx _ _ B); apply in_or_app; [right; left; auto|left; auto]. } subst v. apply (NoDup_remove_2 _ _ _ (b_nd _ _ B)). apply in_or_app. auto.
  Qed.
  Lemma bfs_step D cur dq cs : bfs D (cur :: dq) -> NoDup cs -> (forall w, In w cs <-> vx w /\ exists c, sig w = sig cur ++ [c]) -> bfs (D ++ [cur]) (dq ++ cs).
  Proof.
    intros B ND CS. assert (EQ : (D ++ [cur]) ++ dq ++ cs = (D ++ cur :: dq) ++ cs) by (rewrite <- !app_assoc; reflexivity). pose proof (b_vx _ _ B cur ltac:(apply in_or_app; right; left; auto)) as VC. split; rewrite ?EQ.
    - apply NoDup_app; [apply B|auto|]. intros w I I'. apply CS in I'. destruct I' as (Hw & c & E). destruct (child_new D cur dq w c B Hw E) as (X & _). auto.
    - intros v I. apply in_app_or in I. destruct I as [I|I]; [apply (b_vx _ _ B); auto|apply CS in I; tauto].
    - apply in_or_app. left. apply B.
    - intros w Hw N. rewrite in_app_iff, (b_cl _ _ B w Hw N), CS. unfold parent_in. split.
      + intros [(v & c & I & E)|(_ & c & E)]; [exists v, c|exists cur, c]; (split; [apply in_or_app; cbn [In]; auto|auto]).
      + intros (v & c & I & E). apply in_app_or in I. destruct I as [I|[<-|[]]]; [left; exists v, c; auto|right; split; [auto|exists c; auto]].
    - assert (DC : forall w, In w cs -> dep w = dep cur + 1) by (intros w I; apply CS in I; destruct I as (_ & c & E); rewrite E, zlen_app; reflexivity).
      assert (DQ : forall w, In w dq -> dep cur <= dep w <= dep cur + 1) by (intros w I; apply in_split in I; destruct I as (l2 & l3 & ->); apply (b_ord _ _ B cur w [] l2 l3 eq_refl)).
      intros a b l1 l2 l3 E. assert (Ia : In a (dq ++ cs)) by (rewrite E; apply in_or_app; right; left; auto). assert (Ib : In b (dq ++ cs)) by (rewrite E; apply in_or_app; right; right; apply in_or_app; right; left; auto).
      apply in_app_or in Ia, Ib.
      assert (SP : (exists l3', dq = l1 ++ a :: l2 ++ b :: l3') \/ In b cs).
      { clear - E. revert l1 E. induction dq as [|x dq IH]; intros l1 E; [right; cbn in E; rewrite E; apply in_or_app; right; right; apply in_or_app; right; left; auto|].
        destruct l1 as [|y l1]; cbn in E; injection E as -> E; [|destruct (IH l1 E) as [(l3' & ->)|I]; [left; exists l3'; reflexivity|auto]].
        clear IH. revert l2 E. induction dq as [|x dq IH]; intros l2 E; [right; cbn in E; rewrite E; apply in_or_app; right; left; auto|].
        destruct l2 as [|y l2]; cbn in E; injection E as -> E; [left; exists dq; reflexivity|]. destruct (IH l2 E) as [(l3' & Q)|I]; [|auto]. left. exists l3'. cbn in Q. injection Q as ->. reflexivity. }
      destruct SP as [(l3' & ->)|I]; [apply (b_ord _ _ B a b (cur :: l1) l2 l3' eq_refl)|]. pose proof (DC b I). destruct Ia as [Ia|Ia]; [pose proof (DQ a Ia); lia|pose proof (DC a Ia); lia].
  Qed.
  Lemma bfs_all D : bfs D [] -> forall w, vx w -> In w D.
  Proof.
    intros B. assert (K : forall k w, vx w -> w <= Z.of_nat k -> In w D); [|intros w Hw; apply (K (Z.to_nat w)); lia].
    induction k as [|k IH]; intros w Hw Lk.
    - replace w with 0 by lia. pose proof (b_root _ _ B) as R. rewrite app_nil_r in R. auto.
    - destruct (Z.eq_dec w 0) as [->|N]; [apply IH; lia|]. destruct (t_up _ _ T w ltac:(lia)) as (v & c & Hv & E). pose proof (proj2 (b_cl _ _ B w Hw N)) as X. rewrite app_nil_r in X. apply X. exists v, c. split; [apply IH; lia|auto].
  Qed.
  Lemma bfs_len D dq : bfs D dq -> (length D + length dq <= Z.to_nat n)%nat.
  Proof.
    intro B. pose proof (NoDup_incl_length (b_nd _ _ B) (l' := zrange n)) as X. rewrite app_length in X. assert (L : length (zrange n) = Z.to_nat n). { pose proof (zlen_zrange n) as Y. unfold zlen in Y. pose proof (t_n _ _ T). lia. } rewrite L in X. apply X. intros v I. apply In_zrange, (b_vx _ _ B); auto.
  Qed.
End S.
