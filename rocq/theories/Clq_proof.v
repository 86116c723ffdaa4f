From Verif Require Import Base BaseLemmas Seq Kron_alg Clq_spec Clq_model.
(* ---- maximum_clique on complete graphs ---- *)
Definition complete (g : list (list Z)) : Prop := forall u, 0 <= u < zlen g -> exists l, vget g u = Ok l /\ forall v, In v l <-> 0 <= v < zlen g /\ v <> u.
Definition memb (l : list Z) (v : Z) : bool := existsb (Z.eqb v) l.
Lemma memb_iff l v : memb l v = true <-> In v l.
Proof. unfold memb. rewrite existsb_exists. split; [intros (x & H & e); apply Z.eqb_eq in e; now subst|]. intros H. exists v. split; [exact H|apply Z.eqb_refl]. Qed.
Lemma flags_ok n l f a : rep a n f -> (forall v, In v l -> 0 <= v < n) -> exists a', for_each l (fun j a => vset a j true) a = Ok a' /\ rep a' n (fun j => memb l j || f j).
Proof.
  revert f a. induction l as [|v l IH]; intros f a R H; cbn [for_each].
  - exists a. split; [reflexivity|]. eapply rep_ext; [exact R|]. reflexivity.
  - rewrite (rep_set _ _ _ _ _ R) by (apply H; now left). cbn [bind].
    destruct (IH (fupd f v true) (zupd a v true)) as (a' & E & R'); [apply rep_upd; [exact R|apply H; now left]|intros; apply H; now right|].
    exists a'. split; [exact E|]. eapply rep_ext; [exact R'|]. intros j Hj. unfold fupd, memb. cbn. destruct (j =? v); cbn; [apply orb_true_r|reflexivity].
Qed.
Lemma select_ok n a f : rep a n f -> 0 <= n ->
  for_ 0 n (fun j l => let* b := vget a j in Ok (if b : bool then l else l ++ [j])) [] = Ok (filter (fun j => negb (f j)) (zrange n)).
Proof.
  intros R Hn. match goal with |- for_ 0 n ?b ?s0 = _ => destruct (for_inv (fun i l => l = filter (fun j => negb (f j)) (zrange i)) 0 n b s0) as (l & E & H) end; [lia|reflexivity| |now rewrite E, H].
  intros i l Hi ->. rewrite (rep_get _ _ _ _ R) by lia. cbn [bind]. eexists; split; [reflexivity|]. rewrite zrange_S, filter_app by lia. cbn. destruct (f i); cbn; [now rewrite app_nil_r|reflexivity].
Qed.
Lemma zr_in n v : In v (zrange n) <-> 0 <= v < n.
Proof. unfold zrange. rewrite in_map_iff. split; [intros (k & <- & H); apply in_seq in H; lia|]. intros H. exists (Z.to_nat v). split; [lia|]. apply in_seq. lia. Qed.
Lemma zr_nodup n : NoDup (zrange n).
Proof. unfold zrange. apply FinFun.Injective_map_NoDup; [intros a b; apply Nat2Z.inj|apply seq_NoDup]. Qed.
Lemma filter_single n i : 0 <= i < n -> filter (fun j => j =? i) (zrange n) = [i].
Proof.
  intros H. assert (N : NoDup (filter (fun j => j =? i) (zrange n))) by apply NoDup_filter, zr_nodup.
  assert (A : forall x, In x (filter (fun j => j =? i) (zrange n)) <-> x = i) by (intros x; rewrite filter_In, zr_in, Z.eqb_eq; lia).
  destruct (filter _ _) as [|x t]; [exfalso; now apply (proj2 (A i) eq_refl)|]. assert (x = i) by (apply A; now left). subst x. f_equal. destruct t as [|y t]; [reflexivity|].
  assert (y = i) by (apply A; right; now left). subst y. inversion N as [|? ? K _]. exfalso. apply K. now left.
Qed.
Lemma complement_complete g : complete g -> complement g = Ok (map (fun i => [i]) (zrange (zlen g))).
Proof.
  intros C. unfold complement. cbv zeta. assert (Hn : 0 <= zlen g) by (unfold zlen; lia). set (n := zlen g) in *.
  match goal with |- for_ 0 n ?b ?s0 = _ => destruct (for_inv (fun i h => h = map (fun i => [i]) (zrange i)) 0 n b s0) as (l & E & H) end; [lia|reflexivity| |now rewrite E, H].
  intros i h Hi ->. destruct (C i Hi) as (l & El & Hl). rewrite El. cbn [bind].
  destruct (flags_ok n l _ _ (rep_vrep n false Hn)) as (a & Ea & Ra); [intros v Hv; now apply Hl in Hv|]. rewrite Ea. cbn [bind].
  rewrite (select_ok n a _ Ra Hn). cbn [bind]. eexists; split; [reflexivity|]. rewrite zrange_S, map_app by lia. cbn. f_equal. f_equal.
  rewrite <- (filter_single n i Hi). apply filter_ext_in. intros j Hj. apply zr_in in Hj. rewrite orb_false_r.
  destruct (memb l j) eqn:M; destruct (Z.eqb_spec j i); cbn; auto. - apply memb_iff, Hl in M. tauto. - exfalso. assert (memb l j = true) by (apply memb_iff, Hl; split; auto). congruence.
Qed.
Lemma argmax_range g : 0 < zlen g -> exists k, argmax g = Ok k /\ 0 <= k < zlen g.
Proof.
  intros Hn. unfold argmax. pose proof (rep_nth g []) as R.
  match goal with |- context [for_ 1 ?n ?b ?s0] => destruct (for_inv (fun i k => 0 <= k < i) 1 n b s0) as (k & E & H) end; [lia|lia| |exists k; split; [exact E|lia]].
  intros i k Hi Hk. rewrite !(rep_get _ _ _ _ R) by lia. cbn [bind]. eexists; split; [reflexivity|]. destruct (_ <? _); lia.
Qed.
Lemma mis_loops n : 0 <= n -> mis_small (map (fun i => [i]) (zrange n)) = Ok [].
Proof.
  intros Hn. pose proof (map_rep (fun i => [i]) n Hn) as R. unfold mis_small. rewrite (proj1 R).
  match goal with |- context [for_ 0 n ?b ?s0] => destruct (for_inv (fun i (s : list Z * list Z) => fst s = [] /\ rep (snd s) n (fun j => if j <? i then 0 else -1)) 0 n b s0) as (s & E & H & _) end.
  - lia.
  - split; [reflexivity|]. eapply rep_ext; [apply rep_vrep; lia|]. intros j Hj. cbn beta. now rewrite (proj2 (Z.ltb_ge j 0)) by lia.
  - intros i [m color] Hi [Hm Rc]. cbn [fst snd] in *. subst m. rewrite (rep_get _ _ _ _ Rc) by lia. cbn [bind]. rewrite Z.ltb_irrefl. cbn.
    rewrite (rep_set _ _ _ _ _ Rc) by lia. cbn [bind]. pose proof (rep_upd _ _ _ i 0 Rc ltac:(lia)) as Rc'.
    replace (Z.to_nat n + 2)%nat with (S (S (Z.to_nat n))) by lia. cbn [loop mis_bfs]. rewrite (rep_get _ _ _ _ Rc') by lia. rewrite fupd_same. cbn [bind].
    rewrite (rep_get _ _ _ _ R) by lia. cbn [bind for_each]. rewrite (rep_get _ _ _ _ Rc') by lia. rewrite fupd_same. cbn [bind].
    change (0 <? 0) with false. change (0 =? 0) with true. cbn [bind app mis_bfs]. change (0 + 1 <=? 0) with false. cbn [for_each bind].
    rewrite (rep_get _ _ _ _ Rc') by lia. rewrite fupd_same. cbn [bind]. eexists; split; [reflexivity|]. rewrite !Z.eqb_refl. split; [reflexivity|]. cbn.
    eapply rep_ext; [exact Rc'|]. intros j Hj. unfold fupd. destruct (Z.eqb_spec j i) as [Ej|Nj]; destruct (Z.ltb_spec j i), (Z.ltb_spec j (i + 1)); try lia; reflexivity.
  - rewrite E. cbn. now rewrite H.
Qed.
Lemma clique_complete g : complete g -> maximum_clique g = Ok [].
Proof.
  intros C. unfold maximum_clique. rewrite complement_complete by exact C. cbn [bind]. unfold maximum_independent_set.
  assert (Hn : 0 <= zlen g) by (unfold zlen; lia). pose proof (map_rep (fun i => [i]) (zlen g) Hn) as R.
  replace (length (map (fun i => [i]) (zrange (zlen g))) + 1)%nat with (S (length g)) by (rewrite map_length; unfold zrange; rewrite map_length, seq_length; unfold zlen; lia).
  cbn [mis_rec]. rewrite (proj1 R). destruct (Z.eqb_spec (zlen g) 0); [reflexivity|].
  destruct (argmax_range (map (fun i => [i]) (zrange (zlen g)))) as (k & E & Hk); [rewrite (proj1 R); lia|]. rewrite E. cbn [bind]. rewrite (proj1 R) in Hk.
  rewrite (rep_get _ _ _ _ R) by lia. cbn [bind]. cbn. now apply mis_loops.
Qed.
(* ---- minimum_vertex_cover from a largest independent set ---- *)
Lemma mvc_ok g m : vertices g m -> maximum_independent_set g = Ok m -> minimum_vertex_cover g = Ok (filter (fun v => negb (memb m v)) (zrange (zlen g))).
Proof.
  intros [N V] E. unfold minimum_vertex_cover. rewrite E. cbn [bind]. cbv zeta. assert (Hn : 0 <= zlen g) by (unfold zlen; lia).
  destruct (flags_ok _ m _ _ (rep_vrep (zlen g) false Hn) V) as (a & Ea & Ra). rewrite Ea. cbn [bind]. rewrite (select_ok _ a _ Ra Hn). f_equal. apply filter_ext. intros v. now rewrite orb_false_r.
Qed.
Definition compl (g : list (list Z)) (s : list Z) : list Z := filter (fun v => negb (memb s v)) (zrange (zlen g)).
Lemma compl_in g s v : In v (compl g s) <-> 0 <= v < zlen g /\ ~ In v s.
Proof. unfold compl. rewrite filter_In, zr_in, negb_true_iff. split; intros [H K]; split; auto. - intros I. apply memb_iff in I. congruence. - destruct (memb s v) eqn:M; auto. apply memb_iff in M. easy. Qed.
Lemma compl_vert g s : vertices g (compl g s).
Proof. split; [apply NoDup_filter, zr_nodup|]. intros v H. now apply compl_in in H. Qed.
Lemma compl_len g s : vertices g s -> zlen (compl g s) = zlen g - zlen s.
Proof.
  intros [N V]. assert (P : Permutation.Permutation (compl g s ++ s) (zrange (zlen g))).
  { apply Permutation.NoDup_Permutation; [|apply zr_nodup|].
    - clear V. assert (D : forall v, In v (compl g s) -> ~ In v s) by (intros v H; now apply compl_in in H). pose proof (proj1 (compl_vert g s)) as Nc. revert Nc D. generalize (compl g s). intros c. induction c as [|x c IH]; intros Nc D; [exact N|].
      inversion Nc as [|? ? K Nc']; subst. cbn. constructor; [|apply IH; [exact Nc'|intros v H; apply D; now right]]. rewrite in_app_iff. intros [H|H]; [easy|]. apply (D x); [now left|exact H].
    - intros v. rewrite in_app_iff, compl_in, zr_in. split; [intros [[H _]|H]; [exact H|now apply V]|]. intros H. destruct (in_dec Z.eq_dec v s); auto. }
  apply Permutation.Permutation_length in P. rewrite app_length in P. unfold zrange in P. rewrite map_length, seq_length in P. unfold zlen in *. lia.
Qed.
Lemma adj_left g u v : adj g u v -> 0 <= u < zlen g.
Proof. intros (l & E & _). unfold vget in E. destruct (Z.ltb_spec u 0); [discriminate|]. destruct (nth_error g (Z.to_nat u)) eqn:K; [|discriminate]. assert (nth_error g (Z.to_nat u) <> None) by congruence. apply nth_error_Some in H0. unfold zlen. lia. Qed.
Lemma indep_cover g s : simple g -> vertices g s -> independent g s -> cover g (compl g s).
Proof.
  intros S V [_ I]. split; [apply compl_vert|]. intros u v A. pose proof (adj_left _ _ _ A). pose proof (adj_left _ _ _ (proj2 (S _ _ A))).
  destruct (in_dec Z.eq_dec u s) as [U|U]; [|left; apply compl_in; auto]. destruct (in_dec Z.eq_dec v s) as [W|W]; [exfalso; now apply (I u v)|right; apply compl_in; auto].
Qed.
Lemma cover_indep g s : cover g s -> independent g (compl g s).
Proof. intros [_ C]. split; [apply compl_vert|]. intros u v U V A. apply compl_in in U, V. destruct (C u v A); tauto. Qed.
Lemma mvc_smallest g m : simple g -> maximum_independent_set g = Ok m -> largest (independent g) m -> exists c, minimum_vertex_cover g = Ok c /\ smallest (cover g) c.
Proof.
  intros S E [I L]. pose proof (proj1 I) as V. exists (compl g m). split; [now apply mvc_ok|]. split; [now apply indep_cover|].
  intros t T. pose proof (L _ (cover_indep g t T)) as K. rewrite compl_len in K by apply T. rewrite compl_len by exact V. lia.
Qed.
