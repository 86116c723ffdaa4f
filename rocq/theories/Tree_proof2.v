(* Rooted forests: subtrees as rose trees *)
From Verif Require Import Base BaseLemmas ListZ ListMore Graph_spec Tree_spec BFS_proof Tree_proof.
From Coq Require Import Sorted Permutation.

Inductive rose : Type := Rose (u : Z) (cs : list rose).
Definition root (t : rose) : Z := match t with Rose u _ => u end.
Definition kids (t : rose) : list rose := match t with Rose _ cs => cs end.
Fixpoint nodes (t : rose) : list Z := match t with Rose u cs => u :: flat_map nodes cs end.
Lemma root_In t : In (root t) (nodes t). Proof. destruct t. cbn. auto. Qed.

(* [fits g par t]: t is the subtree of its root, the children in the order of the adjacency lists *)
Inductive fits (g : list (list Z)) (par : Z -> Z) : rose -> Prop :=
  | fits_rose u cs adj : vertex g u -> vget g u = Ok adj -> map root cs = filter (fun v => negb (v =? par u)) adj ->
      (forall c, In c cs -> par (root c) = u) -> (forall c, In c cs -> fits g par c) -> fits g par (Rose u cs).

Section Fits.
  Variables (g : list (list Z)) (par dep rt : Z -> Z).
  Hypothesis R : rooted g par.
  Hypothesis D : dep_ok g par dep rt.
  Notation n := (zlen g).
  Lemma dep_par v : vertex g v -> par v <> -1 -> dep v = dep (par v) + 1.
  Proof. intros Hv H. destruct (D v Hv) as (_ & _ & _ & _ & _ & E). now apply E. Qed.
  Lemma dep_root v : vertex g v -> par v = -1 -> dep v = 0.
  Proof. intros Hv H. destruct (D v Hv) as (_ & _ & _ & _ & E & _). now apply E. Qed.
  Lemma dep_nonneg v : vertex g v -> 0 <= dep v. Proof. intros Hv. apply (D v Hv). Qed.
  Lemma par_vertex v : vertex g v -> par v <> -1 -> vertex g (par v).
  Proof. intros Hv H. destruct (proj1 R v Hv); auto. contradiction. Qed.
  Lemma dep_climb k v a : climb par k v a -> vertex g v -> dep v = dep a + k.
  Proof.
    induction 1 as [v|k v a H C IH]; intros Hv; [lia|]. rewrite dep_par, IH by auto using par_vertex. lia.
  Qed.
  Lemma rt_par v : vertex g v -> par v <> -1 -> rt v = rt (par v).
  Proof. intros Hv H. destruct (D v Hv) as (_ & _ & _ & _ & _ & E). now apply E. Qed.
  Lemma rt_climb k v a : climb par k v a -> vertex g v -> rt v = rt a.
  Proof. induction 1 as [v|k v a H C IH]; intros Hv; auto. rewrite rt_par by auto. apply IH. now apply par_vertex. Qed.
  Lemma rt_anc a v : ancestor par a v -> vertex g v -> rt v = rt a. Proof. intros (k & C). eapply rt_climb; eauto. Qed.
  Lemma rt_root v : vertex g v -> par v = -1 -> rt v = v.
  Proof. intros Hv H. destruct (D v Hv) as (_ & _ & _ & _ & E & _). now apply E. Qed.
  Lemma anc_rt v : vertex g v -> ancestor par (rt v) v. Proof. intros Hv. exists (dep v). apply (D v Hv). Qed.
  Lemma rt_vertex v : vertex g v -> vertex g (rt v). Proof. intros Hv. apply (D v Hv). Qed.
  Lemma par_rt v : vertex g v -> par (rt v) = -1. Proof. intros Hv. apply (D v Hv). Qed.
  Lemma depth_dep v : vertex g v -> depth par v (dep v).
  Proof. intros Hv. destruct (D v Hv) as (C & E & _). now exists (rt v). Qed.
  Lemma anc_antisym a b : vertex g a -> ancestor par a b -> ancestor par b a -> a = b.
  Proof.
    intros Ha (j & A) (k & B). assert (Hb := climb_vertex g par R _ _ _ B Ha).
    pose proof (dep_climb _ _ _ A Hb). pose proof (dep_climb _ _ _ B Ha). pose proof (climb_nonneg _ _ _ _ A). pose proof (climb_nonneg _ _ _ _ B).
    apply climb_inv in A as [(E & F)|(? & _)]; auto. lia.
  Qed.
  Lemma anc_dep a v : ancestor par a v -> vertex g v -> dep a <= dep v.
  Proof. intros (k & C) Hv. pose proof (dep_climb _ _ _ C Hv). pose proof (climb_nonneg _ _ _ _ C). lia. Qed.
  Lemma anc_dep_eq a v : ancestor par a v -> vertex g v -> dep a = dep v -> a = v.
  Proof. intros (k & C) Hv E. pose proof (dep_climb _ _ _ C Hv). apply climb_inv in C as [(? & F)|(? & _)]; auto. lia. Qed.
  Lemma anc_of_dep a b v : ancestor par a v -> ancestor par b v -> vertex g v -> dep a <= dep b -> ancestor par a b.
  Proof.
    intros A B Hv L. destruct (anc_compare par v a b A B) as [C|C]; auto.
    assert (Ha : vertex g a) by (eapply anc_vertex; eauto). pose proof (anc_dep _ _ C Ha). rewrite (anc_dep_eq _ _ C Ha) by lia. apply anc_refl.
  Qed.
  Lemma par_neq v : vertex g v -> par v <> v.
  Proof. intros Hv E. destruct (Z.eq_dec (par v) (-1)) as [F|F]; [unfold vertex in Hv; lia|]. pose proof (dep_par v Hv F). rewrite E in H. lia. Qed.
  (* adjacency *)
  Lemma row_ok u : vertex g u -> exists adj, vget g u = Ok adj /\ NoDup adj /\ forall v, In v adj <-> vertex g v /\ (par v = u \/ par u = v).
  Proof. apply R. Qed.
  Lemma edge_par u v : vertex g u -> (edge g u v <-> vertex g v /\ (par v = u \/ par u = v)).
  Proof.
    intros Hu. destruct (row_ok u Hu) as (adj & E & _ & I). split.
    - intros (adj' & E' & H). rewrite E in E'. injection E' as <-. now apply I.
    - intros H. exists adj. split; auto. now apply I.
  Qed.
  Lemma edge_vertex u v : edge g u v -> vertex g u. Proof. intros (adj & E & _). unfold vertex. eapply vget_range; eauto. Qed.
  Lemma row_kids u adj : vertex g u -> vget g u = Ok adj -> forall v, In v (filter (fun v => negb (v =? par u)) adj) <-> vertex g v /\ par v = u.
  Proof.
    intros Hu E v. destruct (row_ok u Hu) as (adj' & E' & _ & I). rewrite E in E'. injection E' as <-. rewrite filter_In, I. split.
    - intros ((Hv & [H|H]) & N); auto. rewrite H, Z.eqb_refl in N. discriminate.
    - intros (Hv & H). split; auto. apply negb_true_iff, Z.eqb_neq. intros ->.
      destruct (Z.eq_dec (par u) (-1)) as [F|F]; [unfold vertex in Hv; lia|]. assert (G : u <> -1) by (unfold vertex in Hu; lia).
      assert (N1 : par (par u) <> -1) by congruence. pose proof (dep_par u Hu F). pose proof (dep_par (par u) Hv N1). rewrite H in H1. lia.
  Qed.
  Lemma row_nodup u adj : vertex g u -> vget g u = Ok adj -> NoDup adj.
  Proof. intros Hu E. destruct (row_ok u Hu) as (adj' & E' & N & _). rewrite E in E'. now injection E' as ->. Qed.
  (* every vertex has its subtree *)
  Lemma grow_exists m : (forall v, vertex g v -> dep v <= m) -> forall v, vertex g v -> exists t, root t = v /\ fits g par t.
  Proof.
    intros B. assert (H : forall f v, vertex g v -> (Z.to_nat (m - dep v) < f)%nat -> exists t, root t = v /\ fits g par t).
    - induction f as [|f IH]; intros v Hv L; [lia|]. destruct (row_ok v Hv) as (adj & E & _ & _).
      assert (K : forall l, (forall c, In c l -> vertex g c /\ par c = v) -> exists cs, map root cs = l /\ forall c, In c cs -> par (root c) = v /\ fits g par c).
      { induction l as [|c l IHl]; intros Hl; [exists []; split; auto; intros c []|]. destruct IHl as (cs & Ec & Hc); [intros; apply Hl; now right|].
        destruct (Hl c (or_introl eq_refl)) as (Hcv & Hcp). destruct (IH c Hcv) as (t & Et & Ft).
        { assert (N : par c <> -1) by (unfold vertex in Hv; lia). pose proof (dep_par c Hcv N). rewrite Hcp in H. pose proof (B c Hcv). lia. }
        exists (t :: cs). split; [cbn [map]; congruence|]. intros c' [<-|H]; auto. rewrite Et. auto. }
      destruct (K (filter (fun w => negb (w =? par v)) adj)) as (cs & Ec & Hc); [intros c; now apply row_kids|].
      exists (Rose v cs). split; auto. econstructor; eauto; intros c H; now apply Hc.
    - intros v Hv. apply (H (S (Z.to_nat (m - dep v))) v Hv). lia.
  Qed.
  Lemma fits_anc t : fits g par t -> forall w, In w (nodes t) -> vertex g w /\ ancestor par (root t) w.
  Proof.
    induction 1 as [u cs adj Hu E M P F IH]. intros w Hw. cbn [nodes root] in *. destruct Hw as [<-|Hw]; [split; auto using anc_refl|].
    apply in_flat_map in Hw as (c & Hc & Hw). destruct (IH c Hc w Hw) as (V & A). split; auto. eapply anc_trans; [|exact A].
    rewrite <- (P c Hc). apply anc_par. rewrite (P c Hc). unfold vertex in Hu. lia.
  Qed.
  Lemma fits_child t : fits g par t -> forall w v, In w (nodes t) -> vertex g v -> par v = w -> In v (nodes t).
  Proof.
    induction 1 as [u cs adj Hu E M P F IH]. intros w v Hw Hv Hp. cbn [nodes] in *. right. apply in_flat_map. destruct Hw as [<-|Hw].
    - assert (I : In v (map root cs)) by (rewrite M; apply row_kids; auto). apply in_map_iff in I as (c & <- & Hc). exists c. split; auto. apply root_In.
    - apply in_flat_map in Hw as (c & Hc & Hw). exists c. split; auto. eapply IH; eauto.
  Qed.
  Lemma fits_desc t : fits g par t -> forall w, In w (nodes t) <-> vertex g w /\ ancestor par (root t) w.
  Proof.
    intros F w. split; [now apply fits_anc|]. intros (Hw & (k & C)). remember (root t) as r eqn:Er. revert Er Hw. induction C as [v|k v a H C IH]; intros -> Hv.
    - apply root_In.
    - apply (fits_child t F (par v) v); auto. apply IH; auto. now apply par_vertex.
  Qed.
  Lemma NoDup_flat_map {A} (f : A -> list Z) l : (forall c, In c l -> NoDup (f c)) -> NoDup l -> (forall c d w, In c l -> In d l -> In w (f c) -> In w (f d) -> c = d) -> NoDup (flat_map f l).
  Proof.
    induction l as [|c l IH]; intros Hn Hd Hx; [constructor|]. cbn [flat_map]. inversion Hd; subst. apply NoDup_app.
    - apply Hn. now left.
    - apply IH; auto; intros; [apply Hn; now right|eapply Hx; eauto; now right].
    - intros w Hw Hf. apply in_flat_map in Hf as (d & Hdl & Hwd). assert (c = d) by (eapply Hx; eauto; [now left|now right]). subst. contradiction.
  Qed.
  Lemma fits_nodup t : fits g par t -> NoDup (nodes t).
  Proof.
    induction 1 as [u cs adj Hu E M P F IH]. cbn [nodes].
    assert (Nr : NoDup (map root cs)) by (rewrite M; apply NoDup_filter; eapply row_nodup; eauto). constructor.
    - intros H. apply in_flat_map in H as (c & Hc & Hw). destruct (fits_anc c (F c Hc) u Hw) as (_ & A). pose proof (anc_dep _ _ A Hu).
      assert (Hcv : vertex g (root c)) by (apply (fits_anc c (F c Hc)), root_In). assert (N : par (root c) <> -1) by (rewrite P by auto; unfold vertex in Hu; lia).
      pose proof (dep_par _ Hcv N). rewrite P in H0 by auto. lia.
    - apply NoDup_flat_map; auto.
      + eapply NoDup_map_inv; eauto.
      + intros c d w Hc Hd Hwc Hwd. destruct (fits_anc c (F c Hc) w Hwc) as (Hw & A). destruct (fits_anc d (F d Hd) w Hwd) as (_ & B).
        assert (Hcv : vertex g (root c)) by (apply (fits_anc c (F c Hc)), root_In). assert (Hdv : vertex g (root d)) by (apply (fits_anc d (F d Hd)), root_In).
        assert (N : u <> -1) by (unfold vertex in Hu; lia).
        pose proof (dep_par _ Hcv ltac:(rewrite P by auto; auto)). pose proof (dep_par _ Hdv ltac:(rewrite P by auto; auto)). rewrite !P in * by auto.
        assert (Er : root c = root d). { apply anc_dep_eq; auto; [|congruence]. eapply anc_of_dep; eauto. lia. }
        clear - Nr Er Hc Hd. induction cs as [|x l IHl]; [destruct Hc|]. cbn [map] in Nr. inversion Nr; subst.
        destruct Hc as [->|Hc], Hd as [->|Hd]; auto; exfalso; apply H1; [rewrite Er|rewrite <- Er]; now apply in_map.
  Qed.
  Lemma fits_size t : fits g par t -> (length (nodes t) <= length g)%nat.
  Proof.
    intros F. replace (length g) with (length (zrange (zlen g))) by (pose proof (zlen_zrange (zlen g)); unfold zlen in *; lia).
    apply NoDup_incl_length; [now apply fits_nodup|]. intros w Hw. apply In_zrange. now apply (fits_anc t F).
  Qed.
End Fits.
