(* Proofs about LowLink_model: what the search says about the graph. *)
From Verif Require Import Base BaseLemmas ListZ Seq ListMore SpSeg_proof UnionFind_proof Kruskal_proof LowLink_spec LowLink_model LowLink_proof LowLink_proof2.
From Coq Require Import Relations.

Lemma in_without_edge E id e : 0 <= id < zlen E -> (In e (without_edge E id) <-> exists j, j <> id /\ vget E j = Ok e).
Proof.
  intro Hi. unfold without_edge. rewrite in_app_iff. split.
  - intros [H|H]; apply In_vget in H; destruct H as (j & Hj & H).
    + exists j. assert (j < id) by (rewrite zlen_firstn in Hj by lia; lia). split; [lia|]. rewrite vget_firstn in H by lia. auto.
    + exists (j + (id + 1)). split; [lia|]. replace (S (Z.to_nat id)) with (Z.to_nat (id + 1)) in H by lia. rewrite vget_skipn in H by lia. rewrite <- H. f_equal. lia.
  - intros (j & Nj & H). pose proof (vget_range _ _ _ H) as R. destruct (Z.lt_ge_cases j id).
    + left. apply (vget_In _ j). rewrite vget_firstn by lia. auto.
    + right. apply (vget_In _ (j - (id + 1))). replace (S (Z.to_nat id)) with (Z.to_nat (id + 1)) by lia. rewrite vget_skipn by lia. rewrite <- H. f_equal. lia.
Qed.
Lemma in_without_vertex E u a b : In (a, b) (without_vertex E u) <-> In (a, b) E /\ a <> u /\ b <> u.
Proof. unfold without_vertex. rewrite filter_In. cbn [fst snd]. rewrite Bool.andb_true_iff, !Bool.negb_true_iff, !Z.eqb_neq. tauto. Qed.
Lemma connected_edge E a b : In (a, b) E -> connected E a b. Proof. intro H. apply rst_step. exact H. Qed.
(* a set closed under the edges is closed under paths *)
Lemma connected_closed E (S : Z -> Prop) a b : (forall x y, In (x, y) E -> (S x <-> S y)) -> connected E a b -> (S a <-> S b).
Proof. intros H C. induction C; [auto|tauto|tauto|tauto]. Qed.

Section G.
  Variable n : Z.
  Variable E : list (Z * Z).
  Variable G : Z -> list (Z * Z).
  Notation vx v := (0 <= v < n).
  Hypothesis HE : graph_on n E.
  Hypothesis HG : forall x y id, vx x -> (In (y, id) (G x) <-> vget E id = Ok (x, y) \/ vget E id = Ok (y, x)).
  Lemma G1 u y id : vx u -> In (y, id) (G u) -> vx y /\ 0 <= id.
  Proof. intros Hu H. apply HG in H; auto. destruct H as [H|H]; pose proof (vget_range _ _ _ H); apply vget_In in H; apply HE in H; lia. Qed.
  Lemma G2 u y z id : vx u -> u <> y -> In (y, id) (G u) -> In (z, id) (G y) -> z = u.
  Proof.
    intros Hu N H1 H2. pose proof (G1 _ _ _ Hu H1) as (Vy & _). apply HG in H1; auto. apply HG in H2; auto.
    destruct H1 as [H1|H1], H2 as [H2|H2]; rewrite H1 in H2; injection H2; congruence.
  Qed.
  Variable w : W.
  Notation P := (wP w). Notation A := (wA w). Notation L := (wL w). Notation T := (wT w). Notation Q := (wO w).
  Hypothesis inj : forall v v', vx v -> vx v' -> 0 <= P v -> P v = P v' -> v = v'.
  Hypothesis PL : forall y, vx y -> 0 <= P y /\ placed n G w y.
  Lemma par y : vx y -> A y <> -1 -> vx (A y) /\ 0 <= T y /\ In (y, T y) (G (A y)) /\ 0 <= P (A y) < P y /\ P y < Q y /\ Q y <= Q (A y).
  Proof. intros Vy N. destruct (child n G G1 G2 w inj PL y Vy N) as ((X1 & X2 & X3 & X4) & X5 & X6). pose proof (P_lt_Q n G G1 G2 w inj PL y Vy). tauto. Qed.
  Lemma T_inj y y' : vx y -> vx y' -> 0 <= T y -> T y = T y' -> y = y'.
  Proof.
    intros Vy Vy' Ty Et. assert (N : A y <> -1). { intro X. destruct (PL y Vy) as (_ & _ & [(_ & Y)|((_ & (Y & _) & _) & _)]); lia. }
    assert (N' : A y' <> -1). { intro X. destruct (PL y' Vy') as (_ & _ & [(_ & Y)|((_ & (Y & _) & _) & _)]); lia. }
    destruct (par y Vy N) as (X1 & X2 & X3 & X4 & _), (par y' Vy' N') as (Y1 & Y2 & Y3 & Y4 & _).
    apply HG in X3; auto. apply HG in Y3; auto. rewrite <- Et in Y3.
    destruct X3 as [X3|X3], Y3 as [Y3|Y3]; rewrite X3 in Y3; injection Y3 as Z1 Z2; auto; exfalso;
      (assert (P (A y) = P y') by congruence); (assert (P y = P (A y')) by congruence); lia.
  Qed.
  Definition sub (y x : Z) : Prop := vx x /\ P y <= P x < Q y.
  Lemma sub_self y : vx y -> sub y y.
  Proof. intro Vy. pose proof (P_lt_Q n G G1 G2 w inj PL y Vy). split; auto. lia. Qed.
  Lemma sub_up h x : vx h -> sub h x -> x = h \/ (A x <> -1 /\ sub h (A x) /\ P h < P x).
  Proof.
    intros Vh (Vx & R). destruct (Z.eq_dec (P h) (P x)) as [Q0|N]. { left. destruct (PL x Vx). apply inj; auto; lia. }
    right. destruct (inside n G G1 G2 w inj PL h x Vh Vx ltac:(lia)) as (X1 & X2). destruct (par x Vx X1) as (Y1 & _ & _ & Y4 & _). split; [auto|]. split; [split; [auto|lia]|lia].
  Qed.
  (* climbing *)
  Lemma climb (R : Z -> Prop) h : vx h -> R h -> (forall x, vx x -> sub h x -> P h < P x -> A x <> -1 -> R (A x) -> R x) -> forall x, sub h x -> R x.
  Proof.
    intros Vh Rh St x. assert (K : forall k x, P x <= P h + Z.of_nat k -> sub h x -> R x); [|intro Sx; apply (K (Z.to_nat (P x - P h))); auto; destruct Sx; lia].
    clear x. induction k as [|k IH]; intros x Lx Sx; destruct (sub_up h x Vh Sx) as [->|(N & Sa & Lp)]; auto; [lia|].
    destruct Sx as (Vx & Sx). apply St; auto; [split; auto|]. apply IH; auto. destruct (par x Vx N) as (_ & _ & _ & X & _). lia.
  Qed.
  Lemma sub_Q h x : vx h -> sub h x -> Q x <= Q h.
  Proof.
    intros Vh. apply (climb (fun x => Q x <= Q h) h Vh); [lia|]. intros y Vy _ _ N X. destruct (par y Vy N) as (_ & _ & _ & _ & _ & Y). lia.
  Qed.
  Lemma sub_trans h x y : vx h -> sub h x -> sub x y -> sub h y.
  Proof. intros Vh Sx (Vy & R). pose proof (sub_Q h x Vh Sx). destruct Sx. split; auto. lia. Qed.
  Lemma climb_connected E' h : vx h -> forall x, sub h x -> (forall t, vx t -> sub t x -> P h < P t -> A t <> -1 -> connected E' t (A t)) -> connected E' x h.
  Proof.
    intros Vh x Sx. pattern x. revert x Sx. apply climb; auto.
    - intros _. apply connected_refl.
    - intros x Vx Sx Lx N IH H. destruct (par x Vx N) as (VA & _ & _ & X & Y & Y'). apply connected_trans with (A x).
      + apply H; auto. apply sub_self; auto.
      + apply IH. intros t Vt St Lt Nt. apply H; auto. apply (sub_trans t (A x)); auto. split; auto. lia.
  Qed.
  Lemma node_facts x : vx x -> (forall y id, In (y, id) (G x) -> P y < Q x) /\ L x <= P x /\
    (forall y id, In (y, id) (G x) -> id <> T x -> L x <= P y) /\ (forall z, vx z -> A z = x -> L x <= L z) /\
    (L x = P x \/ (exists y id, In (y, id) (G x) /\ id <> T x /\ L x = P y) \/ (exists z, vx z /\ A z = x /\ L x = L z)) /\
    exists cs, NoDup cs /\ (forall z, In z cs <-> vx z /\ A z = x).
  Proof.
    intro Vx. destruct (PL x Vx) as (X0 & (ia & ch & bs & ars & H) & _).
    destruct (walk_facts n G G1 G2 w inj PL _ _ _ _ _ _ H Vx (incl_refl _) ltac:(cbn [a_c]; lia)) as (B1 & B2 & (B3 & B3') & B4 & _ & _ & cs & (K1 & K2) & _). cbn [a_c a_l] in *.
    assert (C : forall z, vx z -> A z = x -> P x + 1 <= P z < Q x). { intros z Vz Az. pose proof (in_interval n G G1 G2 w inj PL z x Vz Vx Az). lia. }
    split; [auto|]. split; [auto|]. split; [auto|]. split; [auto|]. split.
    - destruct B4 as [X|[X|(z & Z1 & Z2 & _ & Z3)]]; [left; auto|right; left; auto|right; right; exists z; auto].
    - exists cs. split; [auto|]. intro z. rewrite K2. split; [tauto|]. intros (X & Y). auto.
  Qed.
  Lemma G_sym x y id : vx x -> In (y, id) (G x) -> In (x, id) (G y).
  Proof. intros Vx H. destruct (G1 _ _ _ Vx H) as (Vy & _). apply HG; auto. apply HG in H; auto. tauto. Qed.
  Lemma edge_compare x y id : vx x -> In (y, id) (G x) -> P x < Q y /\ P y < Q x.
  Proof. intros Vx H. destruct (G1 _ _ _ Vx H) as (Vy & _). split; [apply (proj1 (node_facts y Vy) x id), G_sym; auto|apply (proj1 (node_facts x Vx) y id); auto]. Qed.
  (* an edge leaving sub y from the inside goes to a proper ancestor of y *)
  Lemma leave y x z id : vx y -> sub y x -> In (z, id) (G x) -> ~ sub y z -> vx z /\ sub z y /\ P z < P y /\ A y <> -1 /\ P z <= P (A y).
  Proof.
    intros Vy Sx H N. pose proof Sx as (Vx & R). destruct (G1 _ _ _ Vx H) as (Vz & _). destruct (edge_compare x z id Vx H) as (C1 & C2).
    pose proof (sub_Q y x Vy Sx). assert (P z < P y) by (destruct (Z.lt_ge_cases (P z) (P y)); auto; exfalso; apply N; split; auto; lia).
    assert (Sy : sub z y) by (split; auto; lia). destruct (sub_up z y Vz Sy) as [->|(X1 & (_ & X2) & _)]; [lia|]. split; [auto|]. split; [auto|]. split; [auto|]. split; [auto|lia].
  Qed.
  Lemma low_sub y x z id : vx y -> sub y x -> In (z, id) (G x) -> id <> T x -> L y <= P z.
  Proof.
    intros Vy Sx H N. apply Z.le_trans with (L x); [|apply (node_facts x (proj1 Sx)) with (id := id); auto].
    apply (climb (fun x => L y <= L x) y Vy); auto; [lia|]. intros t Vt _ _ Nt X. destruct (par t Vt Nt) as (VA & _). pose proof (proj1 (proj2 (proj2 (proj2 (node_facts (A t) VA)))) t Vt eq_refl). lia.
  Qed.
  Lemma P_bound_ex : exists N, forall y, vx y -> P y < N.
  Proof.
    assert (K : forall k, exists N, forall y, 0 <= y < Z.of_nat k -> P y < N). { induction k as [|k (N & IH)]; [exists 0; intros; lia|]. exists (Z.max N (P (Z.of_nat k) + 1)). intros y Hy. destruct (Z.eq_dec y (Z.of_nat k)) as [->|]; [lia|]. specialize (IH y ltac:(lia)). lia. }
    destruct (Z.le_gt_cases 0 n); [|exists 0; intros; lia]. destruct (K (Z.to_nat n)) as (N & H'). exists N. intros y Hy. apply H'. lia.
  Qed.
  Lemma low_attained y : vx y -> exists x, sub y x /\ (L y = P x \/ exists z id, In (z, id) (G x) /\ id <> T x /\ L y = P z).
  Proof.
    destruct P_bound_ex as (N & HN). assert (K : forall k y, vx y -> N - P y <= Z.of_nat k -> exists x, sub y x /\ (L y = P x \/ exists z id, In (z, id) (G x) /\ id <> T x /\ L y = P z)); [|intro Vy; apply (K (Z.to_nat (N - P y))); auto; specialize (HN y Vy); lia].
    clear y. induction k as [|k IH]; intros y Vy Ly. { specialize (HN y Vy). lia. }
    destruct (node_facts y Vy) as (_ & _ & _ & _ & [X|[X|(z & Vz & Az & X)]] & _).
    - exists y. split; [apply sub_self; auto|left; auto].
    - exists y. split; [apply sub_self; auto|right; auto].
    - pose proof (in_interval n G G1 G2 w inj PL z y Vz Vy Az) as I. destruct (IH z Vz ltac:(lia)) as (x & Sx & Hx). exists x. split; [apply (sub_trans y z); auto; split; auto; lia|]. rewrite X. auto.
  Qed.
  (* another edge leaves the subtree of y iff low y <= pre (par y) *)
  Lemma escape y : vx y -> A y <> -1 -> L y <= P (A y) -> exists x z id, sub y x /\ In (z, id) (G x) /\ id <> T y /\ ~ sub y z /\ L y = P z.
  Proof.
    intros Vy N HL. destruct (par y Vy N) as (VA & _ & TI & PA & _). destruct (low_attained y Vy) as (x & Sx & [X|(z & id & X1 & X2 & X3)]). { destruct Sx as (_ & Sx). lia. }
    exists x, z, id. split; [auto|]. split; [auto|]. assert (NS : ~ sub y z) by (intros (_ & S); lia). split; [|auto].
    intros ->. pose proof Sx as (Vx & R). apply HG in X1; auto. apply HG in TI; auto.
    destruct X1 as [X1|X1], TI as [TI|TI]; rewrite X1 in TI; injection TI as Z1 Z2; subst x; try congruence; lia.
  Qed.
  Lemma no_escape y x z id : vx y -> A y <> -1 -> P (A y) < L y -> sub y x -> In (z, id) (G x) -> id <> T y -> sub y z.
  Proof.
    intros Vy N HL Sx H Nid. destruct (Z.le_gt_cases (P y) (P z)) as [C|C].
    - pose proof Sx as (Vx & R). destruct (G1 _ _ _ Vx H) as (Vz & _). destruct (edge_compare x z id Vx H). pose proof (sub_Q y x Vy Sx). split; auto. lia.
    - assert (NS : ~ sub y z) by (intros (_ & S); lia). destruct (leave y x z id Vy Sx H NS) as (Vz & Sz & Lz & _ & LA). exfalso.
      assert (id <> T x) as NT.
      { intros ->. destruct (sub_up y x Vy Sx) as [->|(Nx & Sa & _)]; [auto|]. pose proof Sx as (Vx & _). destruct (par x Vx Nx) as (VA & _ & TI & _). apply HG in H; auto. apply HG in TI; auto.
        destruct H as [H|H], TI as [TI|TI]; rewrite H in TI; [assert (z = x) by congruence|assert (z = A x) by congruence|assert (z = A x) by congruence|assert (z = x) by congruence]; subst z; auto. }
      pose proof (low_sub y x z id Vy Sx H NT). lia.
  Qed.
  (* roots *)
  Lemma root_closed r x z id : vx r -> A r = -1 -> sub r x -> In (z, id) (G x) -> sub r z.
  Proof.
    intros Vr Ar Sx H. pose proof Sx as (Vx & R). destruct (G1 _ _ _ Vx H) as (Vz & _). destruct (edge_compare x z id Vx H). pose proof (sub_Q r x Vr Sx). split; auto. split; [|lia].
    destruct (Z.le_gt_cases (P r) (P z)) as [C|C]; auto. exfalso. destruct (sub_up z r Vz) as [->|(X & _)]; [split; auto; lia|lia|auto].
  Qed.
  Lemma root_of x : vx x -> exists r, vx r /\ A r = -1 /\ sub r x.
  Proof.
    assert (K : forall k x, vx x -> P x <= Z.of_nat k -> exists r, vx r /\ A r = -1 /\ sub r x); [|intro Vx; apply (K (Z.to_nat (P x))); auto; lia].
    clear x. induction k as [|k IH]; intros x Vx Lx; (destruct (Z.eq_dec (A x) (-1)) as [Ar|N]; [exists x; split; [auto|split; [auto|apply sub_self; auto]]|]); destruct (par x Vx N) as (VA & _ & _ & PA & PQ & QQ); [lia|].
    destruct (IH (A x) VA ltac:(lia)) as (r & Vr & Ar & Sr). exists r. split; [auto|]. split; [auto|]. apply (sub_trans r (A x)); auto. split; auto. lia.
  Qed.
  Lemma E_G a b : In (a, b) E -> exists id, vx a /\ vx b /\ vget E id = Ok (a, b) /\ In (b, id) (G a) /\ In (a, id) (G b).
  Proof. intro H. destruct (HE a b H) as (Va & Vb). apply In_vget in H. destruct H as (id & _ & H). exists id. split; [auto|]. split; [auto|]. split; [auto|]. split; apply HG; auto. Qed.
  Lemma tree_edge y : vx y -> A y <> -1 -> vget E (T y) = Ok (A y, y) \/ vget E (T y) = Ok (y, A y).
  Proof. intros Vy N. destruct (par y Vy N) as (VA & _ & TI & _). apply HG in TI; auto. Qed.
  Lemma vget_connected E' a b id : (forall e, vget E id = Ok e -> In e E') -> vget E id = Ok (a, b) \/ vget E id = Ok (b, a) -> connected E' a b.
  Proof. intros H [X|X]; [|apply connected_sym]; apply connected_edge, H; auto. Qed.
  Lemma par_connected y : vx y -> A y <> -1 -> connected E y (A y).
  Proof. intros Vy N. apply vget_connected with (T y); [intros e; apply vget_In|]. apply or_comm, tree_edge; auto. Qed.
  Lemma sub_connected h x : vx h -> sub h x -> connected E x h.
  Proof. intros Vh Sx. apply climb_connected; auto. intros t Vt _ _ N. apply par_connected; auto. Qed.
  Lemma roots_apart r r' : vx r -> vx r' -> A r = -1 -> A r' = -1 -> connected E r r' -> r = r'.
  Proof.
    intros Vr Vr' Ar Ar' C. assert (S : sub r r').
    { apply (connected_closed E (sub r) r r'); auto; [|apply sub_self; auto]. intros x y H. apply E_G in H. destruct H as (id & Vx & Vy & _ & H1 & H2). split; intro S; [apply (root_closed r x y id)|apply (root_closed r y x id)]; auto. }
    destruct (sub_up r r' Vr S) as [->|(X & _)]; [auto|congruence].
  Qed.
  Lemma root_subtree r a b : vx r -> A r = -1 -> connected E a b -> sub r a -> sub r b.
  Proof.
    intros Vr Ar C. apply (connected_closed E (sub r) a b); auto. intros x y H. apply E_G in H. destruct H as (id & Vx & Vy & _ & H1 & H2). split; intro S; [apply (root_closed r x y id)|apply (root_closed r y x id)]; auto.
  Qed.
  Definition head (y : Z) : Prop := A y = -1 \/ P (A y) < L y.
  Lemma head_dec y : {head y} + {A y <> -1 /\ L y <= P (A y)}.
  Proof. unfold head. destruct (Z.eq_dec (A y) (-1)); [left; auto|]. destruct (Z_lt_le_dec (P (A y)) (L y)); [left; auto|right; auto]. Qed.
  (* tree edges of heads are bridges *)
  Lemma head_closed y : vx y -> A y <> -1 -> P (A y) < L y -> forall a b, connected (without_edge E (T y)) a b -> (sub y a <-> sub y b).
  Proof.
    intros Vy N HL a b. apply connected_closed. intros x z H. destruct (par y Vy N) as (_ & T0 & _).
    assert (Tl : 0 <= T y < zlen E) by (destruct (tree_edge y Vy N) as [X|X]; apply vget_range in X; auto).
    apply in_without_edge in H; auto. destruct H as (j & Nj & H). pose proof (vget_In _ _ _ H) as HI. apply HE in HI. destruct HI as (Vx & Vz).
    split; intro S; [apply (no_escape y x z j)|apply (no_escape y z x j)]; auto; apply HG; auto.
  Qed.
  Lemma tree_len y : vx y -> A y <> -1 -> 0 <= T y < zlen E.
  Proof. intros Vy N. destruct (tree_edge y Vy N) as [X|X]; apply vget_range in X; auto. Qed.
  Lemma tree_stays y id : vx y -> A y <> -1 -> 0 <= id < zlen E -> T y <> id -> connected (without_edge E id) y (A y).
  Proof. intros Vy N Hi Ni. apply vget_connected with (T y); [|apply or_comm, tree_edge; auto]. intros e He. apply in_without_edge; auto. exists (T y). auto. Qed.
  Lemma A_out y : vx y -> A y <> -1 -> ~ sub y (A y).
  Proof. intros Vy N (_ & S). destruct (par y Vy N) as (_ & _ & _ & X & _). lia. Qed.
  Lemma head_bridge y : vx y -> A y <> -1 -> P (A y) < L y -> bridge E (T y).
  Proof.
    intros Vy N HL. split; [apply tree_len; auto|]. exists y, (A y). split; [apply par_connected; auto|]. intro C. apply (head_closed y Vy N HL) in C. apply (A_out y Vy N). apply C, sub_self; auto.
  Qed.
  (* the others are not *)
  Lemma nonhead_stays y id : vx y -> A y <> -1 -> L y <= P (A y) -> 0 <= id < zlen E -> connected (without_edge E id) y (A y).
  Proof.
    intros Vy N HL Hi. destruct (Z.eq_dec (T y) id) as [<-|Ni]; [|apply tree_stays; auto].
    destruct (escape y Vy N HL) as (x & z & id & Sx & Iz & Nid & NS & _). destruct (par y Vy N) as (VA & _ & _ & PA & PQ & QA). pose proof Sx as (Vx & _). destruct (leave y x z id Vy Sx Iz NS) as (Vz & Sy & Lz & _ & LA).
    apply connected_trans with x; [apply connected_sym|apply connected_trans with z].
    - apply climb_connected; auto. intros t Vt St Lt Nt. apply tree_stays; auto. intro Q0. assert (t = y) by (apply T_inj; auto; destruct (par t Vt Nt); lia). subst t. lia.
    - apply vget_connected with id; [|apply HG; auto]. intros e He. apply in_without_edge; auto. exists id. auto.
    - apply connected_sym, climb_connected; auto. { split; auto. destruct Sy. lia. } intros t Vt (_ & St) Lt Nt. apply tree_stays; auto. intro Q0. assert (t = y) by (apply T_inj; auto; destruct (par t Vt Nt); lia). subst t. lia.
  Qed.
  Lemma stays_all id a b : 0 <= id < zlen E -> (forall x y, vget E id = Ok (x, y) -> connected (without_edge E id) x y) -> connected E a b -> connected (without_edge E id) a b.
  Proof.
    intros Hi H. apply connected_sub. intros x y I. apply In_vget in I. destruct I as (j & _ & Hj). destruct (Z.eq_dec j id) as [->|N]; [auto|]. apply connected_edge, in_without_edge; auto. exists j. auto.
  Qed.
  Lemma nonhead_all y a b : vx y -> A y <> -1 -> L y <= P (A y) -> connected E a b -> connected (without_edge E (T y)) a b.
  Proof.
    intros Vy N HL. pose proof (tree_len y Vy N) as Hl. apply stays_all; auto. intros c d H. pose proof (nonhead_stays y (T y) Vy N HL Hl) as C. destruct (tree_edge y Vy N) as [X|X]; rewrite H in X; injection X as -> ->; [apply connected_sym|]; auto.
  Qed.
  Lemma nontree_all id a b : 0 <= id < zlen E -> (forall y, vx y -> A y <> -1 -> T y <> id) -> connected E a b -> connected (without_edge E id) a b.
  Proof.
    intros Hi N. assert (K : forall x y, vx x -> In (y, id) (G x) -> P x <= P y -> connected (without_edge E id) y x).
    { intros x y Vx H Lp. destruct (G1 _ _ _ Vx H) as (Vy & _). apply climb_connected; auto; [|intros t Vt _ _ Nt; apply tree_stays; auto]. split; auto. destruct (edge_compare x y id Vx H). lia. }
    apply stays_all; auto. intros x y H. pose proof (vget_In _ _ _ H) as I. apply HE in I. destruct I as (Vx & Vy).
    destruct (Z.le_ge_cases (P x) (P y)); [apply connected_sym, K; auto; apply HG; auto|apply K; auto; apply HG; auto].
  Qed.
  Lemma tree_dec id : (exists y, vx y /\ A y <> -1 /\ T y = id) \/ (forall y, vx y -> A y <> -1 -> T y <> id).
  Proof.
    destruct (existsb (fun y => negb (A y =? -1) && (T y =? id)) (zrange n)) eqn:X.
    - left. apply existsb_exists in X. destruct X as (y & I & X). apply In_zrange in I. apply Bool.andb_true_iff in X. destruct X as (X1 & X2). apply Bool.negb_true_iff, Z.eqb_neq in X1. apply Z.eqb_eq in X2. exists y. auto.
    - right. intros y Vy N Q0. enough (existsb (fun y => negb (A y =? -1) && (T y =? id)) (zrange n) = true) by congruence. apply existsb_exists. exists y. split; [apply In_zrange; auto|].
      apply Bool.andb_true_iff. split; [apply Bool.negb_true_iff, Z.eqb_neq; auto|apply Z.eqb_eq; auto].
  Qed.
  Lemma bridge_iff id : bridge E id <-> exists y, vx y /\ A y <> -1 /\ T y = id /\ P (A y) < L y.
  Proof.
    split.
    - intros (Hi & a & b & C & N). destruct (tree_dec id) as [(y & Vy & Ny & Ty)|X].
      + destruct (Z_lt_le_dec (P (A y)) (L y)); [exists y; auto|]. exfalso. apply N. rewrite <- Ty. apply nonhead_all; auto.
      + exfalso. apply N. apply nontree_all; auto.
    - intros (y & Vy & N & <- & HL). apply head_bridge; auto.
  Qed.
  Lemma sub_dec h x : vx x -> sub h x \/ ~ sub h x.
  Proof. intro Vx. destruct (Z_le_gt_dec (P h) (P x)); [|right; intros (_ & S); lia]. destruct (Z_lt_ge_dec (P x) (Q h)); [left; split; auto|right; intros (_ & S); lia]. Qed.
  (* ---- components, one edge removed ---- *)
  Variable rs : list Z.
  Hypothesis rs_nd : NoDup rs.
  Hypothesis rs_in : forall r, In r rs <-> vx r /\ A r = -1.
  Lemma comps : components (fun v => vx v) E (zlen rs).
  Proof.
    exists rs. split; [auto|]. split; [auto|]. split; [intros r Ir; apply rs_in in Ir; tauto|]. split.
    - intros r r' Ir Ir' C. apply rs_in in Ir. apply rs_in in Ir'. apply roots_apart; tauto.
    - intros v Vv. destruct (root_of v Vv) as (r & Vr & Ar & Sr). exists r. split; [apply rs_in; auto|]. apply sub_connected; auto.
  Qed.
  Lemma without_edge_incl id a b : 0 <= id < zlen E -> connected (without_edge E id) a b -> connected E a b.
  Proof. intro Hi. apply connected_incl. intros e He. apply in_without_edge in He; auto. destruct He as (j & _ & X). apply vget_In in X. auto. Qed.
  Lemma comps_nonbridge id : 0 <= id < zlen E -> (forall a b, connected E a b -> connected (without_edge E id) a b) -> components (fun v => vx v) (without_edge E id) (zlen rs).
  Proof.
    intros Hi H. destruct comps as (reps & X1 & X2 & X3 & X4 & X5). exists reps. split; [auto|]. split; [auto|]. split; [auto|]. split.
    - intros r r' I I' C. apply X4; auto. apply (without_edge_incl id); auto.
    - intros v Vv. destruct (X5 v Vv) as (r & Ir & C). exists r. auto.
  Qed.
  Lemma comps_bridge y : vx y -> A y <> -1 -> P (A y) < L y -> components (fun v => vx v) (without_edge E (T y)) (zlen rs + 1).
  Proof.
    intros Vy N HL. pose proof (tree_len y Vy N) as Hl. assert (Ny : ~ In y rs) by (rewrite rs_in; intros (_ & X); auto).
    assert (YR : forall r, In r rs -> ~ connected (without_edge E (T y)) y r).
    { intros r Ir C. apply rs_in in Ir. destruct Ir as (Vr & Ar). apply (head_closed y Vy N HL) in C. destruct (sub_up y r Vy (proj1 C (sub_self y Vy))) as [->|(X & _)]; congruence. }
    exists (y :: rs). split; [rewrite zlen_cons; lia|]. split; [constructor; auto|]. split; [|split].
    - intros r [<-|Ir]; [auto|apply rs_in in Ir; tauto].
    - intros r r' [<-|Ir] [<-|Ir'] C; auto.
      + exfalso. apply (YR r'); auto.
      + exfalso. apply (YR r); auto. apply connected_sym; auto.
      + apply rs_in in Ir. apply rs_in in Ir'. apply roots_apart; try tauto. apply (without_edge_incl (T y)); auto.
    - intros v Vv. destruct (sub_dec y v Vv) as [S|S].
      + exists y. split; [left; auto|]. apply climb_connected; auto. intros t Vt St Lt Nt. apply tree_stays; auto. intro Q0. assert (t = y) by (apply T_inj; auto; destruct (par t Vt Nt); lia). subst t. lia.
      + destruct (root_of v Vv) as (r & Vr & Ar & Sr). exists r. split; [right; apply rs_in; auto|]. apply climb_connected; auto. intros t Vt St Lt Nt. apply tree_stays; auto. intro Q0. assert (t = y) by (apply T_inj; auto; destruct (par t Vt Nt); lia). subst t. auto.
  Qed.
  (* is_bridge(u, v) *)
  Lemma edge_bridge u v id : vx u -> In (v, id) (G u) -> P u <= P v -> (P u < L v <-> bridge E id).
  Proof.
    intros Vu H Lp. destruct (G1 _ _ _ Vu H) as (Vv & _). destruct (edge_compare u v id Vu H) as (C1 & C2). rewrite bridge_iff. split.
    - intro HL. assert (ET : id = T v). { destruct (Z.eq_dec id (T v)); auto. exfalso. pose proof (proj1 (proj2 (proj2 (node_facts v Vv))) u id (G_sym u v id Vu H) n0). lia. }
      assert (Lv : L v <= P v) by apply (node_facts v Vv). assert (Suv : sub u v) by (split; auto; lia). destruct (sub_up u v Vu Suv) as [->|(N & (_ & Sa) & _)]; [lia|].
      exists v. split; [auto|]. split; [auto|]. split; [auto|]. destruct (par v Vv N) as (VA & _ & TI & _). apply HG in H; auto. apply HG in TI; auto. rewrite ET in H.
      destruct H as [H|H], TI as [TI|TI]; rewrite H in TI; [assert (u = A v) by congruence|assert (u = v) by congruence|assert (u = v) by congruence|assert (u = A v) by congruence]; subst u; lia.
    - intros (y & Vy & N & Ty & HL). destruct (par y Vy N) as (VA & _ & TI & PA & _). apply HG in H; auto. apply HG in TI; auto. rewrite Ty in TI.
      destruct H as [H|H], TI as [TI|TI]; rewrite H in TI; [assert (u = A y /\ v = y) as (-> & ->) by (split; congruence)|assert (v = A y /\ u = y) as (-> & ->) by (split; congruence)|assert (v = A y /\ u = y) as (-> & ->) by (split; congruence)|assert (u = A y /\ v = y) as (-> & ->) by (split; congruence)]; lia.
  Qed.
  Lemma comps_edge u v id : vx u -> In (v, id) (G u) -> P u <= P v -> components (fun v => vx v) (without_edge E id) (zlen rs + (if P u <? L v then 1 else 0)).
  Proof.
    intros Vu H Lp. pose proof (edge_bridge u v id Vu H Lp) as B. assert (Hi : 0 <= id < zlen E) by (apply HG in H; auto; destruct H as [H|H]; apply vget_range in H; auto).
    destruct (Z.ltb_spec (P u) (L v)) as [C|C].
    - apply B in C. apply bridge_iff in C. destruct C as (y & Vy & N & <- & HL). apply comps_bridge; auto.
    - rewrite Z.add_0_r. apply comps_nonbridge; auto. intros a b Cab. destruct (tree_dec id) as [(y & Vy & Ny & Ty)|X]; [|apply nontree_all; auto]. subst id.
      destruct (Z_lt_le_dec (P (A y)) (L y)); [|apply nonhead_all; auto]. exfalso. assert (bridge E (T y)) as X by (apply head_bridge; auto). apply B in X. lia.
  Qed.
  (* ---- one vertex removed ---- *)
  Local Notation cutc u z := (vx z /\ A z = u /\ P u <= L z).
  Lemma leave_T y x z : vx y -> sub y x -> In (z, T x) (G x) -> ~ sub y z -> x = y /\ z = A y /\ A y <> -1.
  Proof.
    intros Vy Sx H NS. pose proof Sx as (Vx & _). destruct (leave y x z (T x) Vy Sx H NS) as (Vz & _ & Lz & N & _).
    assert (Nx : A x <> -1). { intro X. destruct (sub_up y x Vy Sx) as [->|(Y & _)]; auto. }
    assert (Za : z = A x). { destruct (par x Vx Nx) as (VA & _ & TI & _). apply HG in H; auto. apply HG in TI; auto. destruct H as [H|H], TI as [TI|TI]; rewrite H in TI; [assert (z = x) by congruence|congruence|congruence|assert (z = x) by congruence]; subst z; contradiction. }
    destruct (sub_up y x Vy Sx) as [->|(Y & Sa & _)]; [auto|]. subst z. contradiction.
  Qed.
  Lemma root_child_cut u z : vx u -> A u = -1 -> vx z -> A z = u -> P u <= L z.
  Proof.
    intros Vu Au Vz Az. pose proof (in_interval n G G1 G2 w inj PL z u Vz Vu Az) as I. destruct (low_attained z Vz) as (x & Sx & [X|(t & id & X1 & X2 & X3)]); [destruct Sx; lia|].
    assert (sub u t) as (_ & S); [|lia]. apply (root_closed u x t id); auto. apply (sub_trans u z); auto. split; auto. lia.
  Qed.
  Lemma cut_step u z x y : vx u -> cutc u z -> In (x, y) (without_vertex E u) \/ In (y, x) (without_vertex E u) -> sub z x -> sub z y.
  Proof.
    intros Vu (Vz & Az & HL) H Sx. assert (X : exists id, In (y, id) (G x) /\ x <> u /\ y <> u).
    { destruct H as [H|H]; apply in_without_vertex in H; destruct H as (H & N1 & N2); apply E_G in H; destruct H as (id & _ & _ & _ & H1 & H2); exists id; auto. }
    destruct X as (id & Iy & Nx & Ny). pose proof Sx as (Vx & _). destruct (G1 _ _ _ Vx Iy) as (Vy & _). destruct (sub_dec z y Vy) as [S|S]; [auto|exfalso].
    destruct (leave z x y id Vz Sx Iy S) as (_ & _ & Ly & N & LA). rewrite Az in LA. destruct (Z.eq_dec id (T x)) as [->|NT].
    - destruct (leave_T z x y Vz Sx Iy S) as (_ & -> & _). auto.
    - pose proof (low_sub z x y id Vz Sx Iy NT). apply Ny. destruct (PL y Vy). apply inj; auto; lia.
  Qed.
  Lemma cut_closed u z a b : vx u -> cutc u z -> connected (without_vertex E u) a b -> (sub z a <-> sub z b).
  Proof. intros Vu Hz. apply connected_closed. intros x y H. split; apply (cut_step u); auto. Qed.
  Lemma child_of u v : vx u -> sub u v -> v <> u -> exists z, vx z /\ A z = u /\ sub z v.
  Proof.
    intros Vu. revert v. apply (climb (fun v => v <> u -> exists z, vx z /\ A z = u /\ sub z v) u Vu); [congruence|].
    intros x Vx Sx Lx N IH _. destruct (Z.eq_dec (A x) u) as [Q0|Q0]; [exists x; split; [auto|split; [auto|apply sub_self; auto]]|].
    destruct (IH Q0) as (z & Vz & Az & Sz). exists z. split; [auto|]. split; [auto|]. destruct (par x Vx N) as (VA & _ & _ & PA & PQ & QQ). apply (sub_trans z (A x)); auto. split; auto. lia.
  Qed.
  Lemma wv_par u t : vx t -> A t <> -1 -> t <> u -> A t <> u -> connected (without_vertex E u) t (A t).
  Proof.
    intros Vt Nt N1 N2. apply vget_connected with (T t); [|apply or_comm, tree_edge; auto]. intros (a, b) He. apply in_without_vertex. split; [apply (vget_In _ _ _ He)|].
    destruct (tree_edge t Vt Nt) as [X|X]; rewrite He in X; injection X as -> ->; auto.
  Qed.
  Lemma up_out u v : vx u -> vx v -> ~ sub u v -> exists r, vx r /\ A r = -1 /\ r <> u /\ connected (without_vertex E u) v r.
  Proof.
    intros Vu Vv NS. destruct (root_of v Vv) as (r & Vr & Ar & Sr). exists r. split; [auto|]. split; [auto|]. split; [intros ->; auto|].
    apply climb_connected; auto. intros t Vt St Lt Nt. apply wv_par; auto; [intros ->; auto|]. intro Q0. apply NS. destruct (par t Vt Nt) as (VA & _ & _ & PA & PQ & QQ). rewrite Q0 in *. apply (sub_trans u t); auto. split; auto. lia.
  Qed.
  Lemma up_in u z v : vx u -> vx z -> A z = u -> sub z v -> connected (without_vertex E u) v z.
  Proof.
    intros Vu Vz Az Sz. pose proof (in_interval n G G1 G2 w inj PL z u Vz Vu Az) as I. apply climb_connected; auto. intros t Vt St Lt Nt.
    assert (Szt : sub z t) by (destruct Sz, St; split; auto; lia). destruct (sub_up z t Vz Szt) as [->|(_ & (_ & Sa) & _)]; [lia|]. apply wv_par; auto; intro Q0; [subst t; lia|rewrite Q0 in Sa; lia].
  Qed.
  Lemma reach u v : vx u -> vx v -> v <> u -> (exists r, vx r /\ A r = -1 /\ r <> u /\ connected (without_vertex E u) v r) \/ (exists z, cutc u z /\ sub z v /\ connected (without_vertex E u) v z).
  Proof.
    intros Vu Vv Nv. destruct (sub_dec u v Vv) as [S|S]; [|left; apply up_out; auto]. destruct (child_of u v Vu S Nv) as (z & Vz & Az & Sz). pose proof (up_in u z v Vu Vz Az Sz) as C.
    destruct (Z_le_gt_dec (P u) (L z)) as [HL|HL]; [right; exists z; auto|left]. pose proof (in_interval n G G1 G2 w inj PL z u Vz Vu Az) as I.
    destruct (low_attained z Vz) as (x & Sx & [X|(t & id & X1 & X2 & X3)]); [destruct Sx; lia|]. pose proof Sx as (Vx & _). destruct (G1 _ _ _ Vx X1) as (Vt & _).
    destruct (up_out u t Vu Vt) as (r & Vr & Ar & Nr & C'). { intros (_ & S'). lia. } exists r. split; [auto|]. split; [auto|]. split; [auto|].
    apply connected_trans with z; [auto|]. apply connected_trans with x; [apply connected_sym, up_in; auto|]. apply connected_trans with t; [|auto].
    apply vget_connected with id; [|apply HG; auto]. intros (a, b) He. apply in_without_vertex. split; [apply (vget_In _ _ _ He)|].
    assert (x <> u) by (intros ->; destruct Sx; lia). assert (t <> u) by (intros ->; lia). apply HG in X1; auto. destruct X1 as [X1|X1]; rewrite He in X1; injection X1 as -> ->; auto.
  Qed.
  Lemma wv_incl u a b : connected (without_vertex E u) a b -> connected E a b.
  Proof. apply connected_incl. intros (c, d) H. apply in_without_vertex in H. tauto. Qed.
  Lemma comps_vertex u cs : vx u -> NoDup cs -> (forall z, In z cs <-> cutc u z) ->
    components (fun v => vx v /\ v <> u) (without_vertex E u) (zlen rs - (if A u =? -1 then 1 else 0) + zlen cs).
  Proof.
    intros Vu Nc Hc. set (rs' := filter (fun r => negb (r =? u)) rs).
    assert (I' : forall r, In r rs' <-> vx r /\ A r = -1 /\ r <> u). { intro r. unfold rs'. rewrite filter_In, rs_in, Bool.negb_true_iff, Z.eqb_neq. tauto. }
    assert (Ln : zlen rs' = zlen rs - (if A u =? -1 then 1 else 0)).
    { clear I'. unfold rs'. clear rs'. assert (K : forall l, NoDup l -> zlen (filter (fun r => negb (r =? u)) l) = zlen l - (if in_dec Z.eq_dec u l then 1 else 0)).
      { induction l as [|x l IH]; intro Nl; [reflexivity|]. inversion Nl; subst. specialize (IH H2). cbn [filter]. rewrite zlen_cons. destruct (Z.eqb_spec x u) as [->|Nx]; cbn [negb].
        - destruct (in_dec Z.eq_dec u l); [contradiction|]. destruct (in_dec Z.eq_dec u (u :: l)) as [|X]; [lia|exfalso; apply X; left; auto].
        - rewrite zlen_cons, IH. destruct (in_dec Z.eq_dec u l) as [i|i], (in_dec Z.eq_dec u (x :: l)) as [j|j]; try lia; exfalso; [apply j; right; auto|destruct j; auto]. }
      rewrite K by auto. f_equal. destruct (in_dec Z.eq_dec u rs) as [i|i]; rewrite rs_in in i; destruct (Z.eqb_spec (A u) (-1)); tauto. }
    rewrite <- Ln, Z.add_comm, <- zlen_app.
    assert (CL : forall z v, In z cs -> connected (without_vertex E u) z v -> sub z v). { intros z v Iz C. apply Hc in Iz. apply (cut_closed u z z v Vu Iz) in C. apply C, sub_self; tauto. }
    assert (CR : forall z r, In z cs -> In r rs' -> ~ connected (without_vertex E u) z r).
    { intros z r Iz Ir C. apply CL in C; auto. apply Hc in Iz. apply I' in Ir. destruct Iz as (Vz & Az & _), Ir as (Vr & Ar & Nr). destruct (sub_up z r Vz C) as [->|(X & _)]; [|congruence]. lia. }
    exists (cs ++ rs'). split; [auto|]. split; [|split; [|split]].
    - apply NoDup_app3. split; [auto|]. split; [apply NoDup_filter; auto|]. intros z Iz Ir. apply (CR z z Iz Ir). apply connected_refl.
    - intros r Ir. apply in_app_or in Ir. destruct Ir as [Ir|Ir]; [|apply I' in Ir; tauto]. apply Hc in Ir. destruct Ir as (Vr & Ar & _). split; [auto|]. intros ->. pose proof (in_interval n G G1 G2 w inj PL u u Vu Vu Ar). lia.
    - intros r r' Ir Ir' C. apply in_app_or in Ir. apply in_app_or in Ir'. destruct Ir as [Ir|Ir], Ir' as [Ir'|Ir'].
      + pose proof (CL r r' Ir C) as S1. apply connected_sym in C. pose proof (CL r' r Ir' C) as (_ & S2). destruct S1 as (V1 & S1). destruct (PL r' V1). apply Hc in Ir. apply inj; try tauto; lia.
      + exfalso. apply (CR r r'); auto.
      + exfalso. apply (CR r' r); auto. apply connected_sym; auto.
      + apply I' in Ir. apply I' in Ir'. apply roots_apart; try tauto. apply (wv_incl u); auto.
    - intros v (Vv & Nv). destruct (reach u v Vu Vv Nv) as [(r & R1 & R2 & R3 & R4)|(z & Z1 & _ & Z2)].
      + exists r. split; [apply in_or_app; right; apply I'; auto|auto].
      + exists z. split; [apply in_or_app; left; apply Hc; auto|auto].
  Qed.
  Lemma articulation_iff u : articulation n E u <-> is_art n w u.
  Proof.
    split.
    - intros (Vu & a & b & Na & Nb & C & NC). split; [auto|]. assert (RG : forall x y, In (x, y) E -> vx x /\ vx y) by exact HE.
      assert (AB : vx a /\ vx b). { destruct (Z.eq_dec a b) as [->|Nab]; [exfalso; apply NC, connected_refl|]. pose proof (connected_range n E a b RG C) as CR. assert (Va : vx a); [|tauto].
        destruct (Z_le_gt_dec 0 a) as [X1|X1]; [destruct (Z_lt_ge_dec a n) as [X2|X2]; [auto|]|]; exfalso; apply Nab; apply (connected_closed E (eq a) a b); auto; intros x y I; apply HE in I; split; intro; subst; lia. }
      destruct AB as (Va & Vb). destruct (reach u a Vu Va Na) as [(r & R1 & R2 & R3 & R4)|(z & (Z1 & Z2 & Z3) & ZS & Z4)], (reach u b Vu Vb Nb) as [(r' & R1' & R2' & R3' & R4')|(z' & (Z1' & Z2' & Z3') & ZS' & Z4')].
      + exfalso. apply NC. apply connected_trans with r; [auto|]. assert (r = r') as ->; [|apply connected_sym; auto]. apply roots_apart; auto. apply connected_trans with a; [apply connected_sym, (wv_incl u); auto|]. apply connected_trans with b; [auto|apply (wv_incl u); auto].
      + destruct (Z.eq_dec (A u) (-1)) as [Au|Au]; [|right; split; [auto|exists z'; auto]]. exfalso. apply R3. apply roots_apart; auto. apply connected_trans with a; [apply connected_sym, (wv_incl u); auto|]. apply connected_trans with b; [auto|]. apply connected_trans with z'; [apply (wv_incl u); auto|]. rewrite <- Z2'. apply par_connected; auto. lia.
      + destruct (Z.eq_dec (A u) (-1)) as [Au|Au]; [|right; split; [auto|exists z; auto]]. exfalso. apply R3'. apply roots_apart; auto. apply connected_trans with b; [apply connected_sym, (wv_incl u); auto|]. apply connected_trans with a; [apply connected_sym; auto|]. apply connected_trans with z; [apply (wv_incl u); auto|]. rewrite <- Z2. apply par_connected; auto. lia.
      + destruct (Z.eq_dec (A u) (-1)) as [Au|Au]; [|right; split; [auto|exists z; auto]]. left. split; [auto|]. exists z, z'. split; [|auto]. intros <-. apply NC. apply connected_trans with z; [auto|apply connected_sym; auto].
    - intros (Vu & [(Au & z & z' & Nz & Vz & Vz' & Az & Az')|(Au & z & Vz & Az & HL)]); (split; [auto|]).
      + pose proof (in_interval n G G1 G2 w inj PL z u Vz Vu Az) as I. pose proof (in_interval n G G1 G2 w inj PL z' u Vz' Vu Az') as I'. exists z, z'. split; [intros ->; lia|]. split; [intros ->; lia|]. split.
        * apply connected_trans with u; [rewrite <- Az; apply par_connected; auto; lia|]. apply connected_sym. rewrite <- Az'. apply par_connected; auto; lia.
        * intro C. assert (Cz : cutc u z) by (split; [auto|split; [auto|apply root_child_cut; auto]]). apply (cut_closed u z z z' Vu Cz) in C. pose proof (proj1 C (sub_self z Vz)) as S.
          destruct (sub_up z z' Vz S) as [->|(_ & (_ & Sa) & _)]; [auto|]. rewrite Az' in Sa. lia.
      + pose proof (in_interval n G G1 G2 w inj PL z u Vz Vu Az) as I. destruct (par u Vu Au) as (VA & _ & _ & PA & _). exists z, (A u). split; [intros ->; lia|]. split; [intro Q0; rewrite Q0 in PA; lia|]. split.
        * apply connected_trans with u; [rewrite <- Az; apply par_connected; auto; lia|apply par_connected; auto].
        * intro C. apply (cut_closed u z z (A u) Vu ltac:(auto)) in C. destruct (proj1 C (sub_self z Vz)) as (_ & S). lia.
  Qed.
  (* ---- two-edge-connected classes ---- *)
  Lemma tec_trans a b c : two_edge_connected E a b -> two_edge_connected E b c -> two_edge_connected E a c.
  Proof. intros (X1 & X2) (Y1 & Y2). split; [apply connected_trans with b; auto|]. intros id Hi. apply connected_trans with b; auto. Qed.
  Lemma tec_sym a b : two_edge_connected E a b -> two_edge_connected E b a.
  Proof. intros (X1 & X2). split; [apply connected_sym; auto|]. intros id Hi. apply connected_sym; auto. Qed.
  Lemma head_of x : vx x -> exists h, vx h /\ head h /\ sub h x /\ two_edge_connected E x h /\ (forall t, vx t -> sub t x -> P h < P t -> ~ head t) /\
    forall (f : Z -> Z), (forall v, vx v -> ~ head v -> f v = f (A v)) -> f x = f h.
  Proof.
    assert (K : forall k x, vx x -> P x <= Z.of_nat k -> exists h, vx h /\ head h /\ sub h x /\ two_edge_connected E x h /\ (forall t, vx t -> sub t x -> P h < P t -> ~ head t) /\
      forall (f : Z -> Z), (forall v, vx v -> ~ head v -> f v = f (A v)) -> f x = f h); [|intro Vx; apply (K (Z.to_nat (P x))); auto; lia].
    clear x. induction k as [|k IH]; intros x Vx Lx; (destruct (head_dec x) as [Hx|(N & NL)];
      [exists x; split; [auto|split; [auto|split; [apply sub_self; auto|split; [split; [|intros]; apply connected_refl|split; [intros t Vt (_ & S) Lt; lia|auto]]]]]|]).
    { destruct (par x Vx N) as (_ & _ & _ & PA & _). lia. }
    destruct (par x Vx N) as (VA & _ & _ & PA & PQ & QQ). assert (NH : ~ head x) by (intros [X|X]; [congruence|lia]).
    destruct (IH (A x) VA ltac:(lia)) as (h & Vh & Hh & Sh & Th & Oh & Fh). exists h. assert (Sx : sub (A x) x) by (split; auto; lia). split; [auto|]. split; [auto|]. split; [apply (sub_trans h (A x)); auto|]. split; [|split].
    - apply tec_trans with (A x); auto. split; [apply par_connected; auto|]. intros id Hi. apply nonhead_stays; auto.
    - intros t Vt St Lt. destruct (Z.eq_dec t x) as [->|Nt]; [auto|]. apply Oh; auto. destruct (sub_up t x Vt St) as [->|(_ & S & _)]; [congruence|auto].
    - intros f Hf. rewrite (Hf x); auto.
  Qed.
  Lemma tec_closed h a b : vx h -> head h -> two_edge_connected E a b -> sub h a -> sub h b.
  Proof.
    intros Vh Hh (C1 & C2). destruct (Z.eq_dec (A h) (-1)) as [Ah|Ah]; [apply root_subtree; auto|]. destruct Hh as [Hh|Hh]; [congruence|]. apply (head_closed h Vh Ah Hh a b). apply C2, tree_len; auto.
  Qed.
  Lemma tec_iff (f : Z -> Z) a b : (forall v, vx v -> ~ head v -> f v = f (A v)) -> (forall h h', vx h -> vx h' -> head h -> head h' -> f h = f h' -> h = h') -> vx a -> vx b ->
    (f a = f b <-> two_edge_connected E a b).
  Proof.
    intros F1 F2 Va Vb. destruct (head_of a Va) as (h & Vh & Hh & Sh & Th & Oh & Fh), (head_of b Vb) as (h' & Vh' & Hh' & Sh' & Th' & Oh' & Fh').
    rewrite (Fh f F1), (Fh' f F1). split.
    - intro Q0. apply F2 in Q0; auto. subst h'. apply tec_trans with h; auto. apply tec_sym; auto.
    - intro C. pose proof (tec_closed h a b Vh Hh C Sh) as S1. pose proof (tec_closed h' b a Vh' Hh' (tec_sym _ _ C) Sh') as S2. f_equal.
      destruct (Z.lt_trichotomy (P h) (P h')) as [X|[X|X]].
      + exfalso. apply (Oh h'); auto.
      + destruct (PL h Vh). apply inj; auto.
      + exfalso. apply (Oh' h); auto.
  Qed.
End G.
