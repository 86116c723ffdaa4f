(* Heavy-light decomposition: the statements *)
From Verif Require Import Base BaseLemmas ListZ ListMore Seq Graph_spec Tree_spec BFS_proof Tree_proof Tree_proof2 Tree_proof3 Tree_proof4 Tree_proof5 HLD_model HLD_proof HLD_proof2 HLD_proof3 HLD_proof4 HLD_proof5 HLD_proof6 HLD_spec.
From Coq Require Import Sorted Permutation.

Lemma hld_numbering_ok g par h v : hld_of g par h -> vertex g v ->
  exists t s d hd th, visit_ h v = Ok t /\ ord_ h t = Ok v /\ siz_ h v = Ok s /\ leave_ h v = Ok (t + s) /\
    par_ h v = Ok (par v) /\ dep_ h v = Ok d /\ depth par v d /\
    NoDup (visited h t (t + s)) /\ zlen (visited h t (t + s)) = s /\ (forall w, In w (visited h t (t + s)) <-> vertex g w /\ ancestor par v w) /\
    head_ h v = Ok hd /\ visit_ h hd = Ok th /\ climb par (t - th) v hd /\ simple_path g v hd (rev (visited h th (t + 1))).
Proof.
  intros Hh Hv. destruct (of_hfacts g par h Hh) as (dep & rt & g' & R & D & F).
  destruct (block g g' par dep rt h F v Hv) as (t & Rt & De & Nd & B1 & B2 & El & Es & Ss). destruct (f_siz g g' par dep rt h F v Hv) as (s & Es' & Ss'). pose proof (subsize_fun _ _ _ _ _ Ss Ss') as E. subst s.
  destruct (V_range g g' par dep rt h F v Hv) as (Rv & Ov). destruct (chain g g' par dep rt h R D F v Hv) as (Hh' & Lh & Eh & _).
  exists (gv (-1) (h_visit h) v), (zlen (nodes t)), (dep v), (gv (-1) (h_head h) v), (gv (-1) (h_visit h) (gv (-1) (h_head h) v)).
  split; [now apply (f_visit g g' par dep rt h F)|]. split; [unfold ord_; rewrite (f_ordk g g' par dep rt h F) by auto; now rewrite Ov|]. split; [auto|]. split; [rewrite (f_leave g g' par dep rt h F) by auto; now rewrite El|].
  split; [now apply (f_par g g' par dep rt h F)|]. split; [now apply (f_dep g g' par dep rt h F)|]. split; [now apply (depth_dep g par dep rt D)|].
  unfold visited. rewrite <- El, Es. split; [auto|]. split; [auto|]. split; [auto|]. split; [now apply (f_head g g' par dep rt h F)|]. split; [now apply (f_visit g g' par dep rt h F)|].
  pose proof (head_climb g g' par dep rt h R D F v Hv) as C. split; [exact C|].
  destruct (stretch g g' par dep rt h R D F _ v Hh' Hv Eh Lh) as (_ & ->). cbn [rev]. rewrite rev_involutive.
  pose proof (treepath_ok g par dep rt R D v (gv (-1) (h_head h) v) (gv (-1) (h_head h) v) _ 0 Hv Hh' (lca_sym par _ _ _ (lca_anc par _ _ (ex_intro _ _ C))) C (climb_0 par _)) as (X & _). exact X.
Qed.
Lemma hld_order_ok g par h : hld_of g par h -> Permutation (h_ord h) (zrange (zlen g)) /\ inv_ids h = Ok (h_ord h) /\ get_roots h = Ok (filter (fun v => par v =? -1) (zrange (zlen g))).
Proof.
  intros Hh. destruct (of_hfacts g par h Hh) as (dep & rt & g' & R & D & F). split; [|split; [now apply (inv_ok g g' par dep rt)|now apply (roots_ok g g' par dep rt)]].
  pose proof (f_olen g g' par dep rt h F) as Lo. apply NoDup_Permutation_bis.
  - apply NoDup_nth with (d := -1). intros i j Hi Hj E. pose proof (fun k => f_ord g g' par dep rt h F k) as Fo. unfold gv in Fo.
    destruct (Fo (Z.of_nat i) ltac:(unfold zlen in *; lia)) as (_ & E1). destruct (Fo (Z.of_nat j) ltac:(unfold zlen in *; lia)) as (_ & E2). rewrite Nat2Z.id in E1, E2. rewrite E in E1. lia.
  - pose proof (zlen_zrange (zlen g) (size_nonneg g)). unfold zlen in *. lia.
  - intros x I. apply In_vget in I as (k & Rk & Ek). apply (gv_vget (-1)) in Ek. subst x. apply In_zrange. apply (f_ord g g' par dep rt h F k). lia.
Qed.
Lemma hld_light_ok g par h v a b : hld_of g par h -> vertex g v -> par v <> -1 -> head_ h v = Ok v -> siz_ h v = Ok a -> siz_ h (par v) = Ok b -> 2 * a < b.
Proof.
  intros Hh Hv N Eh Ea Eb. destruct (of_hfacts g par h Hh) as (dep & rt & g' & R & D & F). assert (Hp := par_vertex g par R v Hv N).
  destruct (f_siz g g' par dep rt h F v Hv) as (a' & Ea' & Sa). destruct (f_siz g g' par dep rt h F _ Hp) as (b' & Eb' & Sb). unfold siz_ in *. rewrite Ea in Ea'. rewrite Eb in Eb'. injection Ea' as <-. injection Eb' as <-.
  apply (light g g' par dep rt h R D F v); auto. rewrite (f_head g g' par dep rt h F v Hv) in Eh. now injection Eh.
Qed.
Lemma hld_graph_ok g h g' : forest g -> hld_new g = Ok (h, g') -> zlen g' = zlen g /\ forall u adj, vget g u = Ok adj -> exists adj', vget g' u = Ok adj' /\ Permutation adj' adj.
Proof.
  intros Fo E. destruct (new_exists g Fo) as (h0 & g0 & par & E0 & Hh). rewrite E in E0. injection E0 as <- <-. destruct Hh as (R & g1 & Hc).
  pose proof Fo as (p0 & R0). destruct (dep_fun g par R) as (dep & rt & D & m & B). destruct (dep_fun g p0 R0) as (dep0 & rt0 & D0 & _).
  pose proof (least_one_each g p0 dep0 rt0 R0 D0) as One. destruct (choose_one_each g _ Fo One) as (pr & Rr & Hr). destruct (dep_fun g pr Rr) as (dp & r & Dr & mr & Br).
  destruct (new_ok g pr dp r mr Rr Dr Br) as (h2 & g2 & E2 & F).
  - intros v Hv. assert (I := proj1 (Hr (r v) (rt_vertex g pr dp r Dr v Hv)) (par_rt g pr dp r Dr v Hv)). apply (least_roots_In g p0 dep0 rt0 (r v) R0 D0) in I as (_ & L). apply L; auto. apply (conn_rt g pr dp r Rr Dr); auto; [now apply (rt_vertex g pr dp r Dr)|]. symmetry. exact (rt_anc g pr dp r Rr Dr (r v) v (anc_rt g pr dp r Dr v Hv) Hv).
  - rewrite E in E2. injection E2 as <- <-. destruct F as (_ & _ & _ & _ & _ & _ & _ & _ & Zg & Pm & _). split; auto. intros u adj Eu. pose proof (vget_range _ _ _ Eu) as Ru. exists (row g' u). split; [apply row_vget; lia|]. specialize (Pm u Ru). unfold row at 2 in Pm. now rewrite (gv_vget [] _ _ _ Eu) in Pm.
Qed.
Lemma hld_lca_ok g par h u v : hld_of g par h -> vertex g u -> vertex g v -> connected g u v -> exists a, lca h u v = Ok a /\ is_lca par u v a.
Proof.
  intros Hh Hu Hv C. destruct (of_hfacts g par h Hh) as (dep & rt & g' & R & D & F). destruct (lca_exists g par dep rt R D u v Hu Hv C) as (a & La). exists a. split; auto. now apply (lca_ok g g' par dep rt h R D F).
Qed.
Lemma hld_la_ok g par h u k dflt : hld_of g par h -> vertex g u -> (forall a, climb par k u a -> la h u k dflt = Ok a) /\ ((forall a, ~ climb par k u a) -> la h u k dflt = Ok dflt).
Proof. intros Hh Hu. destruct (of_hfacts g par h Hh) as (dep & rt & g' & R & D & F). now apply (la_ok g g' par dep rt h R D F). Qed.
Lemma hld_dist_ok g par h u v : hld_of g par h -> vertex g u -> vertex g v -> connected g u v -> exists d, dist h u v = Ok d /\ best (hop g) u v d.
Proof. intros Hh Hu Hv C. destruct (of_hfacts g par h Hh) as (dep & rt & g' & R & D & F). now apply (dist_ok g g' par dep rt h R D F). Qed.
Lemma hld_path_ok g par h u v : hld_of g par h -> vertex g u -> vertex g v -> connected g u v -> exists p, simple_path g u v p /\ forall q, simple_path g u v q -> q = p.
Proof.
  intros Hh Hu Hv C. destruct (of_hfacts g par h Hh) as (dep & rt & g' & R & D & F). destruct (path_ok g par dep rt R D u v Hu Hv C) as (p & Sp). exists p. split; auto. intros q Sq. now apply (path_unique g par dep rt R D q u v p).
Qed.
Lemma hld_jump_ok g par h u v p d dflt : hld_of g par h -> vertex g u -> vertex g v -> simple_path g u v p ->
  (forall x, vget p d = Ok x -> jump h u v d dflt = Ok x) /\ (~ 0 <= d < zlen p -> jump h u v d dflt = Ok dflt).
Proof.
  intros Hh Hu Hv Sp. destruct (of_hfacts g par h Hh) as (dep & rt & g' & R & D & F). pose proof (jump_ok g g' par dep rt h R D F u v p d dflt Hu Hv Sp) as J. rewrite J. split; [intros x ->; reflexivity|].
  intros No. destruct (vget p d) as [x| | |] eqn:E; auto. apply vget_range in E. contradiction.
Qed.
Lemma hld_fold_ok {T} (op : T -> T -> T) (e : T) w q g par h u v p a is_edge : is_monoid op e -> (forall x y, op x y = op y x) -> hld_of g par h -> answers h op e w q ->
  vertex g u -> vertex g v -> simple_path g u v p -> is_lca par u v a -> fold_path h op e q u v is_edge = Ok (lprod op e (map w (queried is_edge a p))).
Proof. intros M C Hh A Hu Hv Sp La. destruct (of_hfacts g par h Hh) as (dep & rt & g' & R & D & F). now apply (fold_path_ok g g' par dep rt h R D F). Qed.
Lemma hld_fold_nc_ok {T} (op : T -> T -> T) (e : T) w q qr g par h u v p a is_edge : is_monoid op e -> hld_of g par h -> answers h op e w q -> answers_rev h op e w qr ->
  vertex g u -> vertex g v -> simple_path g u v p -> is_lca par u v a -> fold_path_noncommutative h op e q qr u v is_edge = Ok (lprod op e (map w (queried is_edge a p))).
Proof. intros M Hh A A2 Hu Hv Sp La. destruct (of_hfacts g par h Hh) as (dep & rt & g' & R & D & F). now apply (fold_nc_ok g g' par dep rt h R D F). Qed.
Lemma hld_update_ok g par h u v p a is_edge : hld_of g par h -> vertex g u -> vertex g v -> simple_path g u v p -> is_lca par u v a ->
  exists rs, (forall l r, In (l, r) rs -> 0 <= l <= r /\ r <= zlen g) /\ zlen rs <= 2 * Z.log2 (zlen g) + 1 /\
    Permutation (flat_map (fun '(l, r) => visited h l r) rs) (queried is_edge a p) /\
    forall S (upd : Z -> Z -> S -> res S) st, update_path h upd u v is_edge st = for_each rs (fun '(l, r) st => upd l r st) st.
Proof.
  intros Hh Hu Hv Sp La. destruct (of_hfacts g par h Hh) as (dep & rt & g' & R & D & F). destruct (update_path_ok g g' par dep rt h R D F u v a p is_edge Hu Hv Sp La) as (rs & R1 & R2 & R3 & R4). exists rs.
  split; [intros l r I; exact (R1 (l, r) I)|]. split; auto. split.
  - rewrite <- R3. apply Permutation_refl'. apply flat_map_ext. now intros (l, r).
  - intros S upd st. rewrite R4. clear. revert st. induction rs as [|(l, r) rs IH]; intros st; auto. cbn [for_each]. unfold upd_each at 1. cbn [fst snd]. destruct (upd l r st); cbn [bind]; auto.
Qed.
Lemma hld_subtree_ok g par h u is_edge : hld_of g par h -> vertex g u ->
  exists l r, 0 <= l <= r /\ r <= zlen g /\ NoDup (visited h l r) /\ (forall w, In w (visited h l r) <-> vertex g w /\ ancestor par u w /\ (is_edge = true -> w <> u)) /\
    (forall T (q : Z -> Z -> res T), fold_subtree h q u is_edge = q l r) /\
    (forall S (upd : Z -> Z -> S -> res S) st, update_subtree h upd u is_edge st = upd l r st).
Proof.
  intros Hh Hv. destruct (of_hfacts g par h Hh) as (dep & rt & g' & R & D & F).
  destruct (block g g' par dep rt h F u Hv) as (t & Rt & De & Nd & B1 & B2 & El & Es & Ss). destruct (V_range g g' par dep rt h F u Hv) as (Rv & Ov).
  exists (gv (-1) (h_visit h) u + Z.b2z is_edge), (gv (-1) (h_leave h) u). rewrite El. pose proof (size_pos t) as Sp. split; [destruct is_edge; cbn [Z.b2z]; lia|]. split; [lia|].
  assert (X : visited h (gv (-1) (h_visit h) u + Z.b2z is_edge) (gv (-1) (h_visit h) u + zlen (nodes t)) = if is_edge then tl (nodes t) else nodes t).
  { unfold visited. rewrite <- El. destruct is_edge; cbn [Z.b2z]; [|rewrite Z.add_0_r; exact Es]. rewrite <- Es. unfold slice.
    replace (Z.to_nat (gv (-1) (h_leave h) u - (gv (-1) (h_visit h) u + 1))) with (Nat.sub (Z.to_nat (gv (-1) (h_leave h) u - gv (-1) (h_visit h) u)) 1) by lia.
    replace (Z.to_nat (gv (-1) (h_visit h) u + 1)) with (Datatypes.S (Z.to_nat (gv (-1) (h_visit h) u))) by lia.
    assert (Kn : (1 <= Z.to_nat (gv (-1) (h_leave h) u - gv (-1) (h_visit h) u)%Z)%nat) by lia. revert Kn. generalize (Z.to_nat (gv (-1) (h_leave h) u - gv (-1) (h_visit h) u)). generalize (Z.to_nat (gv (-1) (h_visit h) u)). generalize (h_ord h). clear.
    intros l a b Hb. revert l. induction a as [|a IH]; intros [|x l]; cbn [skipn]; try (now rewrite ?firstn_nil); [|now apply IH]. destruct b as [|b]; [lia|]; cbn [firstn tl Nat.sub]; rewrite ?Nat.sub_0_r; auto. }
  rewrite X. destruct t as [u' cs]. cbn [root] in Rt. subst u'. cbn [nodes tl] in *. inversion Nd as [|? ? Nu Nt]. subst. split; [destruct is_edge; auto|]. split.
  - intros w. specialize (De w). destruct is_edge; cbn [In] in *.
    + split; [intros I; destruct (proj1 De (or_intror I)) as (H1 & H2); split; [auto|]; split; [auto|]; intros _ ->; contradiction|]. intros (H1 & H2 & H3). destruct (proj2 De (conj H1 H2)) as [->|I]; auto. now destruct H3.
    + rewrite De. split; [intros (H1 & H2); split; [auto|]; split; [auto|]; discriminate|intros (H1 & H2 & _); auto].
  - split; intros; [unfold fold_subtree|unfold update_subtree]; rewrite (f_visit g g' par dep rt h F), (f_leave g g' par dep rt h F) by auto; cbn [bind]; now rewrite El.
Qed.
