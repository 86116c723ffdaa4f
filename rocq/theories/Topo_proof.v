(* topological_sort *)
From Verif Require Import Base BaseLemmas ListZ ListMore Graph_spec BFS_proof Topo_model.
From Coq Require Import Permutation.

Definition occ (l : list Z) (v : Z) : Z := Z.of_nat (count_occ Z.eq_dec l v).
Lemma occ_nonneg l v : 0 <= occ l v. Proof. unfold occ. lia. Qed.
Lemma occ_app a b v : occ (a ++ b) v = occ a v + occ b v.
Proof. unfold occ. rewrite count_occ_app. lia. Qed.
Lemma occ_cons x l v : occ (x :: l) v = (if x =? v then 1 else 0) + occ l v.
Proof. unfold occ. cbn [count_occ]. destruct (Z.eq_dec x v), (Z.eqb_spec x v); try lia; congruence. Qed.
Lemma occ_zero l v : occ l v = 0 <-> ~ In v l.
Proof. unfold occ. rewrite (count_occ_not_In Z.eq_dec). lia. Qed.

Section Topo.
  Variable g : list (list Z).
  Hypothesis G : graph_ok g.
  Notation n := (zlen g).
  Definition adj (u : Z) : list Z := nth (Z.to_nat u) g [].
  Lemma vget_adj u : vertex g u -> vget g u = Ok (adj u). Proof. apply vget_nth. Qed.
  Lemma edge_adj u v : vertex g u -> (edge g u v <-> In v (adj u)).
  Proof. intros Hu. unfold edge. rewrite vget_adj by auto. split; [intros (a & [= <-] & H); auto|eauto]. Qed.
  Lemma edge_src u v : edge g u v -> vertex g u. Proof. intros (a & E & _). eapply vget_range; eauto. Qed.
  (* the edges out of the vertices that are not listed yet *)
  Definition row (ord : list Z) (u : Z) : list Z := if in_dec Z.eq_dec u ord then [] else adj u.
  Definition live (ord : list Z) (v : Z) : Z := occ (concat (map (row ord) (zrange n))) v.
  Lemma live_start v : live [] v = occ (concat g) v.
  Proof.
    unfold live. do 2 f_equal. apply list_eq; [rewrite zlen_map, zlen_zrange; auto using zlen_nonneg|]. intros i Hi. rewrite zlen_map, zlen_zrange in Hi by apply zlen_nonneg.
    rewrite vget_map, vget_zrange by auto. cbn [bind]. unfold row. cbn [in_dec]. rewrite vget_adj by auto. reflexivity.
  Qed.
  Lemma live_drop ord u v : vertex g u -> ~ In u ord -> live ord v = live (ord ++ [u]) v + occ (adj u) v.
  Proof.
    intros Hu Nu. unfold live. assert (I : In u (zrange n)) by (apply In_zrange; auto). pose proof (NoDup_zrange n) as ND. revert I ND. generalize (zrange n). intros l. induction l as [|x l IH]; intros I ND; [destruct I|].
    inversion ND; subst. cbn [map concat]. rewrite !occ_app. destruct (Z.eq_dec x u) as [->|Ne].
    - assert (E : map (row ord) l = map (row (ord ++ [u])) l).
      { apply map_ext_in. intros y Hy. unfold row. destruct (in_dec Z.eq_dec y ord) as [A|A], (in_dec Z.eq_dec y (ord ++ [u])) as [B|B]; auto; rewrite in_app_iff in B; cbn [In] in B; try tauto. assert (u = y) by tauto. congruence. }
      rewrite E. unfold row at 1 3. destruct (in_dec Z.eq_dec u ord); [tauto|]. destruct (in_dec Z.eq_dec u (ord ++ [u])) as [|N]; [unfold occ at 3; cbn; lia|]. destruct N. apply in_app_iff. right. now left.
    - destruct I as [|I]; [congruence|]. rewrite (IH I) by auto. replace (row (ord ++ [u]) x) with (row ord x); [lia|]. unfold row.
      destruct (in_dec Z.eq_dec x ord) as [A|A], (in_dec Z.eq_dec x (ord ++ [u])) as [B|B]; auto; rewrite in_app_iff in B; cbn [In] in B; try tauto. assert (u = x) by tauto. congruence.
  Qed.
  Lemma live_zero ord v : live ord v = 0 <-> forall u, edge g u v -> In u ord.
  Proof.
    unfold live. rewrite occ_zero. split.
    - intros H u He. pose proof (edge_src _ _ He) as Hu. destruct (in_dec Z.eq_dec u ord) as [|N]; auto. destruct H. apply in_concat. exists (row ord u). split; [apply in_map; now apply In_zrange|].
      unfold row. destruct (in_dec Z.eq_dec u ord); [tauto|]. now apply edge_adj.
    - intros H I. apply in_concat in I as (r & Hr & Hv). apply in_map_iff in Hr as (u & <- & Hu). apply In_zrange in Hu. unfold row in Hv. destruct (in_dec Z.eq_dec u ord) as [|N]; [destruct Hv|].
      apply N, H. now apply edge_adj.
  Qed.
  Lemma indeg_ok : exists inn, for_each g (fun adj inn => for_each adj (fun j inn => let* x := vget inn j in vset inn j (x + 1)) inn) (vrep n 0) = Ok inn /\ zlen inn = n /\
    forall v, vertex g v -> dv inn v = live [] v.
  Proof.
    pose proof (zlen_nonneg g) as N0.
    destruct (for_each_inv (fun done inn => zlen inn = n /\ forall v, vertex g v -> dv inn v = occ (concat done) v) g
      (fun adj inn => for_each adj (fun j inn => let* x := vget inn j in vset inn j (x + 1)) inn) (vrep n 0)) as (inn & E & Zi & Di).
    - split; [now apply zlen_vrep|]. intros v Hv. now rewrite dv_vrep.
    - intros done a todo inn El (Zi & Di).
      destruct (for_each_inv (fun done' inn => zlen inn = n /\ forall v, vertex g v -> dv inn v = occ (concat done) v + occ done' v) a
        (fun j inn => let* x := vget inn j in vset inn j (x + 1)) inn) as (inn' & E & Zi' & Di').
      + split; auto. intros v Hv. rewrite Di by auto. unfold occ at 3. cbn. lia.
      + intros done' j todo' s Ea (Zs & Ds).
        assert (Hj : 0 <= j < n).
        { apply (G (zlen done)). exists a. split; [|rewrite Ea; apply in_app_iff; right; now left]. rewrite El. now apply vget_mid. }
        rewrite vget_dv by lia. cbn [bind]. rewrite vset_ok by lia. eexists. split; [reflexivity|]. split; [now rewrite zlen_zupd|]. intros v Hv. unfold vertex in Hv. rewrite dv_zupd by lia.
        rewrite occ_app, occ_cons. unfold occ at 3. cbn [count_occ]. rewrite !Ds by auto. destruct (Z.eqb_spec j v) as [->|]; lia.
      + exists inn'. split; auto. split; auto. intros v Hv. rewrite concat_app, occ_app. cbn [concat]. rewrite app_nil_r. auto.
    - exists inn. split; auto. split; auto. intros v Hv. rewrite live_start. auto.
  Qed.
  Definition ready (inn : list Z) (l : list Z) : Prop :=
    zlen inn = n /\ NoDup l /\ (forall v, In v l -> vertex g v) /\ forall v, vertex g v -> (In v l <-> dv inn v = 0).
  Lemma start_ok inn : zlen inn = n -> exists dq, for_ 0 n (fun i dq => let* x := vget inn i in Ok (if x =? 0 then dq ++ [i] else dq)) [] = Ok dq /\ ready inn dq.
  Proof.
    intros Zi. pose proof (zlen_nonneg g) as N0.
    destruct (for_inv (fun i dq => NoDup dq /\ forall v, In v dq <-> 0 <= v < i /\ dv inn v = 0) 0 n (fun i dq => let* x := vget inn i in Ok (if x =? 0 then dq ++ [i] else dq)) []) as (dq & E & ND & Hq); [auto| | |].
    - split; [constructor|]. intros v. split; [intros []|lia].
    - intros i dq Hi (ND & Hq). rewrite vget_dv by lia. cbn [bind]. eexists. split; [reflexivity|]. destruct (Z.eqb_spec (dv inn i) 0).
      + split; [apply NoDup_app_snoc; auto; rewrite Hq; lia|]. intros v. rewrite in_app_iff, Hq. cbn [In]. split; [intros [A|[<-|[]]]; split; auto; try lia; tauto|]. intros (A & B). destruct (Z.eq_dec i v); [auto|left; split; [lia|auto]].
      + split; auto. intros v. rewrite Hq. split; intros (A & B); split; auto; try lia. destruct (Z.eq_dec v i) as [->|]; [congruence|lia].
    - exists dq. split; auto. split; auto. split; auto. split; [intros v Hv; apply Hq in Hv; apply Hv|]. intros v Hv. rewrite Hq. unfold vertex in Hv. tauto.
  Qed.
  Definition TP (s : list Z * list Z * list Z) : Prop :=
    let '(inn, dq, ord) := s in
    ready inn (ord ++ dq) /\ (forall v, vertex g v -> dv inn v = live ord v) /\
    (forall a v b, ord = a ++ v :: b -> forall u, edge g u v -> In u a).
  Lemma topo_step s : TP s -> exists x, topo_loop g s = Ok x /\
    match x with inl s' => TP s' /\ (length g - length (snd s') < length g - length (snd s))%nat
    | inr ord => exists inn, TP (inn, [], ord) end.
  Proof.
    destruct s as [[inn dq] ord]. intros T. unfold topo_loop. destruct dq as [|u dq]; [eexists; split; [reflexivity|]; exists inn; exact T|].
    pose proof T as ((Zi & ND & Vx & Rd) & Lv & Od). assert (Iu : In u (ord ++ u :: dq)) by (apply in_app_iff; right; now left). pose proof (Vx u Iu) as Hu. rewrite vget_adj by auto. cbn [bind].
    assert (Nu : ~ In u ord). { intros A. apply NoDup_remove_2 in ND. apply ND. apply in_app_iff. auto. }
    destruct (for_each_inv (fun done s => let '(inn, dq) := s in ready inn (ord ++ u :: dq) /\ forall v, vertex g v -> dv inn v = live (ord ++ [u]) v + occ (adj u) v - occ done v) (adj u) dec_visit (inn, dq)) as ((inn' & dq') & E & R' & L').
    - split; [split; auto|]. intros v Hv. rewrite Lv, (live_drop ord u) by auto. unfold occ at 3. cbn. lia.
    - intros done v todo (inn1, dq1) El ((Z1 & ND1 & V1 & R1) & L1). assert (He : edge g u v) by (apply edge_adj; auto; rewrite El; apply in_app_iff; right; now left). pose proof (G _ _ He) as Hv.
      unfold dec_visit. rewrite vget_dv by lia. cbn [bind]. rewrite vset_ok by lia. cbn [bind]. eexists. split; [reflexivity|].
      assert (Pos : 1 <= dv inn1 v).
      { rewrite L1 by auto. rewrite El, occ_app, occ_cons, Z.eqb_refl. pose proof (occ_nonneg todo v). pose proof (occ_nonneg (concat (map (row (ord ++ [u])) (zrange n))) v). unfold live. lia. }
      assert (Nv : ~ In v (ord ++ u :: dq1)) by (rewrite R1 by auto; lia).
      assert (Lz : forall w, vertex g w -> dv (zupd inn1 v (dv inn1 v - 1)) w = dv inn1 w - if v =? w then 1 else 0).
      { intros w Hw. unfold vertex in Hw. rewrite dv_zupd by lia. destruct (Z.eqb_spec v w) as [->|]; lia. }
      split.
      + split; [now rewrite zlen_zupd|]. destruct (Z.eqb_spec (dv inn1 v - 1) 0) as [E0|N0].
        * replace (ord ++ u :: dq1 ++ [v]) with ((ord ++ u :: dq1) ++ [v]) by (rewrite <- app_assoc; reflexivity). split; [now apply NoDup_app_snoc|]. split; [intros w Hw; apply in_app_iff in Hw as [Hw|[<-|[]]]; auto|].
          intros w Hw. rewrite in_app_iff, R1, Lz by auto. cbn [In]. destruct (Z.eqb_spec v w) as [->|]; [split; [lia|auto]|]. split; [intros [A|[A|[]]]; [lia|congruence]|left; lia].
        * split; auto. split; auto. intros w Hw. rewrite R1, Lz by auto. destruct (Z.eqb_spec v w) as [->|]; lia.
      + intros w Hw. rewrite Lz, L1, occ_app, occ_cons by auto. assert (occ [] w = 0) by reflexivity. lia.
    - rewrite E. cbn [bind]. eexists. split; [reflexivity|]. split.
      + split; [rewrite <- app_assoc; exact R'|]. split; [intros v Hv; rewrite L' by auto; lia|]. intros a v b Eo w Hw. destruct b as [|x b] using rev_ind.
        * apply app_inj_tail in Eo as (<- & <-). apply (proj1 (live_zero ord u)); auto. rewrite <- Lv by auto. now apply Rd.
        * clear IHb. rewrite app_comm_cons, app_assoc in Eo. apply app_inj_tail in Eo as (Eo & _). eapply Od; eauto.
      + cbn [snd]. rewrite app_length. cbn [length]. pose proof (NoDup_range_length _ _ ND Vx) as L. pose proof (zlen_nonneg g). unfold zlen in L, H. rewrite app_length in L. cbn [length] in L. lia.
  Qed.
  Lemma topo_run : exists ord inn, topo_sorted g = Ok ord /\ TP (inn, [], ord).
  Proof.
    unfold topo_sorted. destruct indeg_ok as (inn & E & Zi & Di). rewrite E. cbn [bind]. destruct (start_ok inn Zi) as (dq & E2 & R). rewrite E2. cbn [bind].
    destruct (loop_inv TP (fun s => length g - length (snd s))%nat (fun ord => exists inn, TP (inn, [], ord)) (topo_loop g) (length g + 1) (inn, dq, [])) as (ord & E3 & inn' & T).
    - split; [exact R|]. split; auto. intros a v b Eo. destruct a; discriminate.
    - cbn [snd length]. lia.
    - exact topo_step.
    - eauto.
  Qed.

  (* cycles *)
  Inductive chain : list Z -> Prop :=
    | chain_one v : chain [v]
    | chain_cons u v p : edge g u v -> chain (v :: p) -> chain (u :: v :: p).
  Lemma chain_reach b : forall x y c, chain (x :: b ++ y :: c) -> reach (hop g) x y (zlen b + 1).
  Proof.
    induction b as [|z b IH]; intros x y c H; cbn [app] in H; inversion H as [|u v p He Hc]; subst.
    - exists [x; y]. replace (zlen [] + 1) with (1 + 0) by reflexivity. econstructor; [split; eauto|constructor].
    - destruct (IH _ _ _ Hc) as (q & R). exists (x :: q). rewrite zlen_cons. replace (zlen b + 1 + 1) with (1 + (zlen b + 1)) by lia. econstructor; [split; eauto|auto].
  Qed.
  Lemma chain_suffix a : forall x l, chain (a ++ x :: l) -> chain (x :: l).
  Proof.
    induction a as [|y a IH]; intros x l H; auto. apply IH. cbn [app] in H. inversion H as [v E|u v p He Hc E]; subst; auto; destruct a; discriminate.
  Qed.
  Lemma dup_split (l : list Z) : ~ NoDup l -> exists a x b c, l = a ++ x :: b ++ x :: c.
  Proof.
    induction l as [|x l IH]; intros H; [destruct H; constructor|]. destruct (in_dec Z.eq_dec x l) as [I|N].
    - apply in_split in I as (b & c & ->). exists [], x, b, c. reflexivity.
    - destruct IH as (a & y & b & c & ->); [intros ND; apply H; now constructor|]. exists (x :: a), y, b, c. reflexivity.
  Qed.
  Lemma stuck_cyclic (S : Z -> Prop) v0 : S v0 -> (forall v, S v -> vertex g v) -> (forall v, S v -> exists u, S u /\ edge g u v) -> cyclic g.
  Proof.
    intros H0 Hv Hp. assert (K : forall k, exists p, length p = (k + 1)%nat /\ chain p /\ forall v, In v p -> S v).
    { induction k as [|k (p & L & C & A)]; [exists [v0]; split; auto; split; [constructor|]; intros v [<-|[]]; auto|].
      destruct p as [|v p]; [cbn in L; lia|]. destruct (Hp v) as (u & Su & He); [apply A; now left|]. exists (u :: v :: p). split; [cbn [length] in *; lia|]. split; [now constructor|]. intros w [<-|Hw]; auto. }
    destruct (K (length g)) as (p & L & C & A). destruct (dup_split p) as (a & x & b & c & ->).
    - intros ND. pose proof (NoDup_range_length p n ND (fun v Hv' => Hv v (A v Hv'))) as Lp. unfold zlen in Lp. lia.
    - apply chain_suffix in C. exists x, (zlen b + 1). split; [eapply chain_reach; eauto|]. pose proof (zlen_nonneg b). lia.
  Qed.
  Fixpoint pos (l : list Z) (v : Z) : Z := match l with [] => 0 | x :: l => if x =? v then 0 else 1 + pos l v end.
  Lemma pos_at a v b : ~ In v a -> pos (a ++ v :: b) v = zlen a.
  Proof.
    induction a as [|x a IH]; intros H; cbn [app pos]; [now rewrite Z.eqb_refl|]. destruct (Z.eqb_spec x v) as [->|]; [destruct H; now left|]. rewrite IH, zlen_cons; [lia|]. intros I. apply H. now right.
  Qed.
  Lemma tp_full inn ord : TP (inn, [], ord) -> zlen ord = n -> Permutation ord (zrange n) /\ forall u v, edge g u v -> exists a b c, ord = a ++ u :: b ++ v :: c.
  Proof.
    intros ((Zi & ND & Vx & Rd) & Lv & Od) D. rewrite app_nil_r in *.
    assert (P : Permutation ord (zrange n)).
    { apply NoDup_Permutation_bis; auto. - unfold zrange. rewrite map_length, seq_length. unfold zlen in *. lia. - intros v Hv. now apply In_zrange, Vx. }
    split; auto. intros u v He. assert (Hv : In v ord) by (eapply Permutation_in; [apply Permutation_sym; exact P|]; apply In_zrange; eapply G; eauto).
    apply in_split in Hv as (a & b & ->). pose proof (Od a v b eq_refl u He) as Iu. apply in_split in Iu as (a1 & a2 & ->). exists a1, a2, b. now rewrite <- app_assoc.
  Qed.
  Lemma tp_acyclic inn ord : TP (inn, [], ord) -> zlen ord = n -> ~ cyclic g.
  Proof.
    intros T D (v & c & (p & R) & Hc). destruct (tp_full _ _ T D) as (P & Fw). destruct T as ((Zi & ND & Vx & Rd) & Lv & Od). rewrite app_nil_r in *.
    assert (Mono : forall s t p c, route (hop g) s t p c -> pos ord s + c <= pos ord t).
    { induction 1 as [s|s w t q c0 d (He & ->) R' IH]; [lia|]. destruct (Fw _ _ He) as (a & b & e & Eo). rewrite Eo in ND.
      assert (Ns : ~ In s a) by (intros I; apply NoDup_remove_2 in ND; apply ND; apply in_app_iff; auto).
      assert (Nw : ~ In w (a ++ s :: b)).
      { intros I. rewrite app_comm_cons, app_assoc in ND. apply NoDup_remove_2 in ND. apply ND. apply in_app_iff. auto. }
      pose proof (pos_at a s (b ++ w :: e) Ns) as P1. pose proof (pos_at (a ++ s :: b) w e Nw) as P2. rewrite <- app_assoc in P2. cbn [app] in P2. rewrite <- Eo in P1, P2. rewrite zlen_app, zlen_cons in P2. pose proof (zlen_nonneg b). lia. }
    specialize (Mono _ _ _ _ R). lia.
  Qed.
  Lemma tp_stuck inn ord : TP (inn, [], ord) -> zlen ord <> n -> cyclic g.
  Proof.
    intros ((Zi & ND & Vx & Rd) & Lv & Od) D. rewrite app_nil_r in *.
      assert (Ex : exists v, vertex g v /\ ~ In v ord).
      { destruct (Exists_dec (fun v => ~ In v ord) (zrange n)) as [Ex|Nx]; [intros v; destruct (in_dec Z.eq_dec v ord); [right; tauto|now left]| |].
        - apply Exists_exists in Ex as (v & Hv & Nv). apply In_zrange in Hv. eauto.
        - exfalso. apply D. apply Z.le_antisymm; [pose proof (NoDup_range_length _ _ ND Vx); pose proof (zlen_nonneg g); lia|].
          assert (L : (length (zrange n) <= length ord)%nat).
          { apply NoDup_incl_length; [apply NoDup_zrange|]. intros v Hv. destruct (in_dec Z.eq_dec v ord); auto. exfalso. apply Nx, Exists_exists. eauto. }
          unfold zrange in L. rewrite map_length, seq_length in L. unfold zlen in *. lia. }
      destruct Ex as (v0 & Hv0 & N0). apply (stuck_cyclic (fun v => vertex g v /\ ~ In v ord) v0); [auto|tauto|].
      intros v (Hv & Nv). destruct (Exists_dec (fun u => edge g u v /\ ~ In u ord) (zrange n)) as [Ex|Nx].
      + intros u. destruct (in_dec Z.eq_dec u ord) as [|Nu']; [right; tauto|]. destruct (Z_lt_le_dec u 0); [right; intros (H & _); apply edge_src in H; unfold vertex in H; lia|].
        destruct (Z_lt_le_dec u n); [|right; intros (H & _); apply edge_src in H; unfold vertex in H; lia]. destruct (in_dec Z.eq_dec v (adj u)) as [I|I]; [left|right]; rewrite edge_adj by (split; auto); tauto.
      + apply Exists_exists in Ex as (u & Hu & He & Nu). apply In_zrange in Hu. exists u. auto.
      + exfalso. apply Nv, Rd; auto. rewrite Lv by auto. apply live_zero. intros u He. destruct (in_dec Z.eq_dec u ord); auto. exfalso. apply Nx, Exists_exists. exists u. split; auto. apply In_zrange. eapply edge_src; eauto.
  Qed.
  Lemma topo_ok : exists ord, topo_sorted g = Ok ord /\ (is_dag g ord = true <-> ~ cyclic g) /\
    (is_dag g ord = true -> Permutation ord (zrange n) /\ forall u v, edge g u v -> exists a b c, ord = a ++ u :: b ++ v :: c).
  Proof.
    destruct topo_run as (ord & inn & E & T). exists ord. split; auto. unfold is_dag. destruct (Z.eqb_spec (zlen ord) n) as [D|D].
    - split; [split; auto; intros _; eapply tp_acyclic; eauto|]. intros _. eapply tp_full; eauto.
    - split; [split; [discriminate|]|discriminate]. intros Nc. destruct Nc. eapply tp_stuck; eauto.
  Qed.
End Topo.
