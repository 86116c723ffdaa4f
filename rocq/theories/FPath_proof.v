(* FunctionalGraph::infinite_paths *)
From Verif Require NumTheory ExtGcd_proof.
From Verif Require Import Base BaseLemmas ListZ ListMore BFS_proof Perm_proof FGraph_spec FGraph_proof FPath_model FPath_spec.

Definition rv (r : list ipath) (v : Z) : ipath := nth (Z.to_nat v) r (IP 0 0 0 0).
Lemma vget_rv r v : 0 <= v < zlen r -> vget r v = Ok (rv r v). Proof. apply vget_nth. Qed.
Lemma rv_zupd r v x w : 0 <= v < zlen r -> 0 <= w < zlen r -> rv (zupd r v x) w = if v =? w then x else rv r w.
Proof.
  intros. assert (E : vget (zupd r v x) w = Ok (rv (zupd r v x) w)) by (apply vget_rv; rewrite zlen_zupd; lia).
  rewrite vget_zupd in E by auto. destruct (v =? w); [congruence|]. rewrite vget_rv in E by auto. congruence.
Qed.

(* lia after dropping quantified hypotheses, which only slow it down *)
Ltac lq := repeat match goal with H : forall _ : Z, _ |- _ => clear H end; lia.
Section FP.
  Variable nxt : list Z.
  Hypothesis W : fgraph nxt.
  Notation n := (zlen nxt).
  Notation F := (dv nxt).
  Notation it := (it nxt).
  Definition oc (v : Z) : Prop := exists k, (0 < k)%nat /\ it k v = v.
  Lemma oc_next v : oc v -> oc (F v).
  Proof. intros (k & Hk & E). exists k. split; auto. rewrite <- it_S'. rewrite it_S, E. reflexivity. Qed.
  Lemma oc_it k v : oc v -> oc (it k v). Proof. intros H. induction k as [|k IH]; auto. rewrite it_S. now apply oc_next. Qed.
  Lemma it_comm a b v : it a (it b v) = it b (it a v). Proof. rewrite <- !it_add. f_equal. lia. Qed.
  Lemma oc_back w a : oc w -> exists b, it b (it a w) = w.
  Proof.
    intros (k & Hk & E). exists (a * k - a)%nat. rewrite <- it_add. replace (a * k - a + a)%nat with (a * k)%nat by nia. now apply it_period.
  Qed.
  Lemma oc_inj u v : oc u -> oc v -> F u = F v -> u = v.
  Proof.
    intros (a & Ha & Ea) (b & Hb & Eb) E. assert (Pu : it (a * b) u = u) by (rewrite Nat.mul_comm; now apply it_period). assert (Pv : it (a * b) v = v) by (now apply it_period).
    destruct (a * b)%nat as [|m] eqn:Em; [nia|]. rewrite it_S' in Pu, Pv. congruence.
  Qed.
  Lemma per_next u l : oc u -> (it l (F u) = F u <-> it l u = u).
  Proof.
    intros O. split.
    - intros E. apply oc_inj; auto; [now apply oc_it|]. rewrite <- it_S, it_S'. exact E.
    - intros E. rewrite <- it_S', it_S, E. reflexivity.
  Qed.
  Definition desc (u : Z) (r : ipath) : Prop :=
    head_v r = u /\ 0 <= head_len r /\ it (Z.to_nat (head_len r)) u = loop_v r /\
    (forall j, 0 <= j < head_len r -> ~ oc (it (Z.to_nat j) u)) /\
    0 < loop_len r /\ it (Z.to_nat (loop_len r)) (loop_v r) = loop_v r /\ (forall j, 0 < j < loop_len r -> it (Z.to_nat j) (loop_v r) <> loop_v r).
  Lemma desc_cycle u r : oc u -> desc (F u) r -> desc u (IP u 0 u (loop_len r)).
  Proof.
    intros O (Hv & H0 & El & Nt & Lp & Pl & Mn). assert (Z0 : head_len r = 0).
    { destruct (Z.eq_dec (head_len r) 0); auto. exfalso. apply (Nt 0); [lia|]. now apply oc_next. }
    rewrite Z0 in El. cbn in El. split; [|split; [|split; [|split; [|split; [|split]]]]]; cbn [head_v head_len loop_v loop_len]; auto; try lia.
    - rewrite <- El in Pl. now apply (per_next u _ O) in Pl.
    - intros j Hj E. apply (Mn j Hj). rewrite <- El. now apply (per_next u _ O).
  Qed.
  Lemma desc_tail u r : ~ oc u -> desc (F u) r -> desc u (IP u (head_len r + 1) (loop_v r) (loop_len r)).
  Proof.
    intros O (Hv & H0 & El & Nt & Lp & Pl & Mn). split; [|split; [|split; [|split; [|split; [|split]]]]]; cbn [head_v head_len loop_v loop_len]; auto; try lia.
    - replace (Z.to_nat (head_len r + 1)) with (S (Z.to_nat (head_len r))) by lia. now rewrite it_S'.
    - intros j Hj. destruct (Z.eq_dec j 0) as [->|]; auto. replace (Z.to_nat j) with (S (Z.to_nat (j - 1))) by lia. rewrite it_S'. apply Nt. lia.
  Qed.

  Section Round.
    Variable i : Z.                 (* the start of the round; the time is i *)
    Hypothesis Hi : 0 <= i < n.
    Definition pt (j : Z) : Z := it (Z.to_nat j) i.
    Lemma pt_in j : 0 <= pt j < n. Proof. now apply it_in. Qed.
    Lemma pt_S j : 0 <= j -> F (pt j) = pt (j + 1). Proof. intros. unfold pt. replace (Z.to_nat (j + 1)) with (S (Z.to_nat j)) by lia. reflexivity. Qed.
    Lemma pt_it k j : 0 <= j -> it k (pt j) = pt (j + Z.of_nat k). Proof. intros. unfold pt. rewrite <- it_add. f_equal. lia. Qed.
    Definition base (st : ip_state) : Prop := let '(r, vis, dep) := st in zlen r = n /\ zlen vis = n /\ zlen dep = n.
    (* before the call at depth d *)
    Definition pre (d : Z) (st : ip_state) : Prop :=
      let '(r, vis, dep) := st in base st /\
      (forall v, 0 <= v < n -> dv vis v = n \/ (dv vis v < i /\ desc v (rv r v) /\ dv vis (F v) < i) \/ (dv vis v = i /\ exists j, 0 <= j < d /\ v = pt j)) /\
      (forall j, 0 <= j < d -> dv vis (pt j) = i) /\ dv vis (pt d) = n /\ (forall j, 0 <= j <= d -> dv dep (pt j) = j) /\
      (forall v, 0 <= v < n -> dv vis v = n -> v <> pt d -> dv dep v = 0).
    Definition kept (st st' : ip_state) : Prop := forall v, 0 <= v < n -> dv (snd (fst st')) v = n -> dv (snd (fst st)) v = n.
    (* after it: c counts the vertices of the walk before depth d that lie on the cycle *)
    Definition post (d c : Z) (st : ip_state) : Prop :=
      let '(r, vis, dep) := st in base st /\
      (forall v, 0 <= v < n -> dv vis v = n \/ (dv vis v <= i /\ desc v (rv r v) /\ dv vis (F v) <= i) \/ (dv vis v = i /\ exists j, 0 <= j < d /\ v = pt j)) /\
      (forall j, 0 <= j <= d -> dv vis (pt j) = i) /\ desc (pt d) (rv r (pt d)) /\ 0 <= c /\ (forall j, 0 <= j < d -> (oc (pt j) <-> d - c <= j)) /\
      (forall v, 0 <= v < n -> dv vis v = n -> dv dep v = 0).
    Lemma depth_lt d dep : 0 <= d -> zlen dep = n -> (forall j, 0 <= j <= d -> dv dep (pt j) = j) -> d < n.
    Proof.
      intros Hd Zd D. assert (ND : NoDup (map pt (zrange (d + 1)))).
      { apply NumTheory.NoDup_map_inj'; [|apply NoDup_zrange]. intros x y Hx Hy E. apply In_zrange in Hx, Hy. rewrite <- (D x), <- (D y) by lia. now rewrite E. }
      assert (Rg : forall x, In x (map pt (zrange (d + 1))) -> 0 <= x < n) by (intros x Hx; apply in_map_iff in Hx as (y & <- & _); apply pt_in).
      pose proof (NoDup_range_length _ _ ND Rg) as L. rewrite ?zlen_map in L. pose proof (zlen_zrange (d + 1) ltac:(lia)) as Lz. unfold zlen in *. lia.
    Qed.
    Lemma closed_it vis v k : (forall v, 0 <= v < n -> dv vis v < i -> dv vis (F v) < i) -> 0 <= v < n -> dv vis v < i -> dv vis (it k v) < i.
    Proof. intros C Hv L. induction k as [|k IH]; auto. rewrite it_S. apply C; auto. now apply it_in. Qed.
    Lemma dfs_ok fuel : forall d st, 0 <= d -> n - d < Z.of_nat fuel -> pre d st -> exists st' c, ip_dfs fuel nxt i (pt d) st = Ok (st', c) /\ kept st st' /\ post d c st'.
    Proof.
      induction fuel as [|fuel IH]; intros d [[r vis] dep] Hd Hf P; pose proof P as ((Zr & Zv & Zd) & A & B & C & D & U); pose proof (depth_lt d dep Hd Zd D) as Ln; [lq|].
      cbn [ip_dfs]. pose proof (pt_in d) as Hu. rewrite vset_ok by lq. cbn [bind]. set (u := pt d) in *. rewrite vget_dv by auto. cbn [bind].
      assert (Ev : F u = pt (d + 1)) by (unfold u; apply pt_S; lq). pose proof (pt_in (d + 1)) as Hv. set (v := pt (d + 1)) in *. rewrite Ev.
      set (vis1 := zupd vis u i). assert (Z1 : zlen vis1 = n) by (unfold vis1; now rewrite zlen_zupd).
      assert (D1 : forall w, 0 <= w < n -> dv vis1 w = if u =? w then i else dv vis w) by (intros w Hw; unfold vis1; rewrite dv_zupd by lq; auto).
      rewrite !vget_dv by lq. cbn [bind]. assert (Du : dv vis1 u = i) by (rewrite D1, Z.eqb_refl; auto). rewrite Du. assert (Dd : dv dep u = d) by (apply D; lq). rewrite Dd.
      assert (B1 : forall j, 0 <= j <= d -> dv vis1 (pt j) = i).
      { intros j Hj. rewrite D1 by apply pt_in. destruct (Z.eqb_spec u (pt j)) as [|N]; auto. apply B. destruct (Z.eq_dec j d) as [->|]; [destruct (N eq_refl)|lq]. }
      assert (Dist : forall j k, 0 <= j <= d -> 0 <= k <= d -> pt j = pt k -> j = k) by (intros j k Hj Hk E; rewrite <- (D j), <- (D k) by auto; now rewrite E).
      assert (Clo : forall w, 0 <= w < n -> dv vis w < i -> dv vis (F w) < i) by (intros w Hw Lw; destruct (A w Hw) as [X|[X|X]]; [lq|apply X|lq]).
      assert (U1 : forall w, 0 <= w < n -> dv vis1 w = n -> dv dep w = 0).
      { intros w Hw E. rewrite D1 in E by auto. destruct (Z.eqb_spec u w) as [|N]; [exfalso; clear - E Hi; lq|]. apply U; auto. }
      assert (K1 : forall w, 0 <= w < n -> dv vis1 w = n -> dv vis w = n).
      { intros w Hw E. rewrite D1 in E by auto. destruct (u =? w); [exfalso; clear - E Hi; lia|auto]. }
      destruct (Z.eqb_spec (dv vis1 v) i) as [Cy|Ncy].
      - (* a cycle is closed *)
        assert (Hj : exists j0, 0 <= j0 <= d /\ v = pt j0).
        { rewrite D1 in Cy by auto. destruct (Z.eqb_spec u v) as [<-|Nuv]; [exists d; split; [lq|reflexivity]|]. destruct (A v Hv) as [X|[X|(_ & j & Hj & X)]]; [lq|lq|]. exists j. split; [lq|auto]. }
        destruct Hj as (j0 & Hj0 & Ej). assert (Dv : dv dep v = j0) by (rewrite Ej; apply D; auto). rewrite Dv. cbv zeta. rewrite vset_ok by lq. cbn [bind].
        set (len := d - j0 + 1). assert (Per : forall j, j0 <= j -> pt (j + len) = pt j).
        { intros j Lj. replace (j + len) with (d + 1 + Z.of_nat (Z.to_nat (j - j0))) by (unfold len; lq). rewrite <- pt_it by lq. fold v. rewrite Ej, pt_it by lq. f_equal. lq. }
        assert (Red : forall b, exists k, j0 <= k <= d /\ pt (j0 + Z.of_nat b) = pt k).
        { induction b as [|b (k & Hk & Eb)]; [exists j0; split; [lq|f_equal; lq]|]. replace (j0 + Z.of_nat (S b)) with (j0 + Z.of_nat b + 1) by lq. rewrite <- pt_S by lq. rewrite Eb, pt_S by lq. destruct (Z.eq_dec k d) as [->|]; [exists j0; split; [lq|]; fold v; auto|exists (k + 1); split; [lq|auto]]. }
        do 2 eexists. split; [reflexivity|]. split; [exact K1|].
        assert (Ou : desc u (IP u 0 u len)).
        { unfold len. split; [|split; [|split; [|split; [|split; [|split]]]]]; cbn [head_v head_len loop_v loop_len]; auto; try lq.
          - unfold u. rewrite pt_it by lq. rewrite Z2Nat.id by lq. apply Per. lq.
          - intros j Hj E. unfold u in E. rewrite pt_it in E by lq. rewrite Z2Nat.id in E by lq. replace (d + j) with (d + 1 + Z.of_nat (Z.to_nat (j - 1))) in E by lq. rewrite <- pt_it in E by lq. fold v in E. rewrite Ej, pt_it in E by lq. apply Dist in E; lq. }
        split; [unfold base; rewrite zlen_zupd; auto|]. split; [|split; [first [exact B1|intros; apply V'; lq]|split; [rewrite rv_zupd, Z.eqb_refl by lq; exact Ou|split; [lq|split; [|exact U1]]]]].
        + intros w Hw. rewrite rv_zupd by lq. destruct (Z.eqb_spec u w) as [<-|Nw]; [right; left; split; [lq|]; split; [exact Ou|rewrite Ev; lq]|]. rewrite D1 by auto. rewrite (proj2 (Z.eqb_neq u w)) by auto.
          destruct (A w Hw) as [X|[(X1 & X2 & X3)|X]]; auto. right. left. split; [lq|]. split; auto. rewrite D1 by now apply dv_range. destruct (_ =? _); lq.
        + intros j Hj. split.
          * intros O. destruct (Z_le_gt_dec (d - (d - j0 + 1 - 1)) j) as [|G]; auto. exfalso. destruct (oc_back (pt j) (Z.to_nat (j0 - j)) O) as (b & Eb). rewrite pt_it in Eb by lq. replace (j + Z.of_nat (Z.to_nat (j0 - j))) with j0 in Eb by lq. rewrite pt_it in Eb by lq.
            destruct (Red b) as (k & Hk & Ek). rewrite Ek in Eb. apply Dist in Eb; lq.
          * intros L. exists (Z.to_nat len). split; [unfold len; lq|]. rewrite pt_it by lq. unfold len. rewrite Z2Nat.id by lq. apply Per. lq.
      - destruct (Z.ltb_spec (dv vis1 v) i) as [Lt|Ge].
        + (* an earlier round has been here *)
          assert (Nuv : u <> v) by (intros E; rewrite <- E in Lt; lq). rewrite D1 in Lt by auto. rewrite (proj2 (Z.eqb_neq u v)) in Lt by auto.
          destruct (A v Hv) as [X|[(_ & Dv & X)|(X & _)]]; [lq| |lq]. rewrite vget_rv by lq. cbn [bind]. rewrite vset_ok by lq. cbn [bind]. do 2 eexists. split; [reflexivity|]. split; [exact K1|].
          assert (Noc : forall j, 0 <= j <= d -> ~ oc (pt j)).
          { intros j Hj O. destruct (oc_back (pt j) (Z.to_nat (d + 1 - j)) O) as (b & Eb). rewrite pt_it in Eb by lq. replace (j + Z.of_nat (Z.to_nat (d + 1 - j))) with (d + 1) in Eb by lq. fold v in Eb. pose proof (closed_it vis v b Clo Hv Lt) as Q. rewrite Eb in Q.
            destruct (Z.eq_dec j d) as [->|]; [fold u in Q; lq|]. rewrite B in Q by lq. lq. }
          assert (Ou : desc u (IP u (head_len (rv r v) + 1) (loop_v (rv r v)) (loop_len (rv r v)))) by (apply desc_tail; [apply Noc; lq|now rewrite Ev]).
          split; [unfold base; rewrite zlen_zupd; auto|]. split; [|split; [first [exact B1|intros; apply V'; lq]|split; [rewrite rv_zupd, Z.eqb_refl by lq; exact Ou|split; [lq|split; [|exact U1]]]]].
          * intros w Hw. rewrite rv_zupd by lq. destruct (Z.eqb_spec u w) as [<-|Nw].
            { right. left. split; [lq|]. split; [exact Ou|]. rewrite Ev, D1 by auto. rewrite (proj2 (Z.eqb_neq u v)) by auto. lq. }
            rewrite D1 by auto. rewrite (proj2 (Z.eqb_neq u w)) by auto. destruct (A w Hw) as [Y|[(X1 & X2 & X3)|Y]]; auto. right. left. split; [lq|]. split; auto. rewrite D1 by now apply dv_range. destruct (_ =? _); lq.
          * intros j Hj. split; [intros O; destruct (Noc j); [lq|auto]|lq].
        + (* a new vertex *)
          assert (Nuv : u <> v) by (intros E; rewrite <- E in Ncy; lq). rewrite D1 in Ge, Ncy by auto. rewrite (proj2 (Z.eqb_neq u v)) in Ge, Ncy by auto.
          assert (Vn : dv vis v = n) by (destruct (A v Hv) as [X|[X|X]]; lq). rewrite vset_ok by lq. cbn [bind].
          assert (Npt : forall j, 0 <= j <= d -> pt j <> v). { intros j Hj E. destruct (Z.eq_dec j d) as [->|]; [now apply Nuv|]. pose proof (B j ltac:(lq)) as Q. rewrite E in Q. lq. }
          destruct (IH (d + 1) (r, vis1, zupd dep v (d + 1))) as (st' & c & E & K2 & P').
          * lq.
          * lq.
          * split; [unfold base; rewrite zlen_zupd; auto|]. split; [|split; [|split; [|split]]].
            -- intros w Hw. rewrite D1 by auto. destruct (Z.eqb_spec u w) as [<-|Nw]; [right; right; split; auto; exists d; split; [lq|reflexivity]|]. destruct (A w Hw) as [X|[(X1 & X2 & X3)|(X & j & Hj & Xj)]]; auto.
               ++ right. left. split; auto. split; auto. rewrite D1 by now apply dv_range. destruct (Z.eqb_spec u (F w)) as [E|]; auto. rewrite <- E in X3. lq.
               ++ right. right. split; auto. exists j. split; [lq|auto].
            -- intros j Hj. apply B1. lq.
            -- fold v. rewrite D1 by auto. now rewrite (proj2 (Z.eqb_neq u v)).
            -- intros j Hj. rewrite dv_zupd by (rewrite ?Zd; auto using pt_in). destruct (Z.eqb_spec v (pt j)) as [E|N].
               ++ destruct (Z.eq_dec j (d + 1)); auto. destruct (Npt j); [lq|auto].
               ++ apply D. destruct (Z.eq_dec j (d + 1)) as [->|]; [destruct (N eq_refl)|lq].
            -- fold v. intros w Hw Ew Nw. rewrite dv_zupd by (rewrite ?Zd; auto). destruct (Z.eqb_spec v w) as [<-|]; [destruct (Nw eq_refl)|]. now apply U1.
          * fold v in E. rewrite E. clear E IH P. cbn [bind]. destruct st' as [[r' vis'] dep']. destruct P' as ((Zr' & Zv' & Zd') & A' & V' & Ds & C0 & Oc & U'). fold v in Ds. rewrite (vget_rv r' v) by (rewrite Zr'; exact Hv). cbn [bind].
            assert (K' : forall w, 0 <= w < n -> dv vis' w = n -> dv vis w = n) by (intros w Hw Ew; apply K1; auto; apply K2; auto).
            assert (Eu : u = pt d) by reflexivity. assert (Evv : v = pt (d + 1)) by reflexivity. clearbody u v vis1.
            assert (Vu : dv vis' u = i) by (rewrite Eu; apply V'; lq). assert (Vv : dv vis' v = i) by (rewrite Evv; apply V'; lq).
            assert (Hoc : oc u <-> 0 < c) by (rewrite Eu, (Oc d) by lq; lq).
            destruct (Z.ltb_spec 0 c) as [Lc|Gc].
            -- assert (Ou : desc u (IP u 0 u (loop_len (rv r' v)))) by (apply desc_cycle; [now apply Hoc|now rewrite Ev]).
               rewrite vset_ok by (rewrite Zr'; exact Hu). cbn [bind]. do 2 eexists. split; [reflexivity|]. split; [exact K'|]. split; [unfold base; rewrite zlen_zupd; auto|]. split; [|split; [first [exact B1|intros; apply V'; lq]|split; [rewrite <- Eu, rv_zupd, Z.eqb_refl by (rewrite Zr'; exact Hu); exact Ou|split; [first [clear - Lc; lq|clear; lq]|split; [|exact U']]]]].
               ++ intros w Hw. rewrite rv_zupd by (rewrite Zr'; auto). destruct (Z.eqb_spec u w) as [<-|Nw]; [right; left; split; [rewrite Vu; apply Z.le_refl|]; split; [exact Ou|rewrite Ev, Vv; apply Z.le_refl]|]. destruct (A' w Hw) as [X|[X|(X & j & Hj & Xj)]]; auto. right. right. split; auto. exists j. split; [|auto]. destruct (Z.eq_dec j d) as [->|Nj]; [congruence|clear - Hj Nj; lq].
               ++ intros j Hj. rewrite Oc by (clear - Hj; lq). first [clear - Hj Lc; lq|clear - Hj Gc C0; lq].
            -- assert (Ou : desc u (IP u (head_len (rv r' v) + 1) (loop_v (rv r' v)) (loop_len (rv r' v)))) by (apply desc_tail; [rewrite Hoc; lq|now rewrite Ev]).
               rewrite vset_ok by (rewrite Zr'; exact Hu). cbn [bind]. do 2 eexists. split; [reflexivity|]. split; [exact K'|]. split; [unfold base; rewrite zlen_zupd; auto|]. split; [|split; [first [exact B1|intros; apply V'; lq]|split; [rewrite <- Eu, rv_zupd, Z.eqb_refl by (rewrite Zr'; exact Hu); exact Ou|split; [first [clear - Lc; lq|clear; lq]|split; [|exact U']]]]].
               ++ intros w Hw. rewrite rv_zupd by (rewrite Zr'; auto). destruct (Z.eqb_spec u w) as [<-|Nw]; [right; left; split; [rewrite Vu; apply Z.le_refl|]; split; [exact Ou|rewrite Ev, Vv; apply Z.le_refl]|]. destruct (A' w Hw) as [X|[X|(X & j & Hj & Xj)]]; auto. right. right. split; auto. exists j. split; [|auto]. destruct (Z.eq_dec j d) as [->|Nj]; [congruence|clear - Hj Nj; lq].
               ++ intros j Hj. rewrite Oc by (clear - Hj; lq). first [clear - Hj Lc; lq|clear - Hj Gc C0; lq].
    Qed.
  End Round.

  Definition stage (i : Z) (st : ip_state) : Prop :=
    let '(r, vis, dep) := st in base st /\
    (forall v, 0 <= v < n -> dv vis v = n \/ (dv vis v < i /\ desc v (rv r v) /\ dv vis (F v) < i)) /\
    (forall v, 0 <= v < i -> dv vis v <> n) /\ (forall v, 0 <= v < n -> dv vis v = n -> dv dep v = 0).
  Lemma paths_ok : exists r, infinite_paths nxt = Ok r /\ zlen r = n /\ forall v, 0 <= v < n -> desc v (rv r v).
  Proof.
    unfold infinite_paths. cbv zeta. pose proof (zlen_nonneg nxt) as N0.
    match goal with |- context [for_ 0 n ?b ?s0] => destruct (for_inv (S := list ipath * list Z * list Z) stage 0 n b s0) as (st & E & P) end; auto.
    - split; [unfold base; rewrite !zlen_vrep by lia; auto|]. split; [intros v Hv; left; rewrite dv_vrep by lia; auto|]. split; [lia|]. intros v Hv _. rewrite dv_vrep by lia. auto.
    - intros i [[r vis] dep] Hi ((Zr & Zv & Zd) & A & B & U). rewrite vget_dv by lia. cbn [bind]. destruct (Z.eqb_spec (dv vis i) n) as [En|Nn].
      + destruct (dfs_ok i Hi (length nxt + 1) 0 (r, vis, dep)) as (st' & c & E & K & P).
        * lia.
        * unfold zlen. lia.
        * split; [split; auto|]. split; [|split; [lia|split; [exact En|split]]].
          -- intros v Hv. destruct (A v Hv) as [X|X]; auto.
          -- intros j Hj. replace j with 0 by lia. apply U; auto.
          -- intros v Hv Ev _. apply U; auto.
        * change (pt i 0) with i in E. rewrite E. cbn [bind]. eexists. split; [reflexivity|]. destruct st' as [[r' vis'] dep']. destruct P as (Bs & A' & V' & Ds & C0 & Oc & U'). split; [exact Bs|]. split; [|split; auto].
          -- intros v Hv. destruct (A' v Hv) as [X|[(X & Y & Z)|(X & j & Hj & _)]]; auto; [|lia]. right. split; [lia|]. split; auto. lia.
          -- intros v Hv Ev. destruct (Z.eq_dec v i) as [->|]; [|apply (B v); [lia|]; apply K; [lia|exact Ev]]. specialize (V' 0 ltac:(lia)). change (pt i 0) with i in V'. lia.
      + eexists. split; [reflexivity|]. split; [split; auto|]. split; [|split; auto].
        * intros v Hv. destruct (A v Hv) as [X|(X & Y & Z)]; auto. right. split; [lia|]. split; auto. lia.
        * intros v Hv. destruct (Z.eq_dec v i) as [->|]; auto. apply B. lia.
    - rewrite E. destruct st as [[r vis] dep]. destruct P as ((Zr & Zv & Zd) & A & B & U). cbn [bind]. exists r. split; auto. split; auto. intros v Hv. destruct (A v Hv) as [X|X]; [destruct (B v Hv X)|apply X].
  Qed.

  (* kth_iterate *)
  Section Kth.
    Variables (r : list ipath) (k : Z).
    Hypothesis Zr : zlen r = n.
    Hypothesis Dr : forall v, 0 <= v < n -> desc v (rv r v).
    Hypothesis Hk : 0 <= k.
    Definition H (v : Z) : Z := head_len (rv r v).
    Definition L (v : Z) : Z := loop_v (rv r v).
    Lemma H_oc v j : 0 <= v < n -> 0 <= j -> (oc (it (Z.to_nat j) v) <-> H v <= j).
    Proof.
      intros Hv Hj. destruct (Dr v Hv) as (_ & H0 & El & Nt & Lp & Pl & _). fold (H v) in *. fold (L v) in *. split.
      - intros O. destruct (Z_le_gt_dec (H v) j); auto. exfalso. apply (Nt j); [lia|auto].
      - intros Le. replace (Z.to_nat j) with (Z.to_nat (j - H v) + Z.to_nat (H v))%nat by lia. rewrite it_add, El. apply oc_it. exists (Z.to_nat (loop_len (rv r v))). split; [lia|auto].
    Qed.
    Lemma H_pos v : 0 <= v < n -> 0 <= H v. Proof. intros Hv. apply (Dr v Hv). Qed.
    Lemma H_next v : 0 <= v < n -> 0 < H v -> H (F v) = H v - 1.
    Proof.
      intros Hv P. pose proof (dv_range nxt W v Hv) as Hf. assert (Q : forall j, 0 <= j -> (H (F v) <= j <-> H v <= j + 1)).
      { intros j Hj. rewrite <- !H_oc by (auto; lia). replace (Z.to_nat (j + 1)) with (S (Z.to_nat j)) by lia. rewrite it_S'. reflexivity. }
      pose proof (H_pos (F v) Hf). pose proof (proj1 (Q (H (F v)) ltac:(lia)) ltac:(lia)). pose proof (proj2 (Q (H v - 1) ltac:(lia)) ltac:(lia)). lia.
    Qed.
    Lemma H_iter v (m : nat) : 0 <= v < n -> Z.of_nat m <= H v -> H (it m v) = H v - Z.of_nat m.
    Proof.
      intros Hv. induction m as [|m IH]; intros Lm; [cbn; lia|]. rewrite it_S, H_next; [rewrite IH; lia|now apply it_in|rewrite IH; lia].
    Qed.
    Lemma H_lt v : 0 <= v < n -> H v < n.
    Proof.
      intros Hv. pose proof (H_pos v Hv) as P. set (f := fun j => it (Z.to_nat j) v). assert (ND : NoDup (map f (zrange (H v + 1)))).
      { apply NumTheory.NoDup_map_inj'; [|apply NoDup_zrange]. unfold f. intros x y Hx Hy E. apply In_zrange in Hx, Hy. apply (f_equal H) in E. rewrite !H_iter in E by (auto; lia). lia. }
      assert (Rg : forall x, In x (map f (zrange (H v + 1))) -> 0 <= x < n) by (intros x Hx; apply in_map_iff in Hx as (y & <- & _); now apply it_in).
      pose proof (NoDup_range_length _ _ ND Rg) as Lx. rewrite zlen_map, zlen_zrange in Lx by lia. lia.
    Qed.
    Lemma L_it v : 0 <= v < n -> it (Z.to_nat (H v)) v = L v. Proof. intros Hv. apply (Dr v Hv). Qed.
    Lemma L_in v : 0 <= v < n -> 0 <= L v < n. Proof. intros Hv. rewrite <- L_it by auto. now apply it_in. Qed.
    Lemma L_H v : 0 <= v < n -> H (L v) = 0. Proof. intros Hv. pose proof (H_pos v Hv). rewrite <- L_it, H_iter by (auto; lia). lia. Qed.

    Definition fl {A} (f : list (list A)) (p : Z) : list A := nth (Z.to_nat p) f [].
    Lemma vget_fl {A} (f : list (list A)) p : 0 <= p < zlen f -> vget f p = Ok (fl f p). Proof. apply vget_nth. Qed.
    Lemma fl_zupd {A} (f : list (list A)) v x w : 0 <= v < zlen f -> 0 <= w < zlen f -> fl (zupd f v x) w = if v =? w then x else fl f w.
    Proof.
      intros Hv Hw. assert (E : vget (zupd f v x) w = Ok (fl (zupd f v x) w)) by (apply vget_fl; rewrite zlen_zupd; lia).
      rewrite vget_zupd in E by auto. destruct (v =? w); [congruence|]. rewrite vget_fl in E by auto. congruence.
    Qed.
    Definition prepared (c : Z) (s : kth_state) : Prop :=
      let '(roots, forest, qs) := s in zlen forest = n /\ zlen qs = n /\
      (forall v, In v roots <-> 0 <= v < c /\ H v = 0) /\
      (forall p v, 0 <= p < n -> (In v (fl forest p) <-> 0 <= v < c /\ 0 < H v /\ F v = p)) /\
      (forall s q v, 0 <= s < n -> (In (q, v) (fl qs s) <-> 0 <= v < c /\ H v < k /\ L v = s /\ q = k - H v)).
    Lemma prepare_ok : exists s, for_each r (kth_prepare nxt k) ([], vrep n [], vrep n []) = Ok s /\ prepared n s.
    Proof.
      destruct (for_each_inv (S := list Z * list (list Z) * list (list (Z * Z))) (fun done s => prepared (zlen done) s) r (kth_prepare nxt k) ([], vrep n [], vrep n [])) as (s & E & P); [| |exists s; split; auto; now rewrite Zr in P].
      - pose proof (zlen_nonneg nxt). split; [apply zlen_vrep; lia|]. split; [apply zlen_vrep; lia|]. unfold fl. unfold vrep. split; [|split].
        + intros v. change (zlen (@nil ipath)) with 0. cbn. split; [tauto|lia].
        + intros p v Hp. change (zlen (@nil ipath)) with 0. rewrite nth_repeat. cbn. split; [tauto|lia].
        + intros p q v Hp. change (zlen (@nil ipath)) with 0. rewrite nth_repeat. cbn. split; [tauto|lia].
      - intros done x todo [[roots forest] qs] Er (Zf & Zq & R & Fo & Q). set (c := zlen done) in *. rewrite zlen_app. change (zlen [x]) with 1. fold c.
        assert (Hc : 0 <= c < n). { rewrite <- Zr, Er, zlen_app, zlen_cons. pose proof (zlen_nonneg done). pose proof (zlen_nonneg todo). unfold c. lia. }
        assert (Ex : x = rv r c). { assert (Eg : vget r c = Ok x) by (rewrite Er; unfold c; apply vget_mid; auto). rewrite vget_rv in Eg by lia. congruence. }
        pose proof (Dr c Hc) as (Hv & _). pose proof (H_pos c Hc) as Hp. unfold kth_prepare. rewrite Ex. rewrite Hv. fold (H c). fold (L c). pose proof (L_in c Hc) as HL. pose proof (dv_range nxt W c Hc) as HF.
        assert (M : exists roots' forest', (if H c =? 0 then Ok (roots ++ [c], forest) else
            let* p := vget nxt c in let* ch := vget forest p in let* forest := vset forest p (ch ++ [c]) in Ok (roots, forest)) = Ok (roots', forest') /\ zlen forest' = n /\
          (forall v, In v roots' <-> 0 <= v < c + 1 /\ H v = 0) /\
          (forall p v, 0 <= p < n -> (In v (fl forest' p) <-> 0 <= v < c + 1 /\ 0 < H v /\ F v = p))).
        { destruct (Z.eqb_spec (H c) 0) as [E0|N0].
          - do 2 eexists. split; [reflexivity|]. split; auto. split.
            + intros v. rewrite in_app_iff, R. cbn [In]. split; [intros [X|[<-|[]]]; [split; [lia|tauto]|split; [lia|auto]]|]. intros (X & Y). destruct (Z.eq_dec v c) as [->|]; [auto|left; split; [lia|auto]].
            + intros p v Hpp. rewrite Fo by auto. split; [intros (X & Y); split; [lia|auto]|]. intros (X & Y & Z). split; auto. destruct (Z.eq_dec v c) as [->|]; lia.
          - rewrite vget_dv by auto. cbn [bind]. rewrite vget_fl by lia. cbn [bind]. rewrite vset_ok by lia. cbn [bind]. do 2 eexists. split; [reflexivity|]. split; [now rewrite zlen_zupd|]. split.
            + intros v. rewrite R. split; [intros (X & Y); split; [lia|auto]|]. intros (X & Y). split; auto. destruct (Z.eq_dec v c) as [->|]; lia.
            + intros p v Hpp. rewrite fl_zupd by lia. destruct (Z.eqb_spec (F c) p) as [<-|Np].
              * rewrite in_app_iff, Fo by auto. cbn [In]. split; [intros [(X & Y & Z)|[<-|[]]]; [split; [lia|auto]|split; [lia|split; [lia|auto]]]|]. intros (X & Y & Z). destruct (Z.eq_dec v c) as [->|]; [auto|left; split; [lia|auto]].
              * rewrite Fo by auto. split; [intros (X & Y); split; [lia|auto]|]. intros (X & Y & Z). split; auto. destruct (Z.eq_dec v c) as [->|]; [congruence|lia]. }
        destruct M as (roots' & forest' & EM & Zf' & R' & Fo'). rewrite EM. cbn [bind]. destruct (Z.leb_spec k (H c)) as [Le|Gt].
        + eexists. split; [reflexivity|]. split; auto. split; auto. split; auto. split; auto. intros s q v Hs. rewrite Q by auto. split; [intros (X & Y); split; [lia|auto]|]. intros (X & Y & Z). split; auto. destruct (Z.eq_dec v c) as [->|]; lia.
        + rewrite vget_fl by lia. cbn [bind]. rewrite vset_ok by lia. cbn [bind]. eexists. split; [reflexivity|]. split; auto. split; [now rewrite zlen_zupd|]. split; auto. split; auto. intros s q v Hs. rewrite fl_zupd by lia.
          destruct (Z.eqb_spec (L c) s) as [<-|Ns].
          * rewrite in_app_iff, Q by auto. cbn [In]. split; [intros [(X & Y)|[X|[]]]; [split; [lia|auto]|]|].
            { injection X as <- <-. split; [lia|]. auto. }
            intros (X & Y & Z & ->). destruct (Z.eq_dec v c) as [->|]; [auto|left; split; [lia|auto]].
          * rewrite Q by auto. split; [intros (X & Y); split; [lia|auto]|]. intros (X & Y & Z & T). split; auto. destruct (Z.eq_dec v c) as [->|]; [congruence|lia].
    Qed.

    Definition right (res : list Z) (w : Z) : Prop := dv res w = it (Z.to_nat k) w.
    Definition keeps (res res' : list Z) : Prop := forall w, 0 <= w < n -> right res w -> right res' w.
    Lemma write_ok res u x : zlen res = n -> 0 <= u < n -> x = it (Z.to_nat k) u -> vset res u x = Ok (zupd res u x) /\ zlen (zupd res u x) = n /\ keeps res (zupd res u x) /\ right (zupd res u x) u.
    Proof.
      intros Z1 Hu Ex. split; [apply vset_ok; lia|]. split; [now rewrite zlen_zupd|]. split; unfold keeps, right.
      - intros w Hw E. rewrite dv_zupd by lia. destruct (Z.eqb_spec u w) as [<-|]; auto.
      - rewrite dv_zupd, Z.eqb_refl by lia. auto.
    Qed.
    Lemma keeps_trans a b c : keeps a b -> keeps b c -> keeps a c. Proof. unfold keeps. auto. Qed.

    (* the vertices whose tail passes through u and is long enough *)
    Definition below (u : Z) (w : Z) : Prop := 0 <= w < n /\ H u <= H w /\ it (Z.to_nat (H w - H u)) w = u /\ k <= H w.
    Lemma kdfs_ok roots forest qs : prepared n (roots, forest, qs) -> forall fuel u path res, 0 <= u < n -> n - H u <= Z.of_nat fuel -> zlen path = n -> zlen res = n ->
      (forall j, 0 <= j < H u -> dv path j = it (Z.to_nat (H u - j)) u) ->
      exists path' res', kth_dfs fuel forest k u (H u) (path, res) = Ok (path', res') /\ zlen path' = n /\ zlen res' = n /\ keeps res res' /\
        (forall j, 0 <= j < H u -> dv path' j = dv path j) /\ forall w, below u w -> right res' w.
    Proof.
      intros (Zf & Zq & R & Fo & Q) fuel. induction fuel as [|fuel IH]; intros u path res Hu Hf Zp Zs Pj; pose proof (H_lt u Hu) as Lu; pose proof (H_pos u Hu) as Pu; [lia|].
      cbn [kth_dfs]. rewrite vset_ok by lia. cbn [bind]. set (path1 := zupd path (H u) u). assert (Zp1 : zlen path1 = n) by (unfold path1; now rewrite zlen_zupd).
      assert (P1 : forall j, 0 <= j <= H u -> dv path1 j = it (Z.to_nat (H u - j)) u).
      { intros j Hj. unfold path1. rewrite dv_zupd by lia. destruct (Z.eqb_spec (H u) j) as [<-|]; [rewrite Z.sub_diag; reflexivity|apply Pj; lia]. }
      assert (M : exists res1, (if k <=? H u then let* x := vget path1 (H u - k) in vset res u x else Ok res) = Ok res1 /\ zlen res1 = n /\ keeps res res1 /\ (k <= H u -> right res1 u)).
      { destruct (Z.leb_spec k (H u)) as [Le|Gt].
        - rewrite vget_dv by lia. cbn [bind]. rewrite P1 by lia. replace (H u - (H u - k)) with k by lia. destruct (write_ok res u _ Zs Hu eq_refl) as (E & Z1 & K & Rt). exists (zupd res u (it (Z.to_nat k) u)). split; auto.
        - exists res. split; auto. split; auto. split; [intros w Hw; auto|lia]. }
      destruct M as (res1 & EM & Zs1 & K1 & Ru). rewrite EM. cbn [bind]. rewrite vget_fl by lia. cbn [bind].
      destruct (for_each_inv (fun done (s : list Z * list Z) => zlen (fst s) = n /\ zlen (snd s) = n /\ keeps res1 (snd s) /\ (forall j, 0 <= j <= H u -> dv (fst s) j = dv path1 j) /\
          forall c w, In c done -> below c w -> right (snd s) w) (fl forest u) (fun v s => kth_dfs fuel forest k v (H u + 1) s) (path1, res1)) as ([path' res'] & E & Zp' & Zs' & K' & Pk & Bl).
      - cbn [fst snd]. split; auto. split; auto. split; [intros w Hw; auto|]. split; auto. intros c w [].
      - intros done v todo [pa re] Ec (Z1 & Z2 & K2 & P2 & B2). cbn [fst snd] in *. assert (Iv : In v (fl forest u)) by (rewrite Ec; apply in_app_iff; right; now left).
        apply Fo in Iv as (Hv & Hp & Ef); auto. assert (Hh : H v = H u + 1) by (pose proof (H_next v Hv Hp) as X; rewrite Ef in X; lia). rewrite <- Hh.
        destruct (IH v pa re) as (pa' & re' & E & Z1' & Z2' & K3 & P3 & B3); auto; [lia| |].
        + intros j Hj. rewrite P2, P1 by lia. rewrite Hh. replace (Z.to_nat (H u + 1 - j)) with (S (Z.to_nat (H u - j))) by lia. now rewrite it_S', Ef.
        + exists (pa', re'). split; auto. cbn [fst snd]. split; auto. split; auto. split; [eapply keeps_trans; eauto|]. split; [intros j Hj; rewrite P3 by lia; apply P2; lia|].
          intros c w Ic Bc. apply in_app_iff in Ic as [Ic|[<-|[]]]; auto. apply K3; [apply Bc|]. eapply B2; eauto.
      - rewrite E. exists path', res'. cbn [fst snd] in *. split; auto. split; auto. split; auto. split; [eapply keeps_trans; eauto|]. split.
        + intros j Hj. rewrite Pk by lia. unfold path1. rewrite dv_zupd by lia. destruct (Z.eqb_spec (H u) j); [lia|auto].
        + intros w (Hw & Lh & Ei & Lk). destruct (Z.eq_dec (H w) (H u)) as [Eh|Nh].
          * rewrite Eh, Z.sub_diag in Ei. cbn in Ei. subst w. apply K'; auto.
          * set (c := it (Z.to_nat (H w - H u - 1)) w). assert (Hc : 0 <= c < n) by (now apply it_in).
            assert (HcH : H c = H u + 1) by (unfold c; rewrite H_iter by (auto; lia); lia).
            assert (Fc : F c = u). { rewrite <- Ei. unfold c. replace (Z.to_nat (H w - H u)) with (S (Z.to_nat (H w - H u - 1))) by lia. reflexivity. }
            apply (Bl c w); [apply Fo; auto; split; [auto|split; [lia|auto]]|]. split; auto. split; [lia|]. split; auto. rewrite HcH. unfold c. do 2 f_equal. lia.
    Qed.
    (* the cycle through a root *)
    Notation P u := (loop_len (rv r u)).
    Lemma cycle_of root : 0 <= root < n -> H root = 0 -> 0 < P root /\ it (Z.to_nat (P root)) root = root /\ (forall j, 0 < j < P root -> it (Z.to_nat j) root <> root).
    Proof.
      intros Hr H0. destruct (Dr root Hr) as (_ & _ & El & _ & Lp & Pl & Mn). fold (H root) in El. rewrite H0 in El. cbn in El. rewrite <- El in Pl, Mn. auto.
    Qed.
    Lemma P_le root : 0 <= root < n -> H root = 0 -> P root <= n.
    Proof.
      intros Hr H0. destruct (cycle_of root Hr H0) as (Lp & Pl & Mn). set (f := fun j => it (Z.to_nat j) root). assert (ND : NoDup (map f (zrange (P root)))).
      { apply NumTheory.NoDup_map_inj'; [|apply NoDup_zrange]. unfold f. intros x y Hx Hy E. apply In_zrange in Hx, Hy.
        assert (G : forall a b, 0 <= a < P root -> 0 <= b < P root -> a < b -> it (Z.to_nat a) root <> it (Z.to_nat b) root).
        { intros a b Ha Hb Lab Eab. apply (Mn (P root - b + a)); [lia|]. replace (Z.to_nat (P root - b + a)) with (Z.to_nat (P root - b) + Z.to_nat a)%nat by lia. rewrite it_add, Eab, <- it_add. replace (Z.to_nat (P root - b) + Z.to_nat b)%nat with (Z.to_nat (P root)) by lia. exact Pl. }
        destruct (Z.lt_total x y) as [C|[C|C]]; auto; exfalso; [apply (G x y)|apply (G y x)]; auto; lia. }
      assert (Rg : forall x, In x (map f (zrange (P root))) -> 0 <= x < n) by (intros x Hx; apply in_map_iff in Hx as (y & <- & _); now apply it_in).
      pose proof (NoDup_range_length _ _ ND Rg) as Lx. rewrite zlen_map, zlen_zrange in Lx by lia. lia.
    Qed.
    Lemma kcycle_ok root : 0 <= root < n -> H root = 0 -> exists c, kth_cycle nxt root = Ok c /\ zlen c = P root /\ forall i, 0 <= i < P root -> vget c i = Ok (it (Z.to_nat i) root).
    Proof.
      intros Hr H0. destruct (cycle_of root Hr H0) as (Lp & Pl & Mn). pose proof (P_le root Hr H0) as Pn. unfold kth_cycle. rewrite vget_dv by auto. cbn [bind].
      apply (loop_inv (fun '(v, c) => 1 <= zlen c <= P root /\ v = it (Z.to_nat (zlen c)) root /\ forall i, 0 <= i < zlen c -> vget c i = Ok (it (Z.to_nat i) root)) (fun '(v, c) => Z.to_nat (P root - zlen c)) (fun c => zlen c = P root /\ forall i, 0 <= i < P root -> vget c i = Ok (it (Z.to_nat i) root))).
      - change (zlen [root]) with 1. split; [lia|]. split; [reflexivity|]. intros i Hi. replace i with 0 by lia. reflexivity.
      - change (zlen [root]) with 1. unfold zlen in *. lia.
      - intros [v c] (Zc & Ev & G). destruct (Z.eqb_spec v root) as [E|N].
        + eexists. split; [reflexivity|]. cbv beta iota. assert (zlen c = P root) as ->; [|split; auto]; [|assert (zlen c = P root) as <-; auto].
          * destruct (Z.eq_dec (zlen c) (P root)); auto. exfalso. apply (Mn (zlen c)); [lia|congruence].
          * destruct (Z.eq_dec (zlen c) (P root)); auto. exfalso. apply (Mn (zlen c)); [lia|congruence].
        + assert (Hv : 0 <= v < n) by (rewrite Ev; now apply it_in). rewrite vget_dv by auto. cbn [bind]. eexists. split; [reflexivity|]. cbv beta iota. rewrite zlen_app, zlen_one.
          assert (zlen c <> P root) by (intros E; apply N; rewrite Ev, E; exact Pl). split; [|lia]. split; [lia|]. split.
          * rewrite Ev. replace (Z.to_nat (zlen c + 1)) with (S (Z.to_nat (zlen c))) by lia. reflexivity.
          * intros i Hi. destruct (Z.eq_dec i (zlen c)) as [->|]; [rewrite vget_mid by auto; congruence|]. rewrite vget_app1 by lia. apply G. lia.
    Qed.
    Definition bv (b : list bool) (v : Z) : bool := nth (Z.to_nat v) b false.
    Lemma vget_bv b v : 0 <= v < zlen b -> vget b v = Ok (bv b v). Proof. apply vget_nth. Qed.
    Lemma bv_zupd b v x w : 0 <= v < zlen b -> 0 <= w < zlen b -> bv (zupd b v x) w = if v =? w then x else bv b w.
    Proof.
      intros Hv Hw. assert (E : vget (zupd b v x) w = Ok (bv (zupd b v x) w)) by (apply vget_bv; rewrite zlen_zupd; lia).
      rewrite vget_zupd in E by auto. destruct (v =? w); [congruence|]. rewrite vget_bv in E by auto. congruence.
    Qed.
    Hypothesis Kn : k + n <= 2 ^ 63.
    Definition closed (res0 : list Z) (qs : list (list (Z * Z))) (s : list bool * list Z) : Prop :=
      zlen (fst s) = n /\ zlen (snd s) = n /\ keeps res0 (snd s) /\
      forall v q w, 0 <= v < n -> bv (fst s) v = true -> In (q, w) (fl qs v) -> right (snd s) w.
    Lemma close_ok roots forest qs res0 root s : prepared n (roots, forest, qs) -> 0 <= root < n -> H root = 0 -> closed res0 qs s ->
      exists s', kth_close nxt qs root s = Ok s' /\ closed res0 qs s' /\ (forall v, 0 <= v < n -> bv (fst s) v = true -> bv (fst s') v = true) /\ bv (fst s') root = true.
    Proof.
      intros (Zf & Zq & R & Fo & Q) Hr H0 C. destruct s as [seen res]. destruct C as (Zs & Ze & K & Sn). cbn [fst snd] in *. unfold kth_close. rewrite vget_bv by lia. cbn [bind]. destruct (bv seen root) eqn:Eb.
      { exists (seen, res). split; auto. split; [split; auto|]. auto. }
      destruct (kcycle_ok root Hr H0) as (c & Ec & Zc & G). destruct (cycle_of root Hr H0) as (Lp & Pl & Mn). pose proof (P_le root Hr H0) as Pn. rewrite Ec. cbn [bind]. rewrite Zc.
      destruct (for_inv (fun i s => closed res0 qs s /\ (forall v, 0 <= v < n -> bv seen v = true -> bv (fst s) v = true) /\ (0 < i -> bv (fst s) root = true)) 0 (P root) (fun i '(seen, res) =>
          let* s := vget c i in let* seen := vset seen s true in let* q := vget qs s in
          let* res := for_each q (fun '(rem, ix) res => let* t := i64 (i + rem) in let* x := vget c (t mod P root) in vset res ix x) res in
          Ok (seen, res)) (seen, res)) as (s & E & C & M & S0).
      - lia.
      - split; [split; auto|]. split; auto. lia.
      - intros i [se re] Hi ((Z1 & Z2 & K1 & S1) & M & S0). cbn [fst snd] in *. rewrite G by lia. cbn [bind]. set (s := it (Z.to_nat i) root). assert (Hs : 0 <= s < n) by (now apply it_in). rewrite vset_ok by lia. cbn [bind]. rewrite vget_fl by lia. cbn [bind].
        destruct (for_each_inv (fun done re' => zlen re' = n /\ keeps re re' /\ forall q w, In (q, w) done -> right re' w) (fl qs s) (fun '(rem, ix) res => let* t := i64 (i + rem) in let* x := vget c (t mod P root) in vset res ix x) re) as (re' & E & Z3 & K3 & Rt).
        + split; auto. split; [intros w Hw; auto|intros q w []].
        + intros done [rem ix] todo re1 Eq (Z4 & K4 & R4). assert (I : In (rem, ix) (fl qs s)) by (rewrite Eq; apply in_app_iff; right; now left).
          apply Q in I as (Hx & Lx & El & Er); auto. pose proof (H_pos ix Hx) as Px. assert (Ei : i64 (i + rem) = Ok (i + rem)). { apply ExtGcd_proof.i64_ok. lia. }
          rewrite Ei. cbn [bind]. pose proof (Z.mod_pos_bound (i + rem) (P root) Lp) as Mb. rewrite G by lia. cbn [bind].
          assert (Val : it (Z.to_nat ((i + rem) mod P root)) root = it (Z.to_nat k) ix).
          { rewrite Z2Nat.inj_mod by lia. rewrite <- (it_mod nxt (Z.to_nat (P root)) root) by (auto; lia). replace (Z.to_nat (i + rem)) with (Z.to_nat rem + Z.to_nat i)%nat by lia. rewrite it_add. fold s. rewrite <- El, <- L_it by auto. rewrite <- it_add. f_equal. lia. }
          destruct (write_ok re1 ix _ Z4 Hx Val) as (Ew & Z5 & K5 & R5). rewrite Ew. eexists. split; [reflexivity|]. split; auto. split; [eapply keeps_trans; eauto|].
          intros q w I. apply in_app_iff in I as [I|[I|[]]]; [|injection I as <- <-; auto]. apply K5; [|eapply R4; eauto]. assert (I' : In (q, w) (fl qs s)) by (rewrite Eq; apply in_app_iff; auto). apply Q in I'; [apply I'|auto].
        + rewrite E. cbn [bind]. eexists. split; [reflexivity|]. cbn [fst snd]. split; [split; [cbn [fst]; now rewrite zlen_zupd|split; [auto|split; [eapply keeps_trans; eauto|]]]|split].
          * cbn [fst snd]. intros v q w Hv Eb' I. rewrite bv_zupd in Eb' by lia. destruct (Z.eqb_spec s v) as [<-|Nv]; [eapply Rt; eauto|]. apply K3; [|eapply S1; eauto]. apply Q in I; [apply I|auto].
          * intros v Hv Ev. rewrite bv_zupd by lia. destruct (s =? v); auto.
          * intros _. rewrite bv_zupd by lia. destruct (Z.eqb_spec s root) as [|Ns]; auto. apply S0. destruct (Z.eq_dec i 0) as [->|]; [|lia]. destruct Ns. reflexivity.
      - exists s. split; [exact E|]. split; [exact C|]. split; [exact M|]. apply S0. lia.
    Qed.
  End Kth.

  Lemma kth_ok k : 0 <= k -> k + n <= 2 ^ 63 -> exists res, kth_iterate nxt k = Ok res /\ zlen res = n /\ forall u, 0 <= u < n -> vget res u = Ok (it (Z.to_nat k) u).
  Proof.
    intros Hk Kn. unfold kth_iterate. replace (0 <=? k) with true by lia. cbn [assert_ bind]. cbv zeta. destruct paths_ok as (r & Er & Zr & Dr). rewrite Er. cbn [bind]. pose proof (zlen_nonneg nxt) as N0.
    destruct (prepare_ok r k Zr Dr) as ([[roots forest] qs] & Ep & Pp). rewrite Ep. cbn [bind]. pose proof Pp as (Zf & Zq & R & _ & Q).
    destruct (for_each_inv (fun done (s : list Z * list Z) => zlen (fst s) = n /\ zlen (snd s) = n /\ forall u w, In u done -> below r k u w -> right k (snd s) w) roots (fun root s => kth_dfs (length nxt + 1) forest k root 0 s) (vrep n 0, vrep n 0)) as ([path res] & E & _ & Zs & B).
    { cbn [fst snd]. rewrite !zlen_vrep by lia. split; auto. split; auto. intros u w []. }
    { intros done root todo [pa re] Ed (Z1 & Z2 & B). cbn [fst snd] in *. assert (I : In root roots) by (rewrite Ed; apply in_app_iff; right; now left). apply R in I as (Hr & H0).
      destruct (kdfs_ok r k Dr Hk roots forest qs Pp (length nxt + 1) root pa re Hr) as (pa' & re' & E & Z3 & Z4 & K & _ & B'); auto; [unfold zlen; rewrite H0; lia|intros j Hj; lia|].
      rewrite H0 in E. exists (pa', re'). split; auto. cbn [fst snd]. split; auto. split; auto. intros u w Iu Bu. apply in_app_iff in Iu as [Iu|[<-|[]]]; auto. apply K; [apply Bu|]. eapply B; eauto. }
    rewrite E. cbn [bind fst snd] in *.
    destruct (for_each_inv (fun done s => closed k res qs s /\ forall v, In v done -> bv (fst s) v = true) roots (kth_close nxt qs) (vrep n false, res)) as ([seen res'] & E' & (Zs1 & Zr1 & K & S1) & S2).
    { split; [split; [cbn [fst]; apply zlen_vrep; lia|split; [auto|split; [intros w Hw; auto|]]]|intros v []]. cbn [fst snd]. intros v q w Hv Ev. unfold bv, vrep in Ev. rewrite nth_repeat in Ev. discriminate. }
    { intros done root todo s Ed (C & S2). assert (I : In root roots) by (rewrite Ed; apply in_app_iff; right; now left). apply R in I as (Hr & H0).
      destruct (close_ok r k Dr Kn roots forest qs res root s Pp Hr H0 C) as (s' & E' & C' & M & Rt). exists s'. split; auto. split; auto. intros v Iv. apply in_app_iff in Iv as [Iv|[<-|[]]]; auto. apply M; auto.
      assert (Iv' : In v roots) by (rewrite Ed; apply in_app_iff; auto). now apply R in Iv'. }
    rewrite E'. cbn [bind fst snd] in *. exists res'. split; auto. split; auto. intros u Hu. rewrite vget_dv by lia. f_equal.
    assert (IL : In (L r u) roots) by (apply R; split; [now apply L_in|now apply L_H]).
    destruct (Z_le_gt_dec k (H r u)) as [Le|Gt].
    - apply K; auto. apply (B (L r u) u); auto. split; auto. rewrite (L_H r Dr u Hu). split; [now apply H_pos|]. split; auto. rewrite Z.sub_0_r. now apply L_it.
    - apply (S1 (L r u) (k - H r u) u); [now apply L_in|now apply S2|]. apply Q; [now apply L_in|]. split; [auto|split; [lia|auto]].
  Qed.

  Lemma on_cycle_oc v : 0 <= v < n -> (on_cycle nxt v <-> oc v).
  Proof. intros Hv. unfold on_cycle, oc. split; intros (j & Hj & E); exists j; split; auto; [rewrite follow_it in E by auto; congruence|rewrite follow_it by auto; congruence]. Qed.
  Lemma desc_describes u p : 0 <= u < n -> desc u p -> describes nxt u p.
  Proof.
    intros Hu (Hv & H0 & El & Nt & Lp & Pl & Mn). assert (HL : 0 <= loop_v p < n) by (rewrite <- El; now apply it_in).
    split; auto. split; auto. split; [rewrite follow_it by auto; congruence|]. split; [|split; [auto|split]].
    - intros j w Hj Ew O. rewrite follow_it in Ew by auto. injection Ew as <-. apply on_cycle_oc in O; [|now apply it_in]. now apply (Nt j).
    - rewrite follow_it by auto. congruence.
    - intros j Hj E. rewrite follow_it in E by auto. injection E as E. now apply (Mn j).
  Qed.
End FP.
Lemma infinite_paths_full nxt : fgraph nxt -> exists r, infinite_paths nxt = Ok r /\ zlen r = zlen nxt /\ forall u, 0 <= u < zlen nxt -> exists p, vget r u = Ok p /\ describes nxt u p.
Proof.
  intros W. destruct (paths_ok nxt W) as (r & E & Z & D). exists r. split; auto. split; auto. intros u Hu. exists (rv r u). split; [apply vget_rv; lia|]. apply desc_describes; auto.
Qed.
Lemma kth_iterate_full nxt k : fgraph nxt -> (k < 0 -> kth_iterate nxt k = Abort) /\
  (0 <= k -> k + zlen nxt <= 2 ^ 63 -> exists r, kth_iterate nxt k = Ok r /\ zlen r = zlen nxt /\ forall u, 0 <= u < zlen nxt -> vget r u = follow nxt (Z.to_nat k) u).
Proof.
  intros W. split.
  - intros Hk. unfold kth_iterate. replace (0 <=? k) with false by lia. reflexivity.
  - intros Hk Kn. destruct (kth_ok nxt W k Hk Kn) as (r & E & Z & G). exists r. split; auto. split; auto. intros u Hu. rewrite G, follow_it by auto. reflexivity.
Qed.
