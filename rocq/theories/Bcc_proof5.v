(* Proofs about Bcc_model: the block-cut forest is a forest with the connectivity of the graph. *)
From Coq Require Import Relations.
From Verif Require Import Base BaseLemmas ListZ Seq ListMore SpSeg_proof UnionFind_spec UnionFind_proof Kruskal_proof LowLink_spec LowLink_model LowLink_proof LowLink_proof2 LowLink_proof3 LowLink_proof4 Bcc_spec Bcc_model Bcc_proof Bcc_proof2 Bcc_proof3 Bcc_proof4.

(* edges that lead from a child to its only parent form a forest *)
Lemma up_forest (adj up : Z -> Z -> Prop) (rank : Z -> Z -> Prop) :
  (forall x y, adj x y -> up x y \/ up y x) -> (forall x y y', up x y -> up x y' -> y = y') ->
  (forall x y, up x y -> exists r r', rank x r /\ rank y r' /\ r' < r) -> (forall x r r', rank x r -> rank x r' -> r = r') -> forest adj.
Proof.
  intros H1 H2 H3 H4.
  assert (LE : forall x y, clos_refl_trans_1n Z up x y -> forall r r', rank x r -> rank y r' -> r' <= r).
  { intros x y C. induction C as [x|x y z U C IH]; intros r r' R R'; [rewrite (H4 x r r'); auto; lia|]. destruct (H3 x y U) as (q & q' & Q & Q' & L). specialize (IH q' r' Q' R'). rewrite (H4 x r q); auto. lia. }
  assert (K : forall x y, up x y -> ~ clos_refl_sym_trans Z (fun a b => adj a b /\ ~ (a = x /\ b = y) /\ ~ (a = y /\ b = x)) x y).
  { intros x y U C. set (S := fun a => clos_refl_trans_1n Z up a x).
    assert (ST : forall a b, up a b -> ~ (a = x /\ b = y) -> (S a <-> S b)).
    { intros a b Ua N. split; [|intro Sb; apply Relation_Operators.rt1n_trans with b; auto]. intro Sa. unfold S in Sa. inversion Sa as [Q0|c d Uc Cc Q0].
      - exfalso. apply N. split; [auto|]. subst a. apply (H2 x); auto.
      - unfold S. rewrite (H2 a b c); auto. }
    assert (SS : forall p q, clos_refl_sym_trans Z (fun a b => adj a b /\ ~ (a = x /\ b = y) /\ ~ (a = y /\ b = x)) p q -> (S p <-> S q)).
    { clear - ST H1. clearbody S. intros p q C. induction C as [a b (Ha & N1 & N2)| | |]; [|tauto|tauto|tauto]. destruct (H1 a b Ha) as [X|X]; [apply ST; auto; tauto|]. symmetry. apply ST; [auto|]. tauto. }
    assert (Sy : S y) by (apply (SS x y C); constructor). destruct (H3 x y U) as (r & r' & R & R' & L). specialize (LE y x Sy r' r R' R). lia. }
  intros x y Ha C. destruct (H1 x y Ha) as [U|U]; [apply (K x y U C)|]. apply (K y x U). apply rst_sym. clear - C.
  assert (M : forall p q, clos_refl_sym_trans Z (fun a b => adj a b /\ ~ (a = x /\ b = y) /\ ~ (a = y /\ b = x)) p q -> clos_refl_sym_trans Z (fun a b => adj a b /\ ~ (a = y /\ b = x) /\ ~ (a = x /\ b = y)) p q); [|apply M; auto].
  clear C. intros p q C. induction C as [a b (X & Y & Z0)| | |]; [apply rst_step; tauto|apply rst_refl|apply rst_sym; auto|eapply rst_trans; eauto].
Qed.

Section T.
  Variable n : Z. Variable E : list (Z * Z). Variable s : ll. Variable G : Z -> list (Z * Z). Variable w : W. Variable rs : list Z.
  Hypothesis C : cert n E s G w rs.
  Hypothesis NL : no_loops E.
  Notation vx v := (0 <= v < n).
  Notation P := (wP w). Notation A := (wA w). Notation L := (wL w). Notation T := (wT w). Notation Q := (wO w).
  Let HE : graph_on n E := c_on _ _ _ _ _ _ C.
  Let HG := ad_in _ _ _ (c_adj _ _ _ _ _ _ C).
  Let inj := c_inj _ _ _ _ _ _ C.
  Let PL := c_pl _ _ _ _ _ _ C.
  Let RI : forall r, In r rs <-> vx r /\ A r = -1 := c_rin _ _ _ _ _ _ C.
  Let par := par n E G HE HG w inj PL.
  Let sub_up := sub_up n E G HE HG w inj PL.
  Let sub_self := sub_self n E G HE HG w inj PL.
  Let eqP := eqP n G w inj PL.
  Notation m := (zlen E).
  Notation sub := (sub n w).
  Notation hd := (hd n w). Notation chead := (chead w). Notation BV := (BV n w).
  Notation lower := (lower n G w).
  Variables f F : Z -> Z. Variable k : Z.
  Hypothesis BL : blocks n G w f F k.
  Lemma hd_A t v : hd t v -> A v <> -1.
  Proof. intros (Vt & (N & _) & S & _). destruct (sub_up t v Vt S) as [->|(X & _)]; auto. Qed.
  Lemma hd_self t : vx t -> chead t -> hd t t.
  Proof. intros Vt Ct. split; [auto|]. split; [auto|]. split; [apply sub_self; auto|]. intros t' _ _ (_ & S). zlia. Qed.
  Lemma BV_vx t v : vx t -> chead t -> BV t v -> vx v.
  Proof. intros Vt (N & _) [->|(_ & _ & (Vv & _) & _)]; auto. apply par; auto. Qed.
  Lemma mem_iff c v : (exists e, 0 <= e < m /\ f e = c /\ endpoint E e v) <-> exists t, vx t /\ chead t /\ F t = c /\ BV t v.
  Proof.
    destruct BL as (_ & B1 & _). split.
    - intros (e & He & Fe & y & J). pose proof J as J0. apply joins_iff in J. assert (LX : exists x, lower e x).
      { destruct J as [J|J]; pose proof (vget_In _ _ _ J) as IJ; (apply (lower_ex n E s G w rs C) in J; [auto|]); intro Q0; rewrite Q0 in IJ; apply (NL _ IJ). }
      destruct LX as (x & Lx). destruct (hd_ex_ n E s G w rs C e x Lx) as (t & Ht). exists t. pose proof Ht as (Vt & Ct & _). split; [auto|]. split; [auto|]. rewrite <- (B1 e x t) by auto. split; [auto|].
      destruct Lx as (Vx & a & I & Lp). assert (EP : endpoint E e v) by (exists y; auto). apply (endpoint_iff n E G HG x a) in EP; auto. destruct EP as [->| ->]; [right; auto|]. apply (edge_BV n E G HE HG w inj PL rs RI t x a e); auto.
    - intros (t & Vt & Ct & Ft & B). assert (K : forall y, vx y -> hd t y -> lower (T y) y /\ f (T y) = c /\ endpoint E (T y) y /\ endpoint E (T y) (A y)).
      { intros y Vy Hy. pose proof (hd_A t y Hy) as N. pose proof (lower_T n E s G w rs C y Vy N) as LT. split; [auto|]. split; [rewrite (B1 (T y) y t); auto|]. destruct (par y Vy N) as (VA & _ & I & _). split; apply (endpoint_iff n E G HG (A y) y (T y)); auto. }
      destruct B as [->|Hv].
      + destruct (K t Vt (hd_self t Vt Ct)) as (LT & K1 & _ & K2). exists (T t). split; [apply (lower_range n E s G w rs C _ t); auto|auto].
      + assert (Vv : vx v) by apply Hv. destruct (K v Vv Hv) as (LT & K1 & K2 & _). exists (T v). split; [apply (lower_range n E s G w rs C _ v); auto|auto].
  Qed.
  Lemma two_art t1 t2 v : vx t1 -> vx t2 -> chead t1 -> chead t2 -> BV t1 v -> BV t2 v -> t1 <> t2 -> is_art n w v.
  Proof.
    intros V1 V2 C1 C2 B1 B2 N. assert (Vv : vx v) by (apply (BV_vx t1); auto). split; [auto|].
    assert (U : forall t, vx t -> chead t -> v = A t -> cuts_child n w v) by (intros t Vt (Nt & Ht) ->; exists t; auto).
    destruct (Z.eq_dec (A v) (-1)) as [R|R].
    - left. split; [auto|]. destruct B1 as [B1|B1]; [|apply hd_A in B1; contradiction]. destruct B2 as [B2|B2]; [|apply hd_A in B2; contradiction]. exists t1, t2. auto.
    - right. split; [auto|]. destruct B1 as [B1|B1]; [apply (U t1); auto|]. destruct B2 as [B2|B2]; [apply (U t2); auto|]. exfalso. apply N, (hd_unique n E G HE HG w inj PL rs RI t1 t2 v); auto.
  Qed.
  Lemma BV_conn t v : vx t -> chead t -> BV t v -> connected E v (A t).
  Proof.
    intros Vt (N & _) [->|(_ & _ & S & _)]; [apply connected_refl|]. apply connected_trans with t; [apply (sub_connected n E G HE HG w inj PL); auto|apply (par_connected n E G HE HG w inj PL); auto].
  Qed.
  Lemma same_F t t' : vx t -> vx t' -> chead t -> chead t' -> F t = F t' -> t = t'.
  Proof. intros. destruct BL as (_ & _ & _ & _ & B & _). apply B; auto. Qed.
  Lemma F_range t : vx t -> chead t -> 0 <= F t < k.
  Proof. intros. destruct BL as (_ & _ & _ & B & _). apply B; auto. Qed.

  (* the forest *)
  Variables iso arts : list Z. Variable ai : Z -> Z. Variable gl : Z -> list Z. Variable cv : Z -> Z.
  Hypothesis IN : NoDup iso.
  Hypothesis II : forall v, In v iso <-> isolated n E v.
  Hypothesis AN : NoDup arts.
  Hypothesis AI : forall v, In v arts <-> is_art n w v.
  Notation base := (k + zlen iso).
  Notation N := (base + zlen arts).
  Hypothesis A1 : forall j v, vget arts j = Ok v -> ai v = base + j.
  Hypothesis A2 : forall v, ~ In v arts -> ai v = -1.
  Hypothesis LK : forall x y, 0 <= x < N -> (In y (gl x) <-> link E f ai m x y).
  Hypothesis CV : forall v, 0 <= v < n -> (exists j, vget iso j = Ok v /\ cv v = k + j) \/ (exists e, 0 <= e < m /\ endpoint E e v /\ cv v = f e).
  Hypothesis CV2 : forall j v, vget iso j = Ok v -> cv v = k + j.
  Definition mem (c v : Z) : Prop :=
    (exists t, vx t /\ chead t /\ F t = c /\ BV t v) \/ (exists j, vget iso j = Ok v /\ c = k + j) \/ (exists j, vget arts j = Ok v /\ c = base + j).
  Definition adj (x y : Z) : Prop := 0 <= x < N /\ In y (gl x).
  Lemma ai_pos v : 0 <= ai v <-> In v arts.
  Proof.
    split; intro H; [destruct (in_dec Z.eq_dec v arts) as [|I]; [auto|rewrite A2 in H by auto; zlia]|]. apply In_vget in H. destruct H as (j & Hj & Y). rewrite (A1 j v Y). pose proof (zlen_nonneg iso). destruct BL as (K0 & _). zlia.
  Qed.
  Lemma ai_rng v : In v arts -> base <= ai v < N.
  Proof. intro H. apply In_vget in H. destruct H as (j & Hj & Y). rewrite (A1 j v Y). zlia. Qed.
  Lemma ai_same v v' : In v arts -> ai v = ai v' -> v = v'.
  Proof.
    intros H Q0. assert (H' : In v' arts). { apply ai_pos. rewrite <- Q0. apply ai_pos; auto. } apply In_vget in H, H'. destruct H as (j & Hj & Y), H' as (j' & _ & Y'). rewrite (A1 j v Y), (A1 j' v' Y') in Q0. assert (j = j') by zlia. subst j'. congruence.
  Qed.
  Lemma adj_iff x y : 0 <= x < N -> (In y (gl x) <-> exists v t, In v arts /\ vx t /\ chead t /\ BV t v /\ ((x = ai v /\ y = F t) \/ (x = F t /\ y = ai v))).
  Proof.
    intro Hx. rewrite LK by auto. unfold link. split.
    - intros (e & v & He & EP & Pv & X). destruct (proj1 (mem_iff (f e) v)) as (t & Vt & Ct & Ft & B); [exists e; auto|]. exists v, t. rewrite Ft. split; [apply ai_pos; auto|auto].
    - intros (v & t & Iv & Vt & Ct & B & X). destruct (proj2 (mem_iff (F t) v)) as (e & He & Fe & EP); [exists t; auto|]. exists e, v. rewrite Fe. split; [auto|]. split; [auto|]. split; [apply ai_pos; auto|auto].
  Qed.
  Lemma mem_art v : In v arts -> mem (ai v) v.
  Proof. intro H. right. right. apply In_vget in H. destruct H as (j & Hj & Y). exists j. split; [auto|apply A1; auto]. Qed.
  Lemma art_not_iso v : In v arts -> ~ In v iso.
  Proof.
    intros H I. apply II in I. destruct I as (_ & I). apply AI in H. destruct H as (Vv & H). assert (X : exists z, vx z /\ A z = v) by (destruct H as [(_ & z & z' & H)|(_ & z & H)]; exists z; tauto).
    destruct X as (z & Vz & Az). assert (Nz : A z <> -1) by zlia. destruct (par z Vz Nz) as (_ & _ & Iz & _). rewrite Az in Iz. apply (I (T z)). apply (endpoint_iff n E G HG v z); auto.
  Qed.
  (* which nodes are the same kind *)
  Lemma mem_block c v : mem c v -> c < k -> exists t, vx t /\ chead t /\ F t = c /\ BV t v.
  Proof. intros [H|[(j & Y & ->)|(j & Y & ->)]] Hc; [auto| |]; apply vget_range in Y; pose proof (zlen_nonneg iso); zlia. Qed.
  Lemma mem_artnode c v : mem c v -> base <= c -> In v arts /\ c = ai v.
  Proof.
    intros [(t & Vt & Ct & Ft & _)|[(j & Y & ->)|(j & Y & ->)]] Hc.
    - pose proof (F_range t Vt Ct). pose proof (zlen_nonneg iso). zlia.
    - apply vget_range in Y. zlia.
    - split; [apply (vget_In _ _ _ Y)|]. symmetry. apply A1; auto.
  Qed.
  Lemma mem_range c v : mem c v -> 0 <= c < N /\ vx v.
  Proof.
    destruct BL as (K0 & _). pose proof (zlen_nonneg iso). pose proof (zlen_nonneg arts). intros [(t & Vt & Ct & Ft & B)|[(j & Y & ->)|(j & Y & ->)]].
    - pose proof (F_range t Vt Ct). split; [zlia|]. apply (BV_vx t); auto.
    - split; [apply vget_range in Y; zlia|]. apply vget_In, II in Y. apply Y.
    - split; [apply vget_range in Y; zlia|]. apply vget_In, AI in Y. apply Y.
  Qed.
  Lemma adj_spec x y : 0 <= x < N -> (In y (gl x) <-> 0 <= y < N /\ (base <= x <-> ~ base <= y) /\ exists v, mem x v /\ mem y v).
  Proof.
    intro Hx. pose proof (zlen_nonneg iso). rewrite adj_iff by auto. split.
    - intros (v & t & Iv & Vt & Ct & B & X). pose proof (ai_rng v Iv). pose proof (F_range t Vt Ct). assert (M : mem (F t) v) by (left; exists t; auto). pose proof (mem_art v Iv).
      destruct X as [(-> & ->)|(-> & ->)]; (split; [zlia|]); (split; [zlia|]); exists v; auto.
    - intros (Hy & D & v & Mx & My). assert (K : forall c d, mem c v -> mem d v -> base <= c -> d < base -> exists t, In v arts /\ vx t /\ chead t /\ BV t v /\ c = ai v /\ d = F t).
      { intros c d Mc Md Hc Hd. destruct (mem_artnode c v Mc Hc) as (Iv & ->). destruct Md as [(t & Vt & Ct & Ft & B)|[(j & Y & ->)|(j & Y & ->)]].
        - exists t. auto 10.
        - exfalso. apply (art_not_iso v Iv), (vget_In _ _ _ Y).
        - apply vget_range in Y. zlia. }
      assert (DD : (base <= x /\ y < base) \/ (x < base /\ base <= y)) by (clear -D; lia). destruct DD as [(D1 & D2)|(D1 & D2)].
      + destruct (K x y Mx My D1 D2) as (t & X). exists v, t. tauto.
      + destruct (K y x My Mx D2 D1) as (t & X). exists v, t. tauto.
  Qed.
  Lemma cv_spec v : vx v -> 0 <= cv v < base /\ mem (cv v) v /\ forall c, c < base -> mem c v -> c = cv v \/ In v arts.
  Proof.
    intro Vv. pose proof (zlen_nonneg iso). destruct (CV v Vv) as [(j & Y & Q0)|(e & He & EP & Q0)].
    - split; [apply vget_range in Y; destruct BL; zlia|]. split; [right; left; exists j; auto|]. intros c Hc [(t & Vt & Ct & Ft & B)|[(j' & Y' & ->)|(j' & Y' & ->)]].
      + exfalso. destruct (proj2 (mem_iff (F t) v)) as (e & _ & _ & EP); [exists t; auto|]. apply vget_In, II in Y. destruct Y as (_ & Y). apply (Y e EP).
      + left. rewrite (CV2 j' v Y'). auto.
      + apply vget_range in Y'. zlia.
    - destruct (proj1 (mem_iff (f e) v)) as (t & Vt & Ct & Ft & B); [exists e; auto|]. rewrite Q0, <- Ft. pose proof (F_range t Vt Ct). split; [zlia|]. split; [left; exists t; auto|].
      intros c Hc [(t' & Vt' & Ct' & Ft' & B')|[(j' & Y' & ->)|(j' & Y' & ->)]].
      + destruct (Z.eq_dec t' t) as [->|Nt]; [left; auto|right]. apply AI. apply (two_art t' t v); auto.
      + exfalso. apply vget_In, II in Y'. destruct Y' as (_ & Y'). apply (Y' e EP).
      + apply vget_range in Y'. zlia.
  Qed.
  Lemma inB_spec c v : vx v -> 0 <= c < base -> (inB ai cv gl c v = true <-> mem c v).
  Proof.
    intros Vv Hc. pose proof (zlen_nonneg iso). unfold inB. destruct (cv_spec v Vv) as (_ & M & U). destruct (Z.ltb_spec (ai v) 0) as [La|La].
    - rewrite Z.eqb_eq. split; [intros <-; auto|]. intro Mc. destruct (U c ltac:(zlia) Mc) as [->|I]; [auto|]. apply ai_pos in I. zlia.
    - rewrite ai_pos in La. pose proof (ai_rng v La) as Ra. rewrite memb_In, adj_spec by (destruct BL; zlia). split.
      + intros (_ & _ & u & Mu & Mc). destruct (mem_artnode (ai v) u Mu ltac:(zlia)) as (Iu & Q0). rewrite (ai_same v u); auto.
      + intro Mc. pose proof (zlen_nonneg arts). split; [zlia|]. split; [zlia|]. exists v. split; [apply mem_art; auto|auto].
  Qed.
  Lemma vnum_block c : 0 <= c < base -> counts n (mem c) (zlen (filter (inB ai cv gl c) (zrange n))).
  Proof.
    intro Hc. eexists. split; [|split; [|reflexivity]]; [apply NoDup_filter, NoDup_zrange|]. intro v. rewrite filter_In, In_zrange. split; intros (Vv & X); (split; [auto|]); apply (inB_spec c v Vv Hc); auto.
  Qed.
  Lemma vnum_art c : base <= c < N -> counts n (mem c) 1.
  Proof.
    intro Hc. destruct (vget_Ok arts (c - base) ltac:(zlia)) as (v & Y). assert (Iv : In v arts) by apply (vget_In _ _ _ Y). assert (Q0 : ai v = c) by (rewrite (A1 _ _ Y); zlia). exists [v]. split; [repeat constructor; intros []|]. split; [|reflexivity].
    intro u. cbn [In]. split.
    - intros [<-|[]]. split; [apply AI; auto|rewrite <- Q0; apply mem_art; auto].
    - intros (Vu & M). left. destruct (mem_artnode c u M ltac:(zlia)) as (Iu & ->). apply ai_same; auto.
  Qed.
  Lemma forest_ok : forest adj.
  Proof.
    apply (up_forest adj (fun x y => (exists t, vx t /\ chead t /\ x = F t /\ In (A t) arts /\ y = ai (A t)) \/ (exists v t, In v arts /\ x = ai v /\ hd t v /\ y = F t))
      (fun x r => (exists t, vx t /\ chead t /\ x = F t /\ r = 2 * P t - 1) \/ (exists v, In v arts /\ x = ai v /\ r = 2 * P v))).
    - intros x y (Hx & I). apply adj_iff in I; auto. destruct I as (v & t & Iv & Vt & Ct & B & X). destruct B as [->|B].
      + destruct X as [(-> & ->)|(-> & ->)]; [right|left]; left; exists t; auto.
      + destruct X as [(-> & ->)|(-> & ->)]; [left|right]; right; exists v, t; auto.
    - pose proof (zlen_nonneg iso). intros x y y' [(t & Vt & Ct & -> & It & ->)|(v & t & Iv & -> & Ht & ->)] [(t' & Vt' & Ct' & Q0 & It' & ->)|(v' & t' & Iv' & Q0 & Ht' & ->)].
      + rewrite (same_F t t'); auto.
      + pose proof (F_range t Vt Ct). pose proof (ai_rng v' Iv'). zlia.
      + pose proof (F_range t' Vt' Ct'). pose proof (ai_rng v Iv). zlia.
      + rewrite (ai_same v v') in Ht by auto. f_equal. apply (hd_unique n E G HE HG w inj PL rs RI t t' v'); auto.
    - intros x y [(t & Vt & Ct & -> & It & ->)|(v & t & Iv & -> & Ht & ->)].
      + exists (2 * P t - 1), (2 * P (A t)). split; [left; exists t; auto|]. split; [right; exists (A t); auto|]. pose proof Ct as (N0 & _). destruct (par t Vt N0) as (_ & _ & _ & X & _). zlia.
      + pose proof Ht as (Vt & Ct & (_ & S) & _). exists (2 * P v), (2 * P t - 1). split; [right; exists v; auto|]. split; [left; exists t; auto|]. zlia.
    - pose proof (zlen_nonneg iso). intros x r r' [(t & Vt & Ct & -> & ->)|(v & Iv & -> & ->)] [(t' & Vt' & Ct' & Q0 & ->)|(v' & Iv' & Q0 & ->)].
      + rewrite (same_F t t'); auto.
      + pose proof (F_range t Vt Ct). pose proof (ai_rng v' Iv'). zlia.
      + pose proof (F_range t' Vt' Ct'). pose proof (ai_rng v Iv). zlia.
      + rewrite (ai_same v v'); auto.
  Qed.
  Lemma node_conn c u v : mem c u -> mem c v -> connected E u v.
  Proof.
    pose proof (zlen_nonneg iso). intros Mu Mv. destruct (Z_le_gt_dec base c) as [Lc|Lc].
    - destruct (mem_artnode c u Mu Lc) as (Iu & ->). destruct (mem_artnode (ai u) v Mv Lc) as (Iv & Q0). rewrite (ai_same u v); auto. apply connected_refl.
    - destruct Mu as [(t & Vt & Ct & Ft & B)|[(j & Y & Q0)|(j & Y & Q0)]]; [| |apply vget_range in Y; zlia].
      + destruct Mv as [(t' & Vt' & Ct' & Ft' & B')|[(j & Y & Q0)|(j & Y & Q0)]]; [|apply vget_range in Y; pose proof (F_range t Vt Ct); zlia|apply vget_range in Y; zlia].
        assert (t' = t) by (apply same_F; auto; congruence). subst t'. apply connected_trans with (A t); [|apply connected_sym]; apply BV_conn; auto.
      + destruct Mv as [(t' & Vt' & Ct' & Ft' & B')|[(j' & Y' & Q1)|(j' & Y' & Q1)]]; [apply vget_range in Y; pose proof (F_range t' Vt' Ct'); zlia| |apply vget_range in Y'; zlia].
        assert (j = j') by zlia. subst j'. assert (u = v) by congruence. subst. apply connected_refl.
  Qed.
  Definition linked := clos_refl_sym_trans Z adj.
  Lemma linked_conn c c' : linked c c' -> forall u v, mem c u -> mem c' v -> connected E u v.
  Proof.
    intro H. assert (K : c = c' \/ exists u v, mem c u /\ mem c' v /\ connected E u v).
    { induction H as [x y (Hx & I)|x|x y H IH|x y z H IH H' IH'].
      - right. apply adj_spec in I; auto. destruct I as (_ & _ & v & X & Y). exists v, v. split; [auto|]. split; [auto|apply connected_refl].
      - auto.
      - destruct IH as [->|(u & v & X & Y & Z0)]; [auto|right]. exists v, u. split; [auto|]. split; [auto|apply connected_sym; auto].
      - destruct IH as [->|(u & v & X & Y & Z0)]; [auto|]. destruct IH' as [<-|(u' & v' & X' & Y' & Z1)]; [right; exists u, v; auto|]. right. exists u, v'. split; [auto|]. split; [auto|]. apply connected_trans with v; auto. apply connected_trans with u'; auto. apply (node_conn y); auto. }
    intros u v Mu Mv. destruct K as [->|(u' & v' & X & Y & Z0)]; [apply (node_conn c'); auto|]. apply connected_trans with u'; [apply (node_conn c); auto|]. apply connected_trans with v'; [auto|apply (node_conn c'); auto].
  Qed.
  Lemma mem_linked v c c' : mem c v -> mem c' v -> linked c c'.
  Proof.
    assert (K : forall c, In v arts -> mem c v -> linked c (ai v)).
    { intros d Iv M. destruct (mem_range d v M) as (R & _). pose proof (ai_rng v Iv). destruct (Z_le_gt_dec base d) as [Ld|Ld]; [destruct (mem_artnode d v M Ld) as (_ & ->); apply rst_refl|].
      apply rst_step. split; [auto|]. apply adj_spec; auto. pose proof (zlen_nonneg iso). destruct BL. split; [zlia|]. split; [zlia|]. exists v. split; [auto|apply mem_art; auto]. }
    intros M M'. destruct (in_dec Z.eq_dec v arts) as [Iv|Iv].
    - apply rst_trans with (ai v); [apply K; auto|apply rst_sym, K; auto].
    - destruct (mem_range c v M) as (_ & Vv). destruct (cv_spec v Vv) as (_ & _ & U). assert (B : forall d, mem d v -> d = cv v). { intros d Md. destruct (Z_le_gt_dec base d) as [Ld|Ld]; [destruct (mem_artnode d v Md Ld); contradiction|]. destruct (U d ltac:(zlia) Md); [auto|contradiction]. }
      rewrite (B c M), (B c' M'). apply rst_refl.
  Qed.
  Lemma conn_linked u v c c' : connected E u v -> mem c u -> mem c' v -> linked c c'.
  Proof.
    intros H Mu Mv. pose proof (connected_closed E (fun a => exists d, mem d a /\ linked c d) u v) as K.
    assert (X : exists d, mem d v /\ linked c d).
    { apply K; auto; [|exists c; split; [auto|apply rst_refl]]. assert (ST : forall x y, (exists e, joins E e x y) -> (exists d, mem d x /\ linked c d) -> exists d, mem d y /\ linked c d).
      { intros x y (e & J) (d & Md & Ld). pose proof J as (He & _). assert (Ex : endpoint E e x) by (exists y; auto). assert (Ey : endpoint E e y) by (exists x; apply joins_iff in J; apply joins_iff; tauto). exists (f e).
        assert (He' : 0 <= e < m) by (apply joins_iff in J; destruct J as [J|J]; apply (vget_range _ _ _ J)).
        assert (Mx : mem (f e) x) by (left; apply mem_iff; exists e; auto). split; [left; apply mem_iff; exists e; auto|]. apply rst_trans with d; [auto|]. apply (mem_linked x); auto. }
      intros x y I. apply In_vget in I. destruct I as (e & He & Y). split; apply ST; exists e; apply joins_iff; auto. }
    destruct X as (d & Md & Ld). apply rst_trans with d; [auto|]. apply (mem_linked v); auto.
  Qed.
End T.
