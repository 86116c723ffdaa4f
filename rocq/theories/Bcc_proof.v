(* Proofs about Bcc_model: inseparable edges and the search tree. *)
From Verif Require Import Base BaseLemmas ListZ Seq ListMore SpSeg_proof UnionFind_proof Kruskal_proof LowLink_spec LowLink_model LowLink_proof LowLink_proof2 LowLink_proof3 Bcc_spec.

Lemma joins_iff E id a b : joins E id a b <-> vget E id = Ok (a, b) \/ vget E id = Ok (b, a).
Proof.
  unfold joins. split.
  - intros (Hi & [H|H]); [left|right]; unfold vget; destruct (Z.ltb_spec id 0); try lia; rewrite H; reflexivity.
  - intros [H|H]; pose proof (vget_range _ _ _ H); (split; [lia|]); apply vget_nth_error in H; auto.
Qed.

Section B.
  Variable n : Z.
  Variable E : list (Z * Z).
  Variable G : Z -> list (Z * Z).
  Notation vx v := (0 <= v < n).
  Hypothesis HE : graph_on n E.
  Hypothesis HG : forall x y id, vx x -> (In (y, id) (G x) <-> vget E id = Ok (x, y) \/ vget E id = Ok (y, x)).
  Variable w : W.
  Notation P := (wP w). Notation A := (wA w). Notation L := (wL w). Notation T := (wT w). Notation Q := (wO w).
  Hypothesis inj : forall v v', vx v -> vx v' -> 0 <= P v -> P v = P v' -> v = v'.
  Hypothesis PL : forall y, vx y -> 0 <= P y /\ placed n G w y.
  Variable rs : list Z.
  Hypothesis RI : forall r, In r rs <-> vx r /\ A r = -1.
  Let g1 := G1 n E G HE HG.
  Let g2 := G2 n E G HE HG.
  Let par := par n E G HE HG w inj PL.
  Notation sub := (sub n w).
  Let sub_self := sub_self n E G HE HG w inj PL.
  Let sub_up := sub_up n E G HE HG w inj PL.
  Let sub_trans := sub_trans n E G HE HG w inj PL.
  Let sub_Q := sub_Q n E G HE HG w inj PL.
  Let climb_connected := climb_connected n E G HE HG w inj PL.
  Let edge_compare := edge_compare n E G HE HG w inj PL.
  Let leave := leave n E G HE HG w inj PL.
  Let leave_T := leave_T n E G HE HG w inj PL.
  Let low_sub := low_sub n E G HE HG w inj PL.
  Let escape := escape n E G HE HG w inj PL.
  Let G_sym := G_sym n E G HE HG.
  Let root_child_cut := root_child_cut n E G HE HG w inj PL rs RI.
  Let child_of := child_of n E G HE HG w inj PL rs RI.
  Let wv_par := wv_par n E G HE HG w inj PL.
  Let up_in := up_in n E G HE HG w inj PL rs RI.
  Let cut_closed := cut_closed n E G HE HG w inj PL rs RI.
  Let sub_dec := sub_dec n E G HG w inj PL.
  Let sub_connected := sub_connected n E G HE HG w inj PL.
  Let par_connected := par_connected n E G HE HG w inj PL.

  (* the tree edge into t is the topmost edge of a block *)
  Definition chead (t : Z) : Prop := A t <> -1 /\ P (A t) <= L t.
  Lemma chead_dec t : {chead t} + {~ chead t}.
  Proof. unfold chead. destruct (Z.eq_dec (A t) (-1)); [right; tauto|]. destruct (Z_le_gt_dec (P (A t)) (L t)); [left; auto|right; lia]. Qed.
  Definition hd (t x : Z) : Prop := vx t /\ chead t /\ sub t x /\ forall t', vx t' -> chead t' -> sub t' x -> P t' <= P t.
  Lemma eqP a b : vx a -> vx b -> P a = P b -> a = b.
  Proof. intros Va Vb. apply inj; auto. apply PL; auto. Qed.
  (* ancestors of x are comparable *)
  Lemma chain a b x : vx a -> vx b -> sub a x -> sub b x -> P a <= P b -> sub a b.
  Proof. intros Va Vb (_ & X) (_ & Y) Lp. split; auto. lia. Qed.
  Lemma hd_ex x : vx x -> A x <> -1 -> exists t, hd t x.
  Proof.
    assert (K : forall k x, vx x -> A x <> -1 -> P x <= Z.of_nat k -> exists t, hd t x); [|intros Vx N; apply (K (Z.to_nat (P x))); auto; lia].
    clear x. induction k as [|k IH]; intros x Vx N Lx; destruct (par x Vx N) as (VA & _ & _ & PA & PQ & QQ); [lia|].
    destruct (chead_dec x) as [C|C].
    - exists x. split; [auto|]. split; [auto|]. split; [apply sub_self; auto|]. intros t' _ _ (_ & S). lia.
    - assert (NA : A (A x) <> -1). { intro R. apply C. split; auto. }
      destruct (IH (A x) VA NA ltac:(lia)) as (t & Vt & Ct & St & Mt). exists t. split; [auto|]. split; [auto|]. split; [apply (sub_trans t (A x)); auto; split; auto; lia|].
      intros t' Vt' Ct' St'. destruct (sub_up t' x Vt' St') as [->|(_ & S & _)]; [contradiction|]. apply Mt; auto.
  Qed.
  Lemma hd_unique t t' x : hd t x -> hd t' x -> t = t'.
  Proof. intros (V1 & C1 & S1 & M1) (V2 & C2 & S2 & M2). apply eqP; auto. specialize (M1 t' V2 C2 S2). specialize (M2 t V1 C1 S1). lia. Qed.
  (* the upper end of an edge whose lower end lies below t is A t or lies below t *)
  Lemma block_up t x y id : vx t -> chead t -> sub t x -> In (y, id) (G x) -> y = A t \/ sub t y.
  Proof.
    intros Vt (N & HL) S I. pose proof S as (Vx & _). destruct (g1 x y id Vx I) as (Vy & _). destruct (sub_dec t y Vy) as [Sy|Sy]; [auto|left].
    destruct (leave t x y id Vt S I Sy) as (_ & _ & _ & _ & LA). destruct (par t Vt N) as (VA & _).
    destruct (Z.eq_dec id (T x)) as [->|NT]; [apply (leave_T t x y Vt S I Sy)|]. pose proof (low_sub t x y id Vt S I NT). apply eqP; auto. lia.
  Qed.
  Definition BV (t v : Z) : Prop := v = A t \/ hd t v.
  Lemma edge_BV t x a id : vx x -> In (a, id) (G x) -> P a < P x -> hd t x -> BV t a.
  Proof.
    intros Vx I Lp (Vt & Ct & St & Mt). destruct (g1 x a id Vx I) as (Va & _). destruct (block_up t x a id Vt Ct St I) as [->|S]; [left; auto|right].
    split; [auto|]. split; [auto|]. split; [auto|]. intros t' Vt' Ct' S'. apply Mt; auto. apply (sub_trans t' a); auto. destruct (edge_compare x a id Vx I). split; auto. lia.
  Qed.
  Lemma edge_wv x id a b : vx a -> In (b, id) (G a) -> a <> x -> b <> x -> connected (without_vertex E x) a b.
  Proof.
    intros Va I Na Nb. apply HG in I; auto. destruct I as [I|I]; [|apply connected_sym]; apply connected_edge, in_without_vertex; (split; [apply (vget_In _ _ _ I)|auto]).
  Qed.
  Lemma block_conn_top t v : BV t v -> v <> A t -> vx t -> connected (without_vertex E (A t)) v t.
  Proof.
    intros [->|(Vt & (N & HL) & S & M)] Nv _; [congruence|]. destruct (par t Vt N) as (VA & _ & _ & PA & _).
    apply up_in; auto.
  Qed.
  Lemma block_conn t v x : vx t -> chead t -> vx x -> x <> A t -> BV t v -> v <> x -> connected (without_vertex E x) v (A t).
  Proof.
    intros Vt Ct Vx Nx [->|(_ & _ & S & M)] Nv; [apply connected_refl|]. pose proof Ct as (N & HL). destruct (par t Vt N) as (VA & _ & _ & PA & PQ & QQ). pose proof S as (Vv & Sv).
    assert (UP : forall y, sub (A t) y -> (forall s, vx s -> sub s y -> P (A t) < P s -> s <> x /\ A s <> x) -> connected (without_vertex E x) y (A t)).
    { intros y Sy H. apply climb_connected; auto. intros s Vs Ss Ls Ns. destruct (H s Vs Ss Ls). apply wv_par; auto. }
    assert (St : sub (A t) t) by (split; auto; lia). assert (Sp : sub (A t) v) by (apply (sub_trans (A t) t); auto).
    (* vertices strictly below A t on the way to v are below t *)
    assert (ST : forall s, vx s -> sub s v -> P (A t) < P s -> P t <= P s).
    { intros s Vs Ss Ls. destruct (Z.le_gt_cases (P t) (P s)) as [X|X]; auto. exfalso. pose proof (chain s t v Vs Vt Ss S ltac:(lia)) as S'. destruct (sub_up s t Vs S') as [->|(_ & (_ & Y) & _)]; lia. }
    assert (OUT : ~ (sub x v /\ P t <= P x) -> connected (without_vertex E x) v (A t)).
    { intro NS. apply UP; auto. intros s Vs Ss Ls. split; [intros ->; apply NS; split; auto|]. intro Q0. apply NS.
      destruct (sub_up (A t) s VA (chain (A t) s v VA Vs Sp Ss ltac:(lia))) as [->|(Ns & (VAs & Y) & _)]; [lia|]. rewrite Q0 in *.
      assert (X1 : P x <> P (A t)) by (intro Z; apply Nx, eqP; auto). assert (X2 : sub x v). { destruct (par s Vs ltac:(rewrite Q0; auto)) as (_ & _ & _ & Z1 & Z2 & Z3). rewrite Q0 in *. apply (sub_trans x s); auto. split; auto. lia. }
      split; [auto|]. apply ST; auto. lia. }
    destruct (sub_dec x v Vv) as [Sx|Sx]; [|apply OUT; tauto]. destruct (Z_le_gt_dec (P t) (P x)) as [Lx|Lx]; [|apply OUT; lia]. clear OUT.
    destruct (child_of x v Vx Sx Nv) as (z & Vz & Az & Sz). assert (Nz : A z <> -1) by lia. destruct (par z Vz Nz) as (_ & _ & _ & PZ & QZ & QQZ). rewrite Az in PZ, QQZ.
    assert (NC : L z < P x). { destruct (Z.lt_ge_cases (L z) (P x)) as [X|X]; auto. exfalso. pose proof (M z Vz ltac:(split; [auto|rewrite Az; lia]) Sz). lia. }
    destruct (escape z Vz Nz ltac:(rewrite Az; lia)) as (y & q & id & Sy & Iq & _ & Nq & Lq). pose proof Sy as (Vy & Sy'). destruct (leave z y q id Vz Sy Iq Nq) as (Vq & Sq & LP & _ & _).
    assert (Stz : sub t z). { apply (sub_trans t x); auto; [apply (chain t x v); auto|split; auto; lia]. }
    assert (Dq : q = A t \/ sub t q) by (apply (block_up t y q id); auto; apply (sub_trans t z); auto).
    assert (q <> x) by (intros ->; lia). assert (y <> x) by (intros ->; lia).
    apply connected_trans with z; [apply up_in; auto|]. apply connected_trans with y; [apply connected_sym, up_in; auto|]. apply connected_trans with q; [apply edge_wv with id; auto|].
    apply UP; [destruct Dq as [->|X]; [apply sub_self; auto|apply (sub_trans (A t) t); auto]|]. intros s Vs (_ & Ss) Ls. split; [intros ->; lia|]. intro Q0. destruct (Z.eq_dec (A s) (-1)) as [Z0|Z0]; [lia|]. destruct (par s Vs Z0) as (_ & _ & _ & Z1 & _). rewrite Q0 in *. lia.
  Qed.
  Lemma lower_A x a id : vx x -> In (a, id) (G x) -> P a < P x -> A x <> -1.
  Proof.
    intros Vx I Lp. destruct (g1 x a id Vx I) as (Va & _). destruct (edge_compare x a id Vx I). destruct (sub_up a x Va ltac:(split; auto; lia)) as [->|(X & _)]; [lia|auto].
  Qed.
  Lemma endpoint_iff x a id v : vx x -> In (a, id) (G x) -> (endpoint E id v <-> v = x \/ v = a).
  Proof.
    intros Vx I. apply HG in I; auto. unfold endpoint. split.
    - intros (y & J). apply joins_iff in J. destruct I as [I|I], J as [J|J]; rewrite I in J; injection J; auto.
    - intros [->| ->]; [exists a|exists x]; apply joins_iff; tauto.
  Qed.
  Lemma insep_same t x1 a1 e x2 a2 f : vx x1 -> In (a1, e) (G x1) -> P a1 < P x1 -> vx x2 -> In (a2, f) (G x2) -> P a2 < P x2 -> hd t x1 -> hd t x2 -> inseparable E e f.
  Proof.
    intros V1 I1 L1 V2 I2 L2 H1 H2 x a b Ha Hb Na Nb. pose proof H1 as (Vt & Ct & _).
    assert (Ba : BV t a). { apply (endpoint_iff x1 a1) in Ha; auto. destruct Ha as [->| ->]; [right; auto|]. apply (edge_BV t x1 a1 e); auto. }
    assert (Bb : BV t b). { apply (endpoint_iff x2 a2) in Hb; auto. destruct Hb as [->| ->]; [right; auto|]. apply (edge_BV t x2 a2 f); auto. }
    assert (Va : vx a). { apply (endpoint_iff x1 a1) in Ha; auto. destruct Ha as [->| ->]; auto. apply (g1 x1 a1 e); auto. }
    destruct (Z.eq_dec x (A t)) as [->|Nx].
    - apply connected_trans with t; [|apply connected_sym]; apply block_conn_top; auto.
    - assert (XD : vx x \/ ~ vx x) by lia. destruct XD as [Vx|Vx]; [apply connected_trans with (A t); [|apply connected_sym]; apply block_conn; auto|].
      assert (ALL : forall v, BV t v -> connected (without_vertex E x) v (A t)).
      { intros v Bv. apply connected_incl with E.
        - intros (c, d) I. apply in_without_vertex. split; [auto|]. apply HE in I. split; intros ->; tauto.
        - destruct Bv as [->|(_ & _ & S & _)]; [apply connected_refl|]. pose proof Ct as (N & _). apply connected_trans with t; [apply sub_connected; auto|apply par_connected; auto]. }
      apply connected_trans with (A t); [|apply connected_sym]; apply ALL; auto.
  Qed.
  Lemma insep_apart t1 t2 x1 a1 e x2 a2 f : vx x1 -> In (a1, e) (G x1) -> P a1 < P x1 -> vx x2 -> In (a2, f) (G x2) -> P a2 < P x2 -> hd t1 x1 -> hd t2 x2 -> ~ sub t1 x2 -> ~ inseparable E e f.
  Proof.
    intros V1 I1 L1 V2 I2 L2 (Vt & (N & HL) & S1 & M1) H2 NS IN. destruct (par t1 Vt N) as (VA & _ & _ & PA & _). pose proof S1 as (_ & S1'). destruct (g1 x2 a2 f V2 I2) as (Va2 & _).
    assert (K : forall b, endpoint E f b -> b <> A t1 -> ~ sub t1 b -> False).
    { intros b Hb Nb NSb. apply NSb. apply (cut_closed (A t1) t1 x1 b); auto. apply IN; auto; [apply (endpoint_iff x1 a1); auto|]. intros ->. lia. }
    destruct (Z.eq_dec x2 (A t1)) as [->|N2].
    - apply (K a2); [apply (endpoint_iff (A t1) a2); auto|intros ->; lia|]. intros (_ & S). lia.
    - apply (K x2); auto. apply (endpoint_iff x2 a2); auto.
  Qed.
  Lemma insep_sym e f : inseparable E e f -> inseparable E f e.
  Proof. intros H x a b Ha Hb Na Nb. apply connected_sym. apply H; auto. Qed.
  Lemma insep_iff t1 t2 x1 a1 e x2 a2 f : vx x1 -> In (a1, e) (G x1) -> P a1 < P x1 -> vx x2 -> In (a2, f) (G x2) -> P a2 < P x2 -> hd t1 x1 -> hd t2 x2 -> (inseparable E e f <-> t1 = t2).
  Proof.
    intros V1 I1 L1 V2 I2 L2 H1 H2. split; [|intros ->; apply (insep_same t2 x1 a1 e x2 a2 f); auto]. intro IN. pose proof H1 as (Vt1 & C1 & S1 & M1). pose proof H2 as (Vt2 & C2 & S2 & M2).
    destruct (sub_dec t1 x2 V2) as [X|X]; [|exfalso; apply (insep_apart t1 t2 x1 a1 e x2 a2 f); auto].
    destruct (sub_dec t2 x1 V1) as [Y|Y]; [|exfalso; apply (insep_apart t2 t1 x2 a2 f x1 a1 e); auto; apply insep_sym; auto].
    apply eqP; auto. specialize (M1 t2 Vt2 C2 Y). specialize (M2 t1 Vt1 C1 X). lia.
  Qed.
End B.
