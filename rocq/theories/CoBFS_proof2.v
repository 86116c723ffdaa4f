From Verif Require Import Base BaseLemmas ListZ ListMore Graph_spec BFS_model BFS_proof BFS_proof2 CoBFS_spec CoBFS_model CoBFS_proof.
From Coq Require Import Permutation.
Import ListNotations.
Open Scope Z_scope.

Lemma reach_inv (E : Z -> Z -> Z -> Prop) : (forall u v c, E u v c -> E v u c) -> forall s t c, reach E s t c -> reach E t s c.
Proof.
  intros Sy s t c (p & R). induction R as [s|s w t p c d H R IH]; [apply reach_end|]. rewrite Z.add_comm. eapply reach_snoc; [exact IH|]. auto.
Qed.
Lemma erase1_ok i s : In i s -> NoDup s -> exists s', erase1 i s = Ok s' /\ NoDup s' /\ (forall v, In v s' <-> In v s /\ v <> i) /\ (length s' <= length s)%nat.
Proof.
  induction s as [|x s IH]; intros Hi ND; [destruct Hi|]. inversion ND; subst. cbn [erase1]. destruct (Z.eqb_spec x i) as [->|Ne].
  - exists s. split; auto. split; auto. split; [|cbn [length]; lia]. intros v. cbn [In]. split; [intros Hv; split; auto; intros ->; contradiction|]. intros [[A|A] B]; auto. congruence.
  - destruct Hi as [|Hi]; [contradiction|]. destruct (IH Hi H2) as (s' & E & N' & I' & L). rewrite E. cbn [bind]. exists (x :: s'). split; auto. split; [|split].
    + constructor; auto. rewrite I'. tauto.
    + intros v. cbn [In]. rewrite I'. split; [intros [->|]; [auto|tauto]|]. tauto.
    + cbn [length]. lia.
Qed.
Lemma ND_left {A} (a b : list A) : NoDup (a ++ b) -> NoDup a.
Proof. induction a as [|x a IH]; intros N; [constructor|]. inversion N; subst. constructor; auto. intros F. apply H1. apply in_or_app; auto. Qed.

Section Cc.
  Variable part : (Z -> bool) -> list Z -> list Z * list Z.
  Hypothesis Pt : partitions part.
  Variable g : list (list Z).
  Hypothesis G : graph_ok g.
  Hypothesis Sy : forall u v, edge g u v -> edge g v u.
  Notation n := (zlen g).
  Lemma co_sym u v : co_edge g u v -> co_edge g v u.
  Proof. intros (A & B & C & D). split; auto. split; auto. Qed.
  Definition coclosed (l : list Z) : Prop := forall u v, In u l -> co_edge g u v -> In v l.
  Definition rest (s l : list Z) : Prop := NoDup s /\ forall v, In v s <-> vertex g v /\ ~ In v l.
  Definition seen (vis : list bool) (l : list Z) : Prop := zlen vis = n /\ forall v, vertex g v -> (vb vis v = true <-> In v l).
  Section One.
    Variables (old : list Z) (i : Z).
    Definition QP (st : list Z * list bool * list Z * list Z * list bool) : Prop :=
      let '(cmp, vis, dq, s, adj) := st in
      seen vis (old ++ cmp) /\ blank n adj /\ rest s (old ++ cmp ++ dq) /\ NoDup (old ++ cmp ++ dq) /\ (forall v, In v (old ++ cmp ++ dq) -> vertex g v) /\
      In i (cmp ++ dq) /\ (forall v, In v (cmp ++ dq) -> exists c, reach (co_hop g) i v c) /\
      (forall u v, In u cmp -> co_edge g u v -> In v (old ++ cmp ++ dq)).
    Definition QD (st : list Z * list bool * list Z * list bool) : Prop :=
      let '(cmp, vis, s, adj) := st in
      seen vis (old ++ cmp) /\ blank n adj /\ rest s (old ++ cmp) /\ NoDup (old ++ cmp) /\ (forall v, In v (old ++ cmp) -> vertex g v) /\
      In i cmp /\ (forall v, In v cmp -> exists c, reach (co_hop g) i v c) /\ (forall u v, In u cmp -> co_edge g u v -> In v (old ++ cmp)).
    Definition qmeas (st : list Z * list bool * list Z * list Z * list bool) : nat := let '(cmp, vis, dq, s, adj) := st in (length dq + length s)%nat.
    Lemma co_cc_step st : QP st -> exists x, co_cc_loop part g st = Ok x /\ match x with inl st' => QP st' /\ (qmeas st' < qmeas st)%nat | inr r => QD r end.
    Proof.
      destruct st as [[[[cmp vis] dq] s] adj]. intros (Se & Bl & (NDs & Is) & ND & Vx & Ii & Rc & Cl). unfold co_cc_loop. destruct dq as [|u dq].
      { rewrite !app_nil_r in *. eexists; split; [reflexivity|]. split; [auto|]. split; [auto|]. split; [split; auto|]. auto. }
      assert (Hu : vertex g u) by (apply Vx; rewrite !in_app_iff; right; right; left; auto). destruct Se as (Zv & Sv). pose proof Hu as Hu'. unfold vertex in Hu'.
      rewrite vset_ok by lia. cbn [bind]. destruct (vget_Ok g u Hu) as (row & Er). rewrite Er. cbn [bind].
      assert (Rr : forall v, In v row -> 0 <= v < n) by (intros v Hv; apply (G u v); exists row; auto).
      destruct (marks_ok n row adj Bl Rr) as (adj1 & E1 & A1 & adj2 & E2 & Bl2). rewrite E1. cbn [bind].
      destruct (part (is_adj adj1) s) as [a b] eqn:Ep.
      destruct (part_ok part Pt g adj1 row u s a b Er A1 NDs (fun v Hv => proj1 (proj1 (Is v) Hv)) Ep) as (NDa & NDb & Sp & Pa & Pb & Dj & Len).
      rewrite E2. cbn [bind]. eexists; split; [reflexivity|]. split; [|unfold qmeas; cbn [length]; rewrite app_length; lia].
      assert (Vb : forall v, In v b -> vertex g v /\ ~ In v (old ++ cmp ++ u :: dq)) by (intros v Hv; apply Is, Sp; auto).
      assert (X1 : (cmp ++ [u]) ++ dq ++ b = (cmp ++ u :: dq) ++ b) by (rewrite <- !app_assoc; reflexivity).
      assert (X2 : old ++ (cmp ++ [u]) ++ dq ++ b = (old ++ cmp ++ u :: dq) ++ b) by (rewrite X1, app_assoc; reflexivity).
      unfold QP. rewrite X2, X1. split; [|split; [exact Bl2|split; [|split; [|split; [|split; [|split]]]]]].
      - split; [rewrite zlen_zupd; auto|]. intros v Hv. unfold vertex in Hv. rewrite vb_zupd by lia. rewrite app_assoc, in_app_iff. cbn [In].
        destruct (Z.eqb_spec u v) as [->|Ne]; [tauto|]. rewrite Sv by auto. split; [auto|]. intros [A|[A|[]]]; [auto|contradiction].
      - split; auto. intros v. rewrite in_app_iff. split.
        + intros Hv. assert (K : In v s) by (apply Sp; auto). apply Is in K. destruct K. split; auto. intros [A|A]; auto. apply (Dj v); auto.
        + intros [B C]. assert (K : In v s) by (apply Is; auto). apply Sp in K. destruct K; auto. destruct C; auto.
      - apply NoDup_app; auto. intros v A B. apply Vb in B. tauto.
      - intros v Hv. apply in_app_or in Hv. destruct Hv as [Hv|Hv]; [auto|]. apply Vb; auto.
      - apply in_or_app; auto.
      - intros v Hv. apply in_app_or in Hv. destruct Hv as [Hv|Hv]; [auto|]. destruct (Rc u) as (c & Rc1); [apply in_or_app; right; left; auto|].
        exists (c + 1). eapply reach_snoc; [exact Rc1|]. split; auto. destruct (Vb v Hv) as [B C]. split; auto. split; auto. split; [|apply Pb; auto]. intros <-. apply C. rewrite !in_app_iff. right; right; left; auto.
      - intros x v Hx Hv. apply in_app_or in Hx. rewrite in_app_iff. destruct Hx as [Hx|[<-|[]]]; [left; eauto|].
        destruct (in_dec Z.eq_dec v (old ++ cmp ++ u :: dq)) as [I|I]; auto. right. destruct Hv as (_ & Hv & _ & Nv).
        assert (K : In v s) by (apply Is; auto). apply Sp in K. destruct K as [K|K]; auto. apply Pa in K. contradiction.
    Qed.
  End One.
  Lemma co_one old vis s adj i : coclosed old -> seen vis old -> NoDup old -> (forall v, In v old -> vertex g v) -> rest s old -> blank n adj -> vertex g i -> ~ In i old ->
    exists s0 cmp vis' s' adj', erase1 i s = Ok s0 /\ loop (length g + 2) (co_cc_loop part g) ([], vis, [i], s0, adj) = Ok (cmp, vis', s', adj') /\
      seen vis' (old ++ cmp) /\ blank n adj' /\ rest s' (old ++ cmp) /\ NoDup (old ++ cmp) /\ (forall v, In v (old ++ cmp) -> vertex g v) /\ coclosed (old ++ cmp) /\ In i cmp /\
      forall u v, In u cmp -> (In v cmp <-> exists c, reach (co_hop g) u v c).
  Proof.
    intros Co Se ND Vo (NDs & Is) Bl Hi Ni. destruct (erase1_ok i s) as (s0 & E0 & ND0 & I0 & L0); [apply Is; auto|auto|].
    assert (Ls : (length s <= length g)%nat).
    { pose proof (NoDup_range_length s n NDs (fun v Hv => proj1 (proj1 (Is v) Hv))) as A. pose proof (zlen_nonneg g). unfold zlen in *. lia. }
    destruct (loop_inv (QP old i) qmeas (QD old i) (co_cc_loop part g) (length g + 2) ([], vis, [i], s0, adj)) as ([[[cmp vis'] s'] adj'] & E & S' & B' & R' & N' & V' & Ii & Rc & Cl).
    - unfold QP. cbn [app]. rewrite app_nil_r. split; auto. split; auto. split; [|split; [|split; [|split; [|split]]]].
      + split; auto. intros v. rewrite I0, Is, in_app_iff. cbn [In]. split; [intros [[A B] C]; split; auto; intros [F|[F|[]]]; auto; congruence|]. intros [A B]. split; [split; auto|]. intros ->. apply B. auto.
      + apply NoDup_app_snoc; auto.
      + intros v Hv. apply in_app_or in Hv. destruct Hv as [Hv|[<-|[]]]; auto.
      + left; auto.
      + intros v [<-|[]]. exists 0. apply reach_end.
      + intros u v [].
    - unfold qmeas. cbn [length]. lia.
    - apply co_cc_step.
    - exists s0, cmp, vis', s', adj'. split; auto. split; auto. split; auto. split; auto. split; auto. split; auto. split; auto.
      assert (Co' : coclosed (old ++ cmp)). { intros u v Hu He. apply in_app_or in Hu. destruct Hu as [Hu|Hu]; [apply in_or_app; left; eauto|eauto]. }
      split; auto. split; auto.
      assert (Cc : forall u v, In u cmp -> co_edge g u v -> In v cmp).
      { intros u v Hu He. specialize (Cl u v Hu He). apply in_app_or in Cl. destruct Cl as [A|A]; auto. exfalso. pose proof (Co v u A (co_sym _ _ He)) as A'. clear - N' A' Hu.
        induction old as [|x l IH]; [destruct A'|]. cbn [app] in N'. inversion N'; subst. destruct A' as [->|A']; auto. apply H1. apply in_app_iff. auto. }
      assert (Cr : forall u v c, In u cmp -> reach (co_hop g) u v c -> In v cmp).
      { intros u v c Hu (p & R). induction R as [x|x w t p c d (He & _) R IH]; auto. apply IH. eauto. }
      intros u v Hu. split; [|intros (c & R); eauto]. intros Hv. destruct (Rc u Hu) as (c & Rc1). destruct (Rc v Hv) as (d & Rc2).
      exists (c + d). eapply reach_trans; [|exact Rc2]. apply reach_inv; auto. intros x y k (A & B). split; auto. apply co_sym; auto.
  Qed.
  Lemma co_cc_ok : exists out, co_components part g = Ok out /\ Permutation (concat out) (zrange n) /\
    forall c, In c out -> c <> [] /\ forall u v, In u c -> (In v c <-> exists k, reach (co_hop g) u v k).
  Proof.
    unfold co_components. pose proof (zlen_nonneg g) as N0. cbn zeta.
    match goal with |- context [for_ 0 _ ?b ?s0] => destruct (for_inv (fun i st => let '(out, vis, s, adj) := st in
      coclosed (concat out) /\ seen vis (concat out) /\ NoDup (concat out) /\ (forall v, In v (concat out) -> vertex g v) /\ rest s (concat out) /\ blank n adj /\ (forall v, 0 <= v < i -> In v (concat out)) /\
      forall c, In c out -> c <> [] /\ forall u v, In u c -> (In v c <-> exists k, reach (co_hop g) u v k)) 0 n b s0) as ([[[out vis] s] adj] & E & _ & _ & ND & Vx & _ & _ & Al & Cs) end; [auto| | |].
    - cbn [concat]. pose proof (blank_vrep n N0) as Bv. split; [intros u v []|]. split; [|split; [constructor|split; [intros v []|split; [|split; [auto|split; [lia|intros c []]]]]]].
      + split; [apply Bv|]. intros v Hv. rewrite (proj2 Bv v Hv). split; [discriminate|intros []].
      + split; [apply NoDup_zrange|]. intros v. rewrite In_zrange. unfold vertex. split; [intros; split; auto|tauto].
    - intros i [[[out vis] s] adj] Hi (Co & Se & ND & Vx & Rs & Bl & Al & Cs). rewrite vget_vb by (destruct Se; lia). cbn [bind]. pose proof (proj2 Se i Hi) as Si. destruct (vb vis i).
      + eexists. split; [reflexivity|]. repeat (split; [assumption|]). split; [|exact Cs]. intros v Hv. destruct (Z.eq_dec v i) as [->|]; [apply Si; auto|]. apply Al. lia.
      + destruct (co_one (concat out) vis s adj i Co Se ND Vx Rs Bl Hi) as (s0 & cmp & vis' & s' & adj' & E0 & E & S' & B' & R' & N' & V' & C' & Ii & Hc).
        { intros F. apply Si in F. discriminate. }
        rewrite E0. cbn [bind]. rewrite E. cbn [bind]. eexists. split; [reflexivity|]. cbv beta iota. rewrite concat_app. cbn [concat]. rewrite app_nil_r.
        repeat (split; [assumption|]). split.
        * intros v Hv. apply in_or_app. destruct (Z.eq_dec v i) as [->|]; auto. left. apply Al. lia.
        * intros c Hin. apply in_app_or in Hin. destruct Hin as [Hin|[<-|[]]]; auto. split; auto. intros ->. destruct Ii.
    - rewrite E. cbn [bind fst]. exists out. split; auto. split; auto. apply NoDup_Permutation; auto using NoDup_zrange. intros v. rewrite In_zrange. split; auto. intros Hv. apply Vx; auto.
  Qed.
End Cc.
