(* BFS: connected components *)
From Verif Require Import Base BaseLemmas ListZ ListMore Graph_spec BFS_model BFS_proof.
From Coq Require Import Permutation.

Definition vb (vis : list bool) (v : Z) : bool := nth (Z.to_nat v) vis false.
Lemma vget_vb vis v : 0 <= v < zlen vis -> vget vis v = Ok (vb vis v). Proof. apply vget_nth. Qed.
Lemma vb_zupd vis v x w : 0 <= v < zlen vis -> 0 <= w < zlen vis -> vb (zupd vis v x) w = if v =? w then x else vb vis w.
Proof.
  intros. assert (E : vget (zupd vis v x) w = Ok (vb (zupd vis v x) w)) by (apply vget_vb; rewrite zlen_zupd; lia).
  rewrite vget_zupd in E by auto. destruct (v =? w); [congruence|]. rewrite vget_vb in E by auto. congruence.
Qed.
Lemma reach_trans E s t u c d : reach E s t c -> reach E t u d -> reach E s u (c + d).
Proof.
  intros (p & R) (q & Q). revert q u d Q. induction R as [s|s w t p c e H R IH]; intros q u d Q; [exists q; exact Q|].
  destruct (IH q u d Q) as (r & Rr). exists (s :: r). rewrite <- Z.add_assoc. econstructor; eauto.
Qed.
Lemma reach_sym g s t c : (forall u v, edge g u v -> edge g v u) -> reach (hop g) s t c -> reach (hop g) t s c.
Proof.
  intros Sy (p & R). induction R as [s|s w t p c e H R IH]; [apply reach_end|]. destruct H as (H & ->). rewrite Z.add_comm. eapply reach_snoc; [exact IH|]. split; auto.
Qed.
Definition sees (vis : list bool) (n : Z) (l : list Z) : Prop :=
  zlen vis = n /\ NoDup l /\ (forall v, In v l -> 0 <= v < n) /\ forall v, 0 <= v < n -> (vb vis v = true <-> In v l).
Lemma sees_mark vis n l v : sees vis n l -> 0 <= v < n ->
  sees (zupd vis v true) n (if vb vis v then l else l ++ [v]).
Proof.
  intros (Z1 & ND & R & B) Hv. split; [now rewrite zlen_zupd|]. pose proof (B v Hv) as Bv. destruct (vb vis v) eqn:E.
  - split; auto. split; auto. intros w Hw. rewrite vb_zupd by lia. destruct (Z.eqb_spec v w) as [->|]; auto.
  - assert (Nv : ~ In v l) by (intros I; apply Bv in I; discriminate). split; [now apply NoDup_app_snoc|]. split; [intros w Hw; apply in_app_iff in Hw as [Hw|[<-|[]]]; auto|].
    intros w Hw. rewrite vb_zupd by lia. rewrite in_app_iff. cbn [In]. destruct (Z.eqb_spec v w) as [->|]; [tauto|]. rewrite B by auto. tauto.
Qed.

Section Cc.
  Variable g : list (list Z).
  Hypothesis G : graph_ok g.
  Hypothesis Sy : forall u v, edge g u v -> edge g v u.
  Notation n := (zlen g).
  Definition closed_set (l : list Z) : Prop := forall u v, In u l -> edge g u v -> In v l.
  Section One.
    Variables (old : list Z) (i : Z).
    Hypothesis Co : closed_set old.
    Hypothesis Hi : vertex g i.
    Definition CP (s : list bool * list Z * list Z) : Prop :=
      let '(vis, dq, cmp) := s in
      sees vis n (old ++ cmp ++ dq) /\ In i (cmp ++ dq) /\ (forall v, In v (cmp ++ dq) -> exists c, reach (hop g) i v c) /\
      (forall u v, In u cmp -> edge g u v -> In v (old ++ cmp ++ dq)).
    Lemma cc_visits u adj vis dq cmp : (forall v, edge g u v <-> In v adj) -> CP (vis, u :: dq, cmp) ->
      exists vis' dq', for_each adj cc_visit (vis, dq) = Ok (vis', dq') /\ CP (vis', dq', cmp ++ [u]).
    Proof.
      intros Ea (Se & Ii & Rc & Cl).
      destruct (for_each_inv (fun done s => let '(vis, dq) := s in
        sees vis n (old ++ cmp ++ u :: dq) /\ In i (cmp ++ u :: dq) /\ (forall v, In v (cmp ++ u :: dq) -> exists c, reach (hop g) i v c) /\
        (forall x v, In x cmp -> edge g x v -> In v (old ++ cmp ++ u :: dq)) /\ forall v, In v done -> In v (old ++ cmp ++ u :: dq)) adj cc_visit (vis, dq)) as ((vis', dq') & E & S' & I' & R' & C' & D').
      - split; auto. split; auto. split; auto. split; auto. intros v [].
      - intros done v todo (vis1, dq1) El (S1 & I1 & R1 & C1 & D1). assert (Ev : edge g u v) by (rewrite Ea, El; apply in_app_iff; right; now left). pose proof (G _ _ Ev) as Hv.
        pose proof S1 as (Z1 & _ & _ & B1). unfold cc_visit. rewrite vget_vb by lia. cbn [bind]. rewrite vset_ok by lia. cbn [bind]. eexists. split; [reflexivity|].
        pose proof (sees_mark _ _ _ v S1 ltac:(lia)) as S2. destruct (vb vis1 v) eqn:Eb.
        + split; auto. split; auto. split; auto. split; auto. intros w Hw. apply in_app_iff in Hw as [Hw|[<-|[]]]; auto. now apply B1.
        + replace (old ++ cmp ++ u :: dq1 ++ [v]) with ((old ++ cmp ++ u :: dq1) ++ [v]) by (rewrite <- !app_assoc; reflexivity).
          replace (cmp ++ u :: dq1 ++ [v]) with ((cmp ++ u :: dq1) ++ [v]) by (rewrite <- !app_assoc; reflexivity).
          split; auto. split; [apply in_app_iff; auto|]. split; [|split].
          * intros w Hw. apply in_app_iff in Hw as [Hw|[<-|[]]]; auto. destruct (R1 u) as (c & Rc1); [apply in_app_iff; right; now left|]. exists (c + 1). eapply reach_snoc; [exact Rc1|]. split; auto.
          * intros x w Hx Hw. apply in_app_iff. left. eauto.
          * intros w Hw. apply in_app_iff. apply in_app_iff in Hw as [Hw|[<-|[]]]; [left; auto|right; now left].
      - exists vis', dq'. split; auto. unfold CP. replace ((cmp ++ [u]) ++ dq') with (cmp ++ u :: dq') by (rewrite <- app_assoc; reflexivity). split; auto. split; auto. split; auto.
        intros x v Hx Hv. apply in_app_iff in Hx as [Hx|[<-|[]]]; [eauto|]. apply D'. now apply Ea.
    Qed.
    Lemma cc_loop_ok s : CP s -> exists x, cc_loop g s = Ok x /\
      match x with
      | inl s' => CP s' /\ (length g - length (snd s') < length g - length (snd s))%nat
      | inr (vis, cmp) => sees vis n (old ++ cmp) /\ In i cmp /\ (forall v, In v cmp -> exists c, reach (hop g) i v c) /\ (forall u v, In u cmp -> edge g u v -> In v (old ++ cmp))
      end.
    Proof.
      destruct s as [[vis dq] cmp]. intros C. unfold cc_loop. destruct dq as [|u dq].
      - eexists. split; [reflexivity|]. unfold CP in C. rewrite !app_nil_r in C. exact C.
      - pose proof C as ((Z1 & ND & R & B) & Ii & Rc & Cl). assert (Hu : vertex g u) by (apply R; rewrite !in_app_iff; right; right; now left).
        destruct (vget_Ok g u Hu) as (adj & Ea). rewrite Ea. cbn [bind].
        assert (L : zlen (old ++ cmp ++ u :: dq) <= n).
        { pose proof (NoDup_range_length _ _ ND R). pose proof (zlen_nonneg g). lia. }
        unfold zlen in L. rewrite !app_length in L. cbn [length] in L.
        destruct (cc_visits u adj vis dq cmp) as (vis' & dq' & E & C'); auto.
        { intros v. split; [intros (adj' & Ea' & Hv); congruence|]. intros Hv. exists adj. auto. }
        rewrite E. cbn [bind]. eexists. split; [reflexivity|]. split; auto. cbn [snd]. rewrite app_length. cbn [length]. lia.
    Qed.
  End One.
  Lemma cc_one old vis i : closed_set old -> sees vis n old -> vertex g i -> vb vis i = false ->
    exists vis' cmp, loop (length g + 1) (cc_loop g) (zupd vis i true, [i], []) = Ok (vis', cmp) /\ sees vis' n (old ++ cmp) /\ closed_set (old ++ cmp) /\ In i cmp /\
      forall u v, In u cmp -> (In v cmp <-> exists c, reach (hop g) u v c).
  Proof.
    intros Co S0 Hi Eb. pose proof (sees_mark _ _ _ i S0 Hi) as S1. rewrite Eb in S1.
    destruct (loop_inv (CP old i) (fun s => length g - length (snd s))%nat
      (fun '(vis, cmp) => sees vis n (old ++ cmp) /\ In i cmp /\ (forall v, In v cmp -> exists c, reach (hop g) i v c) /\ (forall u v, In u cmp -> edge g u v -> In v (old ++ cmp)))
      (cc_loop g) (length g + 1) (zupd vis i true, [i], [])) as ((vis' & cmp) & E & S' & Ii & Rc & Cl).
    - split; [exact S1|]. split; [now left|]. split; [|intros u v []]. intros v [<-|[]]. exists 0. apply reach_end.
    - cbn [snd length]. lia.
    - apply cc_loop_ok.
    - exists vis', cmp. split; auto. split; auto. assert (Co' : closed_set (old ++ cmp)).
      { intros u v Hu He. apply in_app_iff in Hu as [Hu|Hu]; [apply in_app_iff; left; eauto|eauto]. }
      split; auto. split; auto. destruct S' as (_ & ND & _ & _).
      assert (Cc : forall u v, In u cmp -> edge g u v -> In v cmp).
      { intros u v Hu He. specialize (Cl u v Hu He). apply in_app_iff in Cl as [A|A]; auto. exfalso. pose proof (Co v u A (Sy _ _ He)) as A'. clear - ND A' Hu.
        induction old as [|x l IH]; [destruct A'|]. cbn [app] in ND. inversion ND; subst. destruct A' as [->|A']; auto. apply H1. apply in_app_iff. auto. }
      assert (Cr : forall u v c, In u cmp -> reach (hop g) u v c -> In v cmp).
      { intros u v c Hu (p & R). induction R as [s|s w t p c d (He & _) R IH]; auto. apply IH. eauto. }
      intros u v Hu. split; [|intros (c & R); eauto]. intros Hv. destruct (Rc u Hu) as (c & Rc1). destruct (Rc v Hv) as (d & Rc2).
      exists (c + d). eapply reach_trans; [|exact Rc2]. now apply reach_sym.
  Qed.
  Lemma cc_ok : exists out, connected_components g = Ok out /\ Permutation (concat out) (zrange n) /\
    forall c, In c out -> c <> [] /\ forall u v, In u c -> (In v c <-> exists k, reach (hop g) u v k).
  Proof.
    unfold connected_components. pose proof (zlen_nonneg g) as N0.
    match goal with |- context [for_ 0 _ ?b ?s0] => destruct (for_inv (fun i s => let '(vis, out) := s in sees vis n (concat out) /\ closed_set (concat out) /\ (forall v, 0 <= v < i -> In v (concat out)) /\
      forall c, In c out -> c <> [] /\ forall u v, In u c -> (In v c <-> exists k, reach (hop g) u v k)) 0 n b s0) as ((vis & out) & E & S1 & _ & Al & Cs) end; [auto| | |].
    - split; [|split; [intros u v []|split; [intros; lia|intros c []]]]. cbn [concat]. split; [now rewrite zlen_vrep|]. split; [constructor|]. split; [intros v []|].
      intros v Hv. assert (Eg : vget (vrep n false) v = Ok (vb (vrep n false) v)) by (apply vget_vb; rewrite zlen_vrep; auto). rewrite vget_vrep in Eg by auto. injection Eg as <-. split; [discriminate|intros []].
    - intros i (vis, out) Hi (S1 & C1 & Al & Cs). pose proof S1 as (Z1 & _ & _ & B1). rewrite vget_vb by lia. cbn [bind]. rewrite vset_ok by lia. cbn [bind]. destruct (vb vis i) eqn:Eb.
      + eexists. split; [reflexivity|]. pose proof (sees_mark _ _ _ i S1 Hi) as S2. rewrite Eb in S2. split; auto. split; auto. split; auto.
        intros v Hv. destruct (Z.eq_dec v i) as [->|]; [now apply B1|]. apply Al. lia.
      + destruct (cc_one (concat out) vis i C1 S1 Hi Eb) as (vis' & cmp & E & S' & C' & Ii & Hc). rewrite E. cbn [bind]. eexists. split; [reflexivity|].
        cbv beta iota. rewrite concat_app. cbn [concat]. rewrite app_nil_r. split; auto. split; auto. split.
        * intros v Hv. apply in_app_iff. destruct (Z.eq_dec v i) as [->|]; auto. left. apply Al. lia.
        * intros c Hin. apply in_app_iff in Hin as [Hin|[<-|[]]]; auto. split; auto. intros ->. destruct Ii.
    - cbv zeta in E |- *. rewrite E. cbn [bind]. exists out. split; auto. split; auto. destruct S1 as (_ & ND & R & _). apply NoDup_Permutation; auto using NoDup_zrange.
      intros v. rewrite In_zrange. split; auto.
  Qed.
End Cc.
