(* Proofs about Tourn_model. *)
From Coq Require Import Relation_Operators Permutation Sorted.
From Verif Require Import Base BaseLemmas ListZ Sorting SpSeg_proof Tourn_model Tourn_spec.

Definition sumf (f : Z -> Z) (l : list Z) : Z := fold_right (fun v s => f v + s) 0 l.
Lemma sumf_cons f a l : sumf f (a :: l) = f a + sumf f l. Proof. reflexivity. Qed.
Lemma sumf_app f a b : sumf f (a ++ b) = sumf f a + sumf f b.
Proof. induction a as [|x a IH]; [reflexivity|]. cbn [app]. rewrite !sumf_cons. lia. Qed.
Lemma sumf_ext f g l : (forall x, In x l -> f x = g x) -> sumf f l = sumf g l.
Proof. induction l as [|x l IH]; intro H; [auto|]. rewrite !sumf_cons, (H x) by (left; auto). rewrite IH; auto. intros; apply H; right; auto. Qed.
Lemma sumf_plus f g l : sumf (fun x => f x + g x) l = sumf f l + sumf g l.
Proof. induction l as [|x l IH]; [auto|]. rewrite !sumf_cons. lia. Qed.
Lemma sumf_sub f c l : sumf (fun x => f x - c) l = sumf f l - zlen l * c.
Proof. induction l as [|x l IH]; [reflexivity|]. rewrite zlen_cons, !sumf_cons, IH. lia. Qed.
Lemma sumf_zero f l : (forall x, In x l -> 0 <= f x) -> sumf f l = 0 -> forall x, In x l -> f x = 0.
Proof.
  assert (P : forall l, (forall x, In x l -> 0 <= f x) -> 0 <= sumf f l).
  { induction l0 as [|a l0 IH]; intro H; [unfold sumf; cbn; lia|]. rewrite sumf_cons. pose proof (H a (or_introl eq_refl)). specialize (IH (fun x I => H x (or_intror I))). lia. }
  induction l as [|a l IH]; intros H E x I; [contradiction|]. rewrite sumf_cons in E. pose proof (H a (or_introl eq_refl)). pose proof (P l (fun x I => H x (or_intror I))).
  destruct I as [<-|I]; [lia|]. apply IH; auto; [|lia]. intros; apply H; right; auto.
Qed.
Definition num (f : Z -> bool) (l : list Z) : Z := zlen (filter f l).
Lemma num_nonneg f l : 0 <= num f l. Proof. apply zlen_nonneg. Qed.
Lemma num_cons f a l : num f (a :: l) = (if f a then 1 else 0) + num f l.
Proof. unfold num. cbn [filter]. destruct (f a); [rewrite zlen_cons|]; lia. Qed.
Lemma num_zero f l : num f l = 0 <-> forall x, In x l -> f x = false.
Proof.
  induction l as [|a l IH]; [split; [intros _ x []|reflexivity]|]. rewrite num_cons. pose proof (num_nonneg f l). destruct (f a) eqn:E.
  - split; [lia|]. intro H'. rewrite H' in E; [discriminate|left; auto].
  - rewrite Z.add_0_l, IH. split; [intros H' x [<-|I]; auto|intros H' x I; apply H'; right; auto].
Qed.
Lemma num_split f g l : num f l = num (fun x => f x && g x) l + num (fun x => f x && negb (g x)) l.
Proof. induction l as [|a l IH]; [reflexivity|]. rewrite !num_cons, IH. destruct (f a), (g a); cbn [andb negb]; lia. Qed.
Lemma num_le f l m : NoDup l -> (forall x, In x l -> f x = true -> In x m) -> num f l <= zlen m.
Proof.
  intros N H. unfold num, zlen. apply inj_le. apply NoDup_incl_length; [apply NoDup_filter; auto|]. intros x I. apply filter_In in I. destruct I. auto.
Qed.
Lemma num_ge f l m : NoDup m -> (forall x, In x m -> In x l /\ f x = true) -> zlen m <= num f l.
Proof. intros N H. unfold num, zlen. apply inj_le. apply NoDup_incl_length; auto. intros x I. apply filter_In. apply H. auto. Qed.
Lemma num_perm f l l' : Permutation l l' -> num f l = num f l'.
Proof. induction 1; auto; rewrite ?num_cons in *; try lia. Qed.

Section T.
  Variable n : Z.
  Variable E : Z -> Z -> bool.
  Hypothesis Hn : 0 <= n.
  Hypothesis HT : tournament n E.
  Notation deg := (indeg n E).
  Definition ranged (l : list Z) : Prop := forall x, In x l -> 0 <= x < n.
  Definition inb (S : list Z) (x : Z) : bool := if in_dec Z.eq_dec x S then true else false.
  Lemma inb_spec S x : inb S x = true <-> In x S. Proof. unfold inb. destruct (in_dec _ _ _); split; auto; discriminate. Qed.
  (* edges inside a set *)
  Lemma inside_count S : NoDup S -> ranged S -> 2 * sumf (fun j => num (fun i => E i j) S) S = zlen S * (zlen S - 1).
  Proof.
    intros N R. induction S as [|v S IH]; [reflexivity|]. inversion N; subst. rewrite zlen_cons.
    assert (R' : ranged S) by (intros x I; apply R; right; auto). specialize (IH H2 R'). destruct HT as (HT0 & HT1).
    rewrite sumf_cons.
    rewrite (sumf_ext _ (fun j => (if E v j then 1 else 0) + num (fun i => E i j) S)) by (intros j _; apply (num_cons (fun i => E i j))). rewrite sumf_plus, num_cons. cbv beta.
    rewrite (HT0 v) by (apply R; left; auto).
    assert (Q : num (fun i => E i v) S + sumf (fun j => if E v j then 1 else 0) S = zlen S).
    { clear IH N H2. revert H1 R R'. induction S as [|w S IHS]; intros H1 R R'; [reflexivity|]. rewrite num_cons, zlen_cons, sumf_cons.
      assert (IH : num (fun i => E i v) S + sumf (fun j => if E v j then 1 else 0) S = zlen S).
      { apply IHS; [intro; apply H1; right; auto|intros x [<-|I]; [apply R; left; auto|apply R'; right; auto]|intros x I; apply R'; right; auto]. }
      rewrite (HT1 v w) by (try (apply R; cbn; auto); try (apply R'; cbn; auto); intros ->; apply H1; left; auto). destruct (E w v); cbn [negb]; lia. }
    nia.
  Qed.
  Definition closed (S : list Z) : Prop := forall w r, 0 <= w < n -> In r S -> E w r = true -> In w S.
  Definition tight (S : list Z) : Prop := 2 * sumf deg S = zlen S * (zlen S - 1).
  Lemma in_out S j : NoDup S -> ranged S -> deg j = num (fun i => E i j) S + num (fun i => E i j && negb (inb S i)) (zrange n).
  Proof.
    intros N R. unfold indeg. change (zlen (filter (fun i => E i j) (zrange n))) with (num (fun i => E i j) (zrange n)).
    rewrite (num_split (fun i => E i j) (inb S)). f_equal. apply Z.le_antisymm.
    - unfold num at 2. apply num_le; [apply NoDup_zrange|]. intros x I F. apply andb_prop in F. destruct F as (F1 & F2). apply filter_In. split; [apply inb_spec; auto|auto].
    - unfold num at 1. apply num_ge; [apply NoDup_filter; auto|]. intros x I. apply filter_In in I. destruct I as (I & F). split; [apply In_zrange; auto|].
      rewrite F. apply inb_spec in I. rewrite I. auto.
  Qed.
  Lemma tight_closed S : NoDup S -> ranged S -> tight S <-> closed S.
  Proof.
    intros N R. unfold tight. rewrite (sumf_ext deg (fun j => num (fun i => E i j) S + num (fun i => E i j && negb (inb S i)) (zrange n))) by (intros; apply in_out; auto).
    rewrite sumf_plus. pose proof (inside_count S N R) as IC.
    assert (Q : sumf (fun j => num (fun i => E i j && negb (inb S i)) (zrange n)) S = 0 <-> closed S).
    { split.
      - intros Z0 w r Hw Ir Ew. pose proof (sumf_zero _ S (fun x _ => num_nonneg _ _) Z0 r Ir) as Z1. rewrite (num_zero) in Z1. specialize (Z1 w ltac:(apply In_zrange; auto)).
        rewrite Ew in Z1. cbn in Z1. apply inb_spec. destruct (inb S w); auto.
      - intro C. assert (A : forall j, In j S -> num (fun i => E i j && negb (inb S i)) (zrange n) = 0).
        { intros j Ij. apply num_zero. intros x Ix. apply In_zrange in Ix. destruct (E x j) eqn:Ex; [|auto]. pose proof (C x j Ix Ij Ex) as I. apply inb_spec in I. rewrite I. auto. }
        rewrite (sumf_ext _ (fun _ => 0)) by auto. clear. induction S; auto. }
    rewrite <- Q. lia.
  Qed.
  Lemma closed_reach S u v : closed S -> reach n E u v -> In v S -> In u S.
  Proof.
    intros C H. induction H as [a b (Ha & Hb & Eab)|a|a b c _ IH1 _ IH2]; auto. intro I. exact (C a b Ha I Eab).
  Qed.
  (* the vertices that reach v *)
  Lemma closure v : 0 <= v < n -> exists S, NoDup S /\ ranged S /\ In v S /\ closed S /\ forall x, In x S -> reach n E x v.
  Proof.
    intro Hv. assert (G : forall k S, (Z.to_nat n - length S <= k)%nat -> NoDup S -> ranged S -> In v S -> (forall x, In x S -> reach n E x v) ->
      exists S, NoDup S /\ ranged S /\ In v S /\ closed S /\ forall x, In x S -> reach n E x v).
    { induction k as [|k IH]; intros S Hk N R Iv HR.
      - exists S. split; [auto|]. split; [auto|]. split; [auto|]. split; [|auto]. intros w r Hw _ _.
        assert (A : incl (zrange n) S); [|apply A, In_zrange; auto]. apply NoDup_length_incl; auto.
        + pose proof (zlen_zrange n Hn) as L. unfold zlen in L. lia.
        + intros x I. apply In_zrange. auto.
      - destruct (existsb (fun w => negb (inb S w) && existsb (fun r => E w r) S) (zrange n)) eqn:X.
        + apply existsb_exists in X. destruct X as (w & Iw & X). apply andb_prop in X. destruct X as (X1 & X2). apply existsb_exists in X2. destruct X2 as (r & Ir & Er).
          assert (Nw : ~ In w S) by (intro I; apply inb_spec in I; rewrite I in X1; discriminate). apply In_zrange in Iw.
          apply (IH (w :: S)).
          * cbn [length]. assert (length S < Z.to_nat n)%nat; [|lia].
            assert (B : (length (w :: S) <= length (zrange n))%nat). { apply NoDup_incl_length; [constructor; auto|]. intros x [<-|I]; apply In_zrange; auto. }
            pose proof (zlen_zrange n Hn) as L. unfold zlen in L. cbn [length] in B. lia.
          * constructor; auto.
          * intros x [<-|I]; auto.
          * right; auto.
          * intros x [<-|I]; [|auto]. eapply rt_trans; [|apply HR; exact Ir]. apply rt_step. auto.
        + exists S. split; [auto|]. split; [auto|]. split; [auto|]. split; [|auto]. intros w r Hw Ir Er. destruct (in_dec Z.eq_dec w S) as [I|I]; [auto|exfalso].
          assert (T : existsb (fun w => negb (inb S w) && existsb (fun r => E w r) S) (zrange n) = true); [|congruence].
          apply existsb_exists. exists w. split; [apply In_zrange; auto|]. apply andb_true_intro. split.
          * destruct (inb S w) eqn:B; auto. apply inb_spec in B. contradiction.
          * apply existsb_exists. eauto. }
    apply (G (Z.to_nat n) [v]).
    - lia.
    - constructor; [intros []|constructor].
    - intros x [<-|[]]; auto.
    - left; auto.
    - intros x [<-|[]]. apply rt_refl.
  Qed.
  Lemma deg_gap S r w : NoDup S -> ranged S -> closed S -> In r S -> 0 <= w < n -> ~ In w S -> deg r < deg w.
  Proof.
    intros N R C Ir Hw Nw. destruct HT as (HT0 & HT1). assert (zlen S <= deg w).
    { apply num_ge; auto. intros x I. split; [apply In_zrange; auto|]. rewrite HT1; auto; [|intros ->; auto]. destruct (E w x) eqn:Ex; auto. elim Nw. apply (C w x); auto. }
    assert (deg r < zlen S); [|lia]. destruct (in_split r S Ir) as (a & b & ->).
    assert (deg r <= zlen (a ++ b)); [|rewrite zlen_app in *; rewrite zlen_cons; lia].
    apply num_le; [apply NoDup_zrange|]. intros x Ix Ex. apply In_zrange in Ix. pose proof (C x r Ix Ir Ex) as I. apply in_app_or in I. apply in_or_app.
    destruct I as [I|[<-|I]]; auto. rewrite HT0 in Ex by (apply R; auto). discriminate.
  Qed.

  (* a list of all vertices sorted by in-degree *)
  Variable L : list Z.
  Hypothesis LP : Permutation L (zrange n).
  Hypothesis LS : StronglySorted (fun a b => deg a <= deg b) L.
  Lemma L_in x : In x L <-> 0 <= x < n.
  Proof. rewrite <- In_zrange. split; [apply Permutation_in; auto|apply Permutation_in, Permutation_sym; auto]. Qed.
  Lemma L_nodup : NoDup L. Proof. eapply Permutation_NoDup; [apply Permutation_sym; exact LP|apply NoDup_zrange]. Qed.
  Lemma closed_prefix S : NoDup S -> ranged S -> closed S -> exists a b, L = a ++ b /\ (forall x, In x a <-> In x S).
  Proof.
    intros N R C. assert (Q : forall l, StronglySorted (fun a b => deg a <= deg b) l -> (forall x, In x l -> 0 <= x < n) -> l = filter (inb S) l ++ filter (fun x => negb (inb S x)) l).
    { induction l as [|x l IH]; intros HS HR; [reflexivity|]. cbn [filter]. inversion HS; subst. destruct (inb S x) eqn:B.
      - cbn [app negb]. f_equal. rewrite <- IH; auto. intros; apply HR; right; auto.
      - assert (Z0 : forall y, In y l -> inb S y = false).
        { intros y I. destruct (inb S y) eqn:By; auto. apply inb_spec in By. rewrite Forall_forall in H2. specialize (H2 y I). assert (deg y < deg x); [|lia].
          apply (deg_gap S); auto; [apply HR; left; auto|]. intro I'. apply inb_spec in I'. congruence. }
        assert (filter (inb S) l = []) as ->. { clear - Z0. induction l; cbn; auto. rewrite Z0 by (left; auto). apply IHl. intros; apply Z0; right; auto. }
        cbn [negb app]. f_equal. clear - Z0. induction l; cbn; auto. rewrite Z0 by (left; auto). cbn. f_equal. apply IHl. intros; apply Z0; right; auto. }
    exists (filter (inb S) L), (filter (fun x => negb (inb S x)) L). split; [apply Q; auto; intros; apply L_in; auto|].
    intro x. rewrite filter_In, inb_spec, L_in. split; [tauto|]. intro I. auto.
  Qed.

  (* splitting L at every tight prefix gives the components *)
  Definition cuts (P : list Z) (fin : list (list Z)) : Prop :=
    (forall g, In g fin -> g <> []) /\ (forall f1 f2, fin = f1 ++ f2 -> tight (concat f1)) /\
    (forall a b, P = a ++ b -> tight a -> exists f1 f2, fin = f1 ++ f2 /\ a = concat f1).
  Lemma tight_ext a S : NoDup a -> NoDup S -> ranged S -> (forall x, In x a <-> In x S) -> closed S -> tight a.
  Proof.
    intros Na N R X C. apply tight_closed; auto; [intros x I; apply R, X; auto|]. intros w r Hw Ir Er. apply X. apply (C w r); auto. apply X. auto.
  Qed.
  Lemma components_of fin : concat fin = L -> cuts L fin -> components n E fin.
  Proof.
    intros CL (NE & CT & TC). split; [rewrite CL; exact LP|]. split; [exact NE|].
    intros i j gi gj u v Ei Ej Iu Iv. pose proof L_nodup as ND.
    assert (Hu : 0 <= u < n). { apply L_in. rewrite <- CL. apply in_concat. exists gi. split; [eapply vget_In; eauto|auto]. }
    assert (Hv : 0 <= v < n). { apply L_in. rewrite <- CL. apply in_concat. exists gj. split; [eapply vget_In; eauto|auto]. }
    split.
    - intro HR. destruct (Z.le_gt_cases i j) as [|G]; [auto|exfalso]. destruct (vget_split fin i gi Ei) as (f1 & f2 & -> & Lf).
      specialize (CT f1 (gi :: f2) eq_refl). rewrite concat_app in CL. rewrite <- CL in ND. apply NoDup_app3 in ND. destruct ND as (N1 & N2 & N3).
      apply tight_closed in CT; auto; [|intros x I; apply L_in; rewrite <- CL; apply in_or_app; auto].
      assert (Iv' : In v (concat f1)). { apply in_concat. exists gj. split; [|auto]. apply vget_range in Ej as Rj. rewrite vget_app1 in Ej by lia. eapply vget_In; eauto. }
      pose proof (closed_reach _ u v CT HR Iv') as Iu'. apply (N3 u Iu'). apply in_concat. exists gi. split; [left; auto|auto].
    - intro Le. destruct (closure v Hv) as (S & N & R & IS & C & HR). destruct (in_dec Z.eq_dec u S) as [I|I]; [auto|exfalso].
      destruct (closed_prefix S N R C) as (a & b & EL & X).
      assert (Na : NoDup a) by (rewrite EL in ND; apply NoDup_app3 in ND; tauto).
      destruct (TC a b EL (tight_ext a S Na N R X C)) as (f1 & f2 & Ef & ->). 
      assert (Ju : ~ In u (concat f1)) by (rewrite X; auto). assert (Jv : In v (concat f1)) by (apply X; auto).
      rewrite Ef in Ei, Ej. destruct (Z.lt_ge_cases i (zlen f1)) as [Li|Li].
      + apply Ju. rewrite vget_app1 in Ei by lia. apply in_concat. exists gi. split; [eapply vget_In; eauto|auto].
      + rewrite vget_app2 in Ej by lia. apply vget_In in Ej. rewrite <- CL, Ef, concat_app in ND. apply NoDup_app3 in ND. destruct ND as (_ & _ & N3). apply (N3 v Jv).
        apply in_concat. eauto.
  Qed.
End T.
