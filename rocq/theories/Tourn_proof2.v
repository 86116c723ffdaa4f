(* Proofs about Tourn_model: the loops. *)
From Coq Require Import Relation_Operators Permutation Sorted.
From Verif Require Import Base BaseLemmas ListZ Sorting SpSeg_proof Tourn_model Tourn_spec Tourn_proof.

Section T.
  Variable n : Z.
  Variable E : Z -> Z -> bool.
  Hypothesis Hn : 0 <= n.
  Hypothesis HT : tournament n E.
  Notation deg := (indeg n E).
  Lemma deg_range v : 0 <= v < n -> 0 <= deg v < n.
  Proof.
    intro Hv. split; [apply num_nonneg|]. destruct HT as (HT0 & _).
    assert (I : In v (zrange n)) by (apply In_zrange; auto). destruct (in_split v _ I) as (a & b & E').
    assert (deg v <= zlen (a ++ b)).
    { apply num_le; [apply NoDup_zrange|]. intros x Ix Ex. rewrite E' in Ix. apply in_app_or in Ix. apply in_or_app. destruct Ix as [Ix|[<-|Ix]]; auto. rewrite HT0 in Ex by auto. discriminate. }
    pose proof (zlen_zrange n Hn) as Z0. rewrite E', zlen_app, zlen_cons in Z0. rewrite zlen_app in H. lia.
  Qed.
  Definition level (k d : Z) : list Z := filter (fun v => deg v =? d) (zrange k).
  Lemma buckets : exists b, for_ 0 n (t_bucket (map deg (zrange n))) (vrep n []) = Ok b /\ forall d, 0 <= d < n -> vget b d = Ok (level n d).
  Proof.
    destruct (for_inv (fun i b => zlen b = n /\ forall d, 0 <= d < n -> vget b d = Ok (level i d)) 0 n (t_bucket (map deg (zrange n))) (vrep n [])) as (b & -> & _ & G); eauto.
    - split; [rewrite zlen_vrep; lia|]. intros d Hd. rewrite vget_vrep by auto. reflexivity.
    - intros i b Hi (Lb & G). unfold t_bucket. rewrite vget_map, vget_zrange by auto. cbn [bind]. pose proof (deg_range i Hi) as Hd. rewrite G by auto. cbn [bind]. rewrite vset_ok by lia.
      eexists. split; [reflexivity|]. split; [rewrite zlen_zupd; auto|]. intros d Hd'. rewrite vget_zupd by lia. unfold level. rewrite zrange_S by lia. rewrite filter_app. cbn [filter].
      destruct (Z.eqb_spec (deg i) d) as [<-|]; [reflexivity|]. rewrite app_nil_r. apply G. auto.
  Qed.
  Definition upto (d : Z) : list Z := flat_map (level n) (zrange d).
  Lemma upto_S d : 0 <= d -> upto (d + 1) = upto d ++ level n d.
  Proof. intro H. unfold upto. rewrite zrange_S by auto. rewrite flat_map_app. cbn. rewrite app_nil_r. auto. Qed.
  Lemma level_in d x : In x (level n d) <-> 0 <= x < n /\ deg x = d.
  Proof. unfold level. rewrite filter_In, In_zrange. split; intros (A & B); split; auto; lia. Qed.
  Lemma upto_in d x : In x (upto d) <-> 0 <= x < n /\ deg x < d.
  Proof.
    unfold upto. rewrite in_flat_map. split.
    - intros (k & K & I). apply In_zrange in K. apply level_in in I. lia.
    - intros (A & B). exists (deg x). split; [apply In_zrange; split; [apply num_nonneg|auto]|apply level_in; auto].
  Qed.
  Lemma upto_ok k : let d := Z.of_nat k in NoDup (upto d) /\ StronglySorted (fun a b => deg a <= deg b) (upto d).
  Proof.
    induction k as [|k IH]; cbn zeta in *; [split; constructor|]. rewrite Nat2Z.inj_succ. unfold Z.succ. rewrite upto_S by lia. destruct IH as (N & S0). split.
    - apply NoDup_app3. split; [auto|]. split; [apply NoDup_filter, NoDup_zrange|]. intros x I1 I2. apply upto_in in I1. apply level_in in I2. lia.
    - apply StronglySorted_app'; auto.
      + assert (A : forall l, (forall x, In x l -> deg x = Z.of_nat k) -> StronglySorted (fun a b => deg a <= deg b) l).
        { induction l as [|x l IH]; intro H; [constructor|]. constructor; [apply IH; intros; apply H; right; auto|]. apply Forall_forall. intros y I. rewrite (H x), (H y) by (cbn; auto). lia. }
        apply A. intros x I. apply level_in in I. tauto.
      + intros x y I1 I2. apply upto_in in I1. apply level_in in I2. lia.
  Qed.
  Lemma upto_perm : Permutation (upto n) (zrange n).
  Proof.
    apply NoDup_Permutation; [|apply NoDup_zrange|].
    - pose proof (upto_ok (Z.to_nat n)) as H. cbn zeta in H. rewrite Z2Nat.id in H by auto. tauto.
    - intro x. rewrite upto_in, In_zrange. split; [tauto|]. intro H. pose proof (deg_range x H). lia.
  Qed.
  Lemma upto_sorted : StronglySorted (fun a b => deg a <= deg b) (upto n).
  Proof. pose proof (upto_ok (Z.to_nat n)) as H. cbn zeta in H. rewrite Z2Nat.id in H by auto. tauto. Qed.

  Definition inv (P : list Z) (s : tstate) : Prop :=
    concat (t_fin s) ++ t_cur s = P /\ t_rem s = zlen (concat (t_fin s)) /\ t_num s = zlen (t_cur s) /\ t_sum s = sumf (fun v => deg v - t_rem s) (t_cur s) /\ cuts n E P (t_fin s).
  Lemma body_ok P v s : inv P s -> exists s', t_body (deg v) v s = Ok s' /\ inv (P ++ [v]) s'.
  Proof.
    intros (A & B & C & D & (N & CT & TC)). destruct s as [fin cur rem nm sm]. cbn [t_fin t_cur t_rem t_num t_sum] in *. unfold t_body. cbn [t_fin t_cur t_rem t_num t_sum].
    assert (TF : tight n E (concat fin)) by (apply (CT fin []); rewrite app_nil_r; auto).
    assert (LP : zlen P = rem + nm) by (rewrite <- A, zlen_app; lia).
    assert (SP : sumf deg P = sumf deg (concat fin) + sm + nm * rem) by (rewrite <- A, sumf_app, D, sumf_sub; lia).
    assert (TT : tight n E (P ++ [v]) <-> (nm + 1) * (nm + 1 - 1) = 2 * (sm + (deg v - rem))).
    { unfold tight in *. rewrite sumf_app, zlen_app, LP, SP. change (zlen [v]) with 1. change (sumf deg [v]) with (deg v + 0). rewrite <- B in TF.
      replace (2 * (sumf deg (concat fin) + sm + nm * rem + (deg v + 0))) with (2 * sumf deg (concat fin) + 2 * (sm + nm * rem + deg v)) by ring. rewrite TF. split; intro; nia. }
    assert (Split : forall a b, P ++ [v] = a ++ b -> b = [] \/ exists b', P = a ++ b').
    { intros a b H. destruct b as [|x b] using rev_ind; [auto|right]. clear IHb. rewrite app_assoc in H. apply app_inj_tail in H. destruct H as (H & _). eauto. }
    destruct (Z.eqb_spec ((nm + 1) * (nm + 1 - 1)) (2 * (sm + (deg v - rem)))) as [T|T]; (eexists; split; [reflexivity|]); unfold inv; cbn [t_fin t_cur t_rem t_num t_sum].
    - rewrite concat_app. cbn [concat]. rewrite !app_nil_r, app_assoc, A. split; [auto|]. split; [rewrite zlen_app, LP; change (zlen [v]) with 1; lia|]. split; [auto|]. split; [auto|]. split; [|split].
      + intros g I. apply in_app_or in I. destruct I as [I|[<-|[]]]; auto. destruct cur; discriminate.
      + intros f1 f2 H. destruct f2 as [|g f2] using rev_ind.
        * rewrite app_nil_r in H. subst f1. rewrite concat_app. cbn [concat]. rewrite app_nil_r, app_assoc, A. apply TT. auto.
        * clear IHf2. rewrite app_assoc in H. apply app_inj_tail in H. destruct H as (H & _). eauto.
      + intros a b H Ta. destruct (Split a b H) as [->|(b' & Hb)].
        * rewrite app_nil_r in H. subst a. exists (fin ++ [cur ++ [v]]), []. rewrite app_nil_r. split; [auto|]. rewrite concat_app. cbn [concat]. rewrite app_nil_r, app_assoc, A. auto.
        * destruct (TC a b' Hb Ta) as (f1 & f2 & -> & ->). exists f1, (f2 ++ [cur ++ [v]]). rewrite app_assoc. auto.
    - rewrite app_assoc, A. split; [auto|]. split; [auto|]. split; [rewrite zlen_app; change (zlen [v]) with 1; lia|]. split.
      { rewrite sumf_app, <- D. change (sumf (fun v0 => deg v0 - rem) [v]) with (deg v - rem + 0). lia. }
      split; [auto|]. split; [auto|]. intros a b H Ta. destruct (Split a b H) as [->|(b' & Hb)].
      + rewrite app_nil_r in H. subst a. apply TT in Ta. contradiction.
      + exact (TC a b' Hb Ta).
  Qed.
  Lemma inner_ok d : forall l P s, (forall x, In x l -> deg x = d) -> inv P s -> exists s', for_each l (t_body d) s = Ok s' /\ inv (P ++ l) s'.
  Proof.
    induction l as [|x l IH]; intros P s H I; cbn [for_each]; [exists s; rewrite app_nil_r; auto|].
    destruct (body_ok P x s I) as (s1 & E1 & I1). rewrite (H x (or_introl eq_refl)) in E1. rewrite E1. cbn [bind].
    destruct (IH (P ++ [x]) s1 (fun y J => H y (or_intror J)) I1) as (s2 & -> & I2). exists s2. split; auto. rewrite <- app_assoc in I2. exact I2.
  Qed.
  Lemma scc_ok : exists gs, scc_tournament (map deg (zrange n)) = Ok gs /\ components n E gs.
  Proof.
    unfold scc_tournament. rewrite zlen_map, zlen_zrange by auto. cbn zeta. destruct buckets as (b & -> & Hb). cbn [bind].
    destruct (for_inv (fun d s => inv (upto d) s) 0 n (t_outer b) (mkT [] [] 0 0 0)) as (s & -> & I).
    { auto. }
    { split; [reflexivity|]. cbn [t_fin t_cur t_rem t_num t_sum]. split; [reflexivity|]. split; [reflexivity|]. split; [reflexivity|]. split; [intros g []|]. split.
      - intros f1 f2 H. symmetry in H. apply app_eq_nil in H. destruct H as (-> & _). reflexivity.
      - intros a c H _. symmetry in H. apply app_eq_nil in H. destruct H as (-> & _). exists [], []. auto. }
    { intros d s Hd I. unfold t_outer. rewrite Hb by auto. cbn [bind]. rewrite upto_S by lia. apply inner_ok; auto. intros x J. apply level_in in J. tauto. }
    cbn [bind]. eexists. split; [reflexivity|]. destruct I as (A & _ & _ & _ & C).
    pose proof upto_perm as PP. pose proof upto_sorted as SS. set (L := upto n) in *.
    apply components_of with (L := L); auto.
    assert (TL : tight n E L).
    { apply tight_closed; auto; [eapply Permutation_NoDup; [apply Permutation_sym; exact PP|apply NoDup_zrange]|intros x J; apply (L_in n L PP); auto|].
      intros w r Hw _ _. apply (L_in n L PP). auto. }
    pose proof C as (_ & _ & TC). destruct (TC L [] ltac:(rewrite app_nil_r; auto) TL) as (f1 & f2 & Ef & EL). rewrite <- A. 
    destruct (t_cur s) as [|x c]; [rewrite app_nil_r; auto|exfalso]. rewrite Ef, concat_app, <- EL in A. apply (f_equal zlen) in A. rewrite !zlen_app, zlen_cons in A.
    pose proof (zlen_nonneg (concat f2)). pose proof (zlen_nonneg c). lia.
  Qed.
End T.
