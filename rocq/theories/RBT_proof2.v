(* Red-black trees: the interface *)
From Verif Require Import Base BaseLemmas ListZ Seq HLD_spec HLD_proof6 RBT_model RBT_spec RBT_proof.

Lemma skipn_skipn {X} (a b : nat) (s : list X) : skipn a (skipn b s) = skipn (b + a) s.
Proof. revert s. induction b as [|b IH]; intros s; auto. destruct s as [|x s]; [now rewrite !skipn_nil|]. cbn [skipn plus]. apply IH. Qed.

Section P.
  Context {T F : Type}.
  Variables (op : T -> T -> T) (e : T) (mapping : F -> T -> Z -> T) (composition : F -> F -> F) (id : F) (feqb : F -> F -> bool).
  Hypothesis M : is_monoid op e.
  Hypothesis A : acts op mapping composition id feqb.
  Notation act f := (fun x : T => mapping f x 1).
  Notation rep := (rep op e mapping).
  Notation seq := (seq mapping).
  Notation P_ := (lprod op e).
  Notation build := (build op mapping composition id feqb).
  Notation build_ := (build_ op mapping composition id feqb).
  Notation merge := (merge op mapping composition id feqb).
  Notation split := (split op mapping composition id feqb).
  Notation split_range := (split_range op mapping composition id feqb).
  Notation insert := (insert op mapping composition id feqb).
  Notation erase := (erase op mapping composition id feqb).
  Notation update_value := (update_value op mapping composition id feqb).
  Notation get := (get op mapping composition id feqb).
  Notation prod := (prod op e mapping composition id feqb).
  Notation apply := (apply op mapping composition id feqb).
  Notation reverse := (reverse op mapping composition id feqb).
  Notation holds := (holds op e mapping composition id feqb).
  Notation merge_ok := (merge_ok op e mapping composition id feqb M A).
  Lemma split_rep t s k : rep t s -> 0 <= k <= zlen s -> exists a b, split t k = Ok (a, b) /\ rep a (slice 0 k s) /\ rep b (slice k (zlen s) s).
  Proof. intros R H. rewrite slice_0, slice_end by lia. unfold RBT_model.split. apply (split_ok op e mapping composition id feqb M A); auto. Qed.
  Lemma slice_slice {X} l r (s : list X) : 0 <= l <= r -> r <= zlen s -> slice 0 l (slice 0 r s) = slice 0 l s /\ slice l (zlen (slice 0 r s)) (slice 0 r s) = slice l r s.
  Proof.
    intros H Hr. rewrite (slice_end l (slice 0 r s)) by lia. rewrite !slice_0. rewrite firstn_firstn, Nat.min_l by lia. split; auto. unfold slice. rewrite firstn_skipn_comm. f_equal. f_equal. lia.
  Qed.
  Lemma range_rep t s l r : rep t s -> 0 <= l <= r -> r <= zlen s -> exists a b c, split_range t l r = Ok (a, b, c) /\ rep a (slice 0 l s) /\ rep b (slice l r s) /\ rep c (slice r (zlen s) s).
  Proof.
    intros R H Hr. unfold RBT_model.split_range. destruct (split_rep t s r R ltac:(lia)) as (tlm & tr & E & R1 & R2). rewrite E. cbn [bind].
    assert (Z0 : zlen (slice 0 r s) = r). { rewrite slice_0. unfold zlen in *. rewrite firstn_length. lia. } destruct (split_rep tlm _ l R1 ltac:(lia)) as (tl & tm & E2 & R3 & R4). rewrite E2. cbn [bind].
    destruct (slice_slice l r s H Hr) as (X1 & X2). rewrite X1 in R3. rewrite X2 in R4. exists tl, tm, tr. auto.
  Qed.
  Lemma join3 {X} l r (s : list X) : 0 <= l <= r -> r <= zlen s -> slice 0 l s ++ slice l r s ++ slice r (zlen s) s = s.
  Proof.
    intros H Hr. rewrite slice_0, slice_end by lia. unfold slice. rewrite <- (firstn_skipn (Z.to_nat l) s) at 4. f_equal. rewrite <- (firstn_skipn (Z.to_nat (r - l)) (skipn (Z.to_nat l) s)) at 2. f_equal. rewrite skipn_skipn. f_equal. lia.
  Qed.
  Lemma slice_one {X} k (s : list X) : 0 <= k < zlen s -> exists x, vget s k = Ok x /\ slice k (k + 1) s = [x].
  Proof.
    intros H. destruct (vget_Ok s k H) as (x & E). exists x. split; auto. destruct (vget_split s k x E) as (a & b & -> & <-). unfold slice, zlen. rewrite Nat2Z.id, skipn_app, skipn_all, Nat.sub_diag. cbn [skipn app]. replace (Z.to_nat (Z.of_nat (length a) + 1 - Z.of_nat (length a))) with 1%nat by lia. reflexivity.
  Qed.
  Lemma leaf_rep v : rep (Some (create_leaf v)) [v]. Proof. repeat split. Qed.
  Lemma insert_rep t s k v : rep t s -> 0 <= k <= zlen s -> exists t', insert t k v = Ok t' /\ rep t' (slice 0 k s ++ v :: slice k (zlen s) s).
  Proof.
    intros R H. unfold RBT_model.insert. destruct (split_rep t s k R H) as (a & b & E & Ra & Rb). rewrite E. cbn [bind]. destruct (merge_ok _ _ _ _ Ra (leaf_rep v)) as (c & E2 & Rc). rewrite E2. cbn [bind].
    destruct (merge_ok _ _ _ _ Rc Rb) as (d & E3 & Rd). exists d. rewrite <- app_assoc in Rd. auto.
  Qed.
  (* a tree of one element *)
  Lemma one_rep t x : rep t [x] -> exists c, t = Some (Leaf c x).
  Proof.
    destruct t as [t|]; cbn; [|discriminate]. intros ((R & D & Q) & C). destruct t as [c v|c l r v s h z b]; cbn in Q; [injection Q as ->; eauto|]. exfalso. unfold cont in Q. apply (f_equal (@length T)) in Q. rewrite map_length in Q. cbn in D. destruct D as (D1 & D2 & _).
    pose proof (seq_ne mapping l) as N1. pose proof (seq_ne mapping r) as N2. destruct (seq l) eqn:El; [contradiction|]. destruct (seq r) eqn:Er; [contradiction|]. destruct b; rewrite app_length, ?rev_length in Q; cbn in Q; lia.
  Qed.
  Lemma erase_rep t s k : rep t s -> 0 <= k < zlen s -> exists t' x, erase t k = Ok (t', x) /\ vget s k = Ok x /\ rep t' (slice 0 k s ++ slice (k + 1) (zlen s) s).
  Proof.
    intros R H. unfold RBT_model.erase. destruct (range_rep t s k (k + 1) R ltac:(lia) ltac:(lia)) as (a & b & c & E & Ra & Rb & Rc). rewrite E. cbn [bind]. destruct (slice_one k s H) as (x & Ex & Es). rewrite Es in Rb. destruct (one_rep _ _ Rb) as (cc & ->).
    destruct (merge_ok _ _ _ _ Ra Rc) as (d & E2 & Rd). rewrite E2. cbn [bind]. exists d, x. auto.
  Qed.
  Lemma update_rep t s k f : rep t s -> 0 <= k < zlen s -> exists t', update_value t k f = Ok t' /\ rep t' (slice 0 k s ++ map f (slice k (k + 1) s) ++ slice (k + 1) (zlen s) s).
  Proof.
    intros R H. unfold RBT_model.update_value. destruct (range_rep t s k (k + 1) R ltac:(lia) ltac:(lia)) as (a & b & c & E & Ra & Rb & Rc). rewrite E. cbn [bind]. destruct (slice_one k s H) as (x & Ex & Es). rewrite Es in *. destruct (one_rep _ _ Rb) as (cc & ->).
    cbn [set_val val map]. assert (Rf : rep (Some (Leaf cc (f x))) [f x]). { destruct Rb as ((Rb & _) & Cb). repeat split; auto. }
    destruct (merge_ok _ _ _ _ Ra Rf) as (d & E2 & Rd). rewrite E2. cbn [bind]. destruct (merge_ok _ _ _ _ Rd Rc) as (t' & E3 & Rt). exists t'. rewrite <- app_assoc in Rt. auto.
  Qed.
  Lemma get_rep t s k : rep t s -> 0 <= k < zlen s -> exists t' x, get t k = Ok (t', x) /\ vget s k = Ok x /\ rep t' s.
  Proof.
    intros R H. unfold RBT_model.get. destruct (range_rep t s k (k + 1) R ltac:(lia) ltac:(lia)) as (a & b & c & E & Ra & Rb & Rc). rewrite E. cbn [bind]. destruct (slice_one k s H) as (x & Ex & Es). assert (Rb' := Rb). rewrite Es in Rb'. destruct (one_rep _ _ Rb') as (cc & ->).
    destruct (merge_ok _ _ _ _ Ra Rb) as (d & E2 & Rd). rewrite E2. cbn [bind]. destruct (merge_ok _ _ _ _ Rd Rc) as (t' & E3 & Rt). rewrite E3. cbn [bind]. exists t', x. rewrite <- app_assoc, join3 in Rt by lia. auto.
  Qed.
  Lemma prod_rep t s l r : rep t s -> 0 <= l <= r -> r <= zlen s -> exists t', prod t l r = Ok (t', P_ (slice l r s)) /\ rep t' s.
  Proof.
    intros R H Hr. unfold RBT_model.prod. destruct (range_rep t s l r R H Hr) as (a & b & c & E & Ra & Rb & Rc). rewrite E. cbn [bind]. cbv zeta. rewrite (rep_value op e mapping M _ _ Rb).
    destruct (merge_ok _ _ _ _ Ra Rb) as (d & E2 & Rd). rewrite E2. cbn [bind]. destruct (merge_ok _ _ _ _ Rd Rc) as (t' & E3 & Rt). rewrite E3. cbn [bind]. exists t'. rewrite <- app_assoc, join3 in Rt by lia. auto.
  Qed.
  Lemma apply_all_rep t s f : rep t s -> rep (apply_all mapping composition t f) (map (act f) s).
  Proof.
    destruct t as [t|]; cbn [RBT_proof.rep apply_all option_map]; [|now intros ->]. intros ((R & D & <-) & C). rewrite apply_col. split; auto. split; [now apply apply_rb|]. split; [eapply apply_dat; eauto|eapply apply_seq; eauto].
  Qed.
  Lemma reverse_all_rep t s : commutes op -> rep t s -> rep (reverse_all t) (rev s).
  Proof.
    intros Cm. destruct t as [t|]; cbn [RBT_proof.rep reverse_all option_map]; [|now intros ->]. intros ((R & D & <-) & C). rewrite reverse_col. split; auto. split; [now apply reverse_rb|]. split; [eapply reverse_dat; eauto|eapply reverse_seq; eauto].
  Qed.
  Lemma apply_rep t s l r f : rep t s -> 0 <= l <= r -> r <= zlen s -> exists t', apply t l r f = Ok t' /\ rep t' (applied mapping f l r s).
  Proof.
    intros R H Hr. unfold RBT_model.apply, applied. destruct (range_rep t s l r R H Hr) as (a & b & c & E & Ra & Rb & Rc). rewrite E. cbn [bind].
    destruct (merge_ok _ _ _ _ Ra (apply_all_rep _ _ f Rb)) as (d & E2 & Rd). rewrite E2. cbn [bind]. destruct (merge_ok _ _ _ _ Rd Rc) as (t' & E3 & Rt). exists t'. rewrite <- app_assoc in Rt. auto.
  Qed.
  Lemma reverse_rep t s l r : commutes op -> rep t s -> 0 <= l <= r -> r <= zlen s -> exists t', reverse t l r = Ok t' /\ rep t' (reversed l r s).
  Proof.
    intros Cm R H Hr. unfold RBT_model.reverse, reversed. destruct (range_rep t s l r R H Hr) as (a & b & c & E & Ra & Rb & Rc). rewrite E. cbn [bind].
    destruct (merge_ok _ _ _ _ Ra (reverse_all_rep _ _ Cm Rb)) as (d & E2 & Rd). rewrite E2. cbn [bind]. destruct (merge_ok _ _ _ _ Rd Rc) as (t' & E3 & Rt). exists t'. rewrite <- app_assoc in Rt. auto.
  Qed.
  Lemma slice_join {X} l m r (s : list X) : 0 <= l <= m -> m <= r -> slice l m s ++ slice m r s = slice l r s.
  Proof.
    intros H H2. unfold slice. rewrite <- (firstn_skipn (Z.to_nat (m - l)) (firstn (Z.to_nat (r - l)) (skipn (Z.to_nat l) s))). f_equal.
    - rewrite firstn_firstn, Nat.min_l by lia. reflexivity.
    - rewrite skipn_firstn_comm, skipn_skipn. f_equal; [lia|]. f_equal. lia.
  Qed.
  Lemma build_rep_ a fuel : forall l r, 0 <= l < r -> r <= zlen a -> (Z.to_nat (r - l) <= fuel)%nat -> exists t, build_ fuel a l r = Ok t /\ rep t (slice l r a).
  Proof.
    induction fuel as [|fuel IH]; intros l r H Hr Lf; [lia|]. cbn [RBT_model.build_]. destruct (Z.eqb_spec (r - l) 1) as [E|N].
    - destruct (slice_one l a ltac:(lia)) as (x & Ex & Es). rewrite Ex. cbn [bind]. eexists. split; [reflexivity|]. replace r with (l + 1) by lia. rewrite Es. apply leaf_rep.
    - cbv zeta. rewrite Z.shiftr_div_pow2 by lia. change (2 ^ 1) with 2. assert (l < (l + r) / 2 < r) by (pose proof (Z.div_mod (l + r) 2 ltac:(lia)); pose proof (Z.mod_pos_bound (l + r) 2 ltac:(lia)); lia). set (m := (l + r) / 2) in *.
      destruct (IH l m ltac:(lia) ltac:(lia) ltac:(lia)) as (t1 & E1 & R1), (IH m r ltac:(lia) ltac:(lia) ltac:(lia)) as (t2 & E2 & R2). rewrite E1. cbn [bind]. rewrite E2. cbn [bind]. destruct (merge_ok _ _ _ _ R1 R2) as (t & E & R). exists t. rewrite slice_join in R by lia. auto.
  Qed.
  Lemma build_rep a : exists t, build a = Ok t /\ rep t a.
  Proof.
    destruct a as [|x a]; [exists None; split; reflexivity|]. unfold RBT_model.build. set (s := x :: a). destruct (build_rep_ s (length s) 0 (zlen s)) as (t & E & R); [unfold s; rewrite zlen_cons; pose proof (zlen_nonneg a); lia|lia|unfold zlen; lia|].
    exists t. split; [exact E|]. rewrite slice_0 in R. unfold zlen in R. now rewrite Nat2Z.id, firstn_all in R.
  Qed.
  Ltac det E := match type of E with ?x = Ok _ => match goal with H : x = Ok _ |- _ => rewrite H in E; injection E as <- || injection E as <- <- || injection E as <- <- <- end end.
  Theorem holds_rep t s : holds t s -> rep t s.
  Proof.
    induction 1.
    - reflexivity.
    - destruct (build_rep a) as (t' & E & R). rewrite E in H. now injection H as <-.
    - destruct (merge_ok _ _ _ _ IHholds1 IHholds2) as (t' & E & R). rewrite E in H1. now injection H1 as <-.
    - destruct (split_rep _ _ k IHholds H0) as (a' & b' & E & R1 & R2). rewrite E in H1. now injection H1 as <- <-.
    - destruct (split_rep _ _ k IHholds H0) as (a' & b' & E & R1 & R2). rewrite E in H1. now injection H1 as <- <-.
    - destruct (range_rep _ _ l r IHholds H0 H1) as (a' & b' & c' & E & R1 & R2 & R3). rewrite E in H2. now injection H2 as <- <- <-.
    - destruct (range_rep _ _ l r IHholds H0 H1) as (a' & b' & c' & E & R1 & R2 & R3). rewrite E in H2. now injection H2 as <- <- <-.
    - destruct (range_rep _ _ l r IHholds H0 H1) as (a' & b' & c' & E & R1 & R2 & R3). rewrite E in H2. now injection H2 as <- <- <-.
    - destruct (insert_rep _ _ k v IHholds H0) as (t2 & E & R). rewrite E in H1. now injection H1 as <-.
    - destruct (erase_rep _ _ k IHholds H0) as (t2 & x2 & E & _ & R). rewrite E in H1. now injection H1 as <- <-.
    - destruct (update_rep _ _ k f IHholds H0) as (t2 & E & R). rewrite E in H1. now injection H1 as <-.
    - destruct (get_rep _ _ k IHholds H0) as (t2 & x2 & E & _ & R). rewrite E in H1. now injection H1 as <- <-.
    - destruct (prod_rep _ _ l r IHholds H0 H1) as (t2 & E & R). rewrite E in H2. now injection H2 as <- <-.
    - destruct (apply_rep _ _ l r f IHholds H0 H1) as (t2 & E & R). rewrite E in H2. now injection H2 as <-.
    - now apply apply_all_rep.
    - destruct (reverse_rep _ _ l r H IHholds H1 H2) as (t2 & E & R). rewrite E in H3. now injection H3 as <-.
    - now apply reverse_all_rep.
  Qed.
  (* observations *)
  Lemma dump_seq t : forall z rv, dump_ mapping composition t z rv = map (act z) (if rv then rev (seq t) else seq t).
  Proof.
    induction t as [c v|c l IHl r IHr v s h z' b]; intros z rv; cbn [dump_ RBT_proof.seq]; [destruct rv; reflexivity|]. unfold cont. cbv zeta. destruct rv; rewrite IHl, IHr, <- map_app.
    - rewrite (map_act_comp op mapping composition id feqb A), <- map_rev. f_equal. f_equal. destruct b; cbn [xorb]; rewrite rev_app_distr, ?rev_involutive; auto.
    - rewrite (map_act_comp op mapping composition id feqb A). f_equal. f_equal. destruct b; cbn [xorb]; auto.
  Qed.
  Lemma dump_rep t s : rep t s -> dump mapping composition id t = s.
  Proof. destruct t as [t|]; cbn [RBT_proof.rep dump]; [intros ((_ & _ & <-) & _)|now intros ->]. rewrite dump_seq. apply (map_act_id op mapping composition id feqb A). Qed.
  Lemma check_rb (t : tree T F) : rb t -> check_ t = Ok (hb t).
  Proof.
    induction t as [c v|c l IHl r IHr v s h z b]; cbn [check_ rb]; [intros ->; reflexivity|]. intros (Rl & Rr & Hl & Hr & Hc). rewrite IHl, IHr by auto. cbn [bind]. rewrite Hl, Hr, Z.eqb_refl.
    destruct c; cbn [is_red]; [destruct (Hc eq_refl) as (-> & ->)|]; reflexivity.
  Qed.
  Lemma check_rep t s : rep t s -> check_rbtree_properties t = Ok tt.
  Proof. destruct t as [t|]; cbn [RBT_proof.rep check_rbtree_properties]; [intros ((R & _ & _) & C)|reflexivity]. rewrite C, check_rb by auto. reflexivity. Qed.
  Lemma depth_rb (t : tree T F) : rb t -> Z.of_nat (depth t) <= 2 * lev t + b2z (is_black (col t)).
  Proof.
    induction t as [c v|c l IHl r IHr v s h z b]; cbn [depth rb lev col]; [intros ->; cbn; lia|]. intros (Rl & Rr & Hl & Hr & Hc). specialize (IHl Rl). specialize (IHr Rr). unfold hb in *. destruct c.
    - destruct (Hc eq_refl) as (C1 & C2). rewrite C1, C2 in *. cbn [is_black is_red negb b2z] in *. lia.
    - destruct (col l), (col r); cbn [is_black is_red negb b2z] in *; lia.
  Qed.
  Lemma size_rb (t : tree T F) : rb t -> 2 ^ lev t <= zlen (seq t).
  Proof.
    induction t as [c v|c l IHl r IHr v s h z b]; cbn [rb lev RBT_proof.seq]; [intros _; rewrite zlen_one; cbn; lia|]. intros (Rl & Rr & Hl & Hr & Hc). specialize (IHl Rl). specialize (IHr Rr). unfold cont. rewrite zlen_map.
    assert (Zs : zlen (if b then rev (seq l) ++ rev (seq r) else seq l ++ seq r) = zlen (seq l) + zlen (seq r)) by (destruct b; rewrite zlen_app, ?zlen_rev; auto). rewrite Zs.
    pose proof (lev_nonneg l Rl). pose proof (lev_nonneg r Rr). assert (X : 0 <= h). { rewrite <- Hl. unfold hb, b2z. destruct (is_black _); lia. }
    destruct (Z.eq_dec h 0) as [->|N]; [change (2 ^ 0) with 1; pose proof (seq_ne mapping l); destruct (seq l); [contradiction|]; rewrite zlen_cons; pose proof (zlen_nonneg l0); pose proof (zlen_nonneg (seq r)); lia|].
    assert (Hl2 : h - 1 <= lev l) by (rewrite <- Hl; unfold hb, b2z; destruct (is_black _); lia). assert (Hr2 : h - 1 <= lev r) by (rewrite <- Hr; unfold hb, b2z; destruct (is_black _); lia).
    pose proof (Z.pow_le_mono_r 2 (h - 1) (lev l) ltac:(lia) Hl2). pose proof (Z.pow_le_mono_r 2 (h - 1) (lev r) ltac:(lia) Hr2). replace h with (h - 1 + 1) by lia. rewrite Z.pow_add_r by lia. lia.
  Qed.
  Lemma depth_rep t s : rep t s -> Z.of_nat (odepth t) <= 2 * Z.log2 (zlen s) + 1.
  Proof.
    destruct t as [t|]; cbn [RBT_proof.rep odepth]; [intros ((R & D & <-) & C)|intros ->; change (zlen (@nil T)) with 0; cbn; lia]. pose proof (depth_rb t R) as H. rewrite C in H. cbn [is_black is_red negb b2z] in H. pose proof (size_rb t R) as H2. pose proof (lev_nonneg t R).
    assert (lev t <= Z.log2 (zlen (seq t))). { rewrite <- (Z.log2_pow2 (lev t)) by lia. now apply Z.log2_le_mono. } lia.
  Qed.
End P.
