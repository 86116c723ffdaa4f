(* Red-black trees: invariants, push, rotations, merge *)
From Verif Require Import Base BaseLemmas ListZ Seq HLD_spec HLD_proof6 RBT_model RBT_spec.

Section P.
  Context {T F : Type}.
  Variables (op : T -> T -> T) (e : T) (mapping : F -> T -> Z -> T) (composition : F -> F -> F) (id : F) (feqb : F -> F -> bool).
  Hypothesis M : is_monoid op e.
  Hypothesis A : acts op mapping composition id feqb.
  Notation tree := (tree T F).
  Notation act f := (fun x : T => mapping f x 1).
  Notation update := (update op).
  Notation apply_to := (apply_to mapping composition).
  Notation push := (push mapping composition id feqb).
  Notation merge_ := (merge_ op mapping composition id feqb).
  Notation P_ := (lprod op e).
  (* the contents *)
  Definition cont (z : F) (b : bool) (x y : list T) : list T := map (act z) (if b then rev x ++ rev y else x ++ y).
  Fixpoint seq (t : tree) : list T :=
    match t with
    | Leaf _ v => [v]
    | Node _ l r _ _ _ z b => cont z b (seq l) (seq r)
    end.
  (* the black height as seen from the parent *)
  Definition hb (t : tree) : Z := lev t + b2z (is_black (col t)).
  (* the data *)
  Fixpoint dat (t : tree) : Prop :=
    match t with
    | Leaf _ _ => True
    | Node _ l r v s _ z b => dat l /\ dat r /\ s = siz l + siz r /\ v = P_ (cont z b (seq l) (seq r)) /\ (b = true -> commutes op)
    end.
  (* the shape: rb is the full invariant, semi b allows a red right (b) or left child under a red root *)
  Fixpoint rb (t : tree) : Prop :=
    match t with
    | Leaf c _ => c = BLACK
    | Node c l r _ _ h _ _ => rb l /\ rb r /\ hb l = h /\ hb r = h /\ (c = RED -> col l = BLACK /\ col r = BLACK)
    end.
  Definition semi (right : bool) (t : tree) : Prop :=
    match t with
    | Leaf c _ => c = BLACK
    | Node c l r _ _ h _ _ => rb l /\ rb r /\ hb l = h /\ hb r = h /\ (c = RED -> if right then col l = BLACK else col r = BLACK)
    end.
  Lemma rb_semi b t : rb t -> semi b t.
  Proof. destruct t as [c v|c l r v s h z b']; cbn; auto. intros (H1 & H2 & H3 & H4 & H5). repeat split; auto. intros E. destruct (H5 E), b; auto. Qed.

  Lemma lprod_app l1 l2 : P_ (l1 ++ l2) = op (P_ l1) (P_ l2).
  Proof. unfold lprod. induction l1 as [|x l IH]; cbn [app fold_right]; [now rewrite (mon_l _ _ M)|]. rewrite IH. apply (mon_assoc _ _ M). Qed.
  Lemma lprod_rev s : commutes op -> P_ (rev s) = P_ s.
  Proof. intros C. induction s as [|x s IH]; auto. cbn [rev]. rewrite lprod_app, IH, C. unfold lprod. cbn [fold_right]. now rewrite (mon_r _ _ M). Qed.
  Lemma map_act_id s : map (act id) s = s.
  Proof. rewrite <- (map_id s) at 2. apply map_ext. intros x. apply (act_id _ _ _ _ _ A). Qed.
  Lemma map_act_comp f g s : map (act (composition f g)) s = map (act f) (map (act g) s).
  Proof. rewrite map_map. apply map_ext. intros x. apply (act_comp _ _ _ _ _ A). lia. Qed.
  Lemma lprod_act f s : s <> [] -> P_ (map (act f) s) = mapping f (P_ s) (zlen s).
  Proof.
    induction s as [|x s IH]; intros N; [contradiction|]. destruct s as [|y s].
    - cbn. rewrite !(mon_r _ _ M). reflexivity.
    - rewrite zlen_cons, (Z.add_comm _ 1). change (P_ (map (act f) (x :: y :: s))) with (op (mapping f x 1) (P_ (map (act f) (y :: s)))). change (P_ (x :: y :: s)) with (op x (P_ (y :: s))). rewrite IH by discriminate.
      rewrite (act_op _ _ _ _ _ A); [reflexivity|lia|rewrite zlen_cons; pose proof (zlen_nonneg s); lia].
  Qed.
  Lemma seq_ne t : seq t <> [].
  Proof.
    induction t as [c v|c l IHl r IHr v s h z b]; cbn [seq]; unfold cont; [discriminate|]. intros E. apply map_eq_nil in E. destruct b; apply app_eq_nil in E as (E & _); [|contradiction].
    apply IHl. rewrite <- (rev_involutive (seq l)), E. reflexivity.
  Qed.
  Lemma siz_seq t : dat t -> siz t = zlen (seq t).
  Proof.
    induction t as [c v|c l IHl r IHr v s h z b]; cbn [dat siz seq]; [reflexivity|]. intros (D1 & D2 & -> & _). unfold cont. rewrite zlen_map, IHl, IHr by auto. destruct b; rewrite zlen_app, ?zlen_rev; reflexivity.
  Qed.
  Lemma siz_pos t : dat t -> 1 <= siz t.
  Proof. intros D. rewrite siz_seq by auto. pose proof (seq_ne t). destruct (seq t) as [|x l]; [contradiction|]. rewrite zlen_cons. pose proof (zlen_nonneg l). lia. Qed.
  Lemma val_seq t : dat t -> val t = P_ (seq t).
  Proof. destruct t as [c v|c l r v s h z b]; [intros; cbn; now rewrite (mon_r _ _ M)|]. intros (_ & _ & _ & E & _). exact E. Qed.
  Lemma lev_nonneg t : rb t -> 0 <= lev t.
  Proof. induction t as [c v|c l IHl r IHr v s h z b]; cbn; [lia|]. intros (Rl & _ & <- & _). specialize (IHl Rl). unfold hb, b2z. destruct (is_black (col l)); lia. Qed.

  (* operators and turning round *)
  Lemma apply_seq f t : seq (apply_to f t) = map (act f) (seq t).
  Proof. destruct t as [c v|c l r v s h z b]; cbn [RBT_model.apply_to seq]; unfold cont; [reflexivity|]. apply map_act_comp. Qed.
  Lemma apply_dat f t : dat t -> dat (apply_to f t).
  Proof.
    intros D. pose proof (siz_seq t D) as S. pose proof (apply_seq f t) as Q. destruct t as [c v|c l r v s h z b]; cbn [RBT_model.apply_to] in *; [exact I|].
    cbn [dat] in *. destruct D as (D1 & D2 & -> & -> & Cm). split; [auto|]. split; [auto|]. split; [auto|]. split; [|auto]. cbn [seq siz] in *. rewrite Q, lprod_act by (intros X; apply (seq_ne (Node c l r e 0 0 z b)), X). now rewrite S.
  Qed.
  Lemma apply_rb f t : rb t -> rb (apply_to f t). Proof. destruct t; auto. Qed.
  Lemma apply_col f t : col (apply_to f t) = col t. Proof. destruct t; auto. Qed.
  Lemma apply_lev f t : lev (apply_to f t) = lev t. Proof. destruct t; auto. Qed.
  Lemma apply_siz f t : siz (apply_to f t) = siz t. Proof. destruct t; auto. Qed.
  Lemma apply_depth f t : depth (apply_to f t) = depth t. Proof. destruct t; auto. Qed.
  Lemma reverse_seq t : seq (reverse_of t) = rev (seq t).
  Proof.
    destruct t as [c v|c l r v s h z b]; cbn [reverse_of seq]; unfold cont; [reflexivity|]. rewrite <- map_rev. f_equal. destruct b; cbn [negb]; rewrite rev_app_distr, ?rev_involutive; reflexivity.
  Qed.
  Lemma reverse_dat t : commutes op -> dat t -> dat (reverse_of t).
  Proof.
    intros Cm D. pose proof (reverse_seq t) as Q. destruct t as [c v|c l r v s h z b]; [exact I|]. cbn [reverse_of] in *. cbn [dat] in *. destruct D as (D1 & D2 & -> & -> & _). split; [auto|]. split; [auto|]. split; [lia|]. split; [|auto].
    cbn [seq] in Q. rewrite Q. symmetry. now apply lprod_rev.
  Qed.
  Lemma reverse_rb t : rb t -> rb (reverse_of t).
  Proof. destruct t as [c v|c l r v s h z b]; auto. cbn. intros (H1 & H2 & H3 & H4 & H5). repeat split; auto; now apply H5. Qed.
  Lemma reverse_col (t : tree) : col (reverse_of t) = col t. Proof. destruct t; auto. Qed.
  Lemma reverse_lev (t : tree) : lev (reverse_of t) = lev t. Proof. destruct t; auto. Qed.
  Lemma reverse_siz (t : tree) : siz (reverse_of t) = siz t. Proof. destruct t; auto. Qed.
  Lemma reverse_depth (t : tree) : depth (reverse_of t) = depth t. Proof. destruct t; auto. cbn. lia. Qed.

  (* a pushed node *)
  Definition pushed (t t' : tree) : Prop :=
    match t, t' with
    | Leaf _ _, _ => t' = t
    | Node c l r v s h _ _, Node c' l' r' v' s' h' z' b' =>
        c' = c /\ v' = v /\ s' = s /\ h' = h /\ z' = id /\ b' = false /\ col l' = col l /\ col r' = col r /\ lev l' = lev l /\ lev r' = lev r /\ depth l' = depth l /\ depth r' = depth r /\ siz l' = siz l /\ siz r' = siz r
    | _, _ => False
    end.
  Lemma push_pushed t : pushed t (push t).
  Proof.
    destruct t as [c v|c l r v s h z b]; cbn [RBT_model.push pushed]; [reflexivity|]. destruct (feqb z id) eqn:E, b; cbn [negb]; rewrite ?reverse_col, ?reverse_lev, ?reverse_siz, ?reverse_depth, ?apply_col, ?apply_lev, ?apply_siz, ?apply_depth; try apply (act_eqb _ _ _ _ _ A) in E; repeat split; auto.
  Qed.
  Lemma push_seq t : seq (push t) = seq t.
  Proof.
    destruct t as [c v|c l r v s h z b]; cbn [RBT_model.push]; [reflexivity|]. destruct (feqb z id) eqn:E; [apply (act_eqb _ _ _ _ _ A) in E; subst z|]; destruct b; cbn [seq]; unfold cont; rewrite ?reverse_seq, ?apply_seq, ?map_act_id, ?map_app, <- ?map_rev; auto.
  Qed.
  Lemma push_dat t : dat t -> dat (push t).
  Proof.
    intros D. pose proof (push_seq t) as Q. pose proof (push_pushed t) as Pp. destruct t as [c v|c l r v s h z b]; [exact I|]. destruct (push (Node c l r v s h z b)) as [|c' l' r' v' s' h' z' b'] eqn:E; [destruct Pp|].
    destruct Pp as (-> & -> & -> & -> & -> & -> & _ & _ & _ & _ & _ & _ & S1 & S2). cbn [dat] in D. destruct D as (D1 & D2 & -> & -> & Cm). cbn [dat]. cbn [seq] in Q. rewrite Q, S1, S2.
    assert (dat l' /\ dat r'). { cbn [RBT_model.push] in E. destruct (feqb z id), b; injection E as <- <-; split; auto using apply_dat, reverse_dat. }
    split; [tauto|]. split; [tauto|]. split; [auto|]. split; [auto|discriminate].
  Qed.
  Lemma push_rb t : rb t -> rb (push t).
  Proof.
    intros R. pose proof (push_pushed t) as Pp. destruct t as [c v|c l r v s h z b]; [exact R|]. destruct (push (Node c l r v s h z b)) as [|c' l' r' v' s' h' z' b'] eqn:E; [destruct Pp|].
    destruct Pp as (-> & -> & -> & -> & -> & -> & C1 & C2 & L1 & L2 & _ & _ & S1 & S2). cbn [rb] in *. unfold hb in *. rewrite C1, C2, L1, L2. destruct R as (R1 & R2 & R3 & R4 & R5).
    assert (rb l' /\ rb r'). { cbn [RBT_model.push] in E. destruct (feqb z id), b; injection E as <- <-; split; auto using apply_rb, reverse_rb. }
    tauto.
  Qed.
  Lemma push_idle c l r v s h : push (Node c l r v s h id false) = Node c l r v s h id false.
  Proof. cbn. now rewrite (proj2 (act_eqb _ _ _ _ _ A id id) eq_refl). Qed.

  (* update *)
  Lemma update_seq c l r z b : z = id -> b = false -> seq (update c l r z b) = seq l ++ seq r.
  Proof. intros -> ->. cbn [RBT_model.update seq]. unfold cont. apply map_act_id. Qed.
  Lemma update_dat c l r z b : z = id -> b = false -> dat l -> dat r -> dat (update c l r z b).
  Proof.
    intros -> -> Dl Dr. pose proof (update_seq c l r id false eq_refl eq_refl) as Q. unfold RBT_model.update in *. cbn [dat]. cbn [seq] in Q. rewrite Q. split; [auto|]. split; [auto|]. split; [auto|]. split; [|discriminate]. rewrite lprod_app, !val_seq by auto. reflexivity.
  Qed.
  Lemma set_col_seq c t : seq (set_col c t) = seq t. Proof. destruct t; auto. Qed.
  Lemma set_col_dat c t : dat t -> dat (set_col c t). Proof. destruct t; auto. Qed.
  Lemma set_col_lev c (t : tree) : lev (set_col c t) = lev t. Proof. destruct t; auto. Qed.
  Lemma set_col_col c (t : tree) : col (set_col c t) = c. Proof. destruct t; auto. Qed.
  Lemma set_col_depth c (t : tree) : depth (set_col c t) = depth t. Proof. destruct t; auto. Qed.
  Lemma set_col_siz c (t : tree) : siz (set_col c t) = siz t. Proof. destruct t; auto. Qed.
  Lemma set_black_rb t : rb t -> rb (set_col BLACK t).
  Proof. destruct t as [c v|c l r v s h z b]; cbn; auto. intros (H1 & H2 & H3 & H4 & H5). repeat split; auto; discriminate. Qed.
  Lemma set_black_semi b t : semi b t -> rb (set_col BLACK t).
  Proof. destruct t as [c v|c l r v s h z b']; cbn; auto. intros (H1 & H2 & H3 & H4 & H5). repeat split; auto; discriminate. Qed.
  Lemma update_hb c l r z b : hb (update c l r z b) = hb l + b2z (is_black c). Proof. reflexivity. Qed.
  Lemma update_rb c l r z b : rb l -> rb r -> hb l = hb r -> (c = RED -> col l = BLACK /\ col r = BLACK) -> rb (update c l r z b).
  Proof. intros. cbn. unfold hb in *. repeat split; auto; now apply H2. Qed.
  Lemma hb_black t : col t = BLACK -> hb t = lev t + 1. Proof. unfold hb. now intros ->. Qed.
  Lemma hb_red t : col t = RED -> hb t = lev t. Proof. unfold hb. intros ->. cbn. lia. Qed.
  Lemma hb_set_black t : hb (set_col BLACK t) = lev t + 1. Proof. unfold hb. now rewrite set_col_lev, set_col_col. Qed.
  Definition good (t : tree) (s : list T) : Prop := rb t /\ dat t /\ seq t = s.
  (* a node whose flags are down *)
  Lemma good_push t : rb t -> dat t -> exists t', push t = t' /\ good t' (seq t) /\ pushed t t'.
  Proof. intros R D. exists (push t). split; auto. split; [split; [|split]; auto using push_rb, push_dat, push_seq|apply push_pushed]. Qed.
  Lemma rotate1_ok a c v s h0 h : rb a -> dat a -> col a = BLACK -> hb a = h -> semi true c -> dat c -> col c = RED -> rcol c = RED -> hb c = h ->
    exists t, rotate1 op mapping composition id feqb (Node RED (set_col BLACK a) (set_col BLACK c) v s h0 id false) = Ok t /\ good t (seq a ++ seq c) /\ col t = BLACK /\ hb t = h + 1.
  Proof.
    intros Ra Da Ca Ha Sc Dc Cc Rc Hc. unfold rotate1. rewrite push_idle. destruct c as [cc vc|cc cl cr vc sc hc zc bc]; [discriminate|]. cbn [rcol col] in Cc, Rc. subst cc. cbn [semi] in Sc. destruct Sc as (R1 & R2 & H1 & H2 & L1). specialize (L1 eq_refl).
    set (k := set_col BLACK (Node RED cl cr vc sc hc zc bc)). assert (Rk : rb k) by (apply (set_black_semi true); repeat split; auto). assert (Dk : dat k) by (apply set_col_dat; auto).
    destruct (good_push k Rk Dk) as (k' & E & (Rk' & Dk' & Qk) & Pp). rewrite E. unfold k in Pp. cbn [set_col pushed] in Pp. destruct k' as [|c' l' r' v' s' h' z' b']; [contradiction|].
    destruct Pp as (-> & -> & -> & -> & -> & -> & C1 & C2 & V1 & V2 & _). eexists. split; [reflexivity|]. cbn [rb] in Rk'. destruct Rk' as (Rl & Rr & Hl & Hr & _). cbn [dat] in Dk'. destruct Dk' as (Dl & Dr & _).
    assert (Hca : hb (set_col BLACK a) = h) by (rewrite hb_set_black, <- Ha; symmetry; now apply hb_black).
    assert (Ehc : hc = h). { rewrite <- Hc. unfold hb. cbn. lia. } subst hc.
    split; [|split; [reflexivity|]].
    - assert (Rn : rb (update RED (set_col BLACK a) l' id false)). { apply update_rb; auto using set_black_rb; [lia|]. intros _. rewrite set_col_col. split; auto. congruence. }
      split; [|split].
      + apply update_rb; auto; [|discriminate]. rewrite update_hb. cbn. lia.
      + apply update_dat; auto. apply update_dat; auto using set_col_dat.
      + rewrite !update_seq by auto. rewrite set_col_seq, <- app_assoc. f_equal. unfold k in Qk. rewrite set_col_seq in Qk. rewrite <- Qk. cbn [seq]. unfold cont. now rewrite map_act_id.
    - rewrite !update_hb. cbn. lia.
  Qed.
  Lemma rotate0_ok a c v s h0 h : rb a -> dat a -> col a = BLACK -> hb a = h -> semi false c -> dat c -> col c = RED -> lcol c = RED -> hb c = h ->
    exists t, rotate0 op mapping composition id feqb (Node RED (set_col BLACK c) (set_col BLACK a) v s h0 id false) = Ok t /\ good t (seq c ++ seq a) /\ col t = BLACK /\ hb t = h + 1.
  Proof.
    intros Ra Da Ca Ha Sc Dc Cc Rc Hc. unfold rotate0. rewrite push_idle. destruct c as [cc vc|cc cl cr vc sc hc zc bc]; [discriminate|]. cbn [lcol col] in Cc, Rc. subst cc. cbn [semi] in Sc. destruct Sc as (R1 & R2 & H1 & H2 & L1). specialize (L1 eq_refl).
    set (k := set_col BLACK (Node RED cl cr vc sc hc zc bc)). assert (Rk : rb k) by (apply (set_black_semi false); repeat split; auto). assert (Dk : dat k) by (apply set_col_dat; auto).
    destruct (good_push k Rk Dk) as (k' & E & (Rk' & Dk' & Qk) & Pp). rewrite E. unfold k in Pp. cbn [set_col pushed] in Pp. destruct k' as [|c' l' r' v' s' h' z' b']; [contradiction|].
    destruct Pp as (-> & -> & -> & -> & -> & -> & C1 & C2 & V1 & V2 & _). eexists. split; [reflexivity|]. cbn [rb] in Rk'. destruct Rk' as (Rl & Rr & Hl & Hr & _). cbn [dat] in Dk'. destruct Dk' as (Dl & Dr & _).
    assert (Hca : hb (set_col BLACK a) = h) by (rewrite hb_set_black, <- Ha; symmetry; now apply hb_black).
    assert (Ehc : hc = h). { rewrite <- Hc. unfold hb. cbn. lia. } subst hc.
    split; [|split; [reflexivity|]].
    - assert (Rn : rb (update RED r' (set_col BLACK a) id false)). { apply update_rb; auto using set_black_rb; [lia|]. intros _. rewrite set_col_col. split; auto. congruence. }
      split; [|split].
      + apply update_rb; auto; [|discriminate]. rewrite update_hb. cbn. lia.
      + apply update_dat; auto. apply update_dat; auto using set_col_dat.
      + rewrite !update_seq by auto. rewrite set_col_seq, app_assoc. f_equal. unfold k in Qk. rewrite set_col_seq in Qk. rewrite <- Qk. cbn [seq]. unfold cont. now rewrite map_act_id.
    - rewrite !update_hb. cbn. lia.
  Qed.

  (* merge to the right: the left tree is at least as high *)
  Lemma col_cases c : c = RED \/ c = BLACK. Proof. destruct c; auto. Qed.
  Lemma red_semi_rb b t : semi b t -> (col t = RED -> (if b then rcol t else lcol t) = BLACK) -> rb t.
  Proof. destruct t as [c v|c l r v s h z b']; cbn; auto. intros (H1 & H2 & H3 & H4 & H5) H. repeat split; auto; destruct b; auto. Qed.
  Lemma merge_right fuel : forall l r, (depth l <= fuel)%nat -> rb l -> dat l -> rb r -> dat r -> col r = BLACK -> lev r <= lev l -> (lev l = lev r -> col l = BLACK) ->
    exists t, merge_ fuel false l r = Ok t /\ dat t /\ seq t = seq l ++ seq r /\ hb t = hb l /\ semi true t /\ (col l = BLACK -> rb t) /\ 
      exists t', merge_ fuel true l r = Ok t' /\ t' = set_col BLACK t.
  Proof.
    induction fuel as [|fuel IH]; intros l r Lf Rl Dl Rr Dr Cr Le Ce; [destruct l; cbn in Lf; lia|]. cbn [RBT_model.merge_]. destruct (Z.ltb_spec (lev r) (lev l)) as [Lt|Ge].
    - destruct (good_push l Rl Dl) as (l' & E & (Rl' & Dl' & Ql) & Pp). rewrite E. destruct l as [cl v|cl a b v s h z rv]; [cbn [lev] in Lt; pose proof (lev_nonneg r Rr); lia|].
      destruct l' as [|c' a' b' v' s' h' z' b0]; [contradiction|]. cbn [pushed] in Pp. destruct Pp as (-> & -> & -> & -> & -> & -> & C1 & C2 & V1 & V2 & P1 & P2 & S1 & S2).
      assert (Rl0 := Rl'). cbn [rb] in Rl'. destruct Rl' as (Ra & Rb & Ha & Hb & Hc). assert (Dl0 := Dl'). cbn [dat] in Dl'. destruct Dl' as (Da & Db & _).
      cbn [lev col] in *. rewrite <- Ql. assert (Es : seq (Node cl a' b' v s h id false) = seq a' ++ seq b') by (cbn [seq]; unfold cont; now rewrite map_act_id). rewrite Es.
      assert (Lb : lev r <= lev b'). { unfold hb, b2z in Hb. destruct (is_black (col b')); lia. }
      assert (Cb : lev b' = lev r -> col b' = BLACK). { intros X. destruct (col_cases (col b')) as [Y|Y]; auto. pose proof (hb_red b' Y). lia. }
      destruct (IH b' r) as (c & Ec & Dc & Qc & Hbc & Sc & Rc & _); auto. { cbn [depth] in Lf. lia. }
      rewrite Ec. cbn [bind]. rewrite Hb in Hbc. assert (Qf : seq a' ++ seq c = (seq a' ++ seq b') ++ seq r) by (rewrite Qc, app_assoc; auto).
      destruct cl; cbn [is_black is_red negb andb].
      + (* red *) destruct (Hc eq_refl) as (Ca' & Cb'). exists (update RED a' c id false). split; [reflexivity|]. split; [apply update_dat; auto|]. split; [rewrite update_seq by auto; auto|].
        split; [rewrite update_hb; unfold hb; cbn in *; unfold hb in *; lia|]. split; [cbn; repeat split; auto; unfold hb in *; lia|]. split; [discriminate|]. eexists. split; reflexivity.
      + destruct (col_cases (col c)) as [Cc|Cc]; rewrite Cc; cbn [is_red andb].
        * destruct (col_cases (rcol c)) as [Rcc|Rcc]; rewrite Rcc; cbn [is_red].
          -- destruct (col_cases (col a')) as [Ca|Ca]; rewrite Ca; cbn [is_black is_red negb].
             ++ exists (update RED (set_col BLACK a') (set_col BLACK c) id false). split; [reflexivity|]. split; [apply update_dat; auto using set_col_dat|]. split; [rewrite update_seq by auto; rewrite !set_col_seq; auto|].
                assert (Hac : hb (set_col BLACK a') = h + 1) by (rewrite hb_set_black, <- Ha, (hb_red a' Ca); lia). assert (Hcc : hb (set_col BLACK c) = h + 1) by (rewrite hb_set_black, <- Hbc, (hb_red c Cc); lia).
                split; [rewrite update_hb; unfold hb at 2; cbn in *; lia|]. assert (X : rb (update RED (set_col BLACK a') (set_col BLACK c) id false)). { apply update_rb; auto using set_black_rb; [eapply set_black_semi; eauto|lia|]. now rewrite !set_col_col. }
                split; [now apply rb_semi|]. split; [auto|]. eexists. split; reflexivity.
             ++ destruct (rotate1_ok a' c v s h h Ra Da Ca Ha Sc Dc Cc Rcc Hbc) as (t & Et & (Rt & Dt & Qt) & Ct & Ht). rewrite Et. exists t. split; [auto|]. split; [auto|]. split; [congruence|]. split; [rewrite Ht; reflexivity|]. split; [now apply rb_semi|]. split; [auto|].
                exists t. split; auto. destruct t; cbn in *; subst; auto.
          -- assert (Rcc' : rb c) by (apply (red_semi_rb true); auto). exists (update BLACK a' c id false). split; [reflexivity|]. split; [apply update_dat; auto|]. split; [rewrite update_seq by auto; auto|].
             split; [rewrite update_hb; unfold hb at 2; cbn in *; lia|]. assert (X : rb (update BLACK a' c id false)) by (apply update_rb; auto; [lia|discriminate]). split; [now apply rb_semi|]. split; [auto|]. eexists. split; reflexivity.
        * assert (Rcc' : rb c) by (apply (red_semi_rb true); auto; congruence). exists (update BLACK a' c id false). split; [reflexivity|]. split; [apply update_dat; auto|]. split; [rewrite update_seq by auto; auto|].
          split; [rewrite update_hb; unfold hb at 2; cbn in *; lia|]. assert (X : rb (update BLACK a' c id false)) by (apply update_rb; auto; [lia|discriminate]). split; [now apply rb_semi|]. split; [auto|]. eexists. split; reflexivity.
    - assert (El : lev l = lev r) by lia. destruct (Z.ltb_spec (lev l) (lev r)); [lia|]. specialize (Ce El). exists (create_branch op id l r). split; [reflexivity|]. unfold create_branch.
      split; [apply update_dat; auto|]. split; [now apply update_seq|]. split; [rewrite update_hb; cbn; lia|]. assert (X : rb (update RED l r id false)) by (apply update_rb; auto; unfold hb; rewrite Ce, Cr, El; auto).
      split; [now apply rb_semi|]. split; [auto|]. eexists. split; reflexivity.
  Qed.

  Lemma merge_left fuel : forall l r, (depth r <= fuel)%nat -> rb l -> dat l -> rb r -> dat r -> col l = BLACK -> lev l <= lev r -> (lev l = lev r -> col r = BLACK) ->
    exists t, merge_ fuel false l r = Ok t /\ dat t /\ seq t = seq l ++ seq r /\ hb t = hb r /\ semi false t /\ (col r = BLACK -> rb t) /\ 
      exists t', merge_ fuel true l r = Ok t' /\ t' = set_col BLACK t.
  Proof.
    induction fuel as [|fuel IH]; intros l r Lf Rl Dl Rr Dr Cl Le Ce; [destruct r; cbn in Lf; lia|]. cbn [RBT_model.merge_]. destruct (Z.ltb_spec (lev r) (lev l)) as [Lt|_]; [lia|]. destruct (Z.ltb_spec (lev l) (lev r)) as [Lt|Ge].
    - destruct (good_push r Rr Dr) as (l' & E & (Rl' & Dl' & Ql) & Pp). rewrite E. destruct r as [cl v|cl a b v s h z rv]; [cbn [lev] in Lt; pose proof (lev_nonneg l Rl); lia|].
      destruct l' as [|c' a' b' v' s' h' z' b0]; [contradiction|]. cbn [pushed] in Pp. destruct Pp as (-> & -> & -> & -> & -> & -> & C1 & C2 & V1 & V2 & P1 & P2 & S1 & S2).
      assert (Rl0 := Rl'). cbn [rb] in Rl'. destruct Rl' as (Ra & Rb & Ha & Hb & Hc). assert (Dl0 := Dl'). cbn [dat] in Dl'. destruct Dl' as (Da & Db & _).
      cbn [lev col] in *. rewrite <- Ql. assert (Es : seq (Node cl a' b' v s h id false) = seq a' ++ seq b') by (cbn [seq]; unfold cont; now rewrite map_act_id). rewrite Es.
      assert (Lb : lev l <= lev a'). { unfold hb, b2z in Ha. destruct (is_black (col a')); lia. }
      assert (Cb : lev l = lev a' -> col a' = BLACK). { intros X. destruct (col_cases (col a')) as [Y|Y]; auto. pose proof (hb_red a' Y). lia. }
      destruct (IH l a') as (c & Ec & Dc & Qc & Hbc & Sc & Rc & _); auto. { cbn [depth] in Lf. lia. }
      rewrite Ec. cbn [bind]. rewrite Ha in Hbc. assert (Qf : seq c ++ seq b' = seq l ++ seq a' ++ seq b') by (rewrite Qc, <- app_assoc; auto).
      destruct cl; cbn [is_black is_red negb andb].
      + (* red *) destruct (Hc eq_refl) as (Ca' & Cb'). exists (update RED c b' id false). split; [reflexivity|]. split; [apply update_dat; auto|]. split; [rewrite update_seq by auto; auto|].
        split; [rewrite update_hb; unfold hb; cbn in *; unfold hb in *; lia|]. split; [cbn; repeat split; auto; unfold hb in *; lia|]. split; [discriminate|]. eexists. split; reflexivity.
      + destruct (col_cases (col c)) as [Cc|Cc]; rewrite Cc; cbn [is_red andb].
        * destruct (col_cases (lcol c)) as [Rcc|Rcc]; rewrite Rcc; cbn [is_red].
          -- destruct (col_cases (col b')) as [Ca|Ca]; rewrite Ca; cbn [is_black is_red negb].
             ++ exists (update RED (set_col BLACK c) (set_col BLACK b') id false). split; [reflexivity|]. split; [apply update_dat; auto using set_col_dat|]. split; [rewrite update_seq by auto; rewrite !set_col_seq; auto|].
                assert (Hac : hb (set_col BLACK b') = h + 1) by (rewrite hb_set_black, <- Hb, (hb_red b' Ca); lia). assert (Hcc : hb (set_col BLACK c) = h + 1) by (rewrite hb_set_black, <- Hbc, (hb_red c Cc); lia).
                split; [rewrite update_hb; unfold hb at 2; cbn in *; lia|]. assert (X : rb (update RED (set_col BLACK c) (set_col BLACK b') id false)). { apply update_rb; auto using set_black_rb; [eapply set_black_semi; eauto|lia|]. now rewrite !set_col_col. }
                split; [now apply rb_semi|]. split; [auto|]. eexists. split; reflexivity.
             ++ destruct (rotate0_ok b' c v s h h Rb Db Ca Hb Sc Dc Cc Rcc Hbc) as (t & Et & (Rt & Dt & Qt) & Ct & Ht). rewrite Et. exists t. split; [auto|]. split; [auto|]. split; [congruence|]. split; [rewrite Ht; reflexivity|]. split; [now apply rb_semi|]. split; [auto|].
                exists t. split; auto. destruct t; cbn in *; subst; auto.
          -- assert (Rcc' : rb c) by (apply (red_semi_rb false); auto). exists (update BLACK c b' id false). split; [reflexivity|]. split; [apply update_dat; auto|]. split; [rewrite update_seq by auto; auto|].
             split; [rewrite update_hb; unfold hb at 2; cbn in *; lia|]. assert (X : rb (update BLACK c b' id false)) by (apply update_rb; auto; [lia|discriminate]). split; [now apply rb_semi|]. split; [auto|]. eexists. split; reflexivity.
        * assert (Rcc' : rb c) by (apply (red_semi_rb false); auto; congruence). exists (update BLACK c b' id false). split; [reflexivity|]. split; [apply update_dat; auto|]. split; [rewrite update_seq by auto; auto|].
          split; [rewrite update_hb; unfold hb at 2; cbn in *; lia|]. assert (X : rb (update BLACK c b' id false)) by (apply update_rb; auto; [lia|discriminate]). split; [now apply rb_semi|]. split; [auto|]. eexists. split; reflexivity.
    - assert (El : lev l = lev r) by lia. specialize (Ce El). exists (create_branch op id l r). split; [reflexivity|]. unfold create_branch.
      split; [apply update_dat; auto|]. split; [now apply update_seq|]. split; [rewrite update_hb; unfold hb; rewrite Ce, Cl, El; cbn; lia|]. assert (X : rb (update RED l r id false)) by (apply update_rb; auto; unfold hb; rewrite Ce, Cl, El; auto).
      split; [now apply rb_semi|]. split; [auto|]. eexists. split; reflexivity.
  Qed.

  (* whole trees: black roots *)
  Definition rep (t : otree T F) (s : list T) : Prop := match t with None => s = [] | Some t => good t s /\ col t = BLACK end.
  Notation merge := (merge op mapping composition id feqb).
  Notation split := (split op mapping composition id feqb).
  Notation split_ := (split_ op mapping composition id feqb).
  Lemma rep_size t s : rep t s -> size t = zlen s.
  Proof. destruct t as [t|]; cbn [rep size]; [intros ((_ & D & <-) & _); now apply siz_seq|now intros ->]. Qed.
  Lemma rep_value t s : rep t s -> value e t = P_ s.
  Proof. destruct t as [t|]; cbn [rep value]; [intros ((_ & D & <-) & _); now apply val_seq|now intros ->]. Qed.
  Lemma merge_ok t1 s1 t2 s2 : rep t1 s1 -> rep t2 s2 -> exists t, merge t1 t2 = Ok t /\ rep t (s1 ++ s2).
  Proof.
    destruct t1 as [l|], t2 as [r|]; cbn [rep RBT_model.merge].
    - intros ((Rl & Dl & <-) & Cl) ((Rr & Dr & <-) & Cr). destruct (Z.le_ge_cases (lev r) (lev l)) as [L|L].
      + destruct (merge_right (depth l + depth r) l r) as (t & _ & Dt & Qt & _ & _ & Rt & t' & Et & ->); auto; [lia|]. rewrite Et. cbn [bind]. eexists. split; [reflexivity|]. cbn [rep]. rewrite set_col_col. split; auto. split; [auto using set_black_rb|]. split; [auto using set_col_dat|]. now rewrite set_col_seq.
      + destruct (merge_left (depth l + depth r) l r) as (t & _ & Dt & Qt & _ & _ & Rt & t' & Et & ->); auto; [lia|]. rewrite Et. cbn [bind]. eexists. split; [reflexivity|]. cbn [rep]. rewrite set_col_col. split; auto. split; [auto using set_black_rb|]. split; [auto using set_col_dat|]. now rewrite set_col_seq.
    - intros H ->. rewrite app_nil_r. eexists. split; [reflexivity|]. exact H.
    - intros -> H. eexists. split; [reflexivity|]. exact H.
    - intros -> ->. eexists. split; reflexivity.
  Qed.
  Lemma slice_app_l {X} k (a b : list X) : 0 <= k <= zlen a -> slice 0 k (a ++ b) = slice 0 k a.
  Proof. intros H. unfold slice, zlen in *. cbn [skipn]. change (Z.to_nat 0) with 0%nat. cbn [skipn]. rewrite firstn_app. replace (Z.to_nat (k - 0) - length a)%nat with 0%nat by lia. cbn. now rewrite app_nil_r. Qed.
  Lemma slice_0 {X} k (a : list X) : slice 0 k a = firstn (Z.to_nat k) a.
  Proof. unfold slice. cbn. now rewrite Z.sub_0_r. Qed.
  Lemma slice_end {X} k (a : list X) : 0 <= k -> slice k (zlen a) a = skipn (Z.to_nat k) a.
  Proof. intros. unfold slice. apply firstn_all2. rewrite skipn_length. unfold zlen. lia. Qed.
  Lemma blacken_ok t s : rb t -> dat t -> seq t = s -> rep (Some (blacken t)) s.
  Proof.
    intros R D Q. unfold blacken. cbn [rep]. destruct (col_cases (col t)) as [C|C]; rewrite C; cbn [is_red].
    - rewrite set_col_col. split; auto. split; [auto using set_black_rb|]. split; [auto using set_col_dat|]. now rewrite set_col_seq.
    - split; auto. split; auto.
  Qed.
  Lemma split_ok fuel : forall t s k, (odepth t <= fuel)%nat -> rep t s -> 0 <= k <= zlen s ->
    exists a b, split_ fuel t k = Ok (a, b) /\ rep a (firstn (Z.to_nat k) s) /\ rep b (skipn (Z.to_nat k) s).
  Proof.
    induction fuel as [|fuel IH]; intros t s k Lf Rt Hk; (destruct t as [t|]; [|cbn in Rt; subst s; exists None, None; split; [reflexivity|]; rewrite firstn_nil, skipn_nil; split; reflexivity]); [destruct t; cbn in Lf; lia|].
    cbn [RBT_model.split_]. cbn [rep] in Rt. destruct Rt as ((R & D & <-) & C). destruct (good_push t R D) as (t' & E & (R' & D' & Q) & Pp). cbv zeta. rewrite E.
    assert (C' : col t' = BLACK) by (destruct t, t'; cbn in Pp; try contradiction; try congruence; destruct Pp; cbn in *; congruence).
    assert (Sz : siz t' = zlen (seq t)) by (rewrite <- Q; now apply siz_seq). rewrite Sz.
    destruct (Z.eqb_spec k 0) as [->|K0]; [exists None, (Some t'); split; [reflexivity|]; split; [reflexivity|]; split; auto; split; auto|].
    destruct (Z.eqb_spec k (zlen (seq t))) as [->|K1].
    { exists (Some t'), None. split; [reflexivity|]. unfold zlen. rewrite Nat2Z.id, firstn_all, skipn_all. split; [split; auto; split; auto|reflexivity]. }
    destruct t as [c v|c l r v s h z b]; [unfold zlen in *; cbn in *; lia|]. destruct t' as [|c' l' r' v' s' h' z' b']; [contradiction|]. cbn [pushed] in Pp. destruct Pp as (-> & -> & -> & -> & -> & -> & C1 & C2 & V1 & V2 & P1 & P2 & S1 & S2).
    cbn [rb] in R'. destruct R' as (Rl & Rr & _). cbn [dat] in D'. destruct D' as (Dl & Dr & _). set (s0 := seq (Node c l r v s h z b)) in *. assert (Qs : s0 = seq l' ++ seq r'). { rewrite <- Q. cbn [seq]. unfold cont. now rewrite map_act_id. }
    pose proof (blacken_ok l' (seq l') Rl Dl eq_refl) as Bl. pose proof (blacken_ok r' (seq r') Rr Dr eq_refl) as Br. pose proof (rep_size _ _ Bl) as Zl. rewrite Zl. cbn [odepth depth] in Lf.
    assert (Ol : odepth (Some (blacken l')) = depth l) by (cbn [odepth]; unfold blacken; destruct (is_red (col l')); rewrite ?set_col_depth; auto). assert (Or : odepth (Some (blacken r')) = depth r) by (cbn [odepth]; unfold blacken; destruct (is_red (col r')); rewrite ?set_col_depth; auto).
    rewrite Qs in *. rewrite zlen_app in Hk. pose proof (zlen_nonneg (seq l')) as Pl. rewrite firstn_app, skipn_app. destruct (Z.ltb_spec k (zlen (seq l'))) as [Lt|Ge].
    - destruct (IH (Some (blacken l')) (seq l') k) as (a & b0 & Es & Ra & Rb); [lia|auto|lia|]. rewrite Es. cbn [bind]. destruct (merge_ok _ _ _ _ Rb Br) as (mr & Em & Rm). rewrite Em. cbn [bind]. exists a, mr. split; [reflexivity|].
      unfold zlen in *. replace (Z.to_nat k - length (seq l'))%nat with 0%nat by lia. cbn [firstn skipn]. rewrite app_nil_r. auto.
    - destruct (Z.ltb_spec (zlen (seq l')) k) as [Gt|Eq].
      + destruct (IH (Some (blacken r')) (seq r') (k - zlen (seq l'))) as (m & r0 & Es & Rm & Rr0); [lia|auto|lia|]. rewrite Es. cbn [bind]. destruct (merge_ok _ _ _ _ Bl Rm) as (lm & Em & Rlm). rewrite Em. cbn [bind]. exists lm, r0. split; [reflexivity|].
        unfold zlen in *. rewrite (firstn_all2 (seq l')) by lia. rewrite (skipn_all2 (seq l')) by lia. cbn [app]. replace (Z.to_nat k - length (seq l'))%nat with (Z.to_nat (k - Z.of_nat (length (seq l')))) by lia. auto.
      + eexists. eexists. split; [reflexivity|]. unfold zlen in *. rewrite (firstn_all2 (seq l')) by lia. rewrite (skipn_all2 (seq l')) by lia. replace (Z.to_nat k - length (seq l'))%nat with 0%nat by lia. cbn [firstn skipn app]. rewrite app_nil_r. auto.
  Qed.
End P.
