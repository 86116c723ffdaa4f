(* Proofs about Odc_model: the recorded intervals describe the history. *)
From Verif Require Import Base BaseLemmas ListZ ListMore Seq UnionFind_model UnionFind_spec UnionFind_proof UnionFind_proof2 Odc_spec Odc_model Odc_proof.
From Coq Require Import Relations Permutation.

Record HInv (n : Z) (d : odc) (Es : list (list (Z * Z))) (E : list (Z * Z)) : Prop := {
  h_n : d_n d = n;
  h_len : zlen Es = zlen (d_qs d);
  h_perm : Permutation E (map fst (d_active d));
  h_act : forall e l, In (e, l) (d_active d) -> 0 <= l <= zlen (d_qs d) /\ 0 <= fst e < n /\ 0 <= snd e < n;
  h_rng : forall u v l r, In (u, v, l, r) (d_range d) -> 0 <= l <= r /\ r <= zlen (d_qs d) /\ 0 <= u < n /\ 0 <= v < n;
  h_qs : forall u v, In (u, v) (d_qs d) -> 0 <= u < n /\ 0 <= v < n;
  h_mean : forall t Et e, vget Es t = Ok Et -> (In e Et <-> (exists l, In (e, l) (d_active d) /\ l <= t) \/ (exists u v l r, In (u, v, l, r) (d_range d) /\ edge u v = e /\ l <= t < r))
}.
Lemma eqb_edge (f e : Z * Z) : (fst f =? fst e) && (snd f =? snd e) = true <-> f = e.
Proof. destruct f, e; cbn [fst snd]. rewrite andb_true_iff, !Z.eqb_eq. split; [intros (-> & ->); auto|intro H; injection H as -> ->; auto]. Qed.
Lemma drop_perm e E : In e E -> Permutation E (e :: drop e E).
Proof.
  induction E as [|f E IH]; cbn [In drop]; [tauto|]. intro I. destruct ((fst f =? fst e) && (snd f =? snd e)) eqn:Q; [apply eqb_edge in Q; subst f; auto|]. destruct I as [->|I]; [exfalso; apply not_true_iff_false in Q; apply Q, eqb_edge; auto|]. rewrite (IH I) at 1. apply perm_swap.
Qed.
Lemma mm_take_ok e a : In e (map fst a) -> exists t a', mm_take e a = Some (t, a') /\ Permutation a ((e, t) :: a').
Proof.
  induction a as [|(f, t) a IH]; cbn [map In mm_take]; [tauto|]. intro I. destruct ((fst f =? fst e) && (snd f =? snd e)) eqn:Q; [apply eqb_edge in Q; subst f; exists t, a; auto|]. destruct I as [I|I]; [exfalso; apply not_true_iff_false in Q; apply Q, eqb_edge; auto|]. destruct (IH I) as (t' & a' & -> & P). exists t', ((f, t) :: a'). split; [auto|]. rewrite P at 1. apply perm_swap.
Qed.
Lemma mm_take_none e a : ~ In e (map fst a) -> mm_take e a = None.
Proof.
  induction a as [|(f, t) a IH]; cbn [map In mm_take]; [auto|]. intro I. destruct ((fst f =? fst e) && (snd f =? snd e)) eqn:Q; [apply eqb_edge in Q; tauto|]. rewrite IH by tauto. auto.
Qed.
(* answers for a list of questions, each with the edges present when it was asked *)
Definition pw (Es : list (list (Z * Z))) (qs : list (Z * Z)) (bs : list bool) : Prop :=
  zlen bs = zlen qs /\ forall i Ei u v b, vget Es i = Ok Ei -> vget qs i = Ok (u, v) -> vget bs i = Ok b -> (b = true <-> connected Ei u v).
Lemma HInv_new n : HInv n (odc_new n) [] [].
Proof.
  constructor; cbn [odc_new d_n d_active d_range d_qs map]; [reflexivity|reflexivity|apply perm_nil|intros e l []|intros u v l r []|intros u v []|]. intros t Et e V. apply vget_range in V. change (zlen (@nil (list (Z * Z)))) with 0 in V. lia.
Qed.
Lemma edge_in n u v : 0 <= fst (edge u v) < n /\ 0 <= snd (edge u v) < n <-> 0 <= u < n /\ 0 <= v < n.
Proof. unfold edge; cbn [fst snd]. lia. Qed.
Lemma add_ok n d Es E u v : HInv n d Es E -> 0 <= u < n -> 0 <= v < n -> exists d', odc_step d (DAdd u v) = Ok d' /\ d_qs d' = d_qs d /\ HInv n d' Es (edge u v :: E).
Proof.
  intros [Hn L P A R Q M] Hu Hv. cbn [odc_step]. eexists. split; [reflexivity|]. split; [reflexivity|]. constructor; cbn [d_n d_active d_range d_qs]; auto.
  - rewrite map_app, P. apply Permutation_cons_append.
  - intros e l I. apply in_app_or in I. destruct I as [I|[I|[]]]; [apply A; auto|]. injection I as <- <-. pose proof (zlen_nonneg (d_qs d)). split; [lia|]. apply edge_in. auto.
  - intros t Et e V. rewrite (M t Et e V). pose proof (vget_range _ _ _ V) as B. rewrite L in B. split; (intros [(l & I & H)|H]; [left; exists l; split; [|auto]|auto]); [apply in_or_app; auto|]. apply in_app_or in I. destruct I as [I|[I|[]]]; [auto|]. injection I as _ <-. lia.
Qed.
Lemma del_ok n d Es E u v : HInv n d Es E -> In (edge u v) E -> exists d', odc_step d (DDel u v) = Ok d' /\ d_qs d' = d_qs d /\ HInv n d' Es (drop (edge u v) E).
Proof.
  intros [Hn L P A R Q M] I. cbn [odc_step]. destruct (mm_take_ok (edge u v) (d_active d)) as (t0 & a' & -> & PA); [rewrite <- P; auto|]. eexists. split; [reflexivity|]. split; [reflexivity|]. assert (IA : forall e l, In (e, l) (d_active d) <-> (e = edge u v /\ l = t0) \/ In (e, l) a').
  { intros e l. split; intro J; [apply (Permutation_in _ PA) in J; destruct J as [J|J]; [injection J as <- <-; auto|auto]|]. apply (Permutation_in _ (Permutation_sym PA)). destruct J as [(-> & ->)|J]; [left; auto|right; auto]. }
  destruct (A (edge u v) t0) as (B1 & B2); [apply IA; auto|]. apply (proj1 (edge_in n u v)) in B2. constructor; cbn [d_n d_active d_range d_qs]; auto.
  - apply (Permutation_cons_inv (a := edge u v)). rewrite <- (drop_perm _ _ I), P. rewrite PA. reflexivity.
  - intros e l J. apply A. apply IA. auto.
  - intros u' v' l r J. apply in_app_or in J. destruct J as [J|[J|[]]]; [apply R; auto|]. injection J as <- <- <- <-. lia.
  - intros t Et e V. rewrite (M t Et e V). pose proof (vget_range _ _ _ V) as B. rewrite L in B. split.
    + intros [(l & J & H)|(u' & v' & l & r & J & H)]; [apply IA in J; destruct J as [(-> & ->)|J]; [right; exists u, v, t0, (zlen (d_qs d)); split; [apply in_or_app; right; left; auto|split; [auto|lia]]|left; exists l; auto]|]. right. exists u', v', l, r. split; [apply in_or_app; auto|auto].
    + intros [(l & J & H)|(u' & v' & l & r & J & H1 & H2)]; [left; exists l; split; [apply IA; auto|auto]|]. apply in_app_or in J. destruct J as [J|[J|[]]]; [right; exists u', v', l, r; auto|]. injection J as <- <- <- <-. left. exists t0. split; [apply IA; auto|lia].
Qed.
Lemma ask_ok n d Es E u v : HInv n d Es E -> 0 <= u < n -> 0 <= v < n -> exists d', odc_step d (DAsk u v) = Ok d' /\ d_qs d' = d_qs d ++ [(u, v)] /\ HInv n d' (Es ++ [E]) E.
Proof.
  intros [Hn L P A R Q M] Hu Hv. cbn [odc_step]. eexists. split; [reflexivity|]. split; [reflexivity|]. assert (ZQ : zlen (d_qs d ++ [(u, v)]) = zlen (d_qs d) + 1) by (rewrite zlen_app; reflexivity). constructor; cbn [d_n d_active d_range d_qs]; auto.
  - rewrite ZQ, zlen_app, L. reflexivity.
  - rewrite ZQ. intros e l I. specialize (A e l I). lia.
  - rewrite ZQ. intros u' v' l r I. specialize (R u' v' l r I). lia.
  - intros u' v' I. apply in_app_or in I. destruct I as [I|[I|[]]]; [apply Q; auto|]. injection I as <- <-. auto.
  - intros t Et e V. destruct (Z_lt_ge_dec t (zlen Es)) as [B|B].
    + rewrite vget_app1 in V by auto. apply M. auto.
    + rewrite vget_app2 in V by lia. pose proof (vget_range _ _ _ V) as B2. change (zlen [E]) with 1 in B2. replace (t - zlen Es) with 0 in V by lia. injection V as <-. replace t with (zlen (d_qs d)) by lia. split.
      * intro I. apply (Permutation_in _ P) in I. apply in_map_iff in I. destruct I as ((f & l) & <- & I). left. exists l. split; [auto|]. apply A in I. lia.
      * intros [(l & I & _)|(u' & v' & l & r & I & _ & H)]; [apply (Permutation_in _ (Permutation_sym P)); apply in_map_iff; exists (e, l); auto|]. apply R in I. lia.
Qed.
Lemma run_ok n : forall ops d Es E, HInv n d Es E -> valid n E ops ->
  exists d' news newq E', for_each ops (fun o d => odc_step d o) d = Ok d' /\ d_qs d' = d_qs d ++ newq /\ zlen news = zlen newq /\ HInv n d' (Es ++ news) E' /\ forall bs, pw news newq bs -> right_answers E ops bs.
Proof.
  induction ops as [|o ops IH]; intros d Es E I V.
  - exists d, [], [], E. rewrite !app_nil_r. cbn [for_each right_answers]. split; [auto|]. split; [auto|]. split; [auto|]. split; [auto|]. intros bs (L & _). destruct bs; [auto|]. rewrite zlen_cons in L. change (zlen (@nil (Z * Z))) with 0 in L. pose proof (zlen_nonneg bs). lia.
  - cbn [valid] in V. destruct V as (V1 & V2). cbn [for_each]. destruct o as [u v|u v|u v].
    + destruct (add_ok n d Es E u v I (proj1 V1) (proj2 V1)) as (d1 & X & Q1 & I1). rewrite X. cbn [bind]. destruct (IH d1 Es _ I1 V2) as (d' & news & newq & E' & Y & Q & L & I' & K). exists d', news, newq, E'. rewrite Q1 in Q. cbn [right_answers]. auto.
    + destruct (del_ok n d Es E u v I V1) as (d1 & X & Q1 & I1). rewrite X. cbn [bind]. destruct (IH d1 Es _ I1 V2) as (d' & news & newq & E' & Y & Q & L & I' & K). exists d', news, newq, E'. rewrite Q1 in Q. cbn [right_answers]. auto.
    + destruct (ask_ok n d Es E u v I (proj1 V1) (proj2 V1)) as (d1 & X & Q1 & I1). rewrite X. cbn [bind]. destruct (IH d1 (Es ++ [E]) _ I1 V2) as (d' & news & newq & E' & Y & Q & L & I' & K). exists d', (E :: news), ((u, v) :: newq), E'. split; [auto|]. split; [rewrite Q, Q1, <- app_assoc; auto|]. split; [rewrite !zlen_cons; lia|]. split; [rewrite <- app_assoc in I'; auto|]. intros bs (LB & PB). cbn [right_answers]. destruct bs as [|b bs]; [rewrite zlen_cons in LB; change (zlen (@nil bool)) with 0 in LB; pose proof (zlen_nonneg newq); lia|]. rewrite !zlen_cons in LB. split; [apply (PB 0); reflexivity|]. apply K. split; [lia|]. intros i Ei u' v' b' V1' V2' V3'. pose proof (vget_range _ _ _ V1'). apply (PB (1 + i)); change (E :: news) with ([E] ++ news); change ((u, v) :: newq) with ([(u, v)] ++ newq); change (b :: bs) with ([b] ++ bs); rewrite vget_app2 by (change (zlen [E]) with 1; change (zlen [(u, v)]) with 1; change (zlen [b]) with 1; lia); match goal with |- vget _ ?j = _ => replace j with i by (change (zlen [E]) with 1; change (zlen [(u, v)]) with 1; change (zlen [b]) with 1; lia) end; auto.
Qed.
Lemma good_init n P : 0 <= n -> (forall e, ~ P e) -> good n (uuf_init n) P.
Proof.
  intros Hn H. split; [reflexivity|]. exists [], []. split; [constructor 1 with (R := fun x => x); apply UInv_init; auto|]. intros a b. rewrite connected_connP. apply connP_ext. intro e. split; [intros []|intro X; destruct (H e X)].
Qed.
Lemma answer_ok n d Es E : 0 <= n -> HInv n d Es E -> exists bs d', odc_answer d = Ok (bs, d') /\ pw Es (d_qs d) bs.
Proof.
  intros Hn [Hd L P A R Q M]. unfold odc_answer. set (q := zlen (d_qs d)) in *. set (rng := d_range d ++ map _ (d_active d)). cbv zeta. pose proof (zlen_nonneg (d_qs d)) as Hq0. fold q in Hq0. destruct (Z.eqb_spec q 0) as [Z0|Z0].
  - eexists. eexists. split; [reflexivity|]. split; [fold q; rewrite Z0; reflexivity|]. intros i Ei u v b _ V _. apply vget_range in V. fold q in V. lia.
  - assert (IR : forall u v l r, In (u, v, l, r) rng <-> In (u, v, l, r) (d_range d) \/ (In ((u, v), l) (d_active d) /\ r = q)).
    { intros u v l r. unfold rng. rewrite in_app_iff, in_map_iff. split; (intros [I|I]; [auto|right]).
      - destruct I as (((a, b), t) & X & I). cbn [fst snd] in X. injection X as <- <- <- <-. auto.
      - destruct I as (I & ->). exists ((u, v), l). auto. }
    assert (RB : forall u v l r, In (u, v, l, r) rng -> (0 <= l <= r /\ r <= q) /\ 0 <= u < n /\ 0 <= v < n).
    { intros u v l r I. apply IR in I. destruct I as [I|(I & ->)]; [specialize (R _ _ _ _ I); lia|]. specialize (A _ _ I). cbn [fst snd] in A. lia. }
    destruct (puts_ok q rng ltac:(lia) (fun u v l r I => proj1 (RB u v l r I))) as (seg & SG & X & RS & N & K). rewrite X. cbn [bind]. rewrite Hd.
    destruct (dfs_ok n q seg SG (d_qs d) ltac:(lia) RS eq_refl) with (fuel := (Z.to_nat (Z.log2 q) + 2)%nat) (k := 1) (s := uuf_init n) (ans := vrep q false) as (ans & Y & LA & KA).
    + intros k e I. destruct (N k e I) as (l & r & J). apply RB in J. tauto.
    + auto.
    + lia.
    + pose proof (Z.log2_spec q ltac:(lia)) as (_ & B). pose proof (Z.log2_nonneg q). replace (Z.of_nat (Z.to_nat (Z.log2 q) + 2) - 1) with (Z.succ (Z.log2 q)) by lia. lia.
    + lia.
    + apply good_init; [auto|]. intros e (i & Hi & H1 & _). assert (1 / 2 ^ i = 0); [|lia]. apply Z.div_small. split; [lia|]. apply Z.pow_gt_1; lia.
    + apply zlen_vrep. lia.
    + rewrite Y. cbn [bind]. eexists. eexists. split; [reflexivity|]. split; [auto|]. intros i Ei u v b V1 V2 V3. pose proof (vget_range _ _ _ V2) as Bi. fold q in Bi. destruct (KA i Bi) as [(b' & V3' & Rt)|(_ & ND)]; [|exfalso; apply ND, desc_root; lia]. rewrite V3 in V3'. injection V3' as <-. rewrite (Rt u v V2), connected_connP. assert (KX : forall e, path SG (i + q) e <-> exists l r, In (fst e, snd e, l, r) rng /\ l <= i < r). { intro e. rewrite (K (i + q) e) by lia. split; intros (l & r & I & H); exists l, r; (split; [auto|lia]). }
      split; apply connP_bind.
      * intros x y PX. apply KX in PX. destruct PX as (l & r & I & H). cbn [fst snd] in I. apply IR in I. destruct I as [I|(I & ->)].
        -- assert (J : In (edge x y) Ei) by (apply (M i Ei _ V1); right; exists x, y, l, r; auto). unfold edge in J. destruct (Z.le_ge_cases x y) as [C|C]; [rewrite Z.min_l, Z.max_r in J by lia; apply rst_step; auto|rewrite Z.min_r, Z.max_l in J by lia; apply rst_sym, rst_step; auto].
        -- apply rst_step. apply (M i Ei _ V1). left. exists l. split; [auto|lia].
      * intros x y I. apply (M i Ei _ V1) in I. destruct I as [(l & I & H)|(u' & v' & l & r & I & EQ & H)].
        -- apply rst_step. apply KX. exists l, q. split; [apply IR; auto|]. lia.
        -- assert (PX : connP (path SG (i + q)) u' v') by (apply rst_step, KX; exists l, r; split; [apply IR; left; auto|auto]). unfold edge in EQ. injection EQ as E1 E2. destruct (Z.le_ge_cases u' v') as [C|C]; [rewrite Z.min_l, Z.max_r in * by lia; subst; auto|rewrite Z.min_r, Z.max_l in * by lia; subst; apply rst_sym; auto].
Qed.
Lemma odc_ok n ops : 0 <= n -> valid n [] ops -> exists d bs d', odc_run n ops = Ok d /\ odc_answer d = Ok (bs, d') /\ right_answers [] ops bs.
Proof.
  intros Hn V. destruct (run_ok n ops _ _ _ (HInv_new n) V) as (d & news & newq & E' & X & Q & L & I & K). destruct (answer_ok n d _ _ Hn I) as (bs & d' & Y & PW). exists d, bs, d'. split; [exact X|]. split; [auto|]. apply K. cbn [app odc_new d_qs] in *. rewrite Q in PW. exact PW.
Qed.
Lemma odc_abort_ok n ops u v d : 0 <= n -> valid n [] ops -> odc_run n ops = Ok d -> ~ In (edge u v) (fold_left dafter ops []) -> odc_step d (DDel u v) = Abort.
Proof.
  intros Hn V X NI. assert (G : forall ops d0 Es E, HInv n d0 Es E -> valid n E ops -> for_each ops (fun o d => odc_step d o) d0 = Ok d -> exists Es', HInv n d Es' (fold_left dafter ops E)).
  { clear X V NI ops. induction ops as [|o ops IH]; intros d0 Es E I V X; [injection X as <-; exists Es; auto|]. cbn [valid] in V. destruct V as (V1 & V2). cbn [for_each] in X. cbn [fold_left]. destruct o as [a b|a b|a b].
    - destruct (add_ok n d0 Es E a b I (proj1 V1) (proj2 V1)) as (d1 & Y & Q1 & I1). rewrite Y in X. cbn [bind] in X. apply (IH d1 Es _ I1 V2 X).
    - destruct (del_ok n d0 Es E a b I V1) as (d1 & Y & Q1 & I1). rewrite Y in X. cbn [bind] in X. apply (IH d1 Es _ I1 V2 X).
    - destruct (ask_ok n d0 Es E a b I (proj1 V1) (proj2 V1)) as (d1 & Y & Q1 & I1). rewrite Y in X. cbn [bind] in X. apply (IH d1 _ _ I1 V2 X). }
  destruct (G ops _ _ _ (HInv_new n) V X) as (Es' & I'). cbn [odc_step]. rewrite mm_take_none; [auto|]. intro J. apply NI. apply (Permutation_in _ (Permutation_sym (h_perm _ _ _ _ I'))). auto.
Qed.
