From Verif Require Import Base BaseLemmas ListZ Hist Montgomery_model M61_proof RHash_spec RHash_model.
From Coq Require Import Znumtheory.
Import ListNotations.
Open Scope Z_scope.

Lemma poly_acc b s : forall a, fold_left (fun h x => h * b + x) s a = a * b ^ zlen s + poly b s.
Proof.
  unfold poly. induction s as [|x s IH]; intros a; cbn [fold_left]; [change (zlen (@nil Z)) with 0; rewrite Z.pow_0_r; lia|].
  rewrite IH, (IH (0 * b + x)). replace (zlen (x :: s)) with (Z.succ (zlen s)) by (rewrite zlen_cons; lia). rewrite Z.pow_succ_r by apply zlen_nonneg. ring.
Qed.
Lemma poly_app b s t : poly b (s ++ t) = poly b s * b ^ zlen t + poly b t.
Proof. unfold poly at 1. rewrite fold_left_app, poly_acc. reflexivity. Qed.
Lemma poly_cons b x s : poly b (x :: s) = x * b ^ zlen s + poly b s.
Proof. change (x :: s) with ([x] ++ s). rewrite poly_app. unfold poly at 1. cbn [fold_left]. ring. Qed.
Lemma poly_snoc b s x : poly b (s ++ [x]) = poly b s * b + x.
Proof. rewrite poly_app. change (zlen [x]) with 1. rewrite Z.pow_1_r. unfold poly at 2. cbn [fold_left]. lia. Qed.

Definition M := two61m1.
Lemma M_pos : 0 < M. Proof. reflexivity. Qed.
Definition md (x : Z) : Z := x mod M.
Lemma md_bound x : 0 <= md x < m61. Proof. apply (Z.mod_pos_bound x M M_pos). Qed.
Lemma md_id x : 0 <= x < m61 -> md x = x. Proof. intros H. apply Z.mod_small. exact H. Qed.
Lemma add_md x y : m61_add (md x) (md y) = md (x + y).
Proof. rewrite m61_add_ok by apply md_bound. unfold md. change m61 with M. symmetry. apply Z.add_mod. pose proof M_pos. lia. Qed.
Lemma sub_md x y : m61_sub (md x) (md y) = md (x - y).
Proof. rewrite m61_sub_ok by apply md_bound. unfold md. change m61 with M. symmetry. apply Zminus_mod. Qed.
Lemma mul_md x y : m61_mul (md x) (md y) = md (x * y).
Proof. rewrite m61_mul_ok by apply md_bound. unfold md. change m61 with M. symmetry. apply Z.mul_mod. pose proof M_pos. lia. Qed.
Lemma mul_mdr x b : 0 <= b < m61 -> m61_mul (md x) b = md (x * b). Proof. intros H. rewrite <- (md_id b H) at 1. apply mul_md. Qed.
Lemma of_md x : 0 <= x < 2 ^ 64 -> m61_of x = md x. Proof. intros H. unfold m61_of. apply fast_mod_ok; auto. Qed.
Lemma of0 : m61_of 0 = md 0. Proof. reflexivity. Qed.
Lemma of1 : m61_of 1 = md 1. Proof. reflexivity. Qed.
Lemma md_md x : m61_of (md x) = md x.
Proof. rewrite of_md; [unfold md; apply Z.mod_mod; pose proof M_pos; lia|]. pose proof (md_bound x) as B. assert (m61 < 2 ^ 64) by reflexivity. clear - B H. lia. Qed.

Lemma firstn_snoc_vget {A} (s : list A) i x : vget s i = Ok x -> firstn (Z.to_nat (i + 1)) s = firstn (Z.to_nat i) s ++ [x].
Proof.
  intros E. destruct (vget_split s i x E) as (a & b & -> & <-). unfold zlen. rewrite !Nat2Z.id.
  replace (Z.to_nat (Z.of_nat (length a) + 1)) with (length a + 1)%nat by lia. rewrite firstn_app_2. rewrite firstn_app, Nat.sub_diag, firstn_all. cbn [firstn]. now rewrite app_nil_r.
Qed.
Lemma substr_ok {A} (s : list A) l r : 0 <= l <= r -> r <= zlen s ->
  firstn (Z.to_nat r) s = firstn (Z.to_nat l) s ++ firstn (Z.to_nat (r - l)) (skipn (Z.to_nat l) s) /\ zlen (firstn (Z.to_nat (r - l)) (skipn (Z.to_nat l) s)) = r - l.
Proof.
  intros H1 H2. split.
  - rewrite <- (firstn_skipn (Z.to_nat l) s) at 1. rewrite firstn_app. f_equal.
    + rewrite firstn_firstn. f_equal. lia.
    + f_equal. rewrite firstn_length. unfold zlen in H2. lia.
  - unfold zlen in *. rewrite firstn_length, skipn_length. lia.
Qed.

(* tables of powers *)
Definition tb_ok (base : Z) (v : list Z) : Prop := 1 <= zlen v /\ forall j, 0 <= j < zlen v -> vget v j = Ok (md (base ^ j)).
Lemma rp_get_ok base v i : 0 <= base < m61 -> tb_ok base v -> 0 <= i -> exists v', rp_get base v i = Ok (md (base ^ i), v') /\ tb_ok base v'.
Proof.
  intros Hb (L & I) Hi. unfold rp_get, rp_ensure. cbn zeta. destruct (Z.ltb_spec i (zlen v)) as [B|B].
  { cbn [bind]. rewrite I by lia. cbn [bind]. exists v. split; [reflexivity|split; auto]. }
  match goal with |- context [for_ _ _ ?b ?s] => destruct (for_inv (fun k v => zlen v = i + 1 /\ forall j, 0 <= j < k -> vget v j = Ok (md (base ^ j))) (zlen v) (i + 1) b s) as (v' & E & L' & G') end.
  - lia.
  - split; [rewrite zlen_app, zlen_vrep; lia|]. intros j Hj. rewrite vget_app1 by lia. auto.
  - intros k s Hk (Ls & Gs). rewrite Gs by lia. cbn [bind]. rewrite vset_ok by lia. eexists. split; [reflexivity|]. split; [rewrite zlen_zupd; auto|].
    intros j Hj. rewrite vget_zupd by lia. destruct (Z.eqb_spec k j) as [<-|]; [|apply Gs; lia]. f_equal. rewrite <- (md_id base Hb) at 1. rewrite mul_md. f_equal.
    replace k with (Z.succ (k - 1)) at 2 by lia. rewrite Z.pow_succ_r by lia. reflexivity.
  - rewrite E. cbn [bind]. rewrite G' by lia. cbn [bind]. exists v'. split; [reflexivity|]. split; [lia|]. intros j Hj. apply G'. lia.
Qed.

Section Hash.
  Variable bases : list Z.
  Hypothesis Hb : forall b, In b bases -> 0 <= b < m61.
  Definition as_u64 (s : list Z) : list Z := map (fun x => x mod 2 ^ 64) s.
  (* the prefix hashes of a string *)
  Definition hv_ok (b : Z) (s h : list Z) : Prop := zlen h = zlen s + 1 /\ forall i, 0 <= i <= zlen s -> vget h i = Ok (md (poly b (firstn (Z.to_nat i) s))).
  Definition obj_ok (s : list Z) (o : list (list Z)) : Prop := zlen o = zlen bases /\ forall id b, vget bases id = Ok b -> exists h, vget o id = Ok h /\ hv_ok b s h.
  Lemma make_one b a : 0 <= b < m61 -> exists h, for_ 0 (zlen a) (fun i h => let* x := vget h i in let* y := vget a i in vset h (i + 1) (m61_add (m61_mul x b) (m61_of (u64 y)))) (vrep (zlen a + 1) (m61_of 0)) = Ok h
    /\ hv_ok b (as_u64 a) h.
  Proof.
    intros B. pose proof (zlen_nonneg a) as N0. assert (Za : zlen (as_u64 a) = zlen a) by (unfold as_u64; rewrite zlen_map; auto).
    match goal with |- context [for_ _ _ ?bd ?s] => destruct (for_inv (fun i h => zlen h = zlen a + 1 /\ forall j, 0 <= j <= i -> vget h j = Ok (md (poly b (firstn (Z.to_nat j) (as_u64 a))))) 0 (zlen a) bd s) as (h & E & L & I) end.
    - auto.
    - split; [apply zlen_vrep; lia|]. intros j Hj. rewrite vget_vrep by lia. replace j with 0 by lia. cbn [Z.to_nat firstn]. rewrite of0. reflexivity.
    - intros i h Hi (L & I). rewrite I by lia. cbn [bind]. destruct (vget_Ok a i Hi) as (y & Ey). rewrite Ey. cbn [bind]. rewrite vset_ok by lia. eexists. split; [reflexivity|].
      split; [rewrite zlen_zupd; auto|]. intros j Hj. rewrite vget_zupd by lia. destruct (Z.eqb_spec (i + 1) j) as [<-|]; [|apply I; lia]. f_equal.
      assert (E : vget (as_u64 a) i = Ok (y mod 2 ^ 64)) by (unfold as_u64; rewrite vget_map, Ey; reflexivity).
      rewrite (firstn_snoc_vget _ _ _ E), poly_snoc. rewrite mul_mdr by exact B. change (u64 y) with (y mod 2 ^ 64). rewrite of_md by (apply Z.mod_pos_bound; reflexivity). apply add_md.
    - exists h. split; auto. split; [lia|]. intros i Hi. apply I. lia.
  Qed.
  Lemma rh_make_ok a : exists o, rh_make bases a = Ok o /\ obj_ok (as_u64 a) o.
  Proof.
    unfold rh_make. cbn zeta.
    match goal with |- context [for_each bases ?bd ?s] => destruct (for_each_inv (fun done o => zlen o = zlen done /\ forall id b, vget done id = Ok b -> exists h, vget o id = Ok h /\ hv_ok b (as_u64 a) h) bases bd s) as (o & E & I) end.
    - split; auto. intros id b E. apply vget_range in E. change (zlen (@nil Z)) with 0 in E. lia.
    - intros done b todo o Eq (L & I). destruct (make_one b a) as (h & E & Hh). { apply Hb. rewrite Eq. apply in_or_app. right; left; auto. }
      cbv zeta in E |- *. rewrite E. cbn [bind]. eexists. split; [reflexivity|]. rewrite !zlen_app. change (zlen [b]) with 1. change (zlen [h]) with 1. split; [lia|].
      intros id b' E'. destruct (Z.lt_ge_cases id (zlen done)) as [K|K].
      + rewrite vget_app1 in E' by auto. destruct (I id b' E') as (h' & E2 & H2). exists h'. split; auto. rewrite vget_app1 by lia. auto.
      + pose proof (vget_range _ _ _ E') as R. rewrite zlen_app in R. change (zlen [b]) with 1 in R. rewrite vget_mid in E' by lia. injection E' as <-. exists h. split; auto. apply vget_mid. lia.
    - exists o. split; auto. 
  Qed.
  Definition pows_ok (pows : list (list Z)) : Prop := zlen pows = zlen bases /\ forall id b, vget bases id = Ok b -> exists v, vget pows id = Ok v /\ tb_ok b v.
  Lemma init_ok : pows_ok (rh_init bases).
  Proof.
    unfold rh_init. split; [apply zlen_map|]. intros id b E. rewrite vget_map, E. eexists; split; [reflexivity|]. split; [change (zlen [m61_of 1]) with 1; lia|].
    intros j Hj. change (zlen [m61_of 1]) with 1 in Hj. replace j with 0 by lia. rewrite vget_cons0, of1. reflexivity.
  Qed.
  Lemma pows_upd pows id b v : pows_ok pows -> vget bases id = Ok b -> tb_ok b v -> exists pows', vset pows id v = Ok pows' /\ pows_ok pows'.
  Proof.
    intros (L & I) Eb T. pose proof (vget_range _ _ _ Eb). rewrite vset_ok by lia. eexists; split; [reflexivity|]. split; [rewrite zlen_zupd; auto|].
    intros id' b' E'. pose proof (vget_range _ _ _ E'). rewrite vget_zupd by lia. destruct (Z.eqb_spec id id') as [<-|]; [|auto]. exists v. split; auto. congruence.
  Qed.
  Lemma md_eq x y : md x = md y -> x mod two61m1 = y mod two61m1. Proof. auto. Qed.
  Lemma hashes_vget s id b : vget bases id = Ok b -> vget (hashes bases s) id = Ok (md (poly b s)).
  Proof. intros E. unfold hashes. rewrite vget_map, E. reflexivity. Qed.
  Lemma firstn_hashes s id b : vget bases id = Ok b -> firstn (Z.to_nat (id + 1)) (hashes bases s) = firstn (Z.to_nat id) (hashes bases s) ++ [md (poly b s)].
  Proof. intros E. apply firstn_snoc_vget. apply hashes_vget; auto. Qed.
  Lemma zlen_hashes s : zlen (hashes bases s) = zlen bases. Proof. apply zlen_map. Qed.
  Lemma rh_sub_ok pows s o l r : pows_ok pows -> obj_ok s o -> 0 <= l <= r -> r <= zlen s ->
    exists pows', rh_sub bases pows o l r = Ok (hashes bases (substr s l r), pows') /\ pows_ok pows'.
  Proof.
    intros P (Lo & O) H1 H2. unfold rh_sub. pose proof (zlen_nonneg bases) as N0.
    match goal with |- context [for_ _ _ ?bd ?st] => destruct (for_inv (fun id '(out, pows) => out = firstn (Z.to_nat id) (hashes bases (substr s l r)) /\ pows_ok pows) 0 (zlen bases) bd st) as ([out pows'] & E & Eo & P') end.
    - auto.
    - split; auto.
    - intros id [out pw] Hi (Eo & Pw). destruct (vget_Ok bases id Hi) as (b & Eb). pose proof (Hb b (vget_In _ _ _ Eb)) as B. rewrite Eb. cbn [bind].
      destruct (O id b Eb) as (h & Eh & Lh & Ih). rewrite Eh. cbn [bind]. destruct (proj2 Pw id b Eb) as (v & Ev & Tv). rewrite Ev. cbn [bind].
      rewrite !Ih by lia. cbn [bind]. destruct (rp_get_ok b v (r - l) B Tv) as (v' & E' & T'); [lia|]. rewrite E'. cbn [bind fst snd].
      destruct (pows_upd pw id b v' Pw Eb T') as (pw' & E2 & P2). rewrite E2. cbn [bind]. eexists; split; [reflexivity|]. split; auto. rewrite (firstn_hashes _ id b Eb), Eo. f_equal. f_equal.
      rewrite mul_md, sub_md. unfold substr. destruct (substr_ok s l r H1 H2) as (S1 & S2). rewrite S1, poly_app, S2. f_equal. ring.
    - rewrite E. exists pows'. split; auto. rewrite Eo. f_equal. f_equal. rewrite firstn_all2; auto. pose proof (zlen_hashes (substr s l r)) as Z1. unfold zlen in *. lia.
  Qed.
  Lemma rh_concat_ok pows s o t l r : pows_ok pows -> obj_ok s o -> 0 <= l <= r -> r <= zlen s ->
    exists pows', rh_concat bases pows o (hashes bases t) l r = Ok (hashes bases (t ++ substr s l r), pows') /\ pows_ok pows'.
  Proof.
    intros P (Lo & O) H1 H2. unfold rh_concat. pose proof (zlen_nonneg bases) as N0. set (T := t ++ substr s l r).
    match goal with |- context [for_ _ _ ?bd ?st] => destruct (for_inv (fun id '(hv, pows) => zlen hv = zlen bases /\ (forall j b, vget bases j = Ok b -> vget hv j = Ok (md (poly b (if j <? id then T else t)))) /\ pows_ok pows) 0 (zlen bases) bd st) as ([hv pows'] & E & Lh & Eo & P') end.
    - auto.
    - split; [apply zlen_hashes|]. split; auto. intros j b Ej. pose proof (vget_range _ _ _ Ej). destruct (Z.ltb_spec j 0); [lia|]. apply hashes_vget; auto.
    - intros id [hv pw] Hi (Lh & Eo & Pw). destruct (vget_Ok bases id Hi) as (b & Eb). pose proof (Hb b (vget_In _ _ _ Eb)) as B. rewrite Eb. cbn [bind].
      destruct (O id b Eb) as (h & Eh & Lh' & Ih). rewrite Eh. cbn [bind]. destruct (proj2 Pw id b Eb) as (v & Ev & Tv). rewrite Ev. cbn [bind].
      rewrite (Eo id b Eb). cbn [bind]. rewrite Z.ltb_irrefl.
      rewrite !Ih by lia. cbn [bind]. destruct (rp_get_ok b v (r - l) B Tv) as (v' & E' & T'); [lia|]. rewrite E'. cbn [bind fst snd].
      destruct (pows_upd pw id b v' Pw Eb T') as (pw' & E2 & P2). rewrite E2. cbn [bind]. rewrite vset_ok by lia. cbn [bind]. eexists; split; [reflexivity|]. split; [rewrite zlen_zupd; auto|]. split; auto.
      intros j b' Ej. pose proof (vget_range _ _ _ Ej). rewrite vget_zupd by lia. destruct (Z.eqb_spec id j) as [<-|Ne].
      + assert (b' = b) by congruence. subst b'. destruct (Z.ltb_spec id (id + 1)); [|lia]. f_equal. rewrite md_md, !mul_md, add_md, sub_md. f_equal.
        unfold T, substr. destruct (substr_ok s l r H1 H2) as (S1 & S2). rewrite S1, !poly_app, S2. ring.
      + rewrite (Eo j b' Ej). destruct (Z.ltb_spec j id), (Z.ltb_spec j (id + 1)); auto; lia.
    - rewrite E. exists pows'. split; auto. f_equal. f_equal. apply vget_ext; [rewrite zlen_hashes; auto|]. intros j Hj. rewrite Lh in Hj. destruct (vget_Ok bases j Hj) as (b & Ej).
      rewrite (Eo j b Ej), (hashes_vget _ j b Ej). destruct (Z.ltb_spec j (zlen bases)); [auto|lia].
  Qed.
  Lemma make_all_ok strs : exists objs, rh_make_all bases strs = Ok objs /\ Forall2 (fun s o => obj_ok (as_u64 s) o) strs objs.
  Proof.
    unfold rh_make_all. match goal with |- context [for_each strs ?bd ?st] => destruct (for_each_inv (fun done os => Forall2 (fun s o => obj_ok (as_u64 s) o) done os) strs bd st) as (os & E & I) end.
    - constructor.
    - intros done s todo os _ I. destruct (rh_make_ok s) as (o & E & Ho). rewrite E. cbn [bind]. eexists; split; [reflexivity|]. apply Forall2_app; auto.
    - exists os. auto.
  Qed.
  Lemma F2_vget {A B} (R : A -> B -> Prop) l m : Forall2 R l m -> forall k x, vget l k = Ok x -> exists y, vget m k = Ok y /\ R x y.
  Proof.
    induction 1 as [|x y l m H F IH]; intros k z E; [apply vget_range in E; change (zlen (@nil A)) with 0 in E; lia|].
    pose proof (vget_range _ _ _ E). destruct (Z.eq_dec k 0) as [->|]; [rewrite vget_cons0 in *; injection E as <-; exists y; auto|]. rewrite vget_consS in E by lia. destruct (IH (k - 1) z E) as (y' & E' & R'). exists y'. rewrite vget_consS by lia. auto.
  Qed.
  Lemma rh_history strs objs ops : rh_make_all bases strs = Ok objs -> Forall (rh_meets bases (map as_u64 strs)) ops ->
    exists outs, run (rh_step bases objs) (rh_init bases) ops = (outs, Ok tt) /\ Forall2 (rh_right bases (map as_u64 strs)) ops outs.
  Proof.
    intros Eo. destruct (make_all_ok strs) as (objs' & E' & F). rewrite Eo in E'. injection E' as <-.
    assert (F' : Forall2 obj_ok (map as_u64 strs) objs). { clear - F. induction F; constructor; auto. }
    pose proof init_ok as P0. revert P0. generalize (rh_init bases). induction ops as [|c ops IH]; intros pows P Fm.
    { exists []. split; auto. }
    inversion Fm as [|? ? Hc Fm']; subst. cbn [run].
    assert (St : exists a pows', rh_step bases objs pows c = Ok (a, pows') /\ pows_ok pows' /\ rh_right bases (map as_u64 strs) c a).
    { destruct c as [k l r|h k l r]; cbn [rh_meets rh_step rh_right] in *.
      - destruct Hc as (s & Es & H1 & H2). destruct (F2_vget _ _ _ F' k s Es) as (o & Ek & Ok'). rewrite Ek. cbn [bind].
        destruct (rh_sub_ok pows s o l r P Ok' H1 H2) as (p' & E & P'). exists (hashes bases (substr s l r)), p'. split; auto. split; auto. intros s' Es'. congruence.
      - destruct Hc as (s & t & Es & H1 & H2 & ->). destruct (F2_vget _ _ _ F' k s Es) as (o & Ek & Ok'). rewrite Ek. cbn [bind].
        destruct (rh_concat_ok pows s o t l r P Ok' H1 H2) as (p' & E & P'). exists (hashes bases (t ++ substr s l r)), p'. split; auto. split; auto.
        intros s' t' Es' Et'. assert (s' = s) by congruence. subst s'. unfold hashes in *. apply map_ext_in. intros b Ib. pose proof (proj1 map_ext_in_iff Et' b Ib) as Eb. cbv beta in Eb. rewrite !poly_app.
        rewrite Z.add_mod, Z.mul_mod, Eb, <- Z.mul_mod, <- Z.add_mod by (unfold two61m1; lia). reflexivity. }
    destruct St as (a & p' & E & P' & R). rewrite E. destruct (IH p' P' Fm') as (outs & E2 & F2). rewrite E2. exists (a :: outs). split; auto.
  Qed.
End Hash.
