(* Proofs about Odc_model: covering an interval of leaves, and the traversal. *)
From Verif Require Import Base BaseLemmas ListZ ListMore Seq UnionFind_model UnionFind_spec UnionFind_proof UnionFind_proof2 LowLink_proof4 Odc_spec Odc_model.
From Coq Require Import Relations.

Definition connP (P : Z * Z -> Prop) : Z -> Z -> Prop := clos_refl_sym_trans Z (fun x y => P (x, y)).
Lemma connP_mono (P Q : Z * Z -> Prop) a b : (forall e, P e -> Q e) -> connP P a b -> connP Q a b.
Proof. intros H C. unfold connP in *. induction C as [x y C|x|x y _ IH|x y z _ IH1 _ IH2]; [apply rst_step; auto|apply rst_refl|apply rst_sym; auto|eapply rst_trans; eauto]. Qed.
Lemma connP_ext (P Q : Z * Z -> Prop) : (forall e, P e <-> Q e) -> forall a b, connP P a b <-> connP Q a b.
Proof. intros H a b. split; apply connP_mono; intros e; apply H. Qed.
Lemma connP_bind (P Q : Z * Z -> Prop) a b : (forall x y, P (x, y) -> connP Q x y) -> connP P a b -> connP Q a b.
Proof. intros H C. unfold connP in *. induction C as [x y C|x|x y _ IH|x y z _ IH1 _ IH2]; [auto|apply rst_refl|apply rst_sym; auto|eapply rst_trans; eauto]. Qed.
Lemma connected_connP E a b : connected E a b <-> connP (fun e => In e E) a b.
Proof. reflexivity. Qed.
Lemma conn_add E P x y : (forall a b, connected E a b <-> connP P a b) -> forall a b, connected ((x, y) :: E) a b <-> connP (fun e => e = (x, y) \/ P e) a b.
Proof.
  intros H a b. rewrite connected_connP. split; apply connP_bind.
  - intros u v [Q|I]; [apply rst_step; auto|]. apply (connP_mono P); [auto|]. apply H. apply rst_step. exact I.
  - intros u v [Q|I]; [apply rst_step; left; auto|]. apply (connP_mono (fun e => In e E)); [intros; right; auto|]. apply connected_connP. apply H. apply rst_step. exact I.
Qed.
Lemma conn_old E P x y : (forall a b, connected E a b <-> connP P a b) -> connected E x y -> forall a b, connected E a b <-> connP (fun e => e = (x, y) \/ P e) a b.
Proof.
  intros H C a b. rewrite H. split; [apply connP_mono; auto|]. apply connP_bind. intros u v [Q|I]; [injection Q as -> ->; apply H; auto|apply rst_step; auto].
Qed.
(* leaves and their ancestors *)
Definition desc (x k : Z) : Prop := exists i, 0 <= i /\ x / 2 ^ i = k.
Definition path (SG : Z -> list (Z * Z)) (x : Z) (e : Z * Z) : Prop := exists k, 1 <= k /\ desc x k /\ In e (SG k).
Definition up (SG : Z -> list (Z * Z)) (x : Z) (e : Z * Z) : Prop := exists i, 1 <= i /\ 1 <= x / 2 ^ i /\ In e (SG (x / 2 ^ i)).
Lemma div_pow2_S x i : 0 <= i -> x / 2 ^ (i + 1) = x / 2 / 2 ^ i.
Proof. intro H. rewrite Z.pow_add_r, Z.mul_comm by lia. change (2 ^ 1) with 2. symmetry. apply Z.div_div; [lia|]. apply Z.pow_pos_nonneg; lia. Qed.
Lemma path_up SG x e : 1 <= x -> (path SG x e <-> In e (SG x) \/ up SG x e).
Proof.
  intro Hx. split.
  - intros (k & Hk & (i & Hi & <-) & I). destruct (Z.eq_dec i 0) as [->|N]; [left; rewrite Z.pow_0_r, Z.div_1_r in I; auto|]. right. exists i. split; [lia|auto].
  - intros [I|(i & Hi & Hk & I)]; [exists x; split; [auto|]; split; [exists 0; split; [lia|rewrite Z.pow_0_r, Z.div_1_r; auto]|auto]|]. exists (x / 2 ^ i). split; [auto|]. split; [exists i; split; [lia|auto]|auto].
Qed.
Lemma up_child SG k c e : 1 <= k -> (c = 2 * k \/ c = 2 * k + 1) -> (up SG c e <-> In e (SG k) \/ up SG k e).
Proof.
  intros Hk Hc. assert (C2 : c / 2 = k) by (destruct Hc as [->| ->]; [rewrite Z.mul_comm; apply Z.div_mul; lia|symmetry; apply (Z.div_unique _ _ _ 1); lia]). rewrite <- (path_up SG k e Hk). unfold up, path, desc. split.
  - intros (i & Hi & H1 & I). replace i with ((i - 1) + 1) in * by lia. rewrite div_pow2_S, C2 in * by lia. exists (k / 2 ^ (i - 1)). split; [auto|]. split; [exists (i - 1); split; [lia|auto]|auto].
  - intros (j & Hj & (i & Hi & <-) & I). exists (i + 1). rewrite div_pow2_S, C2 by lia. split; [lia|auto].
Qed.
Lemma desc_self x : desc x x.
Proof. exists 0. split; [lia|]. rewrite Z.pow_0_r, Z.div_1_r. auto. Qed.
Lemma desc_leaf q x k : q <= x < 2 * q -> q <= k -> desc x k -> x = k.
Proof.
  intros Hx Hk (i & Hi & E). destruct (Z.eq_dec i 0) as [->|N]; [rewrite Z.pow_0_r, Z.div_1_r in E; auto|]. exfalso. replace i with ((i - 1) + 1) in E by lia. rewrite div_pow2_S in E by lia. assert (x / 2 < q) by (apply Z.div_lt_upper_bound; lia). assert (0 <= x / 2) by (apply Z.div_pos; lia). assert (P : 0 < 2 ^ (i - 1)) by (apply Z.pow_pos_nonneg; lia). assert (x / 2 / 2 ^ (i - 1) <= x / 2) by (apply Z.div_le_upper_bound; nia). lia.
Qed.
Lemma desc_kids q x k : q <= x -> 0 <= k < q -> desc x k -> desc x (2 * k) \/ desc x (2 * k + 1).
Proof.
  intros Hx Hk (i & Hi & E). destruct (Z.eq_dec i 0) as [->|N]; [rewrite Z.pow_0_r, Z.div_1_r in E; lia|]. set (y := x / 2 ^ (i - 1)). assert (Y : y / 2 = k). { unfold y. rewrite Z.div_div by (try apply Z.pow_pos_nonneg; lia). rewrite <- E. f_equal. change 2 with (2 ^ 1) at 2. rewrite <- Z.pow_add_r by lia. f_equal. lia. }
  pose proof (Z.div_mod y 2 ltac:(lia)) as D. pose proof (Z.mod_pos_bound y 2 ltac:(lia)). assert (C : y = 2 * k \/ y = 2 * k + 1) by lia. destruct C as [C|C]; [left|right]; (exists (i - 1); split; [lia|rewrite <- C; reflexivity]).
Qed.
Lemma desc_root x : 1 <= x -> desc x 1.
Proof.
  intro H. exists (Z.log2 x). split; [apply Z.log2_nonneg|]. pose proof (Z.log2_spec x ltac:(lia)) as (A & B). rewrite Z.pow_succ_r in B by apply Z.log2_nonneg. symmetry. apply (Z.div_unique _ _ _ (x - 2 ^ Z.log2 x)); lia.
Qed.
Lemma anc_block q x y j : 0 <= j -> q <= x < 2 * q -> q <= y * 2 ^ j -> (y + 1) * 2 ^ j <= 2 * q -> (desc x y <-> y * 2 ^ j <= x < (y + 1) * 2 ^ j).
Proof.
  intros Hj Hx H1 H2. assert (P : 0 < 2 ^ j) by (apply Z.pow_pos_nonneg; lia). split.
  - intros (i & Hi & E). assert (Pi : 0 < 2 ^ i) by (apply Z.pow_pos_nonneg; lia). pose proof (Z.div_mod x (2 ^ i) ltac:(lia)) as D. pose proof (Z.mod_pos_bound x (2 ^ i) Pi) as B. rewrite E in D. assert (Y : 1 <= y) by nia.
    destruct (Z.lt_trichotomy i j) as [L|[->|L]].
    + exfalso. assert (Q : 2 * 2 ^ i <= 2 ^ j) by (replace j with (i + (j - i)) by lia; rewrite Z.pow_add_r by lia; assert (2 ^ 1 <= 2 ^ (j - i)) by (apply Z.pow_le_mono_r; lia); change (2 ^ 1) with 2 in *; nia). nia.
    + nia.
    + exfalso. assert (Q : 2 * 2 ^ j <= 2 ^ i) by (replace i with (j + (i - j)) by lia; rewrite Z.pow_add_r by lia; assert (2 ^ 1 <= 2 ^ (i - j)) by (apply Z.pow_le_mono_r; lia); change (2 ^ 1) with 2 in *; nia). nia.
  - intros H. exists j. split; [auto|]. symmetry. apply (Z.div_unique _ _ _ (x - y * 2 ^ j)); lia.
Qed.
Lemma land1 x : negb (Z.land x 1 =? 0) = Z.odd x.
Proof. change 1 with (Z.ones 1). rewrite Z.land_ones by lia. change (2 ^ 1) with 2. rewrite Zmod_odd. destruct (Z.odd x); reflexivity. Qed.

Section Cov.
  Variable q : Z. Hypothesis Hq : 1 <= q.
  Variables u v l0 r0 : Z.
  Hypothesis H0 : q <= l0 /\ l0 <= r0 /\ r0 <= 2 * q.
  Notation leaf x := (q <= x < 2 * q).
  Notation ev := (u, v).
  (* membership after some blocks have been marked; lo, hi: the leaves still to do are [lo, hi) *)
  Definition cinv (SG SG' : Z -> list (Z * Z)) (lo hi : Z) : Prop := forall x e, leaf x -> (path SG' x e <-> path SG x e \/ (e = ev /\ l0 <= x < r0 /\ ~ (lo <= x < hi))).
  Lemma mark_path SG seg y j : 0 <= j -> rep seg (2 * q) SG -> q <= y * 2 ^ j -> (y + 1) * 2 ^ j <= 2 * q ->
    exists seg' SG', (let* x := vget seg y in vset seg y (x ++ [ev])) = Ok seg' /\ rep seg' (2 * q) SG' /\ (forall k e, In e (SG' k) -> In e (SG k) \/ e = ev) /\ forall x e, leaf x -> (path SG' x e <-> path SG x e \/ (e = ev /\ y * 2 ^ j <= x < (y + 1) * 2 ^ j)).
  Proof.
    intros Hj R H1 H2. assert (P : 0 < 2 ^ j) by (apply Z.pow_pos_nonneg; lia). assert (Hy : 1 <= y < 2 * q) by nia. rewrite (rep_get _ _ _ y R ltac:(lia)). cbn [bind]. rewrite (rep_set _ _ _ y _ R ltac:(lia)). eexists. exists (fupd SG y (SG y ++ [ev])). split; [reflexivity|]. split; [apply rep_upd; [auto|lia]|]. split.
    { intros k e I. destruct (Z.eq_dec k y) as [->|N]; [rewrite fupd_same in I; apply in_app_or in I; destruct I as [I|[<-|[]]]; auto|rewrite fupd_diff in I by auto; auto]. }
    intros x e Hx. unfold path. split.
    - intros (k & Hk & D & I). destruct (Z.eq_dec k y) as [->|N].
      + rewrite fupd_same in I. apply in_app_or in I. destruct I as [I|[<-|[]]]; [left; exists y; auto|]. right. split; [auto|]. apply (anc_block q x y j); auto.
      + rewrite fupd_diff in I by auto. left. exists k. auto.
    - intros [(k & Hk & D & I)|(-> & B)].
      + exists k. split; [auto|]. split; [auto|]. destruct (Z.eq_dec k y) as [->|N]; [rewrite fupd_same; apply in_or_app; auto|rewrite fupd_diff by auto; auto].
      + exists y. split; [lia|]. split; [apply (anc_block q x y j); auto|]. rewrite fupd_same. apply in_or_app. right. left. auto.
  Qed.
  Lemma cover_ok : forall fuel j l r seg SG0 SG, 0 <= j -> r < Z.of_nat fuel -> 0 <= l -> 0 <= r -> l0 <= l * 2 ^ j -> r * 2 ^ j <= r0 -> (l <= r -> True) -> rep seg (2 * q) SG -> cinv SG0 SG (l * 2 ^ j) (r * 2 ^ j) -> (forall k e, In e (SG k) -> In e (SG0 k) \/ e = ev) ->
    exists seg' SG', loop fuel (odc_cover u v) (l, r, seg) = Ok seg' /\ rep seg' (2 * q) SG' /\ cinv SG0 SG' 0 0 /\ (forall k e, In e (SG' k) -> In e (SG0 k) \/ e = ev).
  Proof.
    induction fuel as [|fuel IH]; intros j l r seg SG0 SG Hj Hf Hl Hr B1 B2 _ R C NW; [lia|]. assert (P : 0 < 2 ^ j) by (apply Z.pow_pos_nonneg; lia). assert (PS : 2 ^ (j + 1) = 2 * 2 ^ j) by (rewrite Z.pow_add_r by lia; change (2 ^ 1) with 2; lia). cbn [loop]. unfold odc_cover at 1. destruct (Z.ltb_spec l r) as [L|L].
    - rewrite !land1.
      assert (A : exists l' seg1 SG1, (if Z.odd l then let* x := vget seg l in let* seg := vset seg l (x ++ [ev]) in Ok (l + 1, seg) else Ok (l, seg)) = Ok (l', seg1) /\ rep seg1 (2 * q) SG1 /\ cinv SG0 SG1 (l' * 2 ^ j) (r * 2 ^ j) /\ (forall k e, In e (SG1 k) -> In e (SG0 k) \/ e = ev) /\ l <= l' <= r /\ Z.even l' = true).
      { destruct (Z.odd l) eqn:Q.
        - destruct (mark_path SG seg l j Hj R ltac:(lia) ltac:(nia)) as (seg' & SG' & X & R' & N' & M'). destruct (vget seg l) as [x| | |]; cbn [bind] in X |- *; try discriminate. rewrite X. cbn [bind]. exists (l + 1), seg', SG'. split; [auto|]. split; [auto|]. split.
          + intros x0 e Hx. rewrite (M' x0 e Hx), (C x0 e Hx). split.
            * intros [[H|(-> & H1 & H2)]|(-> & H1)]; [auto|right; split; [auto|split; [auto|lia]]|]. right. split; [auto|]. split; [nia|lia].
            * intros [H|(-> & H1 & H2)]; [auto|]. destruct (Z_lt_ge_dec x0 (l * 2 ^ j)) as [Y|Y]; [left; right; split; [auto|split; [auto|lia]]|]. destruct (Z_lt_ge_dec x0 ((l + 1) * 2 ^ j)) as [Y'|Y']; [right; split; [auto|lia]|left; right; split; [auto|split; [auto|lia]]].
          + split; [intros k e I; destruct (N' k e I) as [I'|I']; [apply NW; auto|auto]|]. split; [lia|]. rewrite Z.even_add. rewrite <- Z.negb_odd, Q. reflexivity.
        - exists l, seg, SG. split; [auto|]. split; [auto|]. split; [auto|]. split; [auto|]. split; [lia|]. rewrite <- Z.negb_odd, Q. reflexivity. }
      destruct A as (l' & seg1 & SG1 & -> & R1 & C1 & NW1 & Hl' & El). cbn [bind].
      assert (A : exists r' seg2 SG2, (if Z.odd r then let* x := vget seg1 (r - 1) in let* seg := vset seg1 (r - 1) (x ++ [ev]) in Ok (r - 1, seg) else Ok (r, seg1)) = Ok (r', seg2) /\ rep seg2 (2 * q) SG2 /\ cinv SG0 SG2 (l' * 2 ^ j) (r' * 2 ^ j) /\ (forall k e, In e (SG2 k) -> In e (SG0 k) \/ e = ev) /\ l' <= r' <= r /\ Z.even r' = true).
      { destruct (Z.odd r) eqn:Q.
        - assert (l' < r). { destruct (Z.eq_dec l' r) as [E|E]; [exfalso; rewrite <- E, <- Z.negb_even, El in Q; discriminate|lia]. }
          destruct (mark_path SG1 seg1 (r - 1) j Hj R1 ltac:(nia) ltac:(nia)) as (seg' & SG' & X & R' & N' & M'). destruct (vget seg1 (r - 1)) as [x| | |]; cbn [bind] in X |- *; try discriminate. rewrite X. cbn [bind]. exists (r - 1), seg', SG'. replace (r - 1 + 1) with r in M' by lia. split; [auto|]. split; [auto|]. split.
          + intros x0 e Hx. rewrite (M' x0 e Hx), (C1 x0 e Hx). split.
            * intros [[H0'|(-> & H1 & H2)]|(-> & H1)]; [auto|right; split; [auto|split; [auto|nia]]|]. right. split; [auto|]. split; [nia|lia].
            * intros [H0'|(-> & H1 & H2)]; [auto|]. destruct (Z_lt_ge_dec x0 (r * 2 ^ j)) as [Y|Y]; [|left; right; split; [auto|split; [auto|lia]]]. destruct (Z_lt_ge_dec x0 ((r - 1) * 2 ^ j)) as [Y'|Y']; [left; right; split; [auto|split; [auto|lia]]|right; split; [auto|lia]].
          + split; [intros k e I; destruct (N' k e I) as [I'|I']; [apply NW1; auto|auto]|]. split; [lia|]. rewrite Z.even_sub. rewrite <- Z.negb_odd, Q. reflexivity.
        - exists r, seg1, SG1. split; [auto|]. split; [auto|]. split; [auto|]. split; [auto|]. split; [lia|]. rewrite <- Z.negb_odd, Q. reflexivity. }
      destruct A as (r' & seg2 & SG2 & -> & R2 & C2 & NW2 & Hr' & Er). cbn [bind]. rewrite !Z.shiftr_div_pow2 by lia. change (2 ^ 1) with 2. assert (Dl : l' = 2 * (l' / 2)) by (apply Z.even_spec in El; destruct El as (k & ->); rewrite (Z.mul_comm 2 k), Z.div_mul by lia; lia). assert (Dr : r' = 2 * (r' / 2)) by (apply Z.even_spec in Er; destruct Er as (k & ->); rewrite (Z.mul_comm 2 k), Z.div_mul by lia; lia).
      apply (IH (j + 1) (l' / 2) (r' / 2) seg2 SG0 SG2); auto; try lia; try nia.
      replace (l' / 2 * 2 ^ (j + 1)) with (l' * 2 ^ j) by nia. replace (r' / 2 * 2 ^ (j + 1)) with (r' * 2 ^ j) by nia. auto.
    - exists seg, SG. cbn [bind]. split; [auto|]. split; [auto|]. split; [|auto]. intros x e Hx. rewrite (C x e Hx). split; (intros [H|(E & H1 & H2)]; [auto|right; split; [auto|split; [auto|nia]]]).
  Qed.
End Cov.
Lemma puts_ok q rng : 1 <= q -> (forall u v l r, In (u, v, l, r) rng -> 0 <= l <= r /\ r <= q) -> exists seg SG, for_each rng (odc_put q) (vrep (2 * q) []) = Ok seg /\ rep seg (2 * q) SG /\
  (forall k e, In e (SG k) -> exists l r, In (fst e, snd e, l, r) rng) /\ forall x e, q <= x < 2 * q -> (path SG x e <-> exists l r, In (fst e, snd e, l, r) rng /\ l <= x - q < r).
Proof.
  intros Hq HR. destruct (for_each_inv (fun done seg => exists SG, rep seg (2 * q) SG /\ (forall k e, In e (SG k) -> exists l r, In (fst e, snd e, l, r) done) /\ forall x e, q <= x < 2 * q -> (path SG x e <-> exists l r, In (fst e, snd e, l, r) done /\ l <= x - q < r)) rng (odc_put q) (vrep (2 * q) [])) as (seg & X & SG & R & N & K).
  - exists (fun _ => []). split; [apply rep_vrep; lia|]. split; [intros k e []|]. intros x e Hx. split; [intros (k & _ & _ & [])|]. intros (l & r & [] & _).
  - intros done (((u, v), l), r) todo seg Eq (SG & R & N & K). destruct (HR u v l r) as (A & B); [rewrite Eq; apply in_or_app; right; left; auto|]. unfold odc_put.
    destruct (cover_ok q Hq u v (l + q) (r + q) ltac:(lia) (Z.to_nat (2 * q) + 1) 0 (l + q) (r + q) seg SG SG) as (seg' & SG' & X & R' & C' & N'); try (rewrite ?Z.pow_0_r; lia); auto.
    { intros x e Hx. rewrite !Z.pow_0_r. split; [auto|]. intros [H|(_ & H1 & H2)]; [auto|lia]. }
    exists seg'. split; [exact X|]. exists SG'. split; [auto|]. split.
    + intros k e I. destruct (N' k e I) as [I'|E]; [destruct (N k e I') as (l1 & r1 & I1); exists l1, r1; apply in_or_app; auto|]. subst e. exists l, r. apply in_or_app. right. left. auto.
    + intros x e Hx. rewrite (C' x e Hx), (K x e Hx). split.
      * intros [(l1 & r1 & I & H)|(-> & H & _)]; [exists l1, r1; split; [apply in_or_app; auto|auto]|]. exists l, r. split; [apply in_or_app; right; left; auto|lia].
      * intros (l1 & r1 & I & H). apply in_app_or in I. destruct I as [I|[I|[]]]; [left; exists l1, r1; auto|]. injection I as E1 E2 -> ->. right. split; [destruct e; cbn [fst snd] in *; congruence|]. lia.
  - exists seg, SG. auto.
Qed.

Section D.
  Variables (n q : Z) (seg : list (list (Z * Z))) (SG : Z -> list (Z * Z)) (qs : list (Z * Z)).
  Hypothesis Hq : 1 <= q.
  Hypothesis RS : rep seg (2 * q) SG.
  Hypothesis Lq : zlen qs = q.
  Notation vx u := (0 <= u < n).
  Hypothesis HV : forall k e, In e (SG k) -> vx (fst e) /\ vx (snd e).
  Hypothesis HQ : forall u v, In (u, v) qs -> vx u /\ vx v.
  Definition right (t : Z) (b : bool) : Prop := forall u v, vget qs t = Ok (u, v) -> (b = true <-> connP (path SG (t + q)) u v).
  Definition good (s : uuf) (P : Z * Z -> Prop) : Prop := uuf_n s = n /\ exists E st, VInv n (uuf_dat s) (uuf_hist s) (E, st) /\ forall a b, connected E a b <-> connP P a b.
  Lemma merges_ok : forall es s P c0, good s P -> (forall e, In e es -> vx (fst e) /\ vx (snd e)) ->
    exists c s', for_each es (fun e st => let '(c, s) := st in let* (b, s) := uuf_merge s (fst e) (snd e) in Ok (c + (if b then 1 else 0), s)) (c0, s) = Ok (c0 + c, s') /\ 0 <= c /\ good s' (fun e => In e es \/ P e) /\ for_ 0 c (fun _ s => uuf_undo s) s' = Ok s.
  Proof.
    induction es as [|(x, y) es IH]; intros s P c0 G HE; cbn [for_each].
    - exists 0, s. rewrite Z.add_0_r. split; [auto|]. split; [lia|]. split; [|reflexivity]. destruct G as (G1 & E & st & V & K). split; [auto|]. exists E, st. split; [auto|]. intros a b. rewrite K. apply connP_ext. cbn [In]. tauto.
    - destruct G as (G1 & E & st & V & K). destruct (HE (x, y) (or_introl eq_refl)) as (Hx & Hy). cbn [fst snd] in *. destruct (uuf_merge_ok n s E st x y G1 V Hx Hy) as (b & s1 & S1 & X & N1 & St & V1). rewrite X. cbn [bind]. pose proof (uuf_undo_merge n s E st x y b s1 G1 V Hx Hy X) as U.
      assert (G' : good s1 (fun e => e = (x, y) \/ P e)). { split; [auto|]. inversion St as [? ? ? ? NC|? ? ? ? CC| | | | | |]; subst; eexists; eexists; (split; [exact V1|]); [apply conn_add; auto|apply conn_old; auto]. }
      destruct (IH s1 _ (c0 + (if b then 1 else 0)) G' (fun e I => HE e (or_intror I))) as (c & s' & Y & Hc & Gs & Un). rewrite Y. exists ((if b then 1 else 0) + c), s'. split; [f_equal; f_equal; lia|]. split; [destruct b; lia|]. split.
      + destruct Gs as (A1 & E2 & st2 & A2 & A3). split; [auto|]. exists E2, st2. split; [auto|]. intros a d. rewrite A3. apply connP_ext. intro e. cbn [In]. split; intros H; intuition congruence.
      + destruct b; [|rewrite Z.add_0_l, Un; f_equal; auto]. rewrite Z.add_comm, for_snoc, Un by lia. cbn [bind]. exact U.
  Qed.
  Lemma same_ok s P u v : good s P -> vx u -> vx v -> exists b, uuf_same s u v = Ok b /\ (b = true <-> connP P u v).
  Proof.
    intros (G1 & E & st & V & K) Hu Hv. destruct (VInv_UInv _ _ _ _ _ V) as (R & I). exists (R u =? R v). split; [unfold uuf_same, uuf_root; rewrite G1, !(uuf_root_ok _ _ _ _ _ I) by auto; reflexivity|]. rewrite <- K, (ui_conn _ _ _ _ I) by auto. lia.
  Qed.
  Lemma dfs_ok : forall fuel k s ans, 1 <= k < 2 * q -> q <= k * 2 ^ (Z.of_nat fuel - 1) -> (0 < fuel)%nat -> good s (up SG k) -> zlen ans = q ->
    exists ans', odc_dfs fuel q seg qs k s ans = Ok (s, ans') /\ zlen ans' = q /\ forall t, 0 <= t < q -> (exists b, vget ans' t = Ok b /\ right t b) \/ (vget ans' t = vget ans t /\ ~ desc (t + q) k).
  Proof.
    induction fuel as [|fuel IH]; intros k s ans Hk Hf F0 G La; [lia|]. cbn [odc_dfs]. rewrite (rep_get _ _ _ k RS ltac:(lia)). cbn [bind]. destruct (merges_ok (SG k) s (up SG k) 0 G (HV k)) as (c & s' & X & Hc & G' & Un). rewrite X. cbn [bind]. rewrite Z.add_0_l.
    assert (G2 : good s' (path SG k)). { destruct G' as (A1 & E2 & st2 & A2 & A3). split; [auto|]. exists E2, st2. split; [auto|]. intros a b. rewrite A3. apply connP_ext. intro e. symmetry. apply path_up. lia. }
    destruct (Z.leb_spec q k) as [L|L].
    - destruct (vget_Ok qs (k - q) ltac:(lia)) as ((u, v) & Y). rewrite Y. cbn [bind]. destruct (HQ u v (vget_In _ _ _ Y)) as (Hu & Hv). destruct (same_ok s' _ u v G2 Hu Hv) as (b & Z0 & Hb). rewrite Z0. cbn [bind]. rewrite vset_ok by lia. cbn [bind]. rewrite Un. cbn [bind]. eexists. split; [reflexivity|]. split; [rewrite zlen_zupd; auto|]. intros t Ht. rewrite vget_zupd by lia. destruct (Z.eqb_spec (k - q) t) as [E|N].
      + left. exists b. split; [auto|]. intros u' v' Y'. rewrite <- E in Y' |- *. rewrite Y in Y'. injection Y' as <- <-. replace (k - q + q) with k by lia. auto.
      + right. split; [auto|]. intro D. apply (desc_leaf q) in D; lia.
    - assert (F1 : (0 < fuel)%nat). { destruct fuel; [|lia]. change (Z.of_nat 1 - 1) with 0 in Hf. rewrite Z.pow_0_r in Hf. lia. }
      assert (PW : 2 ^ (Z.of_nat (S fuel) - 1) = 2 * 2 ^ (Z.of_nat fuel - 1)) by (rewrite <- Z.pow_succ_r by lia; f_equal; lia). rewrite PW in Hf.
      assert (GC : forall c, c = 2 * k \/ c = 2 * k + 1 -> good s' (up SG c)). { intros cc Hcc. destruct G2 as (A1 & E2 & st2 & A2 & A3). split; [auto|]. exists E2, st2. split; [auto|]. intros a b. rewrite A3. apply connP_ext. intro e. rewrite (up_child SG k cc e) by (auto; lia). apply path_up. lia. }
      assert (P1 : 0 < 2 ^ (Z.of_nat fuel - 1)) by (apply Z.pow_pos_nonneg; lia).
      destruct (IH (2 * k) s' ans ltac:(lia) ltac:(nia) F1 (GC _ (or_introl eq_refl)) La) as (ans1 & Y1 & L1 & K1). rewrite Y1. cbn [bind]. destruct (IH (2 * k + 1) s' ans1 ltac:(lia) ltac:(nia) F1 (GC _ (or_intror eq_refl)) L1) as (ans2 & Y2 & L2 & K2). rewrite Y2. cbn [bind]. rewrite Un. cbn [bind]. exists ans2. split; [auto|]. split; [auto|]. intros t Ht. destruct (K2 t Ht) as [Hr|(E2 & N2)]; [auto|]. rewrite E2. destruct (K1 t Ht) as [Hr|(E1 & N1)]; [auto|]. right. split; [auto|]. intro D. apply (desc_kids q) in D; [tauto|lia|lia].
  Qed.
End D.
