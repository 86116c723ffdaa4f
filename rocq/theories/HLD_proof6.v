(* Heavy-light decomposition: the query functions *)
From Verif Require Import Base BaseLemmas ListZ ListMore Seq Graph_spec Tree_spec BFS_proof Tree_proof Tree_proof2 Tree_proof3 Tree_proof4 Tree_proof5 HLD_model HLD_proof HLD_proof2 HLD_proof3 HLD_proof4 HLD_proof5 HLD_spec.
From Coq Require Import Sorted Permutation.

Section Lprod.
  Context {T : Type} (op : T -> T -> T) (e : T).
  Hypothesis M : is_monoid op e.
  Lemma lprod_app a b : lprod op e (a ++ b) = op (lprod op e a) (lprod op e b).
  Proof. unfold lprod. induction a as [|x a IH]; cbn; [now rewrite (mon_l _ _ M)|]. rewrite IH. apply (mon_assoc _ _ M). Qed.
  Lemma lprod_perm a b : (forall x y, op x y = op y x) -> Permutation a b -> lprod op e a = lprod op e b.
  Proof. intros C P. unfold lprod. induction P; cbn; try congruence. rewrite !(mon_assoc _ _ M). now rewrite (C y x). Qed.
End Lprod.
Lemma without_mid a l1 l2 : NoDup (l1 ++ a :: l2) -> without a (l1 ++ a :: l2) = l1 ++ l2.
Proof.
  intros N. unfold without. rewrite filter_app. cbn [filter]. rewrite Z.eqb_refl. cbn [negb]. pose proof (NoDup_remove_2 _ _ _ N) as X. rewrite in_app_iff in X.
  f_equal; apply filter_id; intros x I; apply Bool.negb_true_iff, Z.eqb_neq; intros ->; tauto.
Qed.

Section Q.
  Variables (g0 g : list (list Z)) (pf dep rt : Z -> Z) (h : hld).
  Hypothesis R : rooted g0 pf.
  Hypothesis D : dep_ok g0 pf dep rt.
  Hypothesis HF : hfacts g0 pf dep rt g h.
  Notation n := (zlen g0).
  Notation ga := (gv (-1)).
  Notation V := (ga (h_visit h)).
  Notation L := (ga (h_leave h)).
  Notation H := (ga (h_head h)).
  Notation O_ := (ga (h_ord h)).
  Notation vtx := (vertex g0).
  Lemma fuel_ok x y : vtx x -> vtx y -> V x + V y + 2 < Z.of_nat (fuel_ h).
  Proof. intros Hx Hy. unfold fuel_. rewrite (f_n g0 g pf dep rt h HF). pose proof (proj1 (V_range g0 g pf dep rt h HF x Hx)). pose proof (proj1 (V_range g0 g pf dep rt h HF y Hy)). lia. Qed.
  Lemma lca_ok u v a : vtx u -> vtx v -> is_lca pf u v a -> lca h u v = Ok a.
  Proof. intros Hu Hv La. pose proof (fuel_ok u v Hu Hv). destruct (walk g0 g pf dep rt h R D HF false (fuel_ h) u v a Hu Hv La ltac:(lia)) as (rs & i & j & _ & _ & _ & _ & _ & E & _). exact E. Qed.
  (* the simple path *)
  Lemma path_form u v p : vtx u -> vtx v -> simple_path g0 u v p -> exists a i j, is_lca pf u v a /\ climb pf i u a /\ climb pf j v a /\ p = treepath pf u v a i j.
  Proof.
    intros Hu Hv Sp. assert (C : connected g0 u v). { destruct Sp as (_ & c & X). exists c, p. exact X. }
    destruct (lca_exists g0 pf dep rt R D u v Hu Hv C) as (a & La). destruct (proj1 La) as (i & Ci). destruct (proj1 (proj2 La)) as (j & Cj). exists a, i, j. split; auto. split; auto. split; auto.
    apply (path_unique g0 pf dep rt R D p u v _ Hu Sp). apply (treepath_ok g0 pf dep rt R D); auto.
  Qed.
  Lemma queried_form u v a p e : vtx u -> vtx v -> simple_path g0 u v p -> is_lca pf u v a -> forall i j, climb pf i u a -> climb pf j v a ->
    queried e a p = ups pf (Z.to_nat i) u ++ (if e then [] else [a]) ++ rev (ups pf (Z.to_nat j) v).
  Proof.
    intros Hu Hv Sp La i j Ci Cj. destruct (path_form u v p Hu Hv Sp) as (a' & i' & j' & La' & Ci' & Cj' & Ep).
    assert (a' = a) by (now apply (lca_unique g0 pf dep rt R D u v)). subst a'.
    assert (i' = i). { pose proof (dep_climb g0 pf dep rt R D _ _ _ Ci Hu). pose proof (dep_climb g0 pf dep rt R D _ _ _ Ci' Hu). lia. }
    assert (j' = j). { pose proof (dep_climb g0 pf dep rt R D _ _ _ Cj Hv). pose proof (dep_climb g0 pf dep rt R D _ _ _ Cj' Hv). lia. } subst i' j'.
    destruct Sp as (N & _). unfold treepath in Ep. subst p. destruct e; cbn [queried app]; auto. now apply without_mid.
  Qed.
  Lemma update_path_ok u v a p e : vtx u -> vtx v -> simple_path g0 u v p -> is_lca pf u v a ->
    exists rs, (forall q, In q rs -> 0 <= fst q <= snd q /\ snd q <= n) /\ zlen rs <= 2 * Z.log2 n + 1 /\
      Permutation (flat_map (vis h) rs) (queried e a p) /\
      forall S (upd : Z -> Z -> S -> res S) st, update_path h upd u v e st = for_each rs (upd_each upd) st.
  Proof.
    intros Hu Hv Sp La. pose proof (fuel_ok u v Hu Hv). destruct (walk g0 g pf dep rt h R D HF e (fuel_ h) u v a Hu Hv La ltac:(lia)) as (rs & i & j & Ci & Cj & Lr & Rr & P & _ & E & _).
    exists rs. split; auto. split; [pose proof (hc_log g0 g pf dep rt h R D HF u Hu); pose proof (hc_log g0 g pf dep rt h R D HF v Hv); lia|]. split; auto.
    rewrite P, (queried_form u v a p e Hu Hv Sp La i j Ci Cj). now rewrite <- Permutation_rev.
  Qed.
  Lemma fold_rs {T} (op : T -> T -> T) (id : T) (w : Z -> T) q rs r : is_monoid op id -> (forall x y, op x y = op y x) -> answers h op id w q ->
    (forall q, In q rs -> 0 <= fst q <= snd q /\ snd q <= n) -> for_each rs (fold_each op q) r = Ok (op (lprod op id (map w (flat_map (vis h) rs))) r).
  Proof.
    intros M C A. revert r. induction rs as [|(l, k) rs IH]; intros r Rr; cbn [for_each flat_map].
    - cbn. now rewrite (mon_l _ _ M).
    - unfold fold_each at 1. cbn [fst snd]. destruct (Rr (l, k)) as (B1 & B2); [now left|]. cbn [fst snd] in *. rewrite A by (auto; rewrite (f_n g0 g pf dep rt h HF); auto). cbn [bind]. rewrite IH by (intros; apply Rr; now right).
      f_equal. rewrite map_app, lprod_app by auto. unfold vis at 2. cbn [fst snd]. set (X := lprod op id (map w (flat_map _ rs))). set (Y := lprod op id (map w (visited h l k))). rewrite !(mon_assoc _ _ M). now rewrite (C X Y).
  Qed.
  Lemma fold_path_ok {T} (op : T -> T -> T) (id : T) (w : Z -> T) q u v a p e : is_monoid op id -> (forall x y, op x y = op y x) -> answers h op id w q ->
    vtx u -> vtx v -> simple_path g0 u v p -> is_lca pf u v a -> fold_path h op id q u v e = Ok (lprod op id (map w (queried e a p))).
  Proof.
    intros M C A Hu Hv Sp La. pose proof (fuel_ok u v Hu Hv). destruct (walk g0 g pf dep rt h R D HF e (fuel_ h) u v a Hu Hv La ltac:(lia)) as (rs & i & j & Ci & Cj & Lr & Rr & P & _ & _ & E).
    unfold fold_path. rewrite E, (fold_rs op id w q rs id M C A Rr). rewrite (mon_r _ _ M). f_equal. apply lprod_perm; auto. apply Permutation_map. rewrite P, (queried_form u v a p e Hu Hv Sp La i j Ci Cj). now rewrite <- Permutation_rev.
  Qed.
  Lemma nc_loop {T} (op : T -> T -> T) (id : T) (w : Z -> T) q qr : is_monoid op id -> answers h op id w q -> answers_rev h op id w qr ->
    forall fuel x y a i j ru rv, vtx x -> vtx y -> is_lca pf x y a -> climb pf i x a -> climb pf j y a -> V x + V y < Z.of_nat fuel ->
    exists x' y' ru' rv' i' j', loop fuel (fold_nc_body h op q qr) (x, y, ru, rv) = Ok (x', y', ru', rv') /\ vtx x' /\ vtx y' /\ H x' = H y' /\ is_lca pf x' y' a /\ climb pf i' x' a /\ climb pf j' y' a /\ 0 <= i' <= i /\ 0 <= j' <= j /\
      climb pf (i - i') x x' /\ climb pf (j - j') y y' /\ ru' = op ru (lprod op id (map w (ups pf (Z.to_nat (i - i')) x))) /\ rv' = op (lprod op id (map w (rev (ups pf (Z.to_nat (j - j')) y)))) rv.
  Proof.
    intros M A1 A2. pose proof (f_visit g0 g pf dep rt h HF) as Fv. pose proof (f_head g0 g pf dep rt h HF) as Fh. pose proof (f_par g0 g pf dep rt h HF) as Fp. pose proof (f_n g0 g pf dep rt h HF) as En.
    induction fuel as [|fuel IH]; intros x y a i j ru rv Hx Hy La Ci Cj B; pose proof (proj1 (V_range g0 g pf dep rt h HF x Hx)) as Rx; pose proof (proj1 (V_range g0 g pf dep rt h HF y Hy)) as Ry; [lia|].
    cbn [loop]. unfold fold_nc_body at 1. rewrite !Fh by auto. cbn [bind]. pose proof (climb_nonneg pf _ _ _ Ci) as Ni. pose proof (climb_nonneg pf _ _ _ Cj) as Nj. destruct (Z.eqb_spec (H x) (H y)) as [E|N].
    - cbn [bind]. exists x, y, ru, rv, i, j. rewrite !Z.sub_diag. cbn. rewrite (mon_l _ _ M), (mon_r _ _ M). repeat (split; [auto; try lia; try constructor; fail|]). auto.
    - rewrite !Fv by auto. cbn [bind]. destruct (Z.ltb_spec (V x) (V y)) as [Lt|Ge].
      + destruct (lift_lca g0 g pf dep rt h R D HF x y a Hx Hy N ltac:(lia) La) as (Np & Hp & La' & Lt'). destruct (chain g0 g pf dep rt h R D HF y Hy) as (Hh & Lh & Eh & _). pose proof (proj1 (V_range g0 g pf dep rt h HF (H y) Hh)) as Rh.
        rewrite Fv by auto. cbn [bind]. rewrite A1 by lia. cbn [bind]. rewrite Fp by auto. cbn [bind].
        pose proof (climb_snoc pf _ _ _ (head_climb g0 g pf dep rt h R D HF y Hy) Np) as Ch. destruct (proj1 (proj2 La')) as (k & Ck).
        assert (Ek : j = V y - V (H y) + 1 + k). { pose proof (dep_climb g0 pf dep rt R D _ _ _ Cj Hy). pose proof (dep_climb g0 pf dep rt R D _ _ _ Ck Hp). pose proof (dep_climb g0 pf dep rt R D _ _ _ Ch Hy). lia. }
        destruct (IH x (pf (H y)) a i k ru (op (lprod op id (map w (visited h (V (H y)) (V y + 1)))) rv) Hx Hp La' Ci Ck ltac:(lia)) as (x' & y' & ru' & rv' & i' & j' & E' & Hx' & Hy' & Eh' & La2 & Ci' & Cj' & Bi & Bj & Cx & Cy & Eu & Ev).
        exists x', y', ru', rv', i', j'. split; [exact E'|]. repeat (split; [auto; try lia; fail|]). split; [replace (j - j') with (V y - V (H y) + 1 + (k - j')) by lia; now apply (climb_trans pf _ _ (pf (H y)))|].
        split; [exact Eu|]. rewrite Ev. rewrite (mon_assoc _ _ M). f_equal. unfold visited. destruct (stretch g0 g pf dep rt h R D HF (H y) y Hh Hy Eh Lh) as (_ & ->).
        replace (j - j') with (V y - V (H y) + 1 + (k - j')) by lia. rewrite (ups_appz pf _ (k - j') y (pf (H y))) by (auto; lia). rewrite (ups_appz pf (V y - V (H y)) 1 y (H y)) by (auto; try lia; now apply (head_climb g0 g pf dep rt h R D HF)).
        change (Z.to_nat 1) with 1%nat. cbn [ups]. rewrite !rev_app_distr. cbn [rev app]. rewrite <- (lprod_app op id M), <- map_app. reflexivity.
      + assert (N' : H y <> H x) by auto. destruct (lift_lca g0 g pf dep rt h R D HF y x a Hy Hx N' ltac:(lia) (lca_sym pf _ _ _ La)) as (Np & Hp & La' & Lt'). apply lca_sym in La'. destruct (chain g0 g pf dep rt h R D HF x Hx) as (Hh & Lh & Eh & _). pose proof (proj1 (V_range g0 g pf dep rt h HF (H x) Hh)) as Rh.
        rewrite Fv by auto. cbn [bind]. rewrite A2 by lia. cbn [bind]. rewrite Fp by auto. cbn [bind].
        pose proof (climb_snoc pf _ _ _ (head_climb g0 g pf dep rt h R D HF x Hx) Np) as Ch. destruct (proj1 La') as (k & Ck).
        assert (Ek : i = V x - V (H x) + 1 + k). { pose proof (dep_climb g0 pf dep rt R D _ _ _ Ci Hx). pose proof (dep_climb g0 pf dep rt R D _ _ _ Ck Hp). pose proof (dep_climb g0 pf dep rt R D _ _ _ Ch Hx). lia. }
        destruct (IH (pf (H x)) y a k j (op ru (lprod op id (map w (rev (visited h (V (H x)) (V x + 1)))))) rv Hp Hy La' Ck Cj ltac:(lia)) as (x' & y' & ru' & rv' & i' & j' & E' & Hx' & Hy' & Eh' & La2 & Ci' & Cj' & Bi & Bj & Cx & Cy & Eu & Ev).
        exists x', y', ru', rv', i', j'. split; [exact E'|]. repeat (split; [auto; try lia; fail|]). split; [replace (i - i') with (V x - V (H x) + 1 + (k - i')) by lia; now apply (climb_trans pf _ _ (pf (H x)))|]. split; [exact Cy|].
        split; [|exact Ev]. rewrite Eu. rewrite <- (mon_assoc _ _ M). f_equal. unfold visited. destruct (stretch g0 g pf dep rt h R D HF (H x) x Hh Hx Eh Lh) as (_ & ->).
        replace (i - i') with (V x - V (H x) + 1 + (k - i')) by lia. rewrite (ups_appz pf _ (k - i') x (pf (H x))) by (auto; lia). rewrite (ups_appz pf (V x - V (H x)) 1 x (H x)) by (auto; try lia; now apply (head_climb g0 g pf dep rt h R D HF)).
        change (Z.to_nat 1) with 1%nat. cbn [ups rev]. rewrite rev_involutive. rewrite <- (lprod_app op id M), <- map_app. reflexivity.
  Qed.
  Lemma fold_nc_ok {T} (op : T -> T -> T) (id : T) (w : Z -> T) q qr u v a p e : is_monoid op id -> answers h op id w q -> answers_rev h op id w qr ->
    vtx u -> vtx v -> simple_path g0 u v p -> is_lca pf u v a -> fold_path_noncommutative h op id q qr u v e = Ok (lprod op id (map w (queried e a p))).
  Proof.
    intros M A1 A2 Hu Hv Sp La. pose proof (fuel_ok u v Hu Hv) as Fl. destruct (proj1 La) as (i & Ci). destruct (proj1 (proj2 La)) as (j & Cj). rewrite (queried_form u v a p e Hu Hv Sp La i j Ci Cj).
    destruct (nc_loop op id w q qr M A1 A2 (fuel_ h) u v a i j id id Hu Hv La Ci Cj ltac:(lia)) as (x & y & ru & rv & i' & j' & E' & Hx & Hy & Eh & La2 & Ci' & Cj' & Bi & Bj & Cx & Cy & Eu & Ev).
    unfold fold_path_noncommutative. rewrite E'. cbn [bind]. pose proof (f_visit g0 g pf dep rt h HF) as Fv. rewrite !Fv by auto. cbn [bind]. pose proof (f_n g0 g pf dep rt h HF) as En.
    pose proof (proj1 (V_range g0 g pf dep rt h HF x Hx)) as Rx. pose proof (proj1 (V_range g0 g pf dep rt h HF y Hy)) as Ry.
    rewrite (mon_l _ _ M) in Eu. rewrite (mon_r _ _ M) in Ev.
    assert (Ui : ups pf (Z.to_nat i) u = ups pf (Z.to_nat (i - i')) u ++ ups pf (Z.to_nat i') x). { replace i with (i - i' + i') at 1 by lia. apply ups_appz; auto; lia. }
    assert (Uj : ups pf (Z.to_nat j) v = ups pf (Z.to_nat (j - j')) v ++ ups pf (Z.to_nat j') y). { replace j with (j - j' + j') at 1 by lia. apply ups_appz; auto; lia. }
    rewrite Ui, Uj, rev_app_distr, !map_app, !(lprod_app op id M), <- Eu, <- Ev.
    destruct (Z.ltb_spec (V x) (V y)) as [Lt|Ge].
    - rewrite A1 by (destruct e; cbn [Z.b2z]; lia). cbn [bind]. f_equal.
      pose proof (same_chain g0 g pf dep rt h R D HF x y Hx Hy Eh ltac:(lia)) as C. assert (a = x). { apply (lca_unique g0 pf dep rt R D x y a x Hx La2). apply lca_anc. eexists; eauto. } subst a.
      assert (i' = 0). { pose proof (dep_climb g0 pf dep rt R D _ _ _ Ci' Hx). lia. } assert (j' = V y - V x). { pose proof (dep_climb g0 pf dep rt R D _ _ _ Cj' Hy). pose proof (dep_climb g0 pf dep rt R D _ _ _ C Hy). lia. } subst i' j'.
      destruct (stretch g0 g pf dep rt h R D HF x y Hx Hy Eh ltac:(lia)) as (S1 & S2). unfold visited. change (Z.to_nat 0) with O. cbn [ups map]. change (lprod op id []) with id. rewrite (mon_r _ _ M). f_equal.
      rewrite (mon_assoc _ _ M). f_equal. rewrite <- (lprod_app op id M), <- map_app. f_equal. f_equal. destruct e; cbn [Z.b2z app]; [exact S1|rewrite Z.add_0_r; exact S2].
    - rewrite A2 by (destruct e; cbn [Z.b2z]; lia). cbn [bind]. f_equal. assert (Eh' : H y = H x) by auto.
      pose proof (same_chain g0 g pf dep rt h R D HF y x Hy Hx Eh' ltac:(lia)) as C. assert (a = y). { apply (lca_unique g0 pf dep rt R D x y a y Hx La2). apply lca_sym, lca_anc. eexists; eauto. } subst a.
      assert (j' = 0). { pose proof (dep_climb g0 pf dep rt R D _ _ _ Cj' Hy). lia. } assert (i' = V x - V y). { pose proof (dep_climb g0 pf dep rt R D _ _ _ Ci' Hx). pose proof (dep_climb g0 pf dep rt R D _ _ _ C Hx). lia. } subst i' j'.
      destruct (stretch g0 g pf dep rt h R D HF y x Hy Hx Eh' ltac:(lia)) as (S1 & S2). unfold visited. change (Z.to_nat 0) with O. cbn [ups rev map]. change (lprod op id []) with id. rewrite (mon_l _ _ M). rewrite <- !(mon_assoc _ _ M). f_equal.
      rewrite !(mon_assoc _ _ M). f_equal. rewrite <- (lprod_app op id M), <- map_app. f_equal. f_equal. destruct e; cbn [Z.b2z app]; [rewrite S1|rewrite Z.add_0_r, S2]; cbn [rev]; rewrite rev_involutive; auto. now rewrite app_nil_r.
  Qed.
  Lemma la_loop dflt fuel : forall u k, vtx u -> 0 <= k -> V u + 1 < Z.of_nat fuel ->
    (forall a, climb pf k u a -> loop fuel (la_body h dflt) (u, k) = Ok a) /\ ((forall a, ~ climb pf k u a) -> loop fuel (la_body h dflt) (u, k) = Ok dflt).
  Proof.
    pose proof (f_visit g0 g pf dep rt h HF) as Fv. pose proof (f_head g0 g pf dep rt h HF) as Fh. pose proof (f_par g0 g pf dep rt h HF) as Fp.
    induction fuel as [|fuel IH]; intros u k Hu Hk B; pose proof (proj1 (V_range g0 g pf dep rt h HF u Hu)) as Ru; [lia|].
    assert (U0 : (u <? 0) = false) by (unfold vertex in Hu; lia). cbn [loop]. unfold la_body at 1 3. rewrite U0, Fh by auto. cbn [bind]. destruct (chain g0 g pf dep rt h R D HF u Hu) as (Hh & Lh & Eh & Ch). pose proof (proj1 (V_range g0 g pf dep rt h HF _ Hh)) as Rh.
    rewrite !Fv by auto. cbn [bind]. destruct (Z.leb_spec (V (H u)) (V u - k)) as [Le|Gt].
    - rewrite (f_ordk g0 g pf dep rt h HF) by lia. cbn [bind]. destruct (Ch k ltac:(lia)) as (C & _). split; [intros a Ca; now rewrite (climb_fun pf _ _ _ _ C Ca)|intros X; destruct (X _ C)].
    - rewrite Fp by auto. cbn [bind]. pose proof (head_climb g0 g pf dep rt h R D HF u Hu) as Cc. set (c := V u - V (H u)) in *. destruct (Z.eq_dec (pf (H u)) (-1)) as [E|Np].
      + assert (No : forall a, ~ climb pf k u a). { intros a Ca. pose proof (climb_compare pf _ _ _ _ _ Cc Ca ltac:(lia)) as X. apply climb_inv in X as [(X & _)|(_ & X & _)]; lia. }
        split; [intros a Ca; destruct (No a Ca)|]. intros _. rewrite E. destruct fuel; [lia|]. reflexivity.
      + assert (Hp := par_vertex g0 pf R _ Hh Np). pose proof (V_par g0 g pf dep rt h R D HF (H u) Hh Np) as Lt. pose proof (climb_snoc pf _ _ _ Cc Np) as Cp.
        destruct (IH (pf (H u)) (k - (c + 1)) Hp ltac:(lia) ltac:(lia)) as (I1 & I2). split.
        * intros a Ca. apply I1. apply (climb_compare pf _ _ _ _ _ Cp Ca). lia.
        * intros No. apply I2. intros a Ca. apply (No a). replace k with (c + 1 + (k - (c + 1))) by lia. now apply (climb_trans pf _ _ (pf (H u))).
  Qed.
  Lemma la_ok u k dflt : vtx u -> (forall a, climb pf k u a -> la h u k dflt = Ok a) /\ ((forall a, ~ climb pf k u a) -> la h u k dflt = Ok dflt).
  Proof.
    intros Hu. unfold la. destruct (Z.ltb_spec k 0) as [Lt|Ge]; [split; auto; intros a C; apply climb_nonneg in C; lia|]. apply la_loop; auto. pose proof (fuel_ok u u Hu Hu). pose proof (proj1 (V_range g0 g pf dep rt h HF u Hu)). lia.
  Qed.
  Lemma vget_ups k v x j : 0 <= j < Z.of_nat k -> climb pf j v x -> vget (ups pf k v) j = Ok x.
  Proof.
    revert v j. induction k as [|k IH]; intros v j Hj C; [lia|]. cbn [ups]. apply climb_inv in C as [(-> & ->)|(Hj1 & _ & C)]; [reflexivity|].
    change (v :: ups pf k (pf v)) with ([v] ++ ups pf k (pf v)). assert (Lu : zlen (ups pf k (pf v)) = Z.of_nat k) by (unfold zlen; now rewrite ups_len). rewrite vget_app2 by (rewrite ?zlen_one; lia). rewrite zlen_one. apply IH; auto; lia.
  Qed.
  Lemma treepath_len u v a i j : 0 <= i -> 0 <= j -> zlen (treepath pf u v a i j) = i + j + 1.
  Proof. intros Hi Hj. unfold treepath, zlen. rewrite app_length. cbn [length]. rewrite rev_length, !ups_len. lia. Qed.
  Lemma vget_rev {A} (l : list A) i x : vget (rev l) i = Ok x <-> 0 <= i < zlen l /\ vget l (zlen l - 1 - i) = Ok x.
  Proof.
    revert i. induction l as [|y l IH] using rev_ind; intros i; [split; [intros X; apply vget_range in X; unfold zlen in X; cbn [rev length] in X; lia|intros (X & _); unfold zlen in X; cbn [length] in X; lia]|].
    rewrite rev_app_distr, zlen_app, zlen_one. cbn [rev app]. change (y :: rev l) with ([y] ++ rev l). pose proof (size_nonneg l). destruct (Z.eq_dec i 0) as [->|N].
    - rewrite vget_mid by lia. change (vget ([y] ++ rev l) 0) with (Ok y). split; [intros X; split; [lia|auto]|intros (_ & X); auto].
    - split.
      + intros X. pose proof (vget_range _ _ _ X) as Rg. rewrite zlen_app, zlen_one, zlen_rev in Rg. rewrite vget_app2 in X by (rewrite ?zlen_one; lia). rewrite zlen_one in X. apply IH in X as (B & X). split; [lia|]. rewrite vget_app1 by lia. replace (zlen l + 1 - 1 - i) with (zlen l - 1 - (i - 1)) by lia. exact X.
      + intros (B & X). rewrite vget_app2 by (rewrite ?zlen_one, ?zlen_rev; lia). rewrite zlen_one. apply IH. split; [lia|]. rewrite vget_app1 in X by lia. replace (zlen l - 1 - (i - 1)) with (zlen l + 1 - 1 - i) by lia. exact X.
  Qed.
  Lemma jump_ok u v p d dflt : vtx u -> vtx v -> simple_path g0 u v p -> jump h u v d dflt = match vget p d with Ok x => Ok x | _ => Ok dflt end.
  Proof.
    intros Hu Hv Sp. destruct (path_form u v p Hu Hv Sp) as (a & i & j & La & Ci & Cj & ->). pose proof (climb_nonneg pf _ _ _ Ci) as Ni. pose proof (climb_nonneg pf _ _ _ Cj) as Nj. pose proof (treepath_len u v a i j Ni Nj) as Lp.
    pose proof (anc_vertex g0 pf R a u (ex_intro _ i Ci) Hu) as Ha.
    assert (Out : ~ 0 <= d < i + j + 1 -> forall y, vget (treepath pf u v a i j) d <> Ok y). { intros X y E. apply vget_range in E. rewrite Lp in E. lia. }
    unfold jump. destruct (Z.ltb_spec d 0) as [Lt|Ge].
    - specialize (Out ltac:(lia)). destruct (vget _ d) as [y| | |]; auto. now destruct (Out y).
    - rewrite (lca_ok u v a Hu Hv La). cbn [bind]. rewrite !(f_dep g0 g pf dep rt h HF) by auto. cbn [bind]. pose proof (dep_climb g0 pf dep rt R D _ _ _ Ci Hu) as E1. pose proof (dep_climb g0 pf dep rt R D _ _ _ Cj Hv) as E2.
      replace (dep u - dep a) with i by lia. replace (dep v - dep a) with j by lia. destruct (Z.leb_spec d i) as [Le|Gt].
      + destruct (climb_split pf d (i - d) u a Ge ltac:(lia)) as (x & Cx & Cxa); [now replace (d + (i - d)) with i by lia|]. rewrite (proj1 (la_ok u d (-1) Hu) x Cx).
        assert (E : vget (treepath pf u v a i j) d = Ok x); [|now rewrite E]. unfold treepath. assert (Lu : zlen (ups pf (Z.to_nat i) u) = i) by (unfold zlen; rewrite ups_len; lia). destruct (Z.eq_dec d i) as [->|N].
        * rewrite vget_mid by lia. f_equal. apply (climb_fun pf _ _ _ _ Ci Cx).
        * rewrite vget_app1 by lia. apply vget_ups; auto. lia.
      + destruct (Z.leb_spec d (i + j)) as [Le'|Gt'].
        * destruct (climb_split pf (i + j - d) (d - i) v a ltac:(lia) ltac:(lia)) as (x & Cx & Cxa); [now replace (i + j - d + (d - i)) with j by lia|]. rewrite (proj1 (la_ok v (i + j - d) (-1) Hv) x Cx).
          assert (E : vget (treepath pf u v a i j) d = Ok x); [|now rewrite E]. unfold treepath. assert (Lu : zlen (ups pf (Z.to_nat i) u) = i) by (unfold zlen; rewrite ups_len; lia). assert (Lv : zlen (ups pf (Z.to_nat j) v) = j) by (unfold zlen; rewrite ups_len; lia).
          change (a :: rev (ups pf (Z.to_nat j) v)) with ([a] ++ rev (ups pf (Z.to_nat j) v)). rewrite vget_app2 by (rewrite ?zlen_app, ?zlen_one, ?zlen_rev; lia). rewrite vget_app2 by (rewrite ?zlen_app, ?zlen_one, ?zlen_rev; lia). rewrite zlen_one. apply vget_rev. rewrite Lv, Lu. split; [lia|].
          apply vget_ups; [lia|]. now replace (j - 1 - (d - i - 1)) with (i + j - d) by lia.
        * specialize (Out ltac:(lia)). destruct (vget _ d) as [y| | |]; auto. now destruct (Out y).
  Qed.
  Lemma dist_ok u v : vtx u -> vtx v -> connected g0 u v -> exists d, dist h u v = Ok d /\ best (hop g0) u v d.
  Proof.
    intros Hu Hv C. destruct (lca_exists g0 pf dep rt R D u v Hu Hv C) as (a & La). destruct (proj1 La) as (i & Ci). destruct (proj1 (proj2 La)) as (j & Cj). pose proof (anc_vertex g0 pf R a u (proj1 La) Hu) as Ha.
    exists (i + j). split.
    - unfold dist. rewrite (lca_ok u v a Hu Hv La). rewrite !(f_dep g0 g pf dep rt h HF) by auto. cbn [bind]. rewrite (f_dep g0 g pf dep rt h HF) by auto. cbn [bind]. f_equal. pose proof (dep_climb g0 pf dep rt R D _ _ _ Ci Hu). pose proof (dep_climb g0 pf dep rt R D _ _ _ Cj Hv). lia.
    - split; [eexists; apply (treepath_ok g0 pf dep rt R D u v a i j); auto|]. intros d (p & Rt). apply (dist_best g0 pf dep rt R D u v p d Rt Hu a); auto.
  Qed.
  Lemma path_ok u v : vtx u -> vtx v -> connected g0 u v -> exists p, simple_path g0 u v p.
  Proof.
    intros Hu Hv C. destruct (lca_exists g0 pf dep rt R D u v Hu Hv C) as (a & La). destruct (proj1 La) as (i & Ci). destruct (proj1 (proj2 La)) as (j & Cj). eexists; apply (treepath_ok g0 pf dep rt R D u v a i j); auto.
  Qed.
  Lemma inv_ok : inv_ids h = Ok (h_ord h).
  Proof.
    unfold inv_ids. rewrite (f_n g0 g pf dep rt h HF). pose proof (f_olen g0 g pf dep rt h HF) as Lo.
    destruct (for_inv (fun i l => zlen l = n /\ forall v, 0 <= v < i -> ga l (V v) = v) 0 n (fun i inv => let* t := visit_ h i in vset inv t i) (vrep n 0)) as (l & E & Ll & Gl).
    - apply size_nonneg.
    - split; [apply zlen_vrep; apply size_nonneg|lia].
    - intros i l Hi (Ll & Gl). rewrite (f_visit g0 g pf dep rt h HF) by (exact Hi). cbn [bind]. pose proof (proj1 (V_range g0 g pf dep rt h HF i Hi)) as Ri. rewrite vset_ok by lia. eexists. split; [reflexivity|]. split; [now rewrite zlen_zupd|]. intros v Hv. pose proof (proj1 (V_range g0 g pf dep rt h HF v ltac:(unfold vertex; lia))) as Rv.
      rewrite gv_zupd by lia. destruct (Z.eqb_spec (V i) (V v)) as [Ev|Nv]; [apply (V_inj g0 g pf dep rt h HF) in Ev; auto; unfold vertex; lia|]. apply Gl. assert (v <> i) by congruence. lia.
    - rewrite E. f_equal. apply list_eq; [lia|]. intros k Hk. rewrite !(vget_gv (-1)) by lia. f_equal. destruct (f_ord g0 g pf dep rt h HF k ltac:(lia)) as (Hv & Ek). rewrite <- Ek at 1. now apply Gl.
  Qed.
  Lemma roots_ok : get_roots h = Ok (filter (fun v => pf v =? -1) (zrange n)).
  Proof.
    unfold get_roots. rewrite (f_n g0 g pf dep rt h HF).
    destruct (for_inv (fun i l => l = filter (fun v => pf v =? -1) (zrange i)) 0 n (fun i l => let* p := par_ h i in Ok (if p <? 0 then l ++ [i] else l)) []) as (l & E & El).
    - apply size_nonneg.
    - reflexivity.
    - intros i l Hi El. rewrite (f_par g0 g pf dep rt h HF) by exact Hi. cbn [bind]. eexists. split; [reflexivity|]. rewrite El. replace (zrange (i + 1)) with (zrange i ++ [i]). 2:{ unfold zrange. rewrite to_nat_S by lia. rewrite seq_S, map_app. cbn. f_equal. f_equal. lia. }
      rewrite filter_app. cbn [filter]. destruct (Z.eqb_spec (pf i) (-1)) as [->|N]; [reflexivity|]. pose proof (par_vertex g0 pf R i Hi N) as X. unfold vertex in X. destruct (Z.ltb_spec (pf i) 0); [lia|]. now rewrite app_nil_r.
    - rewrite E. now f_equal.
  Qed.
End Q.

(* what the constructors return satisfies the facts *)
Lemma of_hfacts g0 par h : hld_of g0 par h -> exists dep rt g, rooted g0 par /\ dep_ok g0 par dep rt /\ hfacts g0 par dep rt g h.
Proof.
  intros (R & g' & Hc). destruct (dep_fun g0 par R) as (dep & rt & D & m & B). exists dep, rt. destruct Hc as [(E & Hr)|(rs & E & (O1 & O2 & O3) & Hr)].
  - destruct (new_ok g0 par dep rt m R D B) as (h' & g & E' & F).
    + intros v Hv. assert (L := proj1 (Hr (rt v) (rt_vertex g0 par dep rt D v Hv)) (par_rt g0 par dep rt D v Hv)). apply L; auto. apply (conn_rt g0 par dep rt R D); auto; [now apply (rt_vertex g0 par dep rt D)|]. symmetry. exact (rt_anc g0 par dep rt R D (rt v) v (anc_rt g0 par dep rt D v Hv) Hv).
    + rewrite E in E'. injection E' as <- <-. exists g'. auto.
  - destruct (new_roots_ok g0 par dep rt m R D B rs) as (h' & g & E' & F); auto.
    + clear -O2. induction O2 as [|x l F O2 IH]; constructor; auto. intros I. rewrite Forall_forall in F. apply (F x I). apply conn_refl.
    + rewrite E in E'. injection E' as <- <-. exists g'. auto.
Qed.
Lemma new_exists g : forest g -> exists h g' par, hld_new g = Ok (h, g') /\ hld_of g par h.
Proof.
  intros Fo. destruct Fo as (p0 & R0). destruct (dep_fun g p0 R0) as (dep0 & rt0 & D0 & _). pose proof (least_one_each g p0 dep0 rt0 R0 D0) as One.
  destruct (choose_one_each g _ (ex_intro _ p0 R0) One) as (par & R & Hr). destruct (dep_fun g par R) as (dep & rt & D & m & B).
  assert (Hl : forall r, vertex g r -> (par r = -1 <-> least_of g r)). { intros r Vr. rewrite Hr by auto. rewrite (least_roots_In g p0 dep0 rt0 r R0 D0). unfold least_of. tauto. }
  destruct (new_ok g par dep rt m R D B) as (h & g' & E & F).
  - intros v Hv. assert (L := proj1 (Hl (rt v) (rt_vertex g par dep rt D v Hv)) (par_rt g par dep rt D v Hv)). apply L; auto. apply (conn_rt g par dep rt R D); auto; [now apply (rt_vertex g par dep rt D)|]. symmetry. exact (rt_anc g par dep rt R D (rt v) v (anc_rt g par dep rt D v Hv) Hv).
  - exists h, g', par. split; auto. split; auto. exists g'. left. auto.
Qed.
Lemma new_roots_exists g rs : forest g -> one_each g rs -> exists h g' par, hld_new_roots g rs = Ok (h, g') /\ hld_of g par h /\ forall r, vertex g r -> (par r = -1 <-> In r rs).
Proof.
  intros Fo One. destruct (choose_one_each g rs Fo One) as (par & R & Hr). destruct (dep_fun g par R) as (dep & rt & D & m & B). pose proof One as (O1 & O2 & O3).
  destruct (new_roots_ok g par dep rt m R D B rs) as (h & g' & E & F); auto.
  - clear -O2. induction O2 as [|x l F O2 IH]; constructor; auto. intros I. rewrite Forall_forall in F. apply (F x I). apply conn_refl.
  - exists h, g', par. split; auto. split; auto. split; auto. exists g'. right. exists rs. auto.
Qed.
