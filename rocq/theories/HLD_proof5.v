(* Heavy-light decomposition: queries *)
From Verif Require Import Base BaseLemmas ListZ ListMore Seq Graph_spec Tree_spec BFS_proof Tree_proof Tree_proof2 Tree_proof3 Tree_proof4 Tree_proof5 HLD_model HLD_proof HLD_proof2 HLD_proof3 HLD_proof4 HLD_spec.
From Coq Require Import Sorted Permutation.

Lemma ups_app par i j v a : climb par (Z.of_nat i) v a -> ups par (i + j) v = ups par i v ++ ups par j a.
Proof.
  revert v. induction i as [|i IH]; intros v C; cbn [Nat.add ups app].
  - apply climb_inv in C as [(_ & ->)|(X & _)]; [reflexivity|lia].
  - apply climb_inv in C as [(X & _)|(_ & N & C)]; [lia|]. f_equal. apply IH. replace (Z.of_nat i) with (Z.of_nat (Datatypes.S i) - 1) by lia. exact C.
Qed.
Lemma ups_appz par i j v a : 0 <= i -> 0 <= j -> climb par i v a -> ups par (Z.to_nat (i + j)) v = ups par (Z.to_nat i) v ++ ups par (Z.to_nat j) a.
Proof. intros. rewrite Z2Nat.inj_add by auto. apply ups_app. now rewrite Z2Nat.id. Qed.
Lemma for_each_app {X S} (l1 l2 : list X) (b : X -> S -> res S) s : for_each (l1 ++ l2) b s = let* s := for_each l1 b s in for_each l2 b s.
Proof. revert s. induction l1 as [|x l1 IH]; intros s; cbn; auto. destruct (b x s); cbn; auto. Qed.

Lemma perm4 {A} (z : A) c U m W : Permutation ((z :: c) ++ U ++ m ++ W) (U ++ m ++ c ++ [z] ++ W).
Proof.
  rewrite (app_assoc U m W), (app_assoc U m (c ++ [z] ++ W)), (app_assoc c [z] W). rewrite (app_assoc (z :: c)), (app_assoc (U ++ m)). apply Permutation_app_tail.
  rewrite Permutation_app_comm. apply Permutation_app_head. apply Permutation_cons_append.
Qed.

Lemma perm3 {A} (a m b : list A) : Permutation (a ++ m ++ b) (b ++ m ++ a).
Proof. rewrite Permutation_app_comm, (app_assoc b). apply Permutation_app_tail, Permutation_app_comm. Qed.

Section Q.
  Variables (g0 g : list (list Z)) (pf dep rt : Z -> Z) (h : hld).
  Hypothesis R : rooted g0 pf.
  Hypothesis D : dep_ok g0 pf dep rt.
  Hypothesis HF : hfacts g0 pf dep rt g h.
  Notation n := (zlen g0).
  Notation ga := (gv (-1)).
  Notation V := (ga (h_visit h)).
  Notation L := (ga (h_leave h)).
  Notation H := (ga (h_head h)).
  Notation O_ := (ga (h_ord h)).
  Notation vtx := (vertex g0).
  (* the number of chains on the way to the root *)
  Fixpoint hcf (f : nat) (v : Z) : Z := match f with O => 1 | S f => if pf v =? -1 then 1 else if H v =? v then hcf f (pf v) + 1 else hcf f (pf v) end.
  Definition hc (v : Z) : Z := hcf (Z.to_nat (dep v)) v.
  Lemma hc_eq v : vtx v -> hc v = if pf v =? -1 then 1 else if H v =? v then hc (pf v) + 1 else hc (pf v).
  Proof.
    intros Hv. unfold hc. destruct (Z.eqb_spec (pf v) (-1)) as [E|N].
    - rewrite (dep_root g0 pf dep rt D v Hv E). reflexivity.
    - pose proof (dep_par g0 pf dep rt D v Hv N) as E. pose proof (dep_nonneg g0 pf dep rt D (pf v) (par_vertex g0 pf R v Hv N)). rewrite E. replace (Z.to_nat (dep (pf v) + 1)) with (Datatypes.S (Z.to_nat (dep (pf v)))) by lia. cbn [hcf]. destruct (Z.eqb_spec (pf v) (-1)); [lia|]. reflexivity.
  Qed.
  Lemma sub_pos v s : vtx v -> subsize g0 pf v s -> 1 <= s.
  Proof. intros Hv (l & N & I & E). assert (X : In v l) by (apply I; split; auto; apply anc_refl). destruct l; [destruct X|]. rewrite zlen_cons in E. pose proof (size_nonneg l). lia. Qed.
  Lemma sub_le v a b : vtx v -> pf v <> -1 -> subsize g0 pf v a -> subsize g0 pf (pf v) b -> a < b.
  Proof.
    intros Hv N (l & N1 & I1 & E1) (m & N2 & I2 & E2). assert (Hp := par_vertex g0 pf R v Hv N).
    assert (X : (length (pf v :: l) <= length m)%nat).
    { apply NoDup_incl_length.
      - constructor; auto. intros I. apply I1 in I as (_ & A). apply (par_neq g0 pf dep rt D v Hv). apply (anc_antisym g0 pf dep rt R D); auto. now apply anc_par.
      - intros x [<-|I]; apply I2; [split; auto; apply anc_refl|]. apply I1 in I as (I & A). split; auto. apply (anc_trans pf _ v); auto. now apply anc_par. }
    cbn [length] in X. unfold zlen in *. lia.
  Qed.
  Lemma sub_n v a : subsize g0 pf v a -> a <= n.
  Proof.
    intros (l & N1 & I1 & E1). assert (X : (length l <= length (zrange n))%nat).
    { apply NoDup_incl_length; auto. intros x I. apply I1 in I as (I & _). now apply In_zrange. }
    pose proof (zlen_zrange n (size_nonneg g0)). unfold zlen in *. lia.
  Qed.
  Lemma light v a b : vtx v -> pf v <> -1 -> H v = v -> subsize g0 pf v a -> subsize g0 pf (pf v) b -> 2 * a < b.
  Proof.
    intros Hv N Eh Sa Sb. assert (Hp := par_vertex g0 pf R v Hv N). destruct (head_cases g0 g pf dep rt h HF v Hv) as [(_ & _ & E & Ev)|(Nf & _)].
    - exfalso. destruct (chain g0 g pf dep rt h R D HF (pf v) Hp) as (C1 & C2 & _). rewrite <- E, Eh in C2. lia.
    - destruct HF as (_ & _ & _ & _ & _ & _ & _ & _ & _ & _ & _ & _ & _ & F & _). destruct (F v (pf v) Hv Hp eq_refl) as (f & Ef & Hf & Pf & Mx).
      assert (Nfv : f <> v). { intros ->. apply Nf. split; auto. }
      destruct (block g0 g pf dep rt h HF f Hf) as (t & _ & _ & _ & _ & _ & _ & _ & Sf). specialize (Mx _ _ Sa Sf).
      set (c := zlen (nodes t)) in *. clearbody c. clear t F Ef.
      destruct Sa as (la & Na & Ia & Ea), Sb as (lb & Nb & Ib & Eb), Sf as (lf & Nf' & If & Ef).
      assert (X : (length (pf v :: la ++ lf) <= length lb)%nat).
      { apply NoDup_incl_length.
        - constructor.
          + rewrite in_app_iff. intros [I|I]; [apply Ia in I as (_ & A)|apply If in I as (_ & A)].
            * apply (par_neq g0 pf dep rt D v Hv). apply (anc_antisym g0 pf dep rt R D); auto. now apply anc_par.
            * apply (par_neq g0 pf dep rt D f Hf). apply (anc_antisym g0 pf dep rt R D); auto; rewrite Pf; auto. rewrite <- Pf. apply anc_par. now rewrite Pf.
          + apply ListMore.NoDup_app; auto. intros x I1 I2. apply Ia in I1 as (Hx & A1). apply If in I2 as (_ & A2).
            assert (dep v = dep f). { rewrite (dep_par g0 pf dep rt D v), (dep_par g0 pf dep rt D f), Pf; auto. now rewrite Pf. }
            apply Nfv. apply (anc_dep_eq g0 pf dep rt R D); auto. apply (anc_of_dep g0 pf dep rt R D f v x); auto. lia.
        - intros x [<-|I]; apply Ib; [split; auto; apply anc_refl|]. apply in_app_iff in I as [I|I]; [apply Ia in I as (I & A)|apply If in I as (I & A)].
          + split; auto. apply (anc_trans pf _ v); auto. now apply anc_par.
          + split; auto. apply (anc_trans pf _ f); auto. rewrite <- Pf. apply anc_par. now rewrite Pf. }
      cbn [length] in X. rewrite app_length in X. unfold zlen in *. lia.
  Qed.
  Lemma hc_bound v s : vtx v -> subsize g0 pf v s -> 1 <= hc v /\ 2 ^ (hc v - 1) * s <= n.
  Proof.
    intros Hv. revert s. pattern v. revert v Hv. apply (dep_ind g0 pf dep rt R D). intros v Hv IH s Sv. rewrite (hc_eq v Hv). destruct (Z.eqb_spec (pf v) (-1)) as [E|N].
    - split; [lia|]. pose proof (sub_n v s Sv). change (2 ^ (1 - 1)) with 1. lia.
    - assert (Hp := par_vertex g0 pf R v Hv N). destruct (block g0 g pf dep rt h HF (pf v) Hp) as (t & _ & _ & _ & _ & _ & _ & _ & Sp). destruct (IH N _ Sp) as (B1 & B2).
      destruct (Z.eqb_spec (H v) v) as [Eh|Nh].
      + split; [lia|]. pose proof (light v s _ Hv N Eh Sv Sp) as Lt. replace (hc (pf v) + 1 - 1) with (hc (pf v) - 1 + 1) by lia. rewrite Z.pow_add_r by lia. change (2 ^ 1) with 2. assert (0 < 2 ^ (hc (pf v) - 1)) by lia. nia.
      + split; [lia|]. pose proof (sub_le v s _ Hv N Sv Sp). assert (0 < 2 ^ (hc (pf v) - 1)) by lia. nia.
  Qed.
  Lemma hc_log v : vtx v -> 1 <= hc v <= Z.log2 n + 1.
  Proof.
    intros Hv. destruct (block g0 g pf dep rt h HF v Hv) as (t & _ & _ & _ & _ & _ & _ & _ & Sv). destruct (hc_bound v _ Hv Sv) as (B1 & B2). pose proof (sub_pos v _ Hv Sv). split; auto.
    assert (2 ^ (hc v - 1) <= n) by nia. assert (hc v - 1 <= Z.log2 n); [|lia]. apply Z.log2_le_pow2; lia.
  Qed.
  Lemma hc_head v : vtx v -> hc v = if pf (H v) =? -1 then 1 else hc (pf (H v)) + 1.
  Proof.
    intros Hv. assert (A : hc v = hc (H v)).
    { revert v Hv. apply (dep_ind g0 pf dep rt R D). intros v Hv IH. destruct (head_cases g0 g pf dep rt h HF v Hv) as [(N & _ & E & Ev)|(_ & E)]; [|now rewrite E].
      rewrite E, <- (IH N), (hc_eq v Hv). destruct (Z.eqb_spec (pf v) (-1)); [lia|]. destruct (Z.eqb_spec (H v) v) as [E'|_]; [|reflexivity].
      exfalso. destruct (chain g0 g pf dep rt h R D HF (pf v) (par_vertex g0 pf R v Hv N)) as (_ & C2 & _). rewrite <- E, E' in C2. lia. }
    destruct (chain g0 g pf dep rt h R D HF v Hv) as (C1 & C2 & C3 & _). rewrite A, (hc_eq (H v) C1), C3, Z.eqb_refl. reflexivity.
  Qed.

  (* the ranges that a walk between x and y goes through *)
  Definition upd_each {S} (upd : Z -> Z -> S -> res S) (p : Z * Z) (s : S) : res S := upd (fst p) (snd p) s.
  Definition fold_each {T} (op : T -> T -> T) (q : Z -> Z -> res T) (p : Z * Z) (r : T) : res T := let* x := q (fst p) (snd p) in Ok (op x r).
  Definition vis (p : Z * Z) : list Z := visited h (fst p) (snd p).
  Lemma to_nat_S k : 0 <= k -> Z.to_nat (k + 1) = Datatypes.S (Z.to_nat k). Proof. lia. Qed.
  Lemma walk (e : bool) fuel : forall x y a, vtx x -> vtx y -> is_lca pf x y a -> V x + V y < Z.of_nat fuel ->
    exists rs i j, climb pf i x a /\ climb pf j y a /\ zlen rs <= hc x + hc y - 1 /\
      (forall p, In p rs -> 0 <= fst p <= snd p /\ snd p <= n) /\
      Permutation (flat_map vis rs) (ups pf (Z.to_nat i) x ++ (if e then [] else [a]) ++ ups pf (Z.to_nat j) y) /\
      loop fuel (lca_body h) (x, y) = Ok a /\
      (forall S (upd : Z -> Z -> S -> res S) st, loop fuel (update_body h upd (Z.b2z e)) (x, y, st) = for_each rs (upd_each upd) st) /\
      (forall T (op : T -> T -> T) q r, loop fuel (fold_body h op q (Z.b2z e)) (x, y, r) = for_each rs (fold_each op q) r).
  Proof.
    induction fuel as [|fuel IH].
    { intros x y a Hx Hy _ B. pose proof (proj1 (V_range g0 g pf dep rt h HF x Hx)). pose proof (proj1 (V_range g0 g pf dep rt h HF y Hy)). lia. }
    (* after the swap *)
    assert (W : forall x y a, vtx x -> vtx y -> is_lca pf x y a -> V x + V y < Z.of_nat (Datatypes.S fuel) -> V x <= V y ->
      exists rs i j, climb pf i x a /\ climb pf j y a /\ zlen rs <= hc x + hc y - 1 /\
      (forall p, In p rs -> 0 <= fst p <= snd p /\ snd p <= n) /\
      Permutation (flat_map vis rs) (ups pf (Z.to_nat i) x ++ (if e then [] else [a]) ++ ups pf (Z.to_nat j) y) /\
      (if H x =? H y then Ok x else loop fuel (lca_body h) (x, pf (H y))) = Ok a /\
      (forall S (upd : Z -> Z -> S -> res S) st, (if H x =? H y then upd (V x + Z.b2z e) (V y + 1) st else let* st := upd (V (H y)) (V y + 1) st in loop fuel (update_body h upd (Z.b2z e)) (x, pf (H y), st)) = for_each rs (upd_each upd) st) /\
      (forall T (op : T -> T -> T) q r, (if H x =? H y then let* z := q (V x + Z.b2z e) (V y + 1) in Ok (op z r) else let* z := q (V (H y)) (V y + 1) in loop fuel (fold_body h op q (Z.b2z e)) (x, pf (H y), op z r)) = for_each rs (fold_each op q) r)).
    { intros x y a Hx Hy La B Le. pose proof (proj1 (V_range g0 g pf dep rt h HF x Hx)) as Rx. pose proof (proj1 (V_range g0 g pf dep rt h HF y Hy)) as Ry. destruct (Z.eqb_spec (H x) (H y)) as [E|N].
      - pose proof (same_chain g0 g pf dep rt h R D HF x y Hx Hy E Le) as C. assert (a = x). { apply (lca_unique g0 pf dep rt R D x y a x Hx La). apply lca_anc. now exists (V y - V x). } subst a.
        exists [(V x + Z.b2z e, V y + 1)], 0, (V y - V x). split; [constructor|]. split; [exact C|]. split; [pose proof (hc_log x Hx); pose proof (hc_log y Hy); rewrite zlen_one; lia|].
        split; [intros p [<-|[]]; cbn [fst snd]; destruct e; cbn [Z.b2z]; lia|]. split.
        + cbn [flat_map vis fst snd Z.to_nat ups app]. rewrite app_nil_r. unfold vis, visited. cbn [fst snd]. destruct (stretch g0 g pf dep rt h R D HF x y Hx Hy E Le) as (S1 & S2). destruct e; cbn [Z.b2z app].
          * rewrite S1. symmetry. apply Permutation_rev.
          * rewrite Z.add_0_r, S2. constructor. symmetry. apply Permutation_rev.
        + split; [reflexivity|]. split; intros; cbn [for_each]; unfold upd_each, fold_each; cbn [fst snd]; [now destruct (upd _ _ st)|now destruct (q _ _)].
      - destruct (lift_lca g0 g pf dep rt h R D HF x y a Hx Hy N Le La) as (Np & Hp & La' & Lt). destruct (IH x (pf (H y)) a Hx Hp La' ltac:(lia)) as (rs & i & j & Ci & Cj & Lr & Rr & P & E1 & E2 & E3).
        destruct (chain g0 g pf dep rt h R D HF y Hy) as (Hh & Lh & Eh & _).
        exists ((V (H y), V y + 1) :: rs), i, (V y - V (H y) + 1 + j). pose proof (head_climb g0 g pf dep rt h R D HF y Hy) as Ch. pose proof (climb_snoc pf _ _ _ Ch Np) as Ch'. pose proof (climb_nonneg pf _ _ _ Cj) as Nj.
        split; [exact Ci|]. split; [now apply (climb_trans pf _ _ (pf (H y)))|]. split.
        { rewrite zlen_cons. rewrite (hc_head y Hy). destruct (Z.eqb_spec (pf (H y)) (-1)); [lia|]. lia. }
        split; [intros p [<-|I]; [cbn [fst snd]; pose proof (proj1 (V_range g0 g pf dep rt h HF (H y) Hh)); lia|now apply Rr]|]. split.
        { cbn [flat_map]. rewrite P, (ups_appz pf _ j y (pf (H y))) by (auto; lia). unfold vis, visited. cbn [fst snd]. destruct (stretch g0 g pf dep rt h R D HF (H y) y Hh Hy Eh Lh) as (_ & ->).
          rewrite (ups_appz pf (V y - V (H y)) 1 y (H y)) by (auto; lia). cbn [Z.to_nat Pos.to_nat Pos.iter_op ups]. change (Z.to_nat 1) with 1%nat. cbn [ups].
          rewrite <- (Permutation_rev (ups pf (Z.to_nat (V y - V (H y))) y)). set (c := ups pf (Z.to_nat (V y - V (H y))) y). set (m := if e then [] else [a]).
          rewrite <- app_assoc. apply perm4. }
        split; [exact E1|]. split; intros; cbn [for_each].
        + unfold upd_each at 1; cbn [fst snd]. destruct (upd (V (H y)) (V y + 1) st) as [s'| | |]; cbn [bind]; auto.
        + unfold fold_each at 1; cbn [fst snd]. destruct (q (V (H y)) (V y + 1)) as [s'| | |]; cbn [bind]; auto. }
    intros x y a Hx Hy La B.
    pose proof (f_visit g0 g pf dep rt h HF) as Fv. pose proof (f_head g0 g pf dep rt h HF) as Fh. pose proof (f_par g0 g pf dep rt h HF) as Fp.
    assert (F : forall x y, vtx x -> vtx y -> V x <= V y -> 
       (let* hu := head_ h x in let* hv := head_ h y in if hu =? hv then Ok (inr x) else let* v := par_ h hv in Ok (inl (x, v))) = if H x =? H y then Ok (inr x) else Ok (inl (x, pf (H y)))).
    { clear -R D HF Fh Fp. intros x y Hx Hy Le. rewrite !Fh by auto. cbn [bind]. destruct (H x =? H y); auto. rewrite Fp; auto. now apply (chain g0 g pf dep rt h R D HF y Hy). }
    destruct (Z.ltb_spec (V y) (V x)) as [Lt|Ge].
    - destruct (W y x a Hy Hx (lca_sym pf _ _ _ La) ltac:(lia) ltac:(lia)) as (rs & i & j & Ci & Cj & Lr & Rr & P & E1 & E2 & E3). exists rs, j, i. split; auto. split; auto. split; [lia|]. split; auto. split.
      { rewrite P. apply perm3. }
      split; [|split].
      + cbn [loop]. unfold lca_body at 1. rewrite !Fv by auto. cbn [bind]. rewrite (proj2 (Z.ltb_lt _ _) Lt). rewrite F by (auto; lia). rewrite <- E1. destruct (H y =? H x); reflexivity.
      + intros S0 upd st. rewrite <- E2. cbn [loop]. unfold update_body at 1. rewrite !Fv by auto. cbn [bind]. rewrite (proj2 (Z.ltb_lt _ _) Lt). rewrite !Fh, !Fv by auto. cbn [bind]. destruct (H y =? H x).
        * now destruct (upd _ _ st).
        * assert (Hh : vtx (H x)) by now apply (chain g0 g pf dep rt h R D HF x Hx). rewrite Fv by auto. cbn [bind]. destruct (upd _ _ st); auto. cbn [bind]. rewrite Fp by auto. reflexivity.
      + intros T op q r. rewrite <- E3. cbn [loop]. unfold fold_body at 1. rewrite !Fv by auto. cbn [bind]. rewrite (proj2 (Z.ltb_lt _ _) Lt). rewrite !Fh, !Fv by auto. cbn [bind]. destruct (H y =? H x).
        * now destruct (q _ _).
        * assert (Hh : vtx (H x)) by now apply (chain g0 g pf dep rt h R D HF x Hx). rewrite Fv by auto. cbn [bind]. destruct (q _ _); auto. cbn [bind]. rewrite Fp by auto. reflexivity.
    - destruct (W x y a Hx Hy La ltac:(lia) ltac:(lia)) as (rs & i & j & Ci & Cj & Lr & Rr & P & E1 & E2 & E3). exists rs, i, j. repeat (split; [auto; fail|]). split; [|split].
      + cbn [loop]. unfold lca_body at 1. rewrite !Fv by auto. cbn [bind]. rewrite (proj2 (Z.ltb_ge _ _) Ge). rewrite F by (auto; lia). rewrite <- E1. destruct (H x =? H y); reflexivity.
      + intros S0 upd st. rewrite <- E2. cbn [loop]. unfold update_body at 1. rewrite !Fv by auto. cbn [bind]. rewrite (proj2 (Z.ltb_ge _ _) Ge). rewrite !Fh, !Fv by auto. cbn [bind]. destruct (H x =? H y).
        * now destruct (upd _ _ st).
        * assert (Hh : vtx (H y)) by now apply (chain g0 g pf dep rt h R D HF y Hy). rewrite Fv by auto. cbn [bind]. destruct (upd _ _ st); auto. cbn [bind]. rewrite Fp by auto. reflexivity.
      + intros T op q r. rewrite <- E3. cbn [loop]. unfold fold_body at 1. rewrite !Fv by auto. cbn [bind]. rewrite (proj2 (Z.ltb_ge _ _) Ge). rewrite !Fh, !Fv by auto. cbn [bind]. destruct (H x =? H y).
        * now destruct (q _ _).
        * assert (Hh : vtx (H y)) by now apply (chain g0 g pf dep rt h R D HF y Hy). rewrite Fv by auto. cbn [bind]. destruct (q _ _); auto. cbn [bind]. rewrite Fp by auto. reflexivity.
  Qed.
End Q.
