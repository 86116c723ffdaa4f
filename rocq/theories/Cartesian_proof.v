(* CartesianTree *)
From Verif Require Import Base BaseLemmas ListZ ListMore BFS_proof Cartesian_model Cartesian_spec.

Ltac lq := repeat match goal with H : forall _ : Z, _ |- _ => clear H end; lia.

(* a strict weak order on the positions 0 .. n-1 *)
Section Order.
  Variables (n : Z) (b : Z -> Z -> bool).
  Definition lb (i l : Z) : Prop := 0 <= l <= i /\ (forall j, l <= j < i -> b i j = true) /\ (l = 0 \/ b i (l - 1) = false).
  Definition rb (m i r : Z) : Prop := i < r <= m /\ (forall j, i < j < r -> b j i = false) /\ (r = m \/ b r i = true).
  Definition pick (m l r : Z) : Z := if (l =? 0) && (r =? m) then -1 else if l =? 0 then r else if r =? m then l - 1 else if b r (l - 1) then l - 1 else r.
  Definition par_ok (m i p : Z) : Prop := exists l r, lb i l /\ rb m i r /\ p = pick m l r.
  Lemma lb_uniq i l l' : lb i l -> lb i l' -> l = l'.
  Proof.
    intros (A1 & A2 & A3) (B1 & B2 & B3). destruct (Z.lt_total l l') as [C|[C|C]]; auto; exfalso.
    - destruct B3 as [|B3]; [lia|]. rewrite A2 in B3 by lia. discriminate.
    - destruct A3 as [|A3]; [lia|]. rewrite B2 in A3 by lia. discriminate.
  Qed.
  Lemma rb_uniq m i l l' : rb m i l -> rb m i l' -> l = l'.
  Proof.
    intros (A1 & A2 & A3) (B1 & B2 & B3). destruct (Z.lt_total l l') as [C|[C|C]]; auto; exfalso.
    - destruct A3 as [|A3]; [lia|]. rewrite B2 in A3 by lia. discriminate.
    - destruct B3 as [|B3]; [lia|]. rewrite A2 in B3 by lia. discriminate.
  Qed.
  Lemma lb_ex i : 0 <= i -> exists l, lb i l.
  Proof.
    intros Hi. assert (G : forall k, 0 <= k <= i -> (forall j, k <= j < i -> b i j = true) -> exists l, lb i l).
    { intros k (Hk & Hk'). revert Hk'. pattern k. apply natlike_ind; auto; clear k Hk.
      - intros _ A. exists 0. split; [lia|split; auto].
      - intros k Hk IH Hk' A. destruct (b i k) eqn:E; [|exists (Z.succ k); split; [lia|split; auto]; right; now replace (Z.succ k - 1) with k by lia].
        apply IH; [lia|]. intros j Hj. destruct (Z.eq_dec j k) as [->|]; auto. apply A. lia. }
    apply (G i); [lia|lia].
  Qed.
  Lemma rb_ex m i : i < m -> exists r, rb m i r.
  Proof.
    intros Hi. assert (G : forall d, 0 <= d -> forall k, m - k = d -> i < k <= m -> (forall j, i < j < k -> b j i = false) -> exists r, rb m i r).
    { intros d Hd. pattern d. apply natlike_ind; auto; clear d Hd.
      - intros k Ek Hk A. exists m. split; [lia|split; [|auto]]. intros j Hj. apply A. lia.
      - intros d Hd IH k Ek Hk A. destruct (b k i) eqn:E; [exists k; split; [lia|split; auto]|]. apply (IH (k + 1)); [lia|lia|]. intros j Hj. destruct (Z.eq_dec j k) as [->|]; auto. apply A. lia. }
    apply (G (m - (i + 1)) ltac:(lia) (i + 1)); lia.
  Qed.
  Hypothesis Bc : forall i j k, 0 <= j < n -> b i k = true -> b i j = true \/ b j k = true.
  (* one more element *)
  Lemma grow i par l : 0 <= i < n -> (forall j, 0 <= j < i -> par_ok i j (par j)) ->
    forall p, lb i (p + 1) -> ((l = i /\ p = i - 1) \/ (p < l < i /\ lb l (p + 1) /\ rb i l i)) ->
    forall j, 0 <= j < i -> par_ok (i + 1) j (if j =? l then i else par j).
  Proof.
    intros Hi P p Lp Hl j Hj. destruct (P j Hj) as (lj & rj & Lj & Rj & Ej). destruct Rj as (R1 & R2 & R3).
    destruct (Z.eq_dec rj i) as [->|Nr].
    - (* on the stack *)
      destruct (b i j) eqn:Bij.
      + (* popped, or hidden *)
        assert (R : rb (i + 1) j i) by (split; [lia|split; auto]). exists lj, i. split; auto. split; auto.
        destruct Lp as (Lp1 & Lp2 & Lp3). assert (Jp : p < j).
        { destruct (Z_lt_le_dec p j); auto. exfalso. destruct (Z.eq_dec p j) as [->|]; [destruct Lp3 as [|Lp3]; [lia|]; replace (j + 1 - 1) with j in Lp3 by lia; congruence|].
          destruct Lp3 as [|Lp3]; [lia|]. replace (p + 1 - 1) with p in Lp3 by lia. destruct (Bc i p j) as [X|X]; [lia|auto|congruence|]. rewrite R2 in X by lia. discriminate. }
        destruct (Z.eqb_spec j l) as [->|Njl].
        * destruct Hl as [|(Hl & Ll & Rl)]; [lia|]. pose proof (lb_uniq _ _ _ Lj Ll) as ->. unfold pick. replace (i =? i + 1) with false by lia. rewrite andb_false_r. destruct (Z.eqb_spec (p + 1) 0); auto. destruct Lp3 as [|Lp3]; [lia|]. now rewrite Lp3.
        * rewrite Ej. destruct Hl as [|(Hl & Ll & Rl)].
          -- destruct H as (-> & ->). lia.
          -- destruct (Z_lt_le_dec j l) as [Jl|Jl].
             { exfalso. destruct Ll as (_ & Ll & _). specialize (Ll j ltac:(lia)). rewrite R2 in Ll by lia. discriminate. }
             assert (Lg : l < lj). { destruct (Z_lt_le_dec l lj); auto. exfalso. destruct Lj as (_ & Lj & _). specialize (Lj l ltac:(lia)). destruct Rl as (_ & Rl & _). rewrite Rl in Lj by lia. discriminate. }
             unfold pick. replace (i =? i + 1) with false by lia. rewrite Z.eqb_refl. replace (lj =? 0) with false by lia. cbn [andb]. destruct Lj as ((_ & Lj1) & _). now rewrite Lp2 by lia.
      + (* stays on the stack *)
        assert (R : rb (i + 1) j (i + 1)). { split; [lia|split; auto]. intros x Hx. destruct (Z.eq_dec x i) as [->|]; auto. apply R2. lia. }
        assert (Njl : j <> l). { intros ->. destruct Hl as [|(Hl & _)]; [lia|]. destruct Lp as (_ & Lp2 & _). rewrite Lp2 in Bij by lia. discriminate. }
        exists lj, (i + 1). split; auto. split; auto. rewrite (proj2 (Z.eqb_neq j l)) by auto. rewrite Ej. unfold pick. rewrite !Z.eqb_refl. now destruct (lj =? 0).
    - (* already finished *)
      destruct R3 as [|R3]; [lia|]. assert (R : rb (i + 1) j rj) by (split; [lia|split; auto]). exists lj, rj. split; auto. split; auto.
      assert (Njl : j <> l). { intros ->. destruct Hl as [|(Hl & _ & Rl)]; [lia|]. apply Nr. apply (rb_uniq i l); [split; [lia|split; [exact R2|right; exact R3]]|exact Rl]. }
      rewrite (proj2 (Z.eqb_neq j l)) by auto. rewrite Ej. unfold pick. rewrite (proj2 (Z.eqb_neq rj i)) by auto. rewrite (proj2 (Z.eqb_neq rj (i + 1))) by lia. reflexivity.
  Qed.
End Order.

Section CT.
  Context {T : Type}.
  Variable comp : T -> T -> bool.
  Hypothesis SW : strict_weak comp.
  Variable a : list T.
  Notation n := (zlen a).
  Definition cb (i j : Z) : bool := match vget a i, vget a j with Ok x, Ok y => comp x y | _, _ => false end.
  Lemma cb_before i j : cb i j = true <-> before comp a i j.
  Proof.
    unfold cb, before. split.
    - destruct (vget a i) as [x| | |]; try discriminate. destruct (vget a j) as [y| | |]; try discriminate. eauto.
    - intros (x & y & -> & -> & H). exact H.
  Qed.
  Lemma cb_irr i : cb i i = false. Proof. unfold cb. destruct (vget a i); auto. apply (sw_irrefl _ SW). Qed.
  Lemma cb_trans i j k : cb i j = true -> cb j k = true -> cb i k = true.
  Proof. rewrite !cb_before. intros (x & y & E1 & E2 & H1) (y' & z & E3 & E4 & H2). rewrite E2 in E3. injection E3 as <-. exists x, z. split; auto. split; auto. eapply (sw_trans _ SW); eauto. Qed.
  Lemma cb_cotrans i j k : 0 <= j < n -> cb i k = true -> cb i j = true \/ cb j k = true.
  Proof. intros Hj. destruct (vget_Ok a j Hj) as (y & Ey). rewrite !cb_before. intros (x & z & E1 & E2 & H1). destruct (sw_cotrans _ SW x y z H1) as [X|X]; [left; exists x, y|right; exists y, z]; auto. Qed.

  Notation par_ok := (par_ok cb).
  Lemma climb_ok i par : 0 <= i < n -> zlen par = n -> (forall j, 0 <= j < i -> par_ok i j (dv par j)) ->
    exists p l, ct_climb comp a par i = Ok (p, l) /\ -1 <= p < i /\ lb cb i (p + 1) /\ ((l = i /\ p = i - 1) \/ (p < l < i /\ lb cb l (p + 1) /\ rb cb i l i)).
  Proof.
    intros Hi Zp P. destruct (vget_Ok a i Hi) as (x & Ex).
    assert (G : exists r, ct_climb comp a par i = Ok r /\ (let '(p, l) := r in -1 <= p < i /\ lb cb i (p + 1) /\ ((l = i /\ p = i - 1) \/ (p < l < i /\ lb cb l (p + 1) /\ rb cb i l i)))).
    { apply (loop_inv (fun '(p, l) => -1 <= p < i /\ (forall j, p < j < i -> cb i j = true) /\ ((l = i /\ p = i - 1) \/ (p < l < i /\ lb cb l (p + 1) /\ rb cb i l i))) (fun '(p, l) => Z.to_nat (p + 1))).
      - split; [lia|]. split; [lia|]. left. lia.
      - unfold zlen in *. lia.
      - intros [p l] (Hp & A & Hl). destruct (Z.leb_spec 0 p) as [P0|P0]; cbn [negb].
        + rewrite Ex. cbn [bind]. destruct (vget_Ok a p) as (y & Ey); [lia|]. rewrite Ey. cbn [bind]. destruct (comp x y) eqn:C.
          * rewrite vget_dv by lia. cbn [bind]. eexists. split; [reflexivity|]. cbv beta iota.
            assert (Bip : cb i p = true) by (unfold cb; now rewrite Ex, Ey).
            assert (Rp : rb cb i p i).
            { split; [lia|]. split; auto. intros j Hj. destruct Hl as [(-> & ->)|(Hl & (_ & Ll & Lp) & (_ & Rl & _))]; [lia|].
              (* nothing after p comes before it *)
              destruct (cb j p) eqn:E; auto. exfalso. destruct (Z_lt_le_dec j l) as [Jl|Jl].
              - (* l comes before j, hence before p *) assert (X : cb l j = true) by (apply Ll; lia). destruct Lp as [|Lp]; [lia|]. replace (p + 1 - 1) with p in Lp by lia. pose proof (cb_trans _ _ _ X E). congruence.
              - destruct Lp as [|Lp]; [lia|]. replace (p + 1 - 1) with p in Lp by lia. destruct (Z.eq_dec j l) as [->|]; [congruence|]. destruct (cb_cotrans j l p) as [X|X]; [lia|auto| |congruence]. rewrite Rl in X by lia. discriminate. }
            destruct (P p ltac:(lia)) as (lp & rp & Lp & Rp' & Ep). pose proof (rb_uniq _ _ _ _ _ Rp' Rp) as ->. assert (Eq : dv par p = lp - 1) by (rewrite Ep; unfold pick; rewrite Z.eqb_refl, andb_true_r; destruct (Z.eqb_spec lp 0); lia).
            rewrite Eq. pose proof Lp as ((L1 & L2) & L3 & _). split; [|lia]. split; [lia|]. split.
            -- intros j Hj. destruct (Z_lt_le_dec p j); [apply A; lia|]. destruct (Z.eq_dec j p) as [->|]; auto. eapply cb_trans; eauto. apply L3. lia.
            -- right. split; [lia|]. split; [now replace (lp - 1 + 1) with lp by lia|auto].
          * eexists. split; [reflexivity|]. cbv beta iota. split; [lia|]. split; auto. split; [lia|]. split; [intros j Hj; apply A; lia|]. right. replace (p + 1 - 1) with p by lia. unfold cb. now rewrite Ex, Ey.
        + eexists. split; [reflexivity|]. cbv beta iota. split; [lia|]. split; auto. split; [lia|]. split; [intros j Hj; apply A; lia|]. left. lia. }
    destruct G as ([p l] & E & Q). exists p, l. split; auto.
  Qed.
  Lemma calc_ok : exists par, ct_calc_par comp a = Ok par /\ zlen par = n /\ forall i, 0 <= i < n -> par_ok n i (dv par i).
  Proof.
    unfold ct_calc_par. pose proof (zlen_nonneg a) as N0. destruct (Z.eq_dec n 0) as [E0|N].
    { rewrite E0. exists (vrep 0 (-1)). split; [reflexivity|]. split; [reflexivity|]. lia. }
    match goal with |- context [for_ 1 n ?b ?s0] => destruct (for_inv (fun i par => zlen par = n /\ forall j, 0 <= j < i -> par_ok i j (dv par j)) 1 n b s0) as (par & E & Z & P) end; [lia| | |exists par; auto].
    - split; [apply zlen_vrep; lia|]. intros j Hj. assert (j = 0) as -> by lia. rewrite dv_vrep by lia. exists 0, 1. split; [split; [lia|split; [lia|auto]]|]. split; [split; [lia|split; [lia|auto]]|reflexivity].
    - intros i par Hi (Zp & P). destruct (climb_ok i par ltac:(lia) Zp P) as (p & l & E & Hp & Lp & Hl). rewrite E. cbn [bind]. assert (Hl2 : 0 <= l <= i) by lia. rewrite vset_ok by lia. cbn [bind]. rewrite vset_ok by (rewrite zlen_zupd; lia). eexists. split; [reflexivity|]. split; [now rewrite !zlen_zupd|].
      intros j Hj. rewrite dv_zupd by (rewrite ?zlen_zupd; lia). rewrite dv_zupd by lia. destruct (Z.eqb_spec i j) as [<-|Nj].
      + exists (p + 1), (i + 1). split; auto. split; [split; [lia|split; [lia|auto]]|]. unfold pick. rewrite Z.eqb_refl, andb_true_r. destruct (Z.eqb_spec (p + 1) 0); lia.
      + rewrite (Z.eqb_sym l j). apply (grow n cb cb_cotrans i (dv par) l ltac:(lia) P p Lp Hl). lia.
  Qed.
  Lemma lb_rb_dom i l r : lb cb i l -> rb cb n i r -> dominates comp a i l r.
  Proof.
    intros (L1 & L2 & L3) (R1 & R2 & R3). split; auto. split; auto. split; [intros j Hj; apply cb_before; auto|]. split; [destruct L3 as [|L3]; auto; right; rewrite <- cb_before; congruence|].
    split; [intros j Hj; rewrite <- cb_before, R2 by auto; congruence|]. destruct R3 as [|R3]; auto. right. now apply cb_before.
  Qed.
  Lemma dom_lb_rb i l r : dominates comp a i l r -> lb cb i l /\ rb cb n i r.
  Proof.
    intros (L1 & R1 & L2 & L3 & R2 & R3). split.
    - split; auto. split; [intros j Hj; now apply cb_before, L2|]. destruct L3 as [|L3]; auto. right. destruct (cb i (l - 1)) eqn:E; auto. destruct L3. now apply cb_before.
    - split; auto. split; [|destruct R3 as [|R3]; auto; right; now apply cb_before]. intros j Hj. destruct (cb j i) eqn:E; auto. destruct (R2 j Hj). now apply cb_before.
  Qed.
  Lemma par_ok_parent i p : par_ok n i p -> parent_of comp a i p.
  Proof.
    intros (l & r & L & R & ->). exists l, r. split; [now apply lb_rb_dom|]. destruct L as (L1 & _), R as (R1 & _). unfold pick.
    destruct (Z.eqb_spec r n) as [?Er0|?Nr0], (Z.eqb_spec l 0) as [?El0|?Nl0]; cbn [andb]; try lia.
    destruct (cb r (l - 1)) eqn:E; [right; right; right; left|right; right; right; right]; (split; [lia|split; [lia|split; [|auto]]]).
    - now apply cb_before.
    - rewrite <- cb_before. congruence.
  Qed.

  (* the tree *)
  Variable par : list Z.
  Hypothesis Zp : zlen par = n.
  Hypothesis Pp : forall i, 0 <= i < n -> par_ok n i (dv par i).
  Definition gv (g : list (Z * Z)) (m : Z) : Z * Z := nth (Z.to_nat m) g (-1, -1).
  Lemma vget_gv g m : 0 <= m < zlen g -> vget g m = Ok (gv g m). Proof. apply vget_nth. Qed.
  Lemma gv_zupd g v x w : 0 <= v < zlen g -> 0 <= w < zlen g -> gv (zupd g v x) w = if v =? w then x else gv g w.
  Proof.
    intros Hv Hw. assert (E : vget (zupd g v x) w = Ok (gv (zupd g v x) w)) by (apply vget_gv; rewrite zlen_zupd; lia).
    rewrite vget_zupd in E by auto. destruct (v =? w); [congruence|]. rewrite vget_gv in E by auto. congruence.
  Qed.
  (* x is the last i < c with property Q, -1 if there is none *)
  Definition last (Q : Z -> Prop) (c x : Z) : Prop := (x = -1 /\ forall i, 0 <= i < c -> ~ Q i) \/ (0 <= x < c /\ Q x).
  Lemma last_step (Q : Z -> Prop) c x : 0 <= c -> last Q c x -> ~ Q c -> last Q (c + 1) x.
  Proof. intros Hc [(-> & A)|(A & B)] N; [left|right; split; [lia|auto]]. split; auto. intros i Hi. destruct (Z.eq_dec i c) as [->|]; auto. apply A. lia. Qed.
  Lemma last_new (Q : Z -> Prop) c : 0 <= c -> Q c -> last Q (c + 1) c. Proof. intros. right. split; [lia|auto]. Qed.
  Lemma build_ok : exists t, ct_build par = Ok t /\ zlen (ct_g t) = n /\ last (fun i => dv par i = -1) n (ct_root t) /\
    forall m, 0 <= m < n -> last (fun i => dv par i = m /\ i < m) n (fst (gv (ct_g t) m)) /\ last (fun i => dv par i = m /\ m <= i) n (snd (gv (ct_g t) m)).
  Proof.
    unfold ct_build. rewrite Zp. pose proof (zlen_nonneg a) as N0.
    match goal with |- context [for_ 0 n ?b ?s0] => destruct (for_inv (fun c s => zlen (fst s) = n /\ last (fun i => dv par i = -1) c (snd s) /\
      forall m, 0 <= m < n -> last (fun i => dv par i = m /\ i < m) c (fst (gv (fst s) m)) /\ last (fun i => dv par i = m /\ m <= i) c (snd (gv (fst s) m))) 0 n b s0) as ([g root] & E & Z & R & G) end; [lia| | |].
    - cbn [fst snd]. split; [apply zlen_vrep; lia|]. split; [left; split; [auto|lia]|]. intros m Hm. unfold gv, vrep. rewrite nth_repeat. cbn [fst snd]. split; left; (split; [auto|lia]).
    - intros i [g root] Hi (Zg & R & G). cbn [fst snd] in *. rewrite vget_dv by lia. cbn [bind]. destruct (Pp i Hi) as (l & r & L & Rr & E). set (p := dv par i) in *.
      assert (Pr : p = -1 \/ 0 <= p < n). { destruct L as (L1 & _), Rr as (R1 & _). rewrite E. unfold pick. destruct (Z.eqb_spec r n) as [?Er0|?Nr0], (Z.eqb_spec l 0) as [?El0|?Nl0]; cbn [andb]; auto; try lia. destruct (cb r (l - 1)); lia. }
      destruct (Z.leb_spec 0 p) as [P0|P0].
      + assert (Hpn : 0 <= p < n) by lia. rewrite vget_gv by lia. cbn [bind]. destruct (gv g p) as [x y] eqn:Eg. rewrite vset_ok by lia. cbn [bind]. eexists. split; [reflexivity|]. cbn [fst snd]. split; [now rewrite zlen_zupd|]. split; [apply last_step; [lia|auto|fold p; lia]|].
        intros m Hm. rewrite gv_zupd by lia. destruct (G m Hm) as (G1 & G2). destruct (Z.eqb_spec p m) as [Em|Nm].
        * rewrite <- Em in G1, G2 |- *. rewrite Eg in G1, G2. cbn [fst snd] in *. destruct (Z.leb_spec p i); cbn [fst snd]; split.
          -- apply last_step; [lia|auto|lia].
          -- apply last_new; [lia|]. split; [reflexivity|lia].
          -- apply last_new; [lia|]. split; [reflexivity|lia].
          -- apply last_step; [lia|auto|lia].
        * split; (apply last_step; [lia|auto|]); (intros (Q & _); fold p in Q; congruence).
      + assert (Em : p = -1) by lia. eexists. split; [reflexivity|]. cbn [fst snd]. split; auto. split; [apply last_new; [lia|exact Em]|]. intros m Hm. destruct (G m Hm) as (G1 & G2). split; (apply last_step; [lia|auto|]); (intros (Q & _); fold p in Q; lia).
    - rewrite E. cbn [bind]. exists (CT g root). split; auto.
  Qed.

  (* the leftmost minimum of an interval *)
  Lemma argmin l r : 0 <= l -> l < r <= n -> exists c, l <= c < r /\ (forall j, l <= j < c -> cb c j = true) /\ (forall j, c < j < r -> cb j c = false).
  Proof.
    intros Hl Hr. assert (G : forall d, 0 <= d -> l + d < n -> exists c, l <= c <= l + d /\ (forall j, l <= j < c -> cb c j = true) /\ (forall j, c < j <= l + d -> cb j c = false)).
    { intros d Hd. pattern d. apply natlike_ind; auto; clear d Hd.
      - intros _. exists l. split; [lia|]. split; intros j Hj; lia.
      - intros d Hd IH Hn. destruct IH as (c & Hc & A & B); [lia|]. destruct (cb (l + Z.succ d) c) eqn:E.
        + exists (l + Z.succ d). split; [lia|]. split; [|intros j Hj; lia]. intros j Hj. destruct (Z_lt_le_dec j c) as [|]; [eapply cb_trans; eauto; apply A; lia|]. destruct (Z.eq_dec j c) as [->|]; auto.
          destruct (cb_cotrans (l + Z.succ d) j c) as [X|X]; [lia|auto|auto|]. rewrite B in X by lia. discriminate.
        + exists c. split; [lia|]. split; auto. intros j Hj. destruct (Z.eq_dec j (l + Z.succ d)) as [->|]; auto. apply B. lia. }
    destruct (G (r - 1 - l)) as (c & Hc & A & B); [lia|lia|]. exists c. split; [lia|]. split; auto. intros j Hj. apply B. lia.
  Qed.
  Lemma argmin_uniq l r c c' : 0 <= l -> r <= n -> l <= c < r -> l <= c' < r -> (forall j, l <= j < c -> cb c j = true) -> (forall j, c < j < r -> cb j c = false) -> (forall j, l <= j < c' -> cb c' j = true) -> (forall j, c' < j < r -> cb j c' = false) -> c = c'.
  Proof.
    intros Hl Hr Hc Hc' A B A' B'. destruct (Z.lt_total c c') as [C|[C|C]]; auto; exfalso.
    - specialize (A' c ltac:(lia)). rewrite B in A' by lia. discriminate.
    - specialize (A c' ltac:(lia)). rewrite B' in A by lia. discriminate.
  Qed.
  (* the leftmost minimum of what an element bounds *)
  Lemma left_child m l r : lb cb m l -> rb cb n m r -> 0 <= m < n -> forall i, 0 <= i < n -> (dv par i = m /\ i < m <-> l <= i < m /\ (forall j, l <= j < i -> cb i j = true) /\ (forall j, i < j < m -> cb j i = false)).
  Proof.
    intros (L1 & L2 & L3) (R1 & R2 & R3) Hm i Hi. destruct (Pp i Hi) as (li & ri & (A1 & A2 & A3) & (B1 & B2 & B3) & E). split.
    - intros (Ep & Lt). rewrite E in Ep.
      assert (Er : ri = m /\ ri < n /\ (li = 0 \/ 0 < li /\ cb ri (li - 1) = false)).
      { unfold pick in Ep. destruct (Z.eqb_spec ri n) as [?Er0|?Nr0], (Z.eqb_spec li 0) as [?El0|?Nl0]; cbn [andb] in Ep; try lia. }
      destruct Er as (-> & Rn & Ec). destruct B3 as [|B3]; [lia|].
      assert (li = l) as ->.
      { apply (lb_uniq cb m); [|split; auto]. split; [lia|]. split; [|destruct Ec as [|(_ & Ec)]; auto]. intros j Hj. destruct (Z_lt_le_dec j i); [eapply cb_trans; eauto; apply A2; lia|]. destruct (Z.eq_dec j i) as [->|]; auto. destruct (cb_cotrans m j i) as [X|X]; [lia|auto|auto|]. rewrite B2 in X by lia. discriminate. }
      split; [lia|]. auto.
    - intros (Hl & A & B). split; [|lia]. assert (El : li = l).
      { apply (lb_uniq cb i); [split; auto|]. split; [lia|]. split; auto. destruct L3 as [|L3]; auto. right. destruct (cb i (l - 1)) eqn:X; auto. assert (Y : cb m i = true) by (apply L2; lia). pose proof (cb_trans _ _ _ Y X). congruence. }
      assert (Er : ri = m). { apply (rb_uniq cb n i); [split; auto|]. split; [lia|]. split; auto. }
      subst li ri. rewrite E. unfold pick. replace (m =? n) with false by lia. rewrite andb_false_r. destruct (Z.eqb_spec l 0) as [|N]; auto. destruct L3 as [|L3]; [lia|]. now rewrite L3.
  Qed.
  Lemma right_child m l r : lb cb m l -> rb cb n m r -> 0 <= m < n -> forall i, 0 <= i < n -> (dv par i = m /\ m <= i <-> m + 1 <= i < r /\ (forall j, m + 1 <= j < i -> cb i j = true) /\ (forall j, i < j < r -> cb j i = false)).
  Proof.
    intros (L1 & L2 & L3) (R1 & R2 & R3) Hm i Hi. destruct (Pp i Hi) as (li & ri & (A1 & A2 & A3) & (B1 & B2 & B3) & E). split.
    - intros (Ep & Le). rewrite E in Ep.
      assert (Er : li - 1 = m /\ (ri = n \/ ri < n /\ cb ri (li - 1) = true)).
      { unfold pick in Ep. destruct (Z.eqb_spec ri n) as [?Er0|?Nr0], (Z.eqb_spec li 0) as [?El0|?Nl0]; cbn [andb] in Ep; try lia. }
      destruct Er as (Em & Ec). destruct A3 as [|A3]; [lia|]. rewrite Em in *. assert (li = m + 1) as -> by lia.
      assert (ri = r) as ->.
      { apply (rb_uniq cb n m); [|split; auto]. split; [lia|]. split; [|destruct Ec as [|(_ & Ec)]; auto]. intros j Hj. destruct (Z_lt_le_dec i j).
        - destruct (cb j m) eqn:X; auto. destruct (cb_cotrans j i m) as [Y|Y]; [lia|auto| |congruence]. rewrite B2 in Y by lia. discriminate.
        - destruct (Z.eq_dec j i) as [->|]; auto. destruct (cb j m) eqn:X; auto. assert (Y : cb i j = true) by (apply A2; lia). pose proof (cb_trans _ _ _ Y X). congruence. }
      split; [lia|]. auto.
    - intros (Hr & A & B). split; [|lia]. assert (El : li = m + 1).
      { apply (lb_uniq cb i); [split; auto|]. split; [lia|]. split; auto. right. replace (m + 1 - 1) with m by lia. apply R2. lia. }
      assert (Er : ri = r). { apply (rb_uniq cb n i); [split; auto|]. split; [lia|]. split; auto. destruct R3 as [|R3]; auto. right. destruct (cb_cotrans r i m) as [X|X]; [lia|auto|auto|]. rewrite R2 in X by lia. discriminate. }
      subst li ri. rewrite E. unfold pick. replace (m + 1 =? 0) with false by lia. cbn [andb]. destruct (Z.eqb_spec r n); [lia|]. destruct R3 as [|R3]; [lia|]. replace (m + 1 - 1) with m by lia. now rewrite R3.
  Qed.
  Lemma root_is i : 0 <= i < n -> (dv par i = -1 <-> (forall j, 0 <= j < i -> cb i j = true) /\ (forall j, i < j < n -> cb j i = false)).
  Proof.
    intros Hi. destruct (Pp i Hi) as (li & ri & (A1 & A2 & A3) & (B1 & B2 & B3) & E). split.
    - intros Ep. rewrite E in Ep. assert (Q : li = 0 /\ ri = n). { unfold pick in Ep. destruct (Z.eqb_spec ri n) as [?Er0|?Nr0], (Z.eqb_spec li 0) as [?El0|?Nl0]; cbn [andb] in Ep; try lia; destruct (cb ri (li - 1)); lia. } destruct Q as (-> & ->). auto.
    - intros (A & B). assert (El : li = 0) by (apply (lb_uniq cb i); [split; auto|]; split; [lia|split; auto]). assert (Er : ri = n) by (apply (rb_uniq cb n i); [split; auto|]; split; [lia|split; auto]).
      subst li ri. rewrite E. unfold pick. now rewrite !Z.eqb_refl.
  Qed.
  (* c is the leftmost minimum of [l, r), or [l, r) is empty *)
  Definition least (l r c : Z) : Prop := (l = r /\ c = -1) \/ (l <= c < r /\ (forall j, l <= j < c -> cb c j = true) /\ (forall j, c < j < r -> cb j c = false)).
  Lemma last_least (Q : Z -> Prop) l r x : 0 <= l <= r -> r <= n -> (forall i, 0 <= i < n -> (Q i <-> l <= i < r /\ (forall j, l <= j < i -> cb i j = true) /\ (forall j, i < j < r -> cb j i = false))) -> last Q n x -> least l r x.
  Proof.
    intros Hl Hr Eq [(-> & A)|(Hx & A)].
    - left. split; auto. destruct (Z.eq_dec l r); auto. exfalso. destruct (argmin l r) as (c & Hc & C); [lia|lia|]. apply (A c); [lia|]. apply Eq; [lia|]. auto.
    - right. now apply Eq.
  Qed.
  Definition tree_ok (t : ctree) : Prop := zlen (ct_g t) = n /\ least 0 n (ct_root t) /\
    forall m l r, 0 <= m < n -> lb cb m l -> rb cb n m r -> least l m (fst (gv (ct_g t) m)) /\ least (m + 1) r (snd (gv (ct_g t) m)).
  Lemma build_tree : exists t, ct_build par = Ok t /\ tree_ok t.
  Proof.
    destruct build_ok as (t & E & Z & R & G). exists t. split; auto. split; auto. pose proof (zlen_nonneg a). split.
    - eapply (last_least _ 0 n); [lia|lia| |exact R]. intros i Hi. cbv beta. rewrite root_is by auto. split; [intros (A & B); split; auto|tauto].
    - intros m l r Hm L Rr. destruct (G m Hm) as (G1 & G2). pose proof L as (L1 & _). pose proof Rr as (R1 & _). split.
      + eapply last_least; [lia|lia| |exact G1]. intros i Hi. cbv beta. now apply (left_child m l r).
      + eapply last_least; [lia|lia| |exact G2]. intros i Hi. cbv beta. now apply (right_child m l r).
  Qed.
  (* the ranges of l, l+1, .., r-1 *)
  Definition ranges_ok (l r : Z) (out : list (Z * Z)) : Prop := zlen out = r - l /\ forall i, l <= i < r -> exists x y, vget out (i - l) = Ok (x, y) /\ lb cb i x /\ rb cb n i y.
  Definition bound (l r : Z) : Prop := (l = 0 \/ forall i, l <= i < r -> cb i (l - 1) = false) /\ (r = n \/ forall i, l <= i < r -> cb r i = true).
  Lemma rec_ok t : tree_ok t -> forall fuel l m r out, 0 <= l <= r -> r <= n -> r - l < Z.of_nat fuel -> bound l r -> least l r m ->
    exists o, ct_rec fuel t l m r out = Ok (out ++ o) /\ ranges_ok l r o.
  Proof.
    intros (Zg & _ & Ch). induction fuel as [|fuel IH]; intros l m r out Hl Hr Hf (B1 & B2) Le; [lia|]. cbn [ct_rec].
    destruct Le as [(-> & ->)|(Hm & A & B)].
    { rewrite Z.eqb_refl. exists []. split; [now rewrite app_nil_r|]. split; [change (zlen (@nil (Z * Z))) with 0; lia|]. intros i Hi; lia. }
    replace (m =? -1) with false by lia. rewrite vget_gv by lia. cbn [bind]. destruct (gv (ct_g t) m) as [lm rm] eqn:Eg.
    assert (Lm : lb cb m l) by (split; [lia|split; auto; destruct B1 as [|B1]; auto; right; apply B1; lia]).
    assert (Rm : rb cb n m r) by (split; [lia|split; auto; destruct B2 as [|B2]; auto; right; apply B2; lia]).
    destruct (Ch m l r ltac:(lia) Lm Rm) as (C1 & C2). rewrite Eg in C1, C2. cbn [fst snd] in *.
    destruct (IH l lm m out) as (o1 & E1 & Z1 & R1); [lia|lia|lia| |auto|].
    { split; [destruct B1 as [|B1]; auto; right; intros i Hi; apply B1; lia|]. right. intros i Hi. apply A. lia. }
    rewrite E1. cbn [bind]. destruct (IH (m + 1) rm r ((out ++ o1) ++ [(l, r)])) as (o2 & E2 & Z2 & R2); [lia|lia|lia| |auto|].
    { split; [right; intros i Hi; replace (m + 1 - 1) with m by lia; apply B; lia|]. destruct B2 as [|B2]; auto. right. intros i Hi. apply B2. lia. }
    rewrite E2. exists (o1 ++ [(l, r)] ++ o2). split; [now rewrite <- !app_assoc|]. split; [rewrite !zlen_app, zlen_one; lia|].
    intros i Hi. destruct (Z_lt_le_dec i m) as [|].
    - destruct (R1 i ltac:(lia)) as (x & y & E & X). exists x, y. split; auto. rewrite vget_app1 by lia. auto.
    - destruct (Z.eq_dec i m) as [->|].
      + exists l, r. split; [|auto]. cbn [app]. apply vget_mid. lia.
      + destruct (R2 i ltac:(lia)) as (x & y & E & X). exists x, y. split; auto. rewrite app_assoc, vget_app2 by (rewrite zlen_app, zlen_one; lia). rewrite <- E. f_equal. rewrite zlen_app, zlen_one. lia.
  Qed.
  Lemma ranges_full t : tree_ok t -> exists o, ct_ranges t = Ok o /\ ranges_ok 0 n o.
  Proof.
    intros Ok_t. pose proof Ok_t as (Zg & Lt & _). unfold ct_ranges. rewrite Zg. pose proof (zlen_nonneg a). destruct (rec_ok t Ok_t (length (ct_g t) + 1) 0 (ct_root t) n []) as (o & E & R); auto; [lia|lia|unfold zlen in *; lia|split; auto|].
    exists o. auto.
  Qed.
  Lemma least_spec l r c : least l r c -> least_of comp a l r c.
  Proof.
    intros [X|(H & A & B)]; [now left|right]. split; auto. split; [intros j Hj; apply cb_before; auto|]. intros j Hj. rewrite <- cb_before, B by auto. congruence.
  Qed.
End CT.
Lemma cartesian_full {T} (comp : T -> T -> bool) (a : list T) : strict_weak comp ->
  exists par t rs, ct_calc_par comp a = Ok par /\ ct_build par = Ok t /\ ct_ranges t = Ok rs /\
  zlen par = zlen a /\ zlen (ct_g t) = zlen a /\ zlen rs = zlen a /\ least_of comp a 0 (zlen a) (ct_root t) /\
  forall i, 0 <= i < zlen a -> exists p l r c d, ct_parent par i = Ok p /\ parent_of comp a i p /\
    vget rs i = Ok (l, r) /\ dominates comp a i l r /\ vget (ct_g t) i = Ok (c, d) /\ least_of comp a l i c /\ least_of comp a (i + 1) r d.
Proof.
  intros SW. destruct (calc_ok comp SW a) as (par & Ep & Zp & Pp). destruct (build_tree comp SW a par Zp Pp) as (t & Et & Tk). destruct (ranges_full comp a par Pp t Tk) as (rs & Er & Zr & Rr).
  exists par, t, rs. split; auto. split; auto. split; auto. split; auto. pose proof Tk as (Zg & Lt & Ch). split; auto. split; [lia|]. split; [now apply least_spec|].
  intros i Hi. destruct (Rr i Hi) as (l & r & Eg & L & R). rewrite Z.sub_0_r in Eg. destruct (Ch i l r Hi L R) as (C1 & C2). exists (dv par i), l, r, (fst (gv (ct_g t) i)), (snd (gv (ct_g t) i)).
  split; [unfold ct_parent; replace (i <? zlen par) with true by lia; cbn [assert_ bind]; apply vget_dv; lia|]. split; [now apply par_ok_parent, Pp|]. split; auto. split; [now apply lb_rb_dom|].
  split; [rewrite vget_gv by lia; now destruct (gv (ct_g t) i)|]. split; now apply least_spec.
Qed.
