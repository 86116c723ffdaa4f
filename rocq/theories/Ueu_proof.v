(* Proofs about Ueu_model: degrees, the depth-first search. *)
From Verif Require Import Base BaseLemmas ListZ ListMore Seq Eul_spec Eul_proof Ueu_spec Ueu_model.
From Coq Require Import Permutation.

Definition dg (H : list (Z * Z)) (x : Z) : Z := od H x + id_ H x.
Lemma dg_nn H x : 0 <= dg H x.
Proof. unfold dg. pose proof (od_nn H x). pose proof (id_nn H x). lia. Qed.
Lemma dg_app H K x : dg (H ++ K) x = dg H x + dg K x.
Proof. unfold dg. rewrite od_app, id_app. lia. Qed.
Lemma dg_cons e H x : dg (e :: H) x = b2 x (fst e) + b2 x (snd e) + dg H x.
Proof. unfold dg. cbn [od id_ fold_right]. fold (od H x) (id_ H x). lia. Qed.
Lemma norm_eq a b c d : norm (a, b) = norm (c, d) -> (a = c /\ b = d) \/ (a = d /\ b = c).
Proof. unfold norm. cbn [fst snd]. intro E. injection E as E1 E2. lia. Qed.
Lemma norm_sym a b : norm (a, b) = norm (b, a).
Proof. unfold norm. cbn [fst snd]. rewrite Z.min_comm, Z.max_comm. auto. Qed.
Lemma dg_norm H x : dg (map norm H) x = dg H x.
Proof.
  induction H as [|(a, c) H IH]; [auto|]. cbn [map]. rewrite !dg_cons, IH. unfold norm. cbn [fst snd]. destruct (Z.min_spec a c) as [(? & ->)|(? & ->)], (Z.max_spec a c) as [(? & ->)|(? & ->)]; try lia.
Qed.
Lemma dg_perm H K x : Permutation (map norm H) (map norm K) -> dg H x = dg K x.
Proof. intro P. rewrite <- (dg_norm H), <- (dg_norm K). unfold dg. rewrite (od_perm _ _ x P), (id_perm _ _ x P). auto. Qed.
Lemma dg_In H x y : In (x, y) H -> 0 < dg H x /\ 0 < dg H y.
Proof.
  intro I. apply in_split in I. destruct I as (A & B & ->). rewrite !dg_app, !dg_cons. cbn [fst snd]. pose proof (dg_nn A x). pose proof (dg_nn A y). pose proof (dg_nn B x). pose proof (dg_nn B y). unfold b2. rewrite !Z.eqb_refl. destruct (x =? y), (y =? x); lia.
Qed.
(* neighbours, in insertion order *)
Definition nb1 (e : Z * Z) (x : Z) : list Z := (if fst e =? x then [snd e] else []) ++ (if snd e =? x then [fst e] else []).
Definition nb (H : list (Z * Z)) (x : Z) : list Z := flat_map (fun e => nb1 e x) H.
Lemma nb_app H K x : nb (H ++ K) x = nb H x ++ nb K x.
Proof. unfold nb. apply flat_map_app. Qed.
Lemma nb_dg H x : zlen (nb H x) = dg H x.
Proof.
  induction H as [|(a, c) H IH]; [reflexivity|]. cbn [nb flat_map]. fold (nb H x). rewrite zlen_app, IH, dg_cons. unfold nb1, b2. cbn [fst snd]. rewrite (Z.eqb_sym x a), (Z.eqb_sym x c). destruct (a =? x), (c =? x); reflexivity.
Qed.
Lemma nb_perm H K x : Permutation H K -> Permutation (nb H x) (nb K x).
Proof. intro P. unfold nb. apply Permutation_flat_map. auto. Qed.
Lemma In_nb H x y : In y (nb H x) -> exists e, In e H /\ norm e = norm (x, y).
Proof.
  unfold nb. rewrite in_flat_map. intros ((a, c) & I & J). unfold nb1 in J. cbn [fst snd] in J. exists (a, c). split; [auto|]. apply in_app_or in J. destruct J as [J|J].
  - destruct (Z.eqb_spec a x) as [->|]; [|destruct J]. destruct J as [->|[]]. auto.
  - destruct (Z.eqb_spec c x) as [->|]; [|destruct J]. destruct J as [->|[]]. apply norm_sym.
Qed.
Lemma nb1_norm e u v x : norm e = norm (u, v) -> Permutation (nb1 e x) (nb1 (u, v) x).
Proof. destruct e as (a, c). intro E. apply norm_eq in E. destruct E as [(-> & ->)|(-> & ->)]; [auto|]. unfold nb1. cbn [fst snd]. apply Permutation_app_comm. Qed.
Definition par (H : list (Z * Z)) (a b : Z) : Prop := forall x, Z.odd (dg H x) = xorb (x =? a) (x =? b).
Lemma walk_par w a b : walk a w b -> par (steps w) a b.
Proof.
  intros W x. pose proof (walk_bal w a b x W) as E. unfold dg. replace (od (steps w) x + id_ (steps w) x) with (b2 x a - b2 x b + 2 * id_ (steps w) x) by lia. rewrite Z.odd_add, Z.odd_mul. cbn [Z.odd andb]. unfold b2. destruct (x =? a), (x =? b); reflexivity.
Qed.
Lemma par_sub A B H a b c : Permutation (map norm (A ++ B)) (map norm H) -> par H a c -> par A b c -> par B a b.
Proof.
  intros P PH PA x. specialize (PH x). specialize (PA x). rewrite <- (dg_perm _ _ x P), dg_app, Z.odd_add, PA in PH. destruct (Z.odd (dg B x)), (x =? a), (x =? b), (x =? c); cbn in *; congruence.
Qed.

Section D.
  Variables (n : Z) (g iv : list (list Z)) (G IV : Z -> list Z). Hypothesis Hn : 0 <= n. Hypothesis RG : rep g n G. Hypothesis RV : rep iv n IV.
  Notation vx x := (0 <= x < n).
  (* the two ends of an edge know each other *)
  Definition paired : Prop := forall u i v, vx u -> vget (G u) i = Ok v -> vx v /\ exists j, vget (IV u) i = Ok j /\ vget (G v) j = Ok u /\ vget (IV v) j = Ok i /\ ~ (v = u /\ j = i).
  Hypothesis PA : paired.
  Record EInv (s : uc) (H : list (Z * Z)) (IT : Z -> Z) (US : Z -> list bool) : Prop := {
    i_it : rep (k_iter s) n IT;
    i_us : rep (k_used s) n US;
    i_ku : forall u, vx u -> zlen (US u) = zlen (G u) /\ Permutation (nb H u) (un (G u) (US u)) /\ 0 <= IT u /\ forall i, 0 <= i < IT u -> i < zlen (US u) -> vget (US u) i = Ok true;
    i_pr : forall u i v j, vx u -> vget (G u) i = Ok v -> vget (IV u) i = Ok j -> vget (US u) i = vget (US v) j
  }.
  Definition later (IT IT' : Z -> Z) (US US' : Z -> list bool) : Prop := forall x, vx x -> (IT' x = IT x \/ zlen (G x) <= IT' x) /\ forall i, vget (US x) i = Ok true -> vget (US' x) i = Ok true.
  Definition mu (H : list (Z * Z)) (IT : Z -> Z) : Z := zlen H + zs n (fun u => Z.max 0 (zlen (G u) - IT u)).
  Lemma mu_nn H IT : 0 <= mu H IT.
  Proof. unfold mu. pose proof (zlen_nonneg H). pose proof (zs_nn n (fun u => Z.max 0 (zlen (G u) - IT u)) ltac:(intro; lia)). lia. Qed.
  Lemma mu_it H IT u : vx u -> mu H (fupd IT u (IT u + 1)) = mu H IT - (if IT u <? zlen (G u) then 1 else 0).
  Proof.
    intro Hu. unfold mu. rewrite (zs_ext n _ (fupd (fun u => Z.max 0 (zlen (G u) - IT u)) u (Z.max 0 (zlen (G u) - (IT u + 1))))); [|intros x Hx; unfold fupd; destruct (Z.eqb_spec x u) as [->|]; auto]. rewrite zs_upd by auto. destruct (Z.ltb_spec (IT u) (zlen (G u))); lia.
  Qed.
  (* marking one dart *)
  Definition mark (US : Z -> list bool) u i : Z -> list bool := fupd US u (zupd (US u) i true).
  Lemma mark_len US u i x : zlen (mark US u i x) = zlen (US x).
  Proof. unfold mark, fupd. destruct (Z.eqb_spec x u) as [->|]; [apply zlen_zupd|auto]. Qed.
  Lemma mark_get US u i x k : 0 <= i < zlen (US u) -> 0 <= k < zlen (US x) -> vget (mark US u i x) k = if (x =? u) && (k =? i) then Ok true else vget (US x) k.
  Proof. intros Hi Hk. unfold mark, fupd. destruct (Z.eqb_spec x u) as [->|]; cbn [andb]; [|auto]. destruct (Z.eqb_spec k i) as [->|]; [apply vget_zupd_same; lia|apply vget_zupd_diff; lia]. Qed.
  Lemma mark_mono US u i x k : 0 <= i < zlen (US u) -> vget (US x) k = Ok true -> vget (mark US u i x) k = Ok true.
  Proof. intros Hi E. pose proof (vget_range _ _ _ E). rewrite mark_get by auto. destruct ((x =? u) && (k =? i)); auto. Qed.
  Lemma mark_un US u i v x : zlen (US u) = zlen (G u) -> vget (US u) i = Ok false -> vget (G u) i = Ok v -> Permutation (un (G x) (US x)) ((if u =? x then [v] else []) ++ un (G x) (mark US u i x)).
  Proof. intros L E1 E2. unfold mark, fupd. rewrite (Z.eqb_sym u x). destruct (Z.eqb_spec x u) as [->|]; [|reflexivity]. cbn [app]. apply un_take; auto. Qed.
  Lemma dfs_ok : forall fuel u t s H IT US, vx u -> EInv s H IT US -> par H u t -> mu H IT < Z.of_nat fuel ->
    exists s' H' IT' US' L, ue_dfs fuel g iv u s = Ok s' /\ k_res s' = k_res s ++ L /\ EInv s' H' IT' US' /\ mu H' IT' <= mu H IT /\ walk u (rev L) t /\ Permutation (map norm (steps (rev L) ++ H')) (map norm H) /\ (forall x, In x L -> dg H' x = 0) /\
      (zlen (G u) <= IT' u /\ later IT IT' US US').
  Proof.
    induction fuel as [|fuel IH]; intros u t s H IT US Hu EI BA F; [pose proof (mu_nn H IT); lia|].
    cbn [ue_dfs]. pose proof EI as [RI RU KU PR]. destruct (KU u Hu) as (K1 & K2 & K3 & K4).
    rewrite (rep_get _ _ _ u RI) by auto. cbn [bind]. rewrite (rep_get _ _ _ u RG) by auto. cbn [bind]. destruct (Z.ltb_spec (IT u) (zlen (G u))) as [L|L].
    - rewrite (rep_get _ _ _ u RU) by auto. cbn [bind]. destruct (vget_Ok (US u) (IT u)) as (x & X); [lia|]. rewrite X. cbn [bind].
      assert (NEXT : forall s1 H1 IT1 US1 t1 L1, EInv s1 H1 IT1 US1 -> par H1 u t1 -> (IT1 u < zlen (US1 u) -> vget (US1 u) (IT1 u) = Ok true) -> mu H1 (fupd IT1 u (IT1 u + 1)) < Z.of_nat fuel -> k_res s1 = k_res s ++ L1 ->
        exists s' H' IT' US' L, (let* i := vget (k_iter s1) u in let* it := vset (k_iter s1) u (i + 1) in ue_dfs fuel g iv u (mkUc (k_used s1) it (k_res s1))) = Ok s' /\ k_res s' = k_res s ++ L1 ++ L /\ EInv s' H' IT' US' /\ mu H' IT' <= mu H1 (fupd IT1 u (IT1 u + 1)) /\ walk u (rev L) t1 /\ Permutation (map norm (steps (rev L) ++ H')) (map norm H1) /\ (forall x, In x L -> dg H' x = 0) /\
          (zlen (G u) <= IT' u /\ later IT1 IT' US1 US')).
      { intros s1 H1 IT1 US1 t1 L1 [RI1 RU1 KU1 PR1] BA1 KT F1 ER. rewrite (rep_get _ _ _ u RI1) by auto. cbn [bind]. rewrite (rep_set _ _ _ u _ RI1) by auto. cbn [bind]. destruct (IH u t1 (mkUc (k_used s1) (zupd (k_iter s1) u (IT1 u + 1)) (k_res s1)) H1 (fupd IT1 u (IT1 u + 1)) US1 Hu) as (s' & H' & IT' & US' & L2 & A1 & A2 & A3 & A4 & A5 & A6 & A7 & A8 & A9); auto.
        - constructor; cbn [k_iter k_used]; auto; [apply rep_upd; auto|]. intros v Hv. destruct (KU1 v Hv) as (Q1 & Q2 & Q3 & Q4). split; [auto|]. split; [auto|]. unfold fupd. destruct (Z.eqb_spec v u) as [->|N]; [|auto]. split; [lia|]. intros i Hi Li. destruct (Z.eq_dec i (IT1 u)) as [->|Ni]; [auto|apply Q4; lia].
        - exists s', H', IT', US', L2. split; [auto|]. split; [rewrite A2; cbn [k_res]; rewrite ER, <- app_assoc; auto|]. split; [auto|]. split; [auto|]. split; [auto|]. split; [auto|]. split; [auto|]. split; [auto|]. intros x1 Hx1. destruct (A9 x1 Hx1) as (B1 & B2). split; [|auto]. destruct (Z.eq_dec x1 u) as [->|N]; [auto|]. rewrite fupd_diff in B1 by auto. auto. }
      destruct x.
      + cbn [bind]. destruct (NEXT s H IT US t [] EI BA) as (s' & H' & IT' & US' & L2 & A1 & A2 & A3 & A4 & A5 & A6 & A7 & A8); [auto| |rewrite app_nil_r; auto|].
        * rewrite mu_it by auto. destruct (Z.ltb_spec (IT u) (zlen (G u))); lia.
        * exists s', H', IT', US', L2. rewrite mu_it in A4 by auto. destruct (Z.ltb_spec (IT u) (zlen (G u))); [|lia]. split; [auto|]. split; [auto|]. split; [auto|]. split; [lia|]. auto.
      + destruct (vget_Ok (G u) (IT u)) as (v & V); [lia|]. rewrite V. cbn [bind]. rewrite (vset_ok (US u) (IT u) true) by lia. cbn [bind]. rewrite (rep_set _ _ _ u _ RU) by auto. cbn [bind].
        destruct (PA u (IT u) v Hu V) as (Hv & j & J1 & J2 & J3 & J4). rewrite (rep_get _ _ _ u RV) by auto. cbn [bind]. rewrite J1. cbn [bind]. pose proof (rep_upd _ _ _ u (zupd (US u) (IT u) true) RU Hu) as RU1. fold (mark US u (IT u)) in RU1. rewrite (rep_get _ _ _ v RU1) by auto. cbn [bind].
        destruct (KU v Hv) as (V1 & V2 & V3 & V4). pose proof (vget_range _ _ _ J2) as Rj. pose proof (PR u (IT u) v j Hu V J1) as XJ. rewrite X in XJ.
        assert (Y : vget (mark US u (IT u) v) j = Ok false). { rewrite mark_get by lia. destruct (Z.eqb_spec v u); cbn [andb]; [|auto]. destruct (Z.eqb_spec j (IT u)); [tauto|auto]. }
        rewrite Y. cbn [bind negb assert_]. rewrite (vset_ok (mark US u (IT u) v) j true) by (rewrite mark_len; lia). cbn [bind]. rewrite (rep_set _ _ _ v _ RU1) by auto. cbn [bind].
        set (US1 := mark US u (IT u)) in *. pose proof (rep_upd _ _ _ v (zupd (US1 v) j true) RU1 Hv) as RU2. fold (mark US1 v j) in RU2. set (US2 := mark US1 v j) in *.
        assert (UN : forall x, Permutation (un (G x) (US x)) (nb1 (u, v) x ++ un (G x) (US2 x))). { intro x. rewrite (mark_un US u (IT u) v x K1 X V). unfold nb1. cbn [fst snd]. rewrite <- app_assoc. apply Permutation_app_head. apply mark_un; auto. unfold US1. rewrite mark_len. auto. }
        destruct (In_nb H u v) as (e & IE & NE). { apply (Permutation_in _ (Permutation_sym K2)). apply (Permutation_in _ (Permutation_sym (UN u))). unfold nb1. cbn [fst snd]. rewrite Z.eqb_refl. left. auto. }
        apply in_split in IE. destruct IE as (Ha & Hb & EH). set (H1 := Ha ++ Hb). assert (PH : Permutation H (e :: H1)) by (rewrite EH; symmetry; apply Permutation_middle).
        assert (PN : Permutation (map norm H) (map norm ((u, v) :: H1))) by (rewrite PH; cbn [map]; rewrite NE; auto).
        assert (UM : forall x i, vget (US x) i = Ok true -> vget (US2 x) i = Ok true). { intros x i Q. apply mark_mono; [unfold US1; rewrite mark_len; lia|]. apply mark_mono; [lia|auto]. }
        assert (G2 : forall x i, 0 <= i < zlen (US x) -> vget (US2 x) i = if ((x =? u) && (i =? IT u)) || ((x =? v) && (i =? j)) then Ok true else vget (US x) i). { intros x i Hi. unfold US2. rewrite mark_get by (unfold US1; rewrite mark_len; lia). destruct ((x =? v) && (i =? j)); [rewrite orb_true_r; auto|]. rewrite orb_false_r. unfold US1. apply mark_get; lia. }
        assert (EI1 : EInv (mkUc (zupd (zupd (k_used s) u (zupd (US u) (IT u) true)) v (zupd (US1 v) j true)) (k_iter s) (k_res s)) H1 IT US2).
        { constructor; cbn [k_iter k_used]; auto.
          - intros x Hx. destruct (KU x Hx) as (Q1 & Q2 & Q3 & Q4). assert (ZL : zlen (US2 x) = zlen (US x)) by (unfold US2, US1; rewrite !mark_len; auto). split; [lia|]. split; [|split; [auto|intros i Hi Li; apply UM, Q4; lia]].
            apply (Permutation_app_inv_l (nb1 (u, v) x)). rewrite <- UN, <- Q2. rewrite (nb_perm _ _ x PH). cbn [nb flat_map]. fold (nb H1 x). apply Permutation_app_tail. symmetry. apply nb1_norm. auto.
          - intros x i y k Hx E1 E2. destruct (PA x i y Hx E1) as (Hy & k' & M1 & M2 & M3 & M4). assert (k' = k) by congruence. subst k'. pose proof (vget_range _ _ _ E1) as R1. pose proof (vget_range _ _ _ M2) as R2. destruct (KU x Hx) as (Q1 & _). destruct (KU y Hy) as (Q1' & _). rewrite !G2 by lia. rewrite (PR x i y k Hx E1 E2).
            replace (((x =? u) && (i =? IT u)) || ((x =? v) && (i =? j))) with (((y =? u) && (k =? IT u)) || ((y =? v) && (k =? j))); [auto|].
            assert (W : forall p q r s', (vget (G p) q = Ok r /\ vget (IV p) q = Ok s') -> forall p' q' r' s'', (vget (G p') q' = Ok r' /\ vget (IV p') q' = Ok s'') -> p = p' -> q = q' -> r = r' /\ s' = s'') by (intros p q r s' (X1 & X2) p' q' r' s'' (X3 & X4) -> ->; split; congruence).
            assert (EQ : forall a c, (((y =? a) && (k =? c)) || ((y =? v) && (k =? j))) = true <-> (y = a /\ k = c) \/ (y = v /\ k = j)) by (intros; rewrite orb_true_iff, !andb_true_iff, !Z.eqb_eq; tauto).
            apply Bool.eq_iff_eq_true. rewrite !orb_true_iff, !andb_true_iff, !Z.eqb_eq. split; intros [(-> & ->)|(-> & ->)].
            + right. apply (W u (IT u) x i (conj M2 M3) u (IT u) v j (conj V J1)); auto.
            + left. apply (W v j x i (conj M2 M3) v j u (IT u) (conj J2 J3)); auto.
            + right. apply (W u (IT u) y k (conj E1 E2) u (IT u) v j (conj V J1)); auto.
            + left. apply (W v j y k (conj E1 E2) v j u (IT u) (conj J2 J3)); auto. }
        assert (BA1 : par H1 v t). { intro x. specialize (BA x). rewrite (dg_perm _ _ x PN), dg_cons, Z.odd_add in BA. cbn [fst snd] in BA. unfold b2 in BA. destruct (Z.odd (dg H1 x)), (x =? u), (x =? v), (x =? t); cbn in *; congruence. }
        assert (M1 : mu H1 IT = mu H IT - 1). { unfold mu. apply Permutation_length in PH. cbn [length] in PH. unfold zlen at 1 3. lia. }
        destruct (IH v t _ H1 IT US2 Hv EI1 BA1 ltac:(lia)) as (s2 & H2 & IT2 & US3 & L1 & -> & C2 & C3 & C4 & C5 & C6 & C7 & C8 & C9). cbn [bind k_res] in *.
        assert (BA2 : par H2 u u). { intro x. pose proof (par_sub _ _ _ v v t C6 BA1 (walk_par _ _ _ C5) x) as Q. rewrite Q, !xorb_nilpotent. auto. }
        destruct (C9 u Hu) as (D1 & D2). pose proof (i_ku _ _ _ _ C3 u Hu) as (Q1 & _).
        destruct (NEXT s2 H2 IT2 US3 u L1 C3 BA2) as (s' & H' & IT' & US' & L2 & A1 & A2 & A3 & A4 & A5 & A6 & A7 & A8 & A9); [| |auto|].
        * intro LT. destruct D1 as [D1|D1]; [|lia]. rewrite D1. apply D2. rewrite G2 by lia. rewrite !Z.eqb_refl. auto.
        * rewrite mu_it by auto. destruct (IT2 u <? zlen (G u)); lia.
        * exists s', H', IT', US', (L1 ++ L2). rewrite mu_it in A4 by auto. split; [auto|]. split; [auto|]. split; [auto|]. split; [destruct (IT2 u <? zlen (G u)); lia|]. rewrite rev_app_distr. destruct (walk_app u (rev L2) u v (rev L1) t A5 C5) as (W1 & W2). split; [auto|]. split; [|split; [|split; [auto|]]].
          -- rewrite W2, PN. cbn [map]. rewrite map_app in *. cbn [map] in *. rewrite !map_app in *. cbn [map] in *. rewrite <- C6, <- A6. rewrite <- app_assoc. cbn [app]. rewrite <- Permutation_middle. constructor. rewrite !app_assoc. apply Permutation_app_tail, Permutation_app_comm.
          -- intros x I. apply in_app_or in I. destruct I as [I|I]; [|apply (A7 x I)]. specialize (C7 x I). rewrite <- (dg_perm _ _ x A6), dg_app in C7. pose proof (dg_nn H' x). pose proof (dg_nn (steps (rev L2)) x). lia.
          -- intros x Hx. destruct (C9 x Hx) as (E1 & E2). destruct (A9 x Hx) as (E3 & E4). split; [|auto]. destruct E3 as [E3|E3]; [rewrite E3; auto|auto].
    - exists (mkUc (k_used s) (k_iter s) (k_res s ++ [u])), H, IT, US, [u]. split; [auto|]. split; [auto|]. split; [constructor; cbn [k_iter k_used]; eauto|]. split; [lia|].
      assert (UE : dg H u = 0). { rewrite <- nb_dg. rewrite (Permutation_nil (l := nb H u)); [reflexivity|]. symmetry. rewrite K2, un_nil; auto. intros i Hi. apply K4; lia. }
      specialize (BA u). rewrite UE, Z.eqb_refl in BA. destruct (Z.eqb_spec u t) as [<-|N]; [|discriminate]. cbn [rev app steps]. split; [apply walk_one|]. split; [auto|]. split; [|split; [auto|intros x Hx; auto]]. intros x [<-|[]]. auto.
  Qed.
End D.
