(* Proofs about Ueu_model: circuits and trails. *)
From Verif Require Import Base BaseLemmas ListZ ListMore Seq Eul_spec Eul_proof Eul_proof2 Ueu_spec Ueu_model Ueu_proof.
From Coq Require Import Permutation.

Record UI (n : Z) (E : list (Z * Z)) (e : ueu) (IV : Z -> list Z) : Prop := { q_n : u_n e = n; q_g : rep (u_g e) n (nb E); q_iv : rep (u_inv e) n IV; q_pa : paired n (nb E) IV; q_len : forall x, 0 <= x < n -> zlen (IV x) = zlen (nb E x); q_ok : eok n E }.

Lemma nb_snoc E u v x : nb (E ++ [(u, v)]) x = nb E x ++ nb1 (u, v) x.
Proof. rewrite nb_app. cbn [nb flat_map]. rewrite app_nil_r. auto. Qed.
Lemma new_ui n : 0 <= n -> UI n [] (ueu_new n) (fun _ => []).
Proof. intro Hn. constructor; cbn [ueu_new u_n u_g u_inv]; auto; [apply rep_vrep; auto|apply rep_vrep; auto| |intros x y []]. intros u i v _ X. cbn [nb flat_map] in X. apply vget_range in X. change (zlen (@nil Z)) with 0 in X. lia. Qed.
Lemma vpush_ok v n g i x : rep v n g -> 0 <= i < n -> exists v', vpush v i x = Ok v' /\ rep v' n (fupd g i (g i ++ [x])).
Proof. intros R Hi. unfold vpush. rewrite (rep_get _ _ _ i R) by auto. cbn [bind]. rewrite (rep_set _ _ _ i _ R) by auto. eexists. split; [reflexivity|]. apply rep_upd; auto. Qed.
Lemma vpop_ok v n g i a x : rep v n g -> 0 <= i < n -> g i = a ++ [x] -> exists v', vpop v i = Ok v' /\ rep v' n (fupd g i a).
Proof.
  intros R Hi E. unfold vpop. rewrite (rep_get _ _ _ i R) by auto. cbn [bind]. rewrite E, removelast_last. destruct (a ++ [x]) eqn:Q; [destruct a; discriminate|]. rewrite (rep_set _ _ _ i _ R) by auto. eexists. split; [reflexivity|]. apply rep_upd; auto.
Qed.
(* the positions recorded by add_edge(u, v) *)
Definition addiv (E : list (Z * Z)) (IV : Z -> list Z) u v : Z -> list Z := fun x => IV x ++ (if u =? x then [zlen (nb E v) + (if u =? v then 1 else 0)] else []) ++ (if v =? x then [zlen (nb E u)] else []).
Lemma vget_app_cases {A} (a b : list A) i x : vget (a ++ b) i = Ok x -> (0 <= i < zlen a /\ vget a i = Ok x) \/ (zlen a <= i /\ vget b (i - zlen a) = Ok x).
Proof. intro E. pose proof (vget_range _ _ _ E) as R. destruct (Z_lt_ge_dec i (zlen a)); [left; rewrite vget_app1 in E by lia; split; [lia|auto]|right; rewrite vget_app2 in E by lia; split; [lia|auto]]. Qed.
Lemma add_ui n E e IV u v : UI n E e IV -> 0 <= u < n -> 0 <= v < n -> exists e', ueu_add e u v = Ok e' /\ UI n (E ++ [(u, v)]) e' (addiv E IV u v).
Proof.
  intros [A1 A2 A3 A4 A5 A6] Hu Hv. unfold ueu_add. rewrite (rep_get _ _ _ u A2) by auto. cbn [bind]. cbv zeta. destruct (vpush_ok _ _ _ u v A2 Hu) as (g1 & -> & B1). cbn [bind]. rewrite (rep_get _ _ _ v B1) by auto. cbn [bind]. destruct (vpush_ok _ _ _ v u B1 Hv) as (g2 & -> & B2). cbn [bind].
  assert (SV : zlen (fupd (nb E) u (nb E u ++ [v]) v) = zlen (nb E v) + (if u =? v then 1 else 0)). { unfold fupd. rewrite (Z.eqb_sym v u). destruct (Z.eqb_spec u v) as [->|]; [rewrite zlen_app; reflexivity|lia]. }
  rewrite SV. destruct (vpush_ok _ _ _ u (zlen (nb E v) + (if u =? v then 1 else 0)) A3 Hu) as (i1 & -> & B3). cbn [bind]. destruct (vpush_ok _ _ _ v (zlen (nb E u)) B3 Hv) as (i2 & -> & B4). cbn [bind]. eexists. split; [reflexivity|].
  constructor; cbn [u_n u_g u_inv]; auto.
  - apply (rep_ext _ _ _ _ B2). intros x Hx. rewrite nb_snoc. unfold nb1. cbn [fst snd]. unfold fupd. rewrite (Z.eqb_sym u x), (Z.eqb_sym v x). destruct (Z.eqb_spec x v) as [->|Nv]; destruct (Z.eqb_spec v u) as [->|Nu]; try (destruct (Z.eqb_spec x u) as [->|]); rewrite ?Z.eqb_refl, <- ?app_assoc, ?app_nil_r; auto; try congruence. 
  - apply (rep_ext _ _ _ _ B4). intros x Hx. unfold addiv, fupd. rewrite (Z.eqb_sym u x), (Z.eqb_sym v x). destruct (Z.eqb_spec x v) as [->|Nv]; destruct (Z.eqb_spec v u) as [->|Nu]; try (destruct (Z.eqb_spec x u) as [->|]); rewrite ?Z.eqb_refl, <- ?app_assoc, ?app_nil_r; auto; try congruence.
  - (* pairing *)
    set (k := if u =? v then 1 else 0) in *.
    assert (OLD : forall x i, 0 <= x < n -> 0 <= i < zlen (nb E x) -> vget (nb (E ++ [(u, v)]) x) i = vget (nb E x) i /\ vget (addiv E IV u v x) i = vget (IV x) i). { intros x i Hx Hi. rewrite nb_snoc. unfold addiv. rewrite !vget_app1 by (try (rewrite A5 by auto); lia). auto. }
    assert (A5u : zlen (IV u) = zlen (nb E u)) by auto. assert (A5v : zlen (IV v) = zlen (nb E v)) by auto. assert (Hk : 0 <= k) by (unfold k; destruct (u =? v); lia).
    assert (NU : vget (nb (E ++ [(u, v)]) u) (zlen (nb E u)) = Ok v /\ vget (addiv E IV u v u) (zlen (nb E u)) = Ok (zlen (nb E v) + k)). { rewrite nb_snoc. unfold nb1, addiv. cbn [fst snd]. rewrite Z.eqb_refl. rewrite (vget_app2 (nb E u)), (vget_app2 (IV u)) by lia. rewrite A5u, Z.sub_diag. auto. }
    assert (NV : vget (nb (E ++ [(u, v)]) v) (zlen (nb E v) + k) = Ok u /\ vget (addiv E IV u v v) (zlen (nb E v) + k) = Ok (zlen (nb E u))).
    { rewrite nb_snoc. unfold nb1, addiv. cbn [fst snd]. rewrite Z.eqb_refl. rewrite (vget_app2 (nb E v)), (vget_app2 (IV v)) by lia. rewrite A5v. replace (zlen (nb E v) + k - zlen (nb E v)) with k by lia. unfold k. destruct (u =? v); auto. }
    intros x i y Hx X. rewrite nb_snoc in X. apply vget_app_cases in X. destruct X as [(R & X)|(R & X)].
    + destruct (A4 x i y Hx X) as (Hy & j & J1 & J2 & J3 & J4). split; [auto|]. exists j. pose proof (vget_range _ _ _ J2). destruct (OLD x i Hx R) as (_ & ->). destruct (OLD y j Hy ltac:(auto)) as (-> & ->). auto.
    + unfold nb1 in X. cbn [fst snd] in X. pose proof (vget_range _ _ _ X) as R1.
      assert (C : (x = u /\ i = zlen (nb E u) /\ y = v) \/ (x = v /\ i = zlen (nb E v) + k /\ y = u)).
      { unfold k. destruct (Z.eqb_spec u x) as [->|N1]; [destruct (Z.eqb_spec v x) as [->|N2]|destruct (Z.eqb_spec v x) as [->|N2]]; cbn [app] in *; rewrite ?zlen_cons in R1; change (zlen (@nil Z)) with 0 in R1.
        - rewrite Z.eqb_refl. assert (i - zlen (nb E x) = 0 \/ i - zlen (nb E x) = 1) as [Q|Q] by lia; rewrite Q in X; injection X as <-; [left|right]; repeat split; lia.
        - assert (Q : i - zlen (nb E x) = 0) by lia. rewrite Q in X. injection X as <-. left. repeat split; lia.
        - assert (Q : i - zlen (nb E x) = 0) by lia. rewrite Q in X. injection X as <-. right. destruct (Z.eqb_spec u x); [congruence|]. repeat split; lia.
        - lia. }
      destruct C as [(-> & -> & ->)|(-> & -> & ->)].
      * split; [auto|]. exists (zlen (nb E v) + k). destruct NU as (_ & ->). destruct NV as (-> & ->). repeat split; auto. unfold k. intros (-> & Q). rewrite Z.eqb_refl in Q. lia.
      * split; [auto|]. exists (zlen (nb E u)). destruct NV as (_ & ->). destruct NU as (-> & ->). repeat split; auto. unfold k. intros (-> & Q). rewrite Z.eqb_refl in Q. lia.
  - intros x Hx. rewrite nb_snoc. unfold addiv, nb1. cbn [fst snd]. rewrite !zlen_app, A5 by auto. destruct (u =? x), (v =? x); reflexivity.
  - intros x y I. apply in_app_or in I. destruct I as [I|[I|[]]]; [auto|]. injection I as <- <-. auto.
Qed.
Lemma build_ui n E : 0 <= n -> eok n E -> exists e IV, ueu_build n E = Ok e /\ UI n E e IV.
Proof.
  intros Hn EO. unfold ueu_build. destruct (for_each_inv (fun done e => exists IV, UI n done e IV) E (fun p e => ueu_add e (fst p) (snd p)) (ueu_new n)) as (e & X & IV & I).
  - eexists. apply new_ui; auto.
  - intros done (u, v) todo e Eq (IV & I). destruct (EO u v) as (Hu & Hv); [rewrite Eq; apply in_or_app; right; left; auto|]. destruct (add_ui n done e IV u v I Hu Hv) as (e' & X & Y). eauto.
  - eauto.
Qed.
Lemma dg_out n E x : eok n E -> ~ (0 <= x < n) -> dg E x = 0.
Proof. intros EO N. unfold dg. destruct (od_out n E x EO N) as (-> & ->). auto. Qed.
Lemma zs_add n f h : zs n (fun x => f x + h x) = zs n f + zs n h.
Proof. unfold zs. induction (zrange n) as [|x l IH]; cbn [fold_right]; lia. Qed.
Lemma id_swap E x : id_ E x = od (map (fun e => (snd e, fst e)) E) x.
Proof. induction E as [|e E IH]; [auto|]. cbn [map id_ od fold_right fst]. fold (id_ E x). rewrite IH. auto. Qed.
Lemma zs_dg n E : 0 <= n -> eok n E -> zs n (dg E) = 2 * zlen E.
Proof.
  intros Hn EO. unfold dg. rewrite zs_add, zs_len by auto. rewrite (zs_ext n (id_ E) (od (map (fun e => (snd e, fst e)) E))) by (intros; apply id_swap). rewrite zs_len; [rewrite zlen_map; lia|auto|]. intros x y I. apply in_map_iff in I. destruct I as ((a, c) & Q & I). injection Q as <- <-. cbn [fst snd]. destruct (EO a c I). auto.
Qed.
Lemma scan_ok n E e IV : 0 <= n -> UI n E e IV -> exists r, ue_scan e = Ok r /\
  match r with
  | Some (used, k) => k = 2 * zlen E /\ rep used n (fun u => vrep (zlen (nb E u)) false) /\ forall x, Z.odd (dg E x) = false
  | None => exists x, Z.odd (dg E x) = true
  end.
Proof.
  intros Hn [A1 A2 A3 A4 A5 A6]. unfold ue_scan. rewrite A1.
  match goal with |- context [for_ 0 n ?bd ?s0] => destruct (for_inv (fun i st => match st with Some (used, k) => k = zs i (dg E) /\ rep used n (fun u => if u <? i then vrep (zlen (nb E u)) false else []) /\ forall x, 0 <= x < i -> Z.odd (dg E x) = false | None => exists x, Z.odd (dg E x) = true end) 0 n bd s0) as (r & -> & K) end; [auto| | |].
  - split; [reflexivity|]. split; [|intros; lia]. apply (rep_ext _ _ (fun _ => [])); [apply rep_vrep; auto|]. intros u Hu. destruct (Z.ltb_spec u 0); [lia|auto].
  - intros i [(used, k)|] Hi K; [|eauto]. destruct K as (K1 & K2 & K3). rewrite (rep_get _ _ _ i A2) by auto. cbn [bind]. rewrite (rep_set _ _ _ i _ K2) by auto. cbn [bind]. rewrite nb_dg. destruct (Z.odd (dg E i)) eqn:Q; [eexists; split; [reflexivity|]; exists i; exact Q|]. eexists. split; [reflexivity|]. cbv beta iota. split; [rewrite zs_snoc by lia; lia|]. split.
    + apply (rep_ext _ _ _ _ (rep_upd _ _ _ i _ K2 Hi)). intros u Hu. unfold fupd. destruct (Z.eqb_spec u i) as [->|N]; [rewrite nb_dg; destruct (Z.ltb_spec i (i + 1)); [auto|lia]|]. destruct (Z.ltb_spec u i), (Z.ltb_spec u (i + 1)); auto; lia.
    + intros x Hx. destruct (Z.eq_dec x i) as [->|]; [congruence|apply K3; lia].
  - exists r. split; [auto|]. destruct r as [(used, k)|]; [|auto]. destruct K as (K1 & K2 & K3). split; [rewrite K1; apply zs_dg; auto|]. split.
    + apply (rep_ext _ _ _ _ K2). intros u Hu. destruct (Z.ltb_spec u n); [auto|lia].
    + intro x. destruct (Z_lt_ge_dec x 0), (Z_lt_ge_dec x n); try (apply K3; lia); rewrite (dg_out n E x A6 ltac:(lia)); auto.
Qed.
Lemma nsteps_rev w : Permutation (map norm (steps (rev w))) (map norm (steps w)).
Proof.
  induction w as [|a w IH]; [auto|]. destruct w as [|b w]; [auto|]. cbn [rev] in *. rewrite <- app_assoc. cbn [app]. rewrite steps_app, map_app. cbn [map steps]. rewrite IH. rewrite norm_sym. symmetry. apply Permutation_cons_append.
Qed.
Lemma walk_rev a w b : walk a w b -> walk b (rev w) a.
Proof. intros ((r & E1) & q & E2). split; [exists (rev q); rewrite E2, rev_app_distr; auto|exists (rev r); rewrite E1; auto]. Qed.
Lemma In_norm A B x y : Permutation (map norm A) (map norm B) -> In (x, y) A -> exists p q, In (p, q) B /\ ((p = x /\ q = y) \/ (p = y /\ q = x)).
Proof.
  intros P I. assert (J : In (norm (x, y)) (map norm B)) by (apply (Permutation_in _ P), in_map; auto). apply in_map_iff in J. destruct J as ((p, q) & Q & J). exists p, q. split; [auto|]. apply norm_eq in Q. tauto.
Qed.
Lemma circ_core n E e IV used s : 0 <= n -> UI n E e IV -> 0 <= s < n -> rep used n (fun u => vrep (zlen (nb E u)) false) -> (forall x, Z.odd (dg E x) = false) ->
  exists st, ue_dfs (Z.to_nat (3 * zlen E + 1)) (u_g e) (u_inv e) s (mkUc used (vrep n 0) []) = Ok st /\
    if zlen (k_res st) =? zlen E + 1 then is_utrail E s (k_res st) s else (exists x y, In (x, y) E) /\ forall a w, is_utrail E a w a -> ~ In s w.
Proof.
  intros Hn [A1 A2 A3 A4 A5 A6] Hs RU BL.
  destruct (dfs_ok n (u_g e) (u_inv e) (nb E) IV A2 A3 A4 (Z.to_nat (3 * zlen E + 1)) s s (mkUc used (vrep n 0) []) E (fun _ => 0) (fun u => vrep (zlen (nb E u)) false) Hs) as (st & H' & IT' & US' & L & -> & B2 & B3 & B4 & B5 & B6 & B7 & _).
  { constructor; cbn [k_iter k_used]; auto; [apply rep_vrep; auto| |].
    - intros u Hu. split; [rewrite zlen_vrep by apply zlen_nonneg; auto|]. split; [rewrite un_all; auto|]. split; [lia|]. intros; lia.
    - intros u i v j Hu E1 E2. destruct (A4 u i v Hu E1) as (Hv & j' & J1 & J2 & _). assert (j' = j) by congruence. subst j'. apply vget_range in E1. apply vget_range in J2. rewrite !vget_vrep by lia. auto. }
  { intro x. rewrite BL, xorb_nilpotent. auto. }
  { unfold mu. rewrite (zs_ext n _ (dg E)); [rewrite zs_dg by auto; lia|]. intros x Hx. rewrite Z.sub_0_r, nb_dg. pose proof (dg_nn E x). lia. }
  exists st. split; [auto|]. cbn [k_res app] in B2. rewrite B2. pose proof (Permutation_length B6) as PL. rewrite !map_length, app_length in PL. pose proof (zlen_steps _ _ _ B5) as ZS. unfold zlen in ZS at 1. rewrite rev_length in ZS. destruct (Z.eqb_spec (zlen L) (zlen E + 1)) as [Q|Q].
  - assert (H' = []) as -> by (destruct H'; [auto|cbn [length] in PL; unfold zlen in *; lia]). rewrite app_nil_r in B6. split; [rewrite <- (rev_involutive L); apply walk_rev; auto|]. rewrite <- (nsteps_rev L). auto.
  - assert (NE : H' <> []) by (intros ->; cbn [length] in PL; unfold zlen in *; lia). destruct H' as [|(p, q) H']; [congruence|]. split.
    { destruct (In_norm _ _ p q B6) as (p' & q' & I & _); [apply in_or_app; right; left; auto|eauto]. }
    intros a w (W & P) I. assert (ALL : forall x, In x w -> In x L).
    { apply (closed_all (fun x => In x L) w a s W I); [destruct B5 as ((r & B5) & _); apply in_rev; rewrite B5; left; auto|]. intros x y J Vx. destruct (In_norm _ _ x y (Permutation_trans P (Permutation_sym B6)) J) as (p' & q' & J' & C). apply in_app_or in J'. destruct J' as [J'|J']; [apply steps_In in J'; rewrite <- !in_rev in J'; destruct C as [(-> & ->)|(-> & ->)]; tauto|]. exfalso. apply dg_In in J'. specialize (B7 x Vx). destruct C as [(-> & ->)|(-> & ->)]; lia. }
    destruct (In_norm _ _ p q (Permutation_trans B6 (Permutation_sym P))) as (p' & q' & J & C); [apply in_or_app; right; left; auto|]. apply steps_In in J. assert (In p w) by (destruct C as [(-> & ->)|(-> & ->)]; tauto). specialize (B7 p ltac:(auto)). destruct (dg_In ((p, q) :: H') p q); [left; auto|]. lia.
Qed.
Lemma utrail_par E a w b : is_utrail E a w b -> par E a b.
Proof. intros (W & P) x. rewrite <- (dg_perm _ _ x P). apply walk_par; auto. Qed.
Lemma ucircuit_from n E e IV s : 0 <= n -> UI n E e IV -> 0 <= s < n -> exists r, ueu_circuit e s = Ok r /\ match r with Some w => is_utrail E s w s | None => forall a w, is_utrail E a w a -> ~ In s w end.
Proof.
  intros Hn G Hs. unfold ueu_circuit. destruct (scan_ok n E e IV Hn G) as (r & -> & K). cbn [bind]. destruct r as [(used, k)|].
  - destruct K as (-> & K2 & K3). destruct (Z.ltb_spec s 0); [lia|]. cbn [bind]. cbv zeta. rewrite (q_n _ _ _ _ G). replace (2 * zlen E / 2) with (zlen E) by (rewrite Z.mul_comm, Z.div_mul by lia; auto). destruct (circ_core n E e IV used s Hn G Hs K2 K3) as (st & -> & C). cbn [bind]. destruct (zlen (k_res st) =? zlen E + 1); cbn [negb]; eexists; (split; [reflexivity|]); [auto|tauto].
  - eexists. split; [reflexivity|]. intros a w T _. destruct K as (x & K). pose proof (utrail_par E a w a T x) as Q. rewrite xorb_nilpotent in Q. congruence.
Qed.
Lemma ucircuit_any n E e IV : 0 < n -> UI n E e IV -> exists r, ueu_circuit e (-1) = Ok r /\ match r with Some w => exists s, 0 <= s < n /\ is_utrail E s w s | None => forall a w, ~ is_utrail E a w a end.
Proof.
  intros Hn G. unfold ueu_circuit. destruct (scan_ok n E e IV ltac:(lia) G) as (r & -> & K). cbn [bind]. destruct r as [(used, k)|].
  - destruct K as (-> & K2 & K3). change (-1 <? 0) with true. cbv iota. pose proof G as [A1 A2 A3 A4 A5 A6]. rewrite A1.
    match goal with |- context [for_ 0 n ?bd 0] => destruct (for_inv (fun i s => 0 <= s < n /\ ((exists x, 0 <= x < i /\ dg E x <> 0) -> dg E s <> 0)) 0 n bd 0) as (s & -> & Hs & K4) end; [lia|split; [lia|intros (x & Hx & _); lia]| |].
    { intros i s Hi (Hs & K). rewrite (rep_get _ _ _ i A2) by auto. cbn [bind]. rewrite nb_dg. eexists. split; [reflexivity|]. destruct (Z.eqb_spec (dg E i) 0) as [Q|Q]; cbn [negb]; [|auto]. split; [auto|]. intros (x & Hx & N). apply K. exists x. split; [|auto]. assert (x <> i) by congruence. lia. }
    cbn [bind]. cbv zeta. replace (2 * zlen E / 2) with (zlen E) by (rewrite Z.mul_comm, Z.div_mul by lia; auto). destruct (circ_core n E e IV used s ltac:(lia) G Hs K2 K3) as (st & -> & C). cbn [bind]. destruct (zlen (k_res st) =? zlen E + 1); cbn [negb]; eexists; (split; [reflexivity|]); cbv beta iota in *; [exists s; auto|]. destruct C as ((p & q & I) & C). intros a w T. apply (C a w T).
    assert (NZ : dg E s <> 0). { apply K4. exists p. destruct (A6 p q I). split; [auto|]. destruct (dg_In E p q I). lia. }
    destruct T as (_ & P). rewrite <- (dg_perm _ _ s P) in NZ. clear - NZ. assert (PJ : forall F, dg F s <> 0 -> exists x y, In (x, y) F /\ (x = s \/ y = s)).
    { clear. intro F. induction F as [|(c, d) F IH]; [unfold dg; cbn; lia|]. rewrite dg_cons. cbn [fst snd]. unfold b2. destruct (Z.eqb_spec s c) as [->|N]; [exists c, d; split; [left; auto|auto]|]. destruct (Z.eqb_spec s d) as [->|N']; [exists c, d; split; [left; auto|auto]|]. intro Q. destruct IH as (x & y & I & J); [lia|]. exists x, y. split; [right; auto|auto]. }
    destruct (PJ _ NZ) as (x & y & J & C). apply steps_In in J. destruct C as [-> | ->]; tauto.
  - eexists. split; [reflexivity|]. intros a w T. destruct K as (x & K). pose proof (utrail_par E a w a T x) as Q. rewrite xorb_nilpotent in Q. congruence.
Qed.
(* end points *)
Lemma ends_ok n E e IV : 0 <= n -> UI n E e IV -> exists s t i, ueu_ends e = Ok (s, t, i) /\
  (s = -1 \/ (0 <= s < n /\ Z.odd (dg E s) = true)) /\ (t = -1 \/ (0 <= t < n /\ s <> t /\ Z.odd (dg E t) = true)) /\ (i = -1 \/ 0 <= i) /\
  (i = -1 -> forall j, 0 <= j < n -> Z.odd (dg E j) = xorb (j =? s) (j =? t)) /\ (0 <= i -> forall a b, ~ forall j, 0 <= j < n -> Z.odd (dg E j) = xorb (j =? a) (j =? b)).
Proof.
  intros Hn [A1 A2 A3 A4 A5 A6]. unfold ueu_ends. rewrite A1. set (D := fun j => Z.odd (dg E j)).
  match goal with |- context [for_ 0 n ?bd ?s0] => destruct (for_inv (fun k st => let '(s, t, i) := st in (s = -1 \/ (0 <= s < k /\ D s = true)) /\ (t = -1 \/ (0 <= t < k /\ 0 <= s /\ s <> t /\ D t = true)) /\ (i = -1 \/ 0 <= i) /\ (i = -1 -> forall j, 0 <= j < k -> D j = xorb (j =? s) (j =? t)) /\ (0 <= i -> forall a b, ~ forall j, 0 <= j < k -> D j = xorb (j =? a) (j =? b))) 0 n bd s0) as (((s & t) & i) & -> & K) end; [auto| | |exists s, t, i; tauto].
  - split; [auto|]. split; [auto|]. split; [auto|]. split; intros; lia.
  - intros k ((s & t) & i) Hk (K1 & K2 & K3 & K4 & K5). rewrite (rep_get _ _ _ k A2) by auto. cbn [bind]. rewrite nb_dg. fold (D k). eexists. split; [reflexivity|].
    assert (M : 0 <= i -> forall a b, ~ forall j, 0 <= j < k + 1 -> D j = xorb (j =? a) (j =? b)) by (intros I a b X; apply (K5 I a b); intros j Hj; apply X; lia).
    destruct (D k) eqn:Q; [destruct (Z.ltb_spec s 0) as [L|L]; [|destruct (Z.ltb_spec t 0) as [L'|L']]|].
    + split; [right; split; [lia|auto]|]. split; [left; lia|]. split; [auto|]. split; [|auto]. intros I j Hj. assert (t = -1) by lia. assert (s = -1) by lia. subst s t. destruct (Z.eqb_spec j k) as [->|N]; [destruct (Z.eqb_spec k (-1)); [lia|auto]|]. rewrite (K4 I) by lia. destruct (Z.eqb_spec j (-1)); [lia|auto].
    + destruct K1 as [K1|(K1 & K1')]; [lia|]. split; [right; split; [lia|auto]|]. split; [right; repeat split; try lia; auto|]. split; [auto|]. split; [|auto]. intros I j Hj. assert (t = -1) by lia. subst t. destruct (Z.eqb_spec j k) as [->|N]; [destruct (Z.eqb_spec k s); [lia|auto]|]. rewrite (K4 I) by lia. destruct (Z.eqb_spec j (-1)); [lia|auto].
    + destruct K1 as [K1|(K1 & K1')]; [lia|]. destruct K2 as [K2|(K2 & K0 & KN & K2')]; [lia|]. split; [right; split; [lia|auto]|]. split; [right; repeat split; try lia; auto|]. split; [right; lia|]. split; [lia|]. intros _ a b X. pose proof (X k ltac:(lia)) as X1. pose proof (X s ltac:(lia)) as X2. pose proof (X t ltac:(lia)) as X3. rewrite Q in X1. rewrite K1' in X2. rewrite K2' in X3. destruct (Z.eqb_spec k a), (Z.eqb_spec k b), (Z.eqb_spec s a), (Z.eqb_spec s b), (Z.eqb_spec t a), (Z.eqb_spec t b); cbn in *; try discriminate; lia.
    + split; [lia|]. split; [destruct K2 as [|K2]; [auto|right; repeat split; try lia; tauto]|]. split; [auto|]. split; [|auto]. intros I j Hj. destruct (Z.eq_dec j k) as [->|N]; [|apply K4; auto; lia]. rewrite Q. destruct (Z.eqb_spec k s), (Z.eqb_spec k t); auto; lia.
Qed.
Lemma urot_cons2 s t done x y w : ueu_rot s t done (x :: y :: w) = if ((x =? s) && (y =? t)) || ((x =? t) && (y =? s)) then Ok ((y :: w) ++ rev (x :: done)) else ueu_rot s t (x :: done) (y :: w).
Proof. reflexivity. Qed.
Lemma urot_ok s t : forall w done, (In (s, t) (steps w) \/ In (t, s) (steps w)) -> exists A B x y, ((x = s /\ y = t) \/ (x = t /\ y = s)) /\ w = A ++ x :: y :: B /\ ueu_rot s t done w = Ok (y :: B ++ rev done ++ A ++ [x]).
Proof.
  induction w as [|x w IH]; intros done I; [destruct I as [I|I]; destruct I|]. destruct w as [|y w]; [destruct I as [I|I]; destruct I|]. rewrite steps_cons2 in I. rewrite urot_cons2. destruct (((x =? s) && (y =? t)) || ((x =? t) && (y =? s))) eqn:C.
  - exists [], w, x, y. rewrite orb_true_iff, !andb_true_iff, !Z.eqb_eq in C. split; [tauto|]. split; [auto|]. cbn [rev app]. reflexivity.
  - destruct (IH (x :: done)) as (A & B & p & q & K & E & ->).
    { destruct I as [[I|I]|[I|I]]; auto; injection I as -> ->; rewrite !Z.eqb_refl in C; cbn in C; rewrite ?orb_true_r in C; discriminate. }
    exists (x :: A), B, p, q. split; [auto|]. split; [rewrite E; auto|]. cbn [rev app]. rewrite <- !app_assoc. auto.
Qed.
Lemma utrail_ends n E a w b : eok n E -> is_utrail E a w b -> a <> b -> 0 <= a < n /\ 0 <= b < n.
Proof.
  intros EO T N. pose proof (utrail_par _ _ _ _ T) as P. assert (K : forall x, Z.odd (dg E x) = true -> 0 <= x < n) by (intros x Q; destruct (Z_lt_ge_dec x 0), (Z_lt_ge_dec x n); try lia; rewrite (dg_out n E x EO ltac:(lia)) in Q; discriminate). split; apply K; rewrite (P _), Z.eqb_refl; [destruct (Z.eqb_spec a b)|destruct (Z.eqb_spec b a)]; auto; congruence.
Qed.
Lemma nperm_rot (P Q E : list (Z * Z)) x x' y : norm x = norm x' -> Permutation (map norm ((P ++ x :: Q) ++ [y])) (map norm (E ++ [x'])) -> Permutation (map norm (Q ++ y :: P)) (map norm E).
Proof. intros N H. rewrite !map_app in H. cbn [map] in H. rewrite N in H. rewrite map_app. cbn [map]. apply (perm_rot _ _ _ _ _ H). Qed.
Lemma utrail_ok n E e IV diff : 0 < n -> UI n E e IV -> exists r e', ueu_trail e diff = Ok (r, e') /\
  match r with
  | Some w => e' = e /\ exists a b, is_utrail E a w b /\ (diff = true -> a <> b)
  | None => forall a w b, is_utrail E a w b -> diff = true /\ a = b
  end.
Proof.
  intros Hn G. unfold ueu_trail. destruct (ends_ok n E e IV ltac:(lia) G) as (s & t & i & -> & K1 & K2 & K3 & K4 & K5). cbn [bind]. pose proof G as [A1 A2 A3 A4 A5 A6].
  destruct (negb diff && (s <? 0) && (t <? 0) && (i <? 0)) eqn:C1.
  { destruct (ucircuit_any n E e IV Hn G) as (r & -> & C). cbn [bind]. eexists _, _. split; [reflexivity|]. apply andb_true_iff in C1. destruct C1 as (C1 & C4). apply andb_true_iff in C1. destruct C1 as (C1 & C3). apply andb_true_iff in C1. destruct C1 as (C1 & C2). apply Z.ltb_lt in C2, C3, C4. destruct r as [w|].
    - split; [auto|]. destruct C as (a & Ha & T). exists a, a. split; [auto|]. intros ->. discriminate.
    - intros a w b T. exfalso. destruct (Z.eq_dec a b) as [->|N]; [apply (C b w T)|]. destruct (utrail_ends n E a w b A6 T N) as (Ha & _). pose proof (utrail_par E a w b T a) as TB. rewrite (K4 ltac:(lia)) in TB by auto. rewrite Z.eqb_refl in TB. destruct (Z.eqb_spec a b), (Z.eqb_spec a s), (Z.eqb_spec a t); cbn in TB; try discriminate; lia. }
  destruct ((s <? 0) || (t <? 0) || (0 <=? i)) eqn:C2.
  { eexists _, _. split; [reflexivity|]. intros a w b T. pose proof (fun j (_ : 0 <= j < n) => utrail_par E a w b T j) as TB. destruct (Z.eq_dec i (-1)) as [I|I]; [|exfalso; apply (K5 ltac:(lia) a b); auto]. specialize (K4 I). destruct (Z.eq_dec a b) as [->|N].
    - split; [|auto]. assert (s = -1) by (destruct K1 as [K1|(K1 & K1')]; [auto|]; specialize (TB s K1); rewrite xorb_nilpotent in TB; congruence). assert (t = -1) by (destruct K2 as [K2|(K2 & _ & K2')]; [auto|]; specialize (TB t K2); rewrite xorb_nilpotent in TB; congruence). subst. destruct diff; [auto|]. cbn in C1. discriminate.
    - exfalso. destruct (utrail_ends n E a w b A6 T N) as (Ha & Hb). pose proof (TB a Ha) as T1. pose proof (TB b Hb) as T2. rewrite K4 in T1, T2 by auto. rewrite Z.eqb_refl in T1, T2. apply orb_true_iff in C2. destruct C2 as [C2|C2]; [|apply Z.leb_le in C2; lia]. apply orb_true_iff in C2. rewrite !Z.ltb_lt in C2. destruct (Z.eqb_spec a s), (Z.eqb_spec a t), (Z.eqb_spec b s), (Z.eqb_spec b t), (Z.eqb_spec a b), (Z.eqb_spec b a); cbn in T1, T2; try discriminate; lia. }
  apply orb_false_iff in C2. destruct C2 as (C2 & C4). apply orb_false_iff in C2. destruct C2 as (C2 & C3). apply Z.ltb_ge in C2, C3. apply Z.leb_gt in C4. destruct K1 as [->|(Hs & Ds)]; [lia|]. destruct K2 as [->|(Ht & ST & Dt)]; [lia|]. specialize (K4 ltac:(lia)).
  destruct (add_ui n E e IV s t G Hs Ht) as (e1 & -> & G1). cbn [bind]. destruct (ucircuit_from n _ e1 _ s ltac:(lia) G1 Hs) as (r & -> & C). cbn [bind]. destruct r as [w|].
  - destruct C as (W & P). pose proof W as ((r & E1) & q & E2). assert (NEq : q <> []). { intros ->. rewrite E2 in P. cbn [app steps map] in P. apply Permutation_length in P. rewrite map_app, app_length in P. cbn in P. lia. }
    destruct (@exists_last _ q NEq) as (q' & y & E3). rewrite E2, removelast_last. cbv zeta. pose proof G1 as [D1 D2 D3 D4 D5 D6].
    assert (N1 : nb (E ++ [(s, t)]) s = nb E s ++ [t] /\ nb (E ++ [(s, t)]) t = nb E t ++ [s]). { rewrite !nb_snoc. unfold nb1. cbn [fst snd]. rewrite !Z.eqb_refl. destruct (Z.eqb_spec t s), (Z.eqb_spec s t); try congruence. auto. }
    assert (N2 : addiv E IV s t s = IV s ++ [zlen (nb E t)] /\ addiv E IV s t t = IV t ++ [zlen (nb E s)]). { unfold addiv. rewrite !Z.eqb_refl. destruct (Z.eqb_spec t s), (Z.eqb_spec s t); try congruence. rewrite Z.add_0_r. auto. }
    destruct N1 as (N1 & N1'). destruct N2 as (N2 & N2').
    destruct (vpop_ok _ _ _ s _ _ D2 Hs N1) as (g1 & -> & F1). cbn [bind]. destruct (vpop_ok _ _ _ s _ _ D3 Hs N2) as (i1 & -> & F2). cbn [bind].
    destruct (vpop_ok _ _ _ t (nb E t) s F1 Ht) as (g2 & -> & F3); [rewrite fupd_diff by auto; auto|]. cbn [bind]. destruct (vpop_ok _ _ _ t (IV t) (zlen (nb E s)) F2 Ht) as (i2 & -> & F4); [rewrite fupd_diff by auto; auto|]. cbn [bind].
    assert (EQ : mkUeu (u_n e1) g2 i2 = e). { destruct e as [m g0 i0]. cbn [u_n u_g u_inv] in *. f_equal; [congruence| |]; apply vget_ext; try (destruct A2, A3, F3, F4; congruence); intros k Hk.
      - destruct F3 as (L & F3). rewrite F3, (rep_get _ _ _ k A2) by lia. f_equal. unfold fupd. destruct (Z.eqb_spec k t) as [->|N]; [auto|]. destruct (Z.eqb_spec k s) as [->|N']; [auto|]. rewrite nb_snoc. unfold nb1. cbn [fst snd]. destruct (Z.eqb_spec s k), (Z.eqb_spec t k); try congruence. apply app_nil_r.
      - destruct F4 as (L & F4). rewrite F4, (rep_get _ _ _ k A3) by lia. f_equal. unfold fupd. destruct (Z.eqb_spec k t) as [->|N]; [auto|]. destruct (Z.eqb_spec k s) as [->|N']; [auto|]. unfold addiv. destruct (Z.eqb_spec s k), (Z.eqb_spec t k); try congruence. apply app_nil_r. }
    rewrite EQ.
    assert (Wq : walk s q y). { split; [|exists q'; auto]. rewrite E1 in E2. destruct q as [|c q]; [congruence|]. injection E2 as <- _. exists q. auto. }
    assert (SW : steps w = steps q ++ [(y, s)]) by (rewrite E2, E3, <- app_assoc; cbn [app]; rewrite steps_app; auto). rewrite SW in P.
    assert (LQ : last q (-1) = y) by (rewrite E3; apply last_last). rewrite LQ. destruct (Z.eqb_spec y t) as [->|N].
    + eexists _, _. split; [reflexivity|]. split; [auto|]. exists s, t. split; [|auto]. split; [auto|]. rewrite !map_app in P. cbn [map] in P. rewrite (norm_sym t s) in P. apply (Permutation_app_inv_r [norm (s, t)]). auto.
    + assert (I : In (s, t) (steps q) \/ In (t, s) (steps q)). { destruct (In_norm _ _ s t (Permutation_sym P)) as (p & p' & I & C); [apply in_or_app; right; left; auto|]. apply in_app_or in I. destruct I as [I|[I|[]]]; [destruct C as [(-> & ->)|(-> & ->)]; auto|]. injection I as -> ->. lia. }
      destruct (urot_ok s t q [] I) as (A & B & x & z & XZ & E4 & ->). cbn [bind rev app]. eexists _, _. split; [reflexivity|]. split; [auto|]. exists z, x. split; [|intros _ ->; lia].
      assert (WA : walk s (A ++ [x]) x). { split; [|exists A; auto]. destruct Wq as ((r1 & Wq) & _). rewrite E4 in Wq. destruct A as [|c A]; cbn [app] in *; [injection Wq as -> _; eauto|]. injection Wq as -> _. exists (A ++ [x]). auto. }
      assert (WB : walk z (z :: B) y). { split; [exists B; auto|]. destruct (@exists_last _ (z :: B)) as (q2 & z' & E5); [discriminate|]. rewrite E3 in E4. rewrite E5 in E4. change (x :: q2 ++ [z']) with ((x :: q2) ++ [z']) in E4. rewrite app_assoc in E4. apply app_inj_tail in E4. destruct E4 as (_ & ->). exists q2. auto. }
      destruct (walk_app z (z :: B) y s (A ++ [x]) x WB WA) as (W1 & W2). cbn [app] in W1, W2. split; [auto|]. rewrite W2. rewrite E4, steps_app in P. apply nperm_rot in P; [exact P|]. destruct XZ as [(-> & ->)|(-> & ->)]; [auto|apply norm_sym].
  - eexists _, _. split; [reflexivity|]. intros a w b T. exfalso. pose proof (utrail_par E a w b T s) as T1. pose proof (utrail_par E a w b T t) as T2. rewrite Ds in T1. rewrite Dt in T2. assert (AB : (a = s /\ b = t) \/ (a = t /\ b = s)) by (destruct (Z.eqb_spec s a), (Z.eqb_spec s b), (Z.eqb_spec t a), (Z.eqb_spec t b); cbn in *; try discriminate; lia). destruct T as (W & P). destruct (walk_app a w b a [a] a W (walk_one a)) as (W1 & W2).
    apply (C a (w ++ [a])).
    + split; [auto|]. rewrite W2, !map_app. cbn [steps map]. rewrite P. apply Permutation_app_head. replace (norm (b, a)) with (norm (s, t)); [auto|]. destruct AB as [(-> & ->)|(-> & ->)]; [apply norm_sym|auto].
    + destruct AB as [(-> & ->)|(-> & ->)]; [apply in_or_app; right; left; auto|]. destruct W as (_ & (q & ->)). apply in_or_app. left. apply in_or_app. right. left. auto.
Qed.
