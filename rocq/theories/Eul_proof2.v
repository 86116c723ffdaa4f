(* Proofs about Eul_model: circuits and trails. *)
From Verif Require Import Base BaseLemmas ListZ ListMore Seq Eul_spec Eul_model Eul_proof.
From Coq Require Import Permutation.

Definition eok (n : Z) (E : list (Z * Z)) : Prop := forall x y, In (x, y) E -> 0 <= x < n /\ 0 <= y < n.
Record GI (n : Z) (E : list (Z * Z)) (e : eul) : Prop := { q_n : e_n e = n; q_g : rep (e_g e) n (succs E); q_in : rep (e_in e) n (id_ E); q_ok : eok n E }.

Lemma succs_snoc E u v x : succs (E ++ [(u, v)]) x = succs E x ++ (if u =? x then [v] else []).
Proof. unfold succs. rewrite filter_app, map_app. cbn [filter fst]. destruct (u =? x); auto. Qed.
Lemma new_gi n : 0 <= n -> GI n [] (eul_new n).
Proof. intro Hn. constructor; cbn [eul_new e_n e_g e_in]; auto; [apply rep_vrep; auto|apply rep_vrep; auto|intros x y []]. Qed.
Lemma add_gi n E e u v : GI n E e -> 0 <= u < n -> 0 <= v < n -> exists e', eul_add e u v = Ok e' /\ GI n (E ++ [(u, v)]) e'.
Proof.
  intros [A1 A2 A3 A4] Hu Hv. unfold eul_add. rewrite (rep_get _ _ _ u A2) by auto. cbn [bind]. rewrite (rep_set _ _ _ u _ A2) by auto. cbn [bind]. rewrite (rep_get _ _ _ v A3) by auto. cbn [bind]. rewrite (rep_set _ _ _ v _ A3) by auto. cbn [bind]. eexists. split; [reflexivity|]. constructor; cbn [e_n e_g e_in]; auto.
  - apply (rep_ext _ _ _ _ (rep_upd _ _ _ u _ A2 Hu)). intros x Hx. rewrite succs_snoc. unfold fupd. rewrite (Z.eqb_sym u). destruct (Z.eqb_spec x u) as [->|]; [auto|rewrite app_nil_r; auto].
  - apply (rep_ext _ _ _ _ (rep_upd _ _ _ v _ A3 Hv)). intros x Hx. rewrite id_app. cbn [id_ fold_right snd]. unfold fupd, b2. destruct (Z.eqb_spec x v) as [->|]; lia.
  - intros x y I. apply in_app_or in I. destruct I as [I|[I|[]]]; [auto|]. injection I as <- <-. auto.
Qed.
Lemma build_gi n E : 0 <= n -> eok n E -> exists e, eul_build n E = Ok e /\ GI n E e.
Proof.
  intros Hn EO. unfold eul_build. destruct (for_each_inv (fun done e => GI n done e) E (fun p e => eul_add e (fst p) (snd p)) (eul_new n)) as (e & X & I).
  - apply new_gi; auto.
  - intros done (u, v) todo e Eq I. destruct (EO u v) as (Hu & Hv); [rewrite Eq; apply in_or_app; right; left; auto|]. apply add_gi; auto.
  - eauto.
Qed.
Lemma od_out n E x : eok n E -> ~ (0 <= x < n) -> od E x = 0 /\ id_ E x = 0.
Proof.
  intros EO N. split; induction E as [|(a, c) E IH]; auto; cbn [od id_ fold_right fst snd]; [fold (od E x)|fold (id_ E x)]; rewrite IH by (intros p q I; apply EO; right; auto); destruct (EO a c (or_introl eq_refl)); unfold b2; destruct (Z.eqb_spec x a), (Z.eqb_spec x c); try lia; subst; exfalso; apply N; auto.
Qed.
Lemma zs_len n E : 0 <= n -> eok n E -> zs n (od E) = zlen E.
Proof.
  intro Hn. induction E as [|(a, c) E IH]; intro EO.
  - unfold zs. induction (zrange n); cbn [fold_right od] in *; [reflexivity|]. exact IHl.
  - rewrite zlen_cons, <- IH by (intros p q I; apply EO; right; auto). destruct (EO a c (or_introl eq_refl)) as (Ha & _). rewrite (zs_ext n _ (fupd (od E) a (od E a + 1))); [rewrite zs_upd by auto; lia|]. intros x Hx. cbn [od fold_right fst]. fold (od E x). unfold fupd, b2. destruct (Z.eqb_spec x a) as [->|]; lia.
Qed.
Lemma zs_snoc i f : 0 <= i -> zs (i + 1) f = zs i f + f i.
Proof. intro Hi. unfold zs. rewrite zrange_S by auto. generalize (zrange i). induction l as [|x l IH]; cbn [app fold_right]; lia. Qed.
Lemma scan_ok n E e : 0 <= n -> GI n E e -> exists r, ec_scan e = Ok r /\
  match r with
  | Some (used, k) => k = zlen E /\ rep used n (fun u => vrep (zlen (succs E u)) false) /\ forall x, od E x = id_ E x
  | None => exists x, od E x <> id_ E x
  end.
Proof.
  intros Hn [A1 A2 A3 A4]. unfold ec_scan. rewrite A1.
  match goal with |- context [for_ 0 n ?bd ?s0] => destruct (for_inv (fun i st => match st with Some (used, k) => k = zs i (od E) /\ rep used n (fun u => if u <? i then vrep (zlen (succs E u)) false else []) /\ forall x, 0 <= x < i -> od E x = id_ E x | None => exists x, od E x <> id_ E x end) 0 n bd s0) as (r & -> & K) end; [auto| | |].
  - split; [reflexivity|]. split; [|intros; lia]. apply (rep_ext _ _ (fun _ => [])); [apply rep_vrep; auto|]. intros u Hu. destruct (Z.ltb_spec u 0); [lia|auto].
  - intros i [(used, k)|] Hi K; [|eauto]. destruct K as (K1 & K2 & K3). rewrite (rep_get _ _ _ i A2) by auto. cbn [bind]. rewrite (rep_set _ _ _ i _ K2) by auto. cbn [bind]. rewrite (rep_get _ _ _ i A3) by auto. cbn [bind]. rewrite succs_od. destruct (Z.eqb_spec (id_ E i) (od E i)) as [Q|Q]; cbn [negb]; [|eexists; split; [reflexivity|]; exists i; congruence]. eexists. split; [reflexivity|]. cbv beta iota. split; [rewrite zs_snoc by lia; lia|]. split.
    + apply (rep_ext _ _ _ _ (rep_upd _ _ _ i _ K2 Hi)). intros u Hu. unfold fupd. destruct (Z.eqb_spec u i) as [->|N]; [rewrite succs_od; destruct (Z.ltb_spec i (i + 1)); [auto|lia]|]. destruct (Z.ltb_spec u i), (Z.ltb_spec u (i + 1)); auto; lia.
    + intros x Hx. destruct (Z.eq_dec x i) as [->|]; [congruence|apply K3; lia].
  - exists r. split; [auto|]. destruct r as [(used, k)|]; [|auto]. destruct K as (K1 & K2 & K3). split; [rewrite K1; apply zs_len; auto|]. split.
    + apply (rep_ext _ _ _ _ K2). intros u Hu. destruct (Z.ltb_spec u n); [auto|lia].
    + intro x. destruct (Z_lt_ge_dec x 0), (Z_lt_ge_dec x n); try (apply K3; lia); destruct (od_out n E x A4 ltac:(lia)); congruence.
Qed.
Lemma un_all a : un a (vrep (zlen a) false) = a.
Proof. unfold un, vrep. replace (Z.to_nat (zlen a)) with (length a) by (unfold zlen; lia). induction a as [|x a IH]; [auto|]. cbn [length repeat combine filter snd negb map fst]. rewrite IH. auto. Qed.
(* from position s on a closed walk everything is reached *)
Lemma fwd (V : Z -> Prop) w : forall a b, walk a w b -> V a -> (forall x y, In (x, y) (steps w) -> V x -> V y) -> forall x, In x w -> V x.
Proof.
  induction w as [|c w IH]; intros a b ((r & E1) & q & E2) Va K x I; [destruct I|]. injection E1 as -> ->. destruct I as [<-|I]; [auto|]. destruct r as [|d r]; [destruct I|]. destruct q as [|e q]; [discriminate|]. cbn [app] in E2. injection E2 as _ E2. apply (IH d b); auto.
  - split; [exists r; auto|exists q; auto].
  - apply (K a d); [left; auto|auto].
  - intros p z J. apply K. right. auto.
Qed.
Lemma steps_suffix A s B x y : In (x, y) (steps (s :: B)) -> In (x, y) (steps (A ++ s :: B)).
Proof. intro I. destruct B as [|b B]; [destruct I|]. rewrite steps_app. apply in_or_app. right. rewrite steps_cons2 in I. auto. Qed.
Lemma closed_all (V : Z -> Prop) w a s : walk a w a -> In s w -> V s -> (forall x y, In (x, y) (steps w) -> V x -> V y) -> forall x, In x w -> V x.
Proof.
  intros W I Vs K. assert (Va : V a). { apply in_split in I. destruct I as (A & B & E). apply (fwd V (s :: B) s a); auto.
    - split; [exists B; auto|]. destruct W as (_ & q & E2). rewrite E in E2. destruct (@exists_last _ (s :: B)) as (q' & z & E3); [discriminate|]. rewrite E3 in E2. rewrite app_assoc in E2. apply app_inj_tail in E2. destruct E2 as (_ & <-). exists q'. auto.
    - intros x y J. apply K. rewrite E. apply steps_suffix. auto.
    - destruct W as (_ & q & E2). rewrite E in E2. destruct (@exists_last _ (s :: B)) as (q' & z & E3); [discriminate|]. rewrite E3 in E2. rewrite app_assoc in E2. apply app_inj_tail in E2. destruct E2 as (_ & <-). rewrite E3. apply in_or_app. right. left. auto. }
  apply (fwd V w a a W Va K).
Qed.
Lemma circ_core n E e used s : 0 <= n -> GI n E e -> 0 <= s < n -> rep used n (fun u => vrep (zlen (succs E u)) false) -> (forall x, od E x = id_ E x) ->
  exists st, ec_dfs (Z.to_nat (2 * zlen E + 1)) (e_g e) s (mkEc used (vrep n 0) []) = Ok st /\
    if zlen (rev (c_res st)) =? zlen E + 1 then is_trail E s (rev (c_res st)) s else (exists x y, In (x, y) E) /\ forall a w, is_trail E a w a -> ~ In s w.
Proof.
  intros Hn [A1 A2 A3 A4] Hs RU BL.
  destruct (dfs_ok n (e_g e) (succs E) A2 (Z.to_nat (2 * zlen E + 1)) s s (mkEc used (vrep n 0) []) E (fun _ => 0) (fun u => vrep (zlen (succs E u)) false) Hs) as (st & H' & IT' & US' & L & -> & B2 & B3 & B4 & B5 & B6 & B7 & _).
  { constructor; cbn [c_iter c_used]; auto; [apply rep_vrep; auto|]. intros u Hu. split; [rewrite zlen_vrep by apply zlen_nonneg; auto|]. split; [rewrite un_all; auto|]. split; [lia|]. intros; lia. }
  { intro x. rewrite BL. lia. }
  { unfold mu. rewrite (zs_ext n _ (od E)); [rewrite zs_len by auto; lia|]. intros x Hx. rewrite Z.sub_0_r, succs_od. pose proof (od_nn E x). lia. }
  exists st. split; [auto|]. cbn [c_res app] in B2. rewrite B2. pose proof (Permutation_length B6) as PL. rewrite app_length in PL. pose proof (zlen_steps _ _ _ B5) as ZS. destruct (Z.eqb_spec (zlen (rev L)) (zlen E + 1)) as [Q|Q].
  - assert (H' = []) as -> by (destruct H'; [auto|cbn [length] in PL; unfold zlen in *; lia]). rewrite app_nil_r in B6. split; auto.
  - assert (NE : H' <> []) by (intros ->; cbn [length] in PL; unfold zlen in *; lia). destruct H' as [|(p, q) H']; [congruence|]. split; [exists p, q; apply (Permutation_in _ B6); apply in_or_app; right; left; auto|].
    intros a w (W & P) I. assert (ALL : forall x, In x w -> In x L).
    { apply (closed_all (fun x => In x L) w a s W I); [destruct B5 as ((r & B5) & _); apply in_rev; rewrite B5; left; auto|]. intros x y J Vx. apply (Permutation_in _ P) in J. apply (Permutation_in _ (Permutation_sym B6)) in J. apply in_app_or in J. destruct J as [J|J]; [apply steps_In in J; apply in_rev; tauto|]. exfalso. apply (B7 x y Vx J). }
    assert (J : In (p, q) (steps w)) by (apply (Permutation_in _ (Permutation_sym P)), (Permutation_in _ B6), in_or_app; right; left; auto). apply steps_In in J. apply (B7 p q); [apply ALL; tauto|left; auto].
Qed.
Lemma trail_bal E a w b x : is_trail E a w b -> od E x - id_ E x = b2 x a - b2 x b.
Proof. intros (W & P). rewrite <- (od_perm _ _ x P), <- (id_perm _ _ x P). apply walk_bal; auto. Qed.
Lemma circuit_from n E e s : 0 <= n -> GI n E e -> 0 <= s < n -> exists r, eul_circuit e s = Ok r /\ match r with Some w => is_trail E s w s | None => forall a w, is_trail E a w a -> ~ In s w end.
Proof.
  intros Hn G Hs. unfold eul_circuit. destruct (scan_ok n E e Hn G) as (r & -> & K). cbn [bind]. destruct r as [(used, k)|].
  - destruct K as (-> & K2 & K3). destruct (Z.ltb_spec s 0); [lia|]. cbn [bind]. rewrite (q_n _ _ _ G). destruct (circ_core n E e used s Hn G Hs K2 K3) as (st & -> & C). cbn [bind]. cbv zeta. destruct (zlen (rev (c_res st)) =? zlen E + 1); cbn [negb]; eexists; (split; [reflexivity|]); [auto|tauto].
  - eexists. split; [reflexivity|]. intros a w T _. destruct K as (x & K). pose proof (trail_bal E a w a x T). lia.
Qed.
Lemma circuit_any n E e : 0 < n -> GI n E e -> exists r, eul_circuit e (-1) = Ok r /\ match r with Some w => exists s, 0 <= s < n /\ is_trail E s w s | None => forall a w, ~ is_trail E a w a end.
Proof.
  intros Hn G. unfold eul_circuit. destruct (scan_ok n E e ltac:(lia) G) as (r & -> & K). cbn [bind]. destruct r as [(used, k)|].
  - destruct K as (-> & K2 & K3). change (-1 <? 0) with true. cbv iota. pose proof G as [A1 A2 A3 A4]. rewrite A1.
    match goal with |- context [for_ 0 n ?bd 0] => destruct (for_inv (fun i s => 0 <= s < n /\ ((exists x, 0 <= x < i /\ id_ E x <> 0) -> id_ E s <> 0)) 0 n bd 0) as (s & -> & Hs & K4) end; [lia|split; [lia|intros (x & Hx & _); lia]| |].
    { intros i s Hi (Hs & K). rewrite (rep_get _ _ _ i A3) by auto. cbn [bind]. eexists. split; [reflexivity|]. destruct (Z.eqb_spec (id_ E i) 0) as [Q|Q]; cbn [negb]; [|auto]. split; [auto|]. intros (x & Hx & N). apply K. exists x. split; [|auto]. assert (x <> i) by congruence. lia. }
    cbn [bind]. destruct (circ_core n E e used s ltac:(lia) G Hs K2 K3) as (st & -> & C). cbn [bind]. cbv zeta. destruct (zlen (rev (c_res st)) =? zlen E + 1); cbn [negb]; eexists; (split; [reflexivity|]); cbv beta iota in *; [exists s; auto|]. destruct C as ((p & q & I) & C). intros a w T. apply (C a w T).
    assert (PI : forall x y, In (x, y) E -> 0 < id_ E y). { clear. intros x y. induction E as [|(c, d) E IH]; [intros []|]. intro I; cbn [id_ fold_right snd]; fold (id_ E y); destruct I as [X|I]; [injection X as -> ->; pose proof (id_nn E y); unfold b2; rewrite Z.eqb_refl; lia|]. specialize (IH I). unfold b2. destruct (y =? d); lia. }
    assert (PJ : forall y, id_ E y <> 0 -> exists x, In (x, y) E). { clear. intros y. induction E as [|(c, d) E IH]; cbn [id_ fold_right snd]; [congruence|]. fold (id_ E y). unfold b2. destruct (Z.eqb_spec y d) as [->|N]; [exists c; left; auto|]. intro Q. destruct IH as (x & I); [lia|]. exists x. right. auto. }
    destruct (PJ s) as (x & J). { apply K4. exists q. destruct (A4 p q I). split; [auto|]. specialize (PI p q I). lia. }
    destruct T as (_ & P). apply (Permutation_in _ (Permutation_sym P)) in J. apply steps_In in J. tauto.
  - eexists. split; [reflexivity|]. intros a w T. destruct K as (x & K). pose proof (trail_bal E a w a x T). lia.
Qed.
(* end points *)
Lemma ends_ok n E e : 0 <= n -> GI n E e -> exists s t i, eul_ends e = Ok (s, t, i) /\
  (s = -1 \/ (0 <= s < n /\ od E s - id_ E s = 1)) /\ (t = -1 \/ (0 <= t < n /\ od E t - id_ E t = -1)) /\ (i = -1 \/ 0 <= i) /\
  (i = -1 -> forall j, 0 <= j < n -> od E j - id_ E j = b2 j s - b2 j t) /\ (0 <= i -> forall a b, ~ forall j, 0 <= j < n -> od E j - id_ E j = b2 j a - b2 j b).
Proof.
  intros Hn [A1 A2 A3 A4]. unfold eul_ends. rewrite A1. set (D := fun j => od E j - id_ E j).
  match goal with |- context [for_ 0 n ?bd ?s0] => destruct (for_inv (fun k st => let '(s, t, i) := st in (s = -1 \/ (0 <= s < k /\ D s = 1)) /\ (t = -1 \/ (0 <= t < k /\ D t = -1)) /\ (i = -1 \/ 0 <= i) /\ (i = -1 -> forall j, 0 <= j < k -> D j = b2 j s - b2 j t) /\ (0 <= i -> forall a b, ~ forall j, 0 <= j < k -> D j = b2 j a - b2 j b)) 0 n bd s0) as (((s & t) & i) & -> & K) end; [auto| | |eauto 10].
  - split; [auto|]. split; [auto|]. split; [auto|]. split; intros; lia.
  - intros k ((s & t) & i) Hk (K1 & K2 & K3 & K4 & K5). rewrite (rep_get _ _ _ k A2) by auto. cbn [bind]. rewrite (rep_get _ _ _ k A3) by auto. cbn [bind]. rewrite succs_od. eexists. split; [reflexivity|].
    assert (M : forall a b, (forall j, 0 <= j < k + 1 -> D j = b2 j a - b2 j b) -> forall j, 0 <= j < k -> D j = b2 j a - b2 j b) by (intros a b X j Hj; apply X; lia).
    assert (DK : od E k = D k + id_ E k) by (unfold D; lia). rewrite DK. clear DK.
    assert (B2 : forall x y, b2 x y = 0 \/ (b2 x y = 1 /\ x = y)) by (intros x y; unfold b2; destruct (Z.eqb_spec x y); auto).
    destruct (Z.eqb_spec (D k + id_ E k) (id_ E k + 1)) as [Q|Q]; [|destruct (Z.eqb_spec (D k + id_ E k) (id_ E k - 1)) as [Q'|Q']; [|destruct (Z.eqb_spec (D k + id_ E k) (id_ E k)) as [Q''|Q'']; cbn [negb]]].
    + destruct (Z.ltb_spec s 0) as [L|L].
      * split; [right; lia|]. split; [lia|]. split; [auto|]. split; [|intros I a b X; apply (K5 I a b); auto]. intros I j Hj. unfold b2 at 1. destruct (Z.eqb_spec j k) as [->|N]; [unfold b2; destruct (Z.eqb_spec k t); lia|]. rewrite (K4 I) by lia. unfold b2. destruct (Z.eqb_spec j s); lia.
      * split; [lia|]. split; [lia|]. split; [right; lia|]. split; [lia|]. intros _ a b X. pose proof (X k ltac:(lia)) as X1. pose proof (X s ltac:(lia)) as X2. destruct (B2 k a), (B2 k b), (B2 s a), (B2 s b); lia.
    + destruct (Z.ltb_spec t 0) as [L|L].
      * split; [lia|]. split; [right; lia|]. split; [auto|]. split; [|intros I a b X; apply (K5 I a b); auto]. intros I j Hj. unfold b2 at 2. destruct (Z.eqb_spec j k) as [->|N]; [unfold b2; destruct (Z.eqb_spec k s); lia|]. rewrite (K4 I) by lia. unfold b2. destruct (Z.eqb_spec j t); lia.
      * split; [lia|]. split; [lia|]. split; [right; lia|]. split; [lia|]. intros _ a b X. pose proof (X k ltac:(lia)) as X1. pose proof (X t ltac:(lia)) as X2. destruct (B2 k a), (B2 k b), (B2 t a), (B2 t b); lia.
    + split; [lia|]. split; [lia|]. split; [auto|]. split; [|intros I a b X; apply (K5 I a b); auto]. intros I j Hj. destruct (Z.eq_dec j k) as [->|N]; [|apply K4; auto; lia]. unfold b2. destruct (Z.eqb_spec k s), (Z.eqb_spec k t); lia.
    + split; [lia|]. split; [lia|]. split; [right; lia|]. split; [lia|]. intros _ a b X. pose proof (X k ltac:(lia)) as X1. destruct (B2 k a), (B2 k b); lia.
Qed.
Lemma rot_cons2 s t done x y w : eul_rot s t done (x :: y :: w) = if (x =? t) && (y =? s) then Ok ((y :: w) ++ rev (x :: done)) else eul_rot s t (x :: done) (y :: w).
Proof. reflexivity. Qed.
Lemma rot_ok s t : forall w done, In (t, s) (steps w) -> exists A B, w = A ++ t :: s :: B /\ eul_rot s t done w = Ok (s :: B ++ rev done ++ A ++ [t]).
Proof.
  induction w as [|x w IH]; intros done I; [destruct I|]. destruct w as [|y w]; [destruct I|]. rewrite steps_cons2 in I. rewrite rot_cons2. destruct (Z.eqb_spec x t) as [->|N]; [destruct (Z.eqb_spec y s) as [->|N]|]; cbn [andb].
  - exists [], w. split; [auto|]. cbn [rev app]. reflexivity.
  - destruct I as [I|I]; [congruence|]. destruct (IH (t :: done) I) as (A & B & E & ->). exists (t :: A), B. split; [rewrite E; auto|]. cbn [rev app]. rewrite <- !app_assoc. auto.
  - destruct I as [I|I]; [congruence|]. destruct (IH (x :: done) I) as (A & B & E & ->). exists (x :: A), B. split; [rewrite E; auto|]. cbn [rev app]. rewrite <- !app_assoc. auto.
Qed.
Lemma trail_ends n E a w b : eok n E -> is_trail E a w b -> a <> b -> 0 <= a < n /\ 0 <= b < n.
Proof.
  intros EO (((r & E1) & q & E2) & P) N. subst w. destruct r as [|c r]; [destruct q as [|d q]; [injection E2; congruence|destruct q; discriminate]|]. split.
  - destruct (EO a c); [|auto]. apply (Permutation_in _ P). left. auto.
  - destruct (@exists_last _ q) as (q' & z & E3); [intros ->; discriminate|]. subst q. destruct (EO z b); [|auto]. apply (Permutation_in _ P). rewrite E2, <- app_assoc. cbn [app]. rewrite steps_app. apply in_or_app. right. left. auto.
Qed.
Lemma perm_rot (P Q E : list (Z * Z)) x y : Permutation ((P ++ x :: Q) ++ [y]) (E ++ [x]) -> Permutation (Q ++ y :: P) E.
Proof.
  intro H. apply Permutation_cons_inv with x. apply perm_trans with (E ++ [x]); [|apply Permutation_sym, Permutation_cons_append]. eapply perm_trans; [|exact H]. rewrite <- app_assoc. cbn [app]. apply perm_trans with (x :: P ++ Q ++ [y]); [|apply Permutation_middle]. constructor. apply perm_trans with ((Q ++ [y]) ++ P); [rewrite <- app_assoc; apply Permutation_refl|apply Permutation_app_comm].
Qed.
Lemma trail_ok n E e diff : 0 < n -> GI n E e -> exists r e', eul_trail e diff = Ok (r, e') /\
  match r with
  | Some w => GI n E e' /\ exists a b, 0 <= a < n /\ 0 <= b < n /\ is_trail E a w b /\ (diff = true -> a <> b)
  | None => forall a w b, is_trail E a w b -> diff = true /\ a = b
  end.
Proof.
  intros Hn G. unfold eul_trail. destruct (ends_ok n E e ltac:(lia) G) as (s & t & i & -> & K1 & K2 & K3 & K4 & K5). cbn [bind]. pose proof G as [A1 A2 A3 A4].
  assert (B2 : forall x y, b2 x y = 0 \/ (b2 x y = 1 /\ x = y)) by (intros x y; unfold b2; destruct (Z.eqb_spec x y); auto). assert (BR : forall x, b2 x x = 1) by (intro x; unfold b2; rewrite Z.eqb_refl; auto).
  destruct (negb diff && (s <? 0) && (t <? 0) && (i <? 0)) eqn:C1.
  { destruct (circuit_any n E e Hn G) as (r & -> & C). cbn [bind]. eexists _, _. split; [reflexivity|]. apply andb_true_iff in C1. destruct C1 as (C1 & C4). apply andb_true_iff in C1. destruct C1 as (C1 & C3). apply andb_true_iff in C1. destruct C1 as (C1 & C2). apply Z.ltb_lt in C2, C3, C4. destruct r as [w|].
    - split; [auto|]. destruct C as (a & Ha & T). exists a, a. split; [auto|]. split; [auto|]. split; [auto|]. intros ->. discriminate.
    - intros a w b T. exfalso. destruct (Z.eq_dec a b) as [->|N]; [apply (C b w T)|]. destruct (trail_ends n E a w b A4 T N) as (Ha & _). pose proof (trail_bal E a w b a T) as TB. rewrite (K4 ltac:(lia)) in TB by auto. rewrite BR in TB. destruct (B2 a s), (B2 a t), (B2 a b); lia. }
  destruct ((s <? 0) || (t <? 0) || (0 <=? i)) eqn:C2.
  { eexists _, _. split; [reflexivity|]. intros a w b T. pose proof (fun j (_ : 0 <= j < n) => trail_bal E a w b j T) as TB. destruct (Z.eq_dec i (-1)) as [I|I]; [|exfalso; apply (K5 ltac:(lia) a b); auto]. specialize (K4 I). destruct (Z.eq_dec a b) as [->|N].
    - split; [|auto]. assert (s = -1) by (destruct K1 as [K1|(K1 & K1')]; [auto|]; specialize (TB s K1); lia). assert (t = -1) by (destruct K2 as [K2|(K2 & K2')]; [auto|]; specialize (TB t K2); lia). subst. destruct diff; [auto|]. cbn in C1. discriminate.
    - exfalso. destruct (trail_ends n E a w b A4 T N) as (Ha & Hb). pose proof (TB a Ha) as T1. pose proof (TB b Hb) as T2. rewrite K4 in T1, T2 by auto. rewrite BR in T1, T2. apply orb_true_iff in C2. destruct C2 as [C2|C2]; [|apply Z.leb_le in C2; lia]. apply orb_true_iff in C2. rewrite !Z.ltb_lt in C2. destruct (B2 a s), (B2 a t), (B2 b s), (B2 b t), (B2 a b), (B2 b a); lia. }
  apply orb_false_iff in C2. destruct C2 as (C2 & C4). apply orb_false_iff in C2. destruct C2 as (C2 & C3). apply Z.ltb_ge in C2, C3. apply Z.leb_gt in C4. destruct K1 as [->|(Hs & Ds)]; [lia|]. destruct K2 as [->|(Ht & Dt)]; [lia|]. specialize (K4 ltac:(lia)).
  destruct (add_gi n E e t s G Ht Hs) as (e1 & -> & G1). cbn [bind]. destruct (circuit_from n _ e1 s ltac:(lia) G1 Hs) as (r & -> & C). cbn [bind]. destruct r as [w|].
  - destruct C as (W & P). pose proof W as ((r & E1) & q & E2). assert (NEq : q <> []). { intros ->. rewrite E2 in P. cbn [app steps] in P. apply Permutation_length in P. rewrite app_length in P. cbn in P. lia. }
    destruct (@exists_last _ q NEq) as (q' & y & E3). rewrite E2, removelast_last. cbv zeta. pose proof G1 as [D1 D2 D3 D4]. rewrite (rep_get _ _ _ t D2) by auto. cbn [bind]. rewrite (rep_set _ _ _ t _ D2) by auto. cbn [bind]. rewrite (rep_get _ _ _ s D3) by auto. cbn [bind]. rewrite (rep_set _ _ _ s _ D3) by auto. cbn [bind].
    set (e2 := mkEul _ _ _). assert (G2 : GI n E e2). { constructor; unfold e2; cbn [e_n e_g e_in]; auto.
      - apply (rep_ext _ _ _ _ (rep_upd _ _ _ t _ D2 Ht)). intros x Hx. unfold fupd. rewrite !succs_snoc, Z.eqb_refl, removelast_last. destruct (Z.eqb_spec x t) as [->|N]; [auto|]. destruct (Z.eqb_spec t x); [congruence|apply app_nil_r].
      - apply (rep_ext _ _ _ _ (rep_upd _ _ _ s _ D3 Hs)). intros x Hx. unfold fupd. rewrite !id_app. cbn [id_ fold_right snd]. unfold b2. rewrite Z.eqb_refl. destruct (Z.eqb_spec x s) as [->|N]; lia. }
    assert (Wq : walk s q y). { split; [|exists q'; auto]. rewrite E1 in E2. destruct q as [|c q]; [congruence|]. injection E2 as <- _. exists q. auto. }
    assert (SW : steps w = steps q ++ [(y, s)]) by (rewrite E2, E3, <- app_assoc; cbn [app]; rewrite steps_app; auto). rewrite SW in P.
    assert (LQ : last q (-1) = y) by (rewrite E3; apply last_last). rewrite LQ. assert (ST : s <> t) by (intros ->; lia). destruct (Z.eqb_spec y t) as [->|N].
    + eexists _, _. split; [reflexivity|]. split; [auto|]. exists s, t. split; [auto|]. split; [auto|]. split; [|auto]. split; [auto|]. apply (Permutation_app_inv_r [(t, s)]). auto.
    + assert (I : In (t, s) (steps q)). { assert (I : In (t, s) (steps q ++ [(y, s)])) by (apply (Permutation_in _ (Permutation_sym P)), in_or_app; right; left; auto). apply in_app_or in I. destruct I as [I|[I|[]]]; [auto|congruence]. }
      destruct (rot_ok s t q [] I) as (A & B & E4 & ->). cbn [bind rev app]. eexists _, _. split; [reflexivity|]. split; [auto|]. exists s, t. split; [auto|]. split; [auto|]. split; [|auto].
      assert (WA : walk s (A ++ [t]) t). { split; [|exists A; auto]. destruct Wq as ((r1 & Wq) & _). rewrite E4 in Wq. destruct A as [|c A]; cbn [app] in *; [injection Wq as ->; congruence|]. injection Wq as -> _. exists (A ++ [t]). auto. }
      assert (WB : walk s (s :: B) y). { split; [exists B; auto|]. destruct (@exists_last _ (s :: B)) as (q2 & z & E5); [discriminate|]. rewrite E3 in E4. rewrite E5 in E4. change (t :: q2 ++ [z]) with ((t :: q2) ++ [z]) in E4. rewrite app_assoc in E4. apply app_inj_tail in E4. destruct E4 as (_ & ->). exists q2. auto. }
      destruct (walk_app s (s :: B) y s (A ++ [t]) t WB WA) as (W1 & W2). cbn [app] in W1, W2. split; [auto|]. rewrite W2. rewrite E4, steps_app in P. apply perm_rot in P. exact P.
  - eexists _, _. split; [reflexivity|]. intros a w b T. exfalso. pose proof (trail_bal E a w b s T) as T1. pose proof (trail_bal E a w b t T) as T2. assert (a = s) by (destruct (B2 s a), (B2 s b); lia). assert (b = t) by (destruct (B2 t a), (B2 t b); lia). subst a b. destruct T as (W & P). destruct (walk_app s w t s [s] s W (walk_one s)) as (W1 & W2). apply (C s (w ++ [s])); [|apply in_or_app; right; left; auto]. split; [auto|]. rewrite W2. cbn [steps]. rewrite P. auto.
Qed.
