(* Proofs about LowLink_model: all trees of the search, and what the derivation says. *)
From Verif Require Import Base BaseLemmas ListZ Seq ListMore SpSeg_proof LowLink_model LowLink_proof.

Ltac slim := repeat match goal with
  | H : ?X -> _ |- _ => match type of X with Prop => clear H end
  | H : _ \/ _ |- _ => clear H | H : _ <-> _ |- _ => clear H | H : forall _, _ |- _ => clear H | H : exists _, _ |- _ => clear H | H : ~ _ |- _ => clear H end.
Ltac qlia := first [solve [slim; lia] | lia].

Inductive trees (G : Z -> list (Z * Z)) (w : W) : Z -> Z -> list Z -> list Z -> list Z -> Prop :=
| t_nil : trees G w 0 0 [] [] []
| t_skip i c bs ars rs : trees G w i c bs ars rs -> 0 <= wP w i < c -> trees G w (i + 1) c bs ars rs
| t_root i c bs ars rs ia ch bs1 ars1 : trees G w i c bs ars rs -> wP w i = c -> wA w i = -1 -> wT w i = -1 ->
    walk G w i (G i) (c + 1, c, false, 0) (wO w i, wL w i, ia, ch) bs1 ars1 ->
    trees G w (i + 1) (wO w i) (bs ++ bs1) (ars ++ ars1 ++ (if ia || (1 <? ch) then [i] else [])) (rs ++ [i]).

Section D.
  Variable n : Z.
  Variable g : list (list (Z * Z)).
  Variable G : Z -> list (Z * Z).
  Hypothesis Hg : rep g n G.
  Hypothesis HG1 : forall u y id, 0 <= u < n -> In (y, id) (G u) -> 0 <= y < n /\ 0 <= id.
  Hypothesis HG2 : forall u y z id, 0 <= u < n -> u <> y -> In (y, id) (G u) -> In (z, id) (G y) -> z = u.
  Notation vx v := (0 <= v < n).

  Lemma trees_frame w w' : forall i c bs ars rs, trees G w i c bs ars rs -> i <= n ->
    (forall v, vx v -> 0 <= wP w v < c -> wP w' v = wP w v /\ wA w' v = wA w v /\ wL w' v = wL w v /\ wT w' v = wT w v /\ wO w' v = wO w v) ->
    trees G w' i c bs ars rs /\ 0 <= i /\ 0 <= c.
  Proof.
    intros i c bs ars rs H. induction H as [|i c bs ars rs H IH Hc|i c bs ars rs ia ch bs1 ars1 H IH EP EA ET H1]; intros Hi F.
    - split; [constructor|lia].
    - destruct (IH ltac:(lia) F) as (T1 & T2 & T3). destruct (F i ltac:(lia) Hc) as (F1 & _). split; [|lia]. apply t_skip; auto. lia.
    - pose proof (walk_mono _ _ _ _ _ _ _ _ H1) as M. cbn [a_c] in M.
      destruct (IH ltac:(lia)) as (T1 & T2 & T3). { intros v Vv R. apply F; auto. lia. }
      destruct (F i ltac:(lia) ltac:(lia)) as (F1 & F2 & F3 & F4 & F5). split; [|lia]. rewrite <- F5. apply t_root with (c := c); auto; try congruence.
      rewrite F5, F3. apply (walk_frame n G HG1 HG2 w w' i (G i) _ _ _ _ H1); [lia|apply incl_refl| | | |auto|auto].
      + cbn [a_c]. intros v Vv R. apply F; auto; lia.
      + cbn [a_c]. intros v Vv R. destruct (F v Vv ltac:(lia)) as (X1 & X2 & X3 & X4 & X5). auto.
      + cbn [a_c]. lia.
  Qed.
  Lemma build_loop : 0 <= n -> exists s w rs,
    for_ 0 n (ll_root n g) (mkD (vrep n (-1)) (vrep n 0) (vrep n (-1)) [] [] 0, 0) = Ok (s, zlen rs) /\ dinv n s w /\ trees G w n (d_ord s) (d_br s) (d_art s) rs.
  Proof.
    intro Hn. destruct (for_inv (fun i (st : ds * Z) => exists w rs, snd st = zlen rs /\ dinv n (fst st) w /\ trees G w i (d_ord (fst st)) (d_br (fst st)) (d_art (fst st)) rs /\
      forall v, vx v -> wP w v < 0 -> wA w v = -1) 0 n (ll_root n g) (mkD (vrep n (-1)) (vrep n 0) (vrep n (-1)) [] [] 0, 0)) as ((s, k) & E & w & rs & Ek & I & T & _); auto.
    - exists (mkW (fun _ => -1) (fun _ => -1) (fun _ => 0) (fun _ => 0) (fun _ => 0)), []. cbn [fst snd d_ord d_br d_art]. split; [reflexivity|]. split.
      + unfold dinv. cbn [d_pre d_low d_par d_ord wP wL wA]. split; [apply rep_vrep; auto|]. split; [apply rep_vrep; auto|]. split; [apply rep_vrep; auto|]. split; [lia|].
        unfold vis. cbn [wP]. split; [intros; lia|]. split; [intros; lia|]. exists []. split; [constructor|]. split; [reflexivity|]. intro v. split; [intros []|lia].
      + split; [constructor|]. auto.
    - intros i (s, k) Hi (w & rs & Ek & I & T & U). cbn [fst snd] in *. unfold ll_root. pose proof I as (R1 & R2 & R3 & O0 & B & J & CV).
      rewrite (rep_get _ _ _ i R1 Hi). cbn [bind]. destruct (Z.ltb_spec (wP w i) 0) as [L|L].
      + set (w1 := mkW (wP w) (wA w) (wL w) (fupd (wT w) i (-1)) (wO w)). assert (I1 : dinv n s w1) by exact I.
        destruct (dfs_ok n g G Hg HG1 HG2 (S (Z.to_nat n)) i s w1) as (s' & w' & E & ia & ch & bs & ars & I' & Pi & Oi & Ai & Ti & Wi & Br & Ar & F & Lo); auto.
        { lia. }
        { cbn [wT w1]. rewrite fupd_same. intros y Iy. apply HG1 in Iy; lia. }
        cbn [wT w1] in E, Ti, Ar. rewrite fupd_same in E, Ti, Ar. rewrite E. cbn [bind]. eexists. split; [reflexivity|]. cbn [fst snd]. exists w', (rs ++ [i]).
        split; [rewrite zlen_app; change (zlen [i]) with 1; lia|]. split; [auto|]. destruct F as (Fa & Fb). split.
        * rewrite Br, Ar, <- Oi. cbn [Z.ltb Z.compare andb]. change (-1 <? 0) with true. cbn [andb]. apply t_root with (c := d_ord s).
          -- apply (trees_frame w); auto; [lia|]. intros v Vv R. assert (Vi : vis n w1 v) by (split; auto; cbn [wP w1]; lia). destruct (Fa v Vi) as ((X1 & X2 & X3 & X4) & X5).
             specialize (X5 ltac:(discriminate)). cbn [wP wA wL wT wO w1] in *. assert (v <> i) by (intros ->; lia). rewrite fupd_diff in X3 by auto. auto.
          -- auto.
          -- rewrite Ai. cbn [wA w1]. apply U; auto.
          -- auto.
          -- rewrite Oi. exact Wi.
        * intros v Vv Hv. destruct (Z.lt_ge_cases (wP w v) 0) as [Q|Q].
          -- destruct (Fb v Vv Q) as [(_ & X)|X]; [rewrite X; apply U; auto|]. lia.
          -- destruct (Fa v ltac:(split; auto)) as ((X & _) & _). cbn [wP w1] in X. lia.
      + eexists. split; [reflexivity|]. cbn [fst snd]. exists w, rs. split; [auto|]. split; [auto|]. split; [|auto]. apply t_skip; auto. pose proof (B i ltac:(split; auto)). lia.
    - exists s, w, rs. cbn [fst snd] in *. rewrite E, Ek. auto.
  Qed.

  (* ---- static facts ---- *)
  Variable w : W.
  Notation P := (wP w). Notation A := (wA w). Notation L := (wL w). Notation T := (wT w). Notation Q := (wO w).
  Hypothesis inj : forall v v', vx v -> vx v' -> 0 <= P v -> P v = P v' -> v = v'.
  Definition node (y : Z) : Prop := exists ia ch bs ars, walk G w y (G y) (P y + 1, P y, false, 0) (Q y, L y, ia, ch) bs ars.
  Definition tedge (y : Z) : Prop := 0 <= T y /\ vx (A y) /\ In (y, T y) (G (A y)) /\ 0 <= P (A y) < P y.
  Lemma walk_nodes : forall u adj a a' bs ars, walk G w u adj a a' bs ars -> vx u -> incl adj (G u) -> 0 <= P u < a_c a ->
    forall y, vx y -> a_c a <= P y < a_c a' -> node y /\ Q y <= a_c a' /\ tedge y /\ (A y = u \/ (a_c a <= P (A y) /\ Q y <= Q (A y))).
  Proof.
    intros u adj a a' bs ars H. induction H as [u a|u y adj c l ia ch a' bs ars Hy H IH|u y id adj c l ia ch a' bs ars N Hy H IH|u y id adj c l ia ch ia1 ch1 bs1 ars1 a' bs ars N EP EA ET H1 IH1 H2 IH2];
      intros Hu Hin Pu z Vz R; cbn [a_c] in *; try (assert (Hin' : incl adj (G u)) by (intros e Ie; apply Hin; right; auto)).
    - lia.
    - apply IH; auto.
    - apply IH; auto.
    - pose proof (walk_mono _ _ _ _ _ _ _ _ H1) as M1. pose proof (walk_mono _ _ _ _ _ _ _ _ H2) as M2. cbn [a_c] in M1, M2.
      assert (Iy : In (y, id) (G u)) by (apply Hin; left; auto). destruct (HG1 u y id Hu Iy) as (Vy & Hid).
      assert (Ny : node y). { exists ia1, ch1, bs1, ars1. rewrite EP. exact H1. }
      destruct (Z.eq_dec (P z) c) as [E|E].
      + assert (z = y) as -> by (apply inj; auto; lia). split; [auto|]. split; [lia|]. split; [|left; auto]. unfold tedge. rewrite EA, ET. repeat split; auto; lia.
      + destruct (Z.lt_ge_cases (P z) (Q y)) as [X|X].
        * destruct (IH1 Vy (incl_refl _) ltac:(lia) z Vz ltac:(lia)) as (B1 & B2 & B3 & B4). split; [auto|]. split; [lia|]. split; [auto|]. right.
          destruct B4 as [->|(B4 & B5)]; [split; lia|split; lia].
        * destruct (IH2 Hu Hin' ltac:(lia) z Vz ltac:(lia)) as (B1 & B2 & B3 & B4). split; [auto|]. split; [lia|]. split; [auto|].
          destruct B4 as [->|(B4 & B5)]; [left; auto|right; split; lia].
  Qed.
  Definition placed (y : Z) : Prop := node y /\ ((A y = -1 /\ T y = -1) \/ (tedge y /\ Q y <= Q (A y))).
  Lemma trees_all : forall i c bs ars rs, trees G w i c bs ars rs -> i <= n ->
    0 <= i /\ 0 <= c /\ (forall y, vx y -> y < i -> 0 <= P y < c) /\ (forall y, vx y -> 0 <= P y < c -> placed y) /\
    NoDup rs /\ (forall r, In r rs <-> vx r /\ 0 <= P r < c /\ A r = -1) /\ (forall r, In r rs -> r < i).
  Proof.
    intros i c bs ars rs H. induction H as [|i c bs ars rs H IH Hc|i c bs ars rs ia ch bs1 ars1 H IH EP EA ET H1]; intros Hi.
    - split; [lia|]. split; [lia|]. split; [intros; lia|]. split; [intros; lia|]. split; [constructor|]. split; [intro r; split; [intros []|intros; lia]|intros r []].
    - destruct (IH ltac:(lia)) as (I1 & I2 & I3 & I4 & I5 & I6 & I7). split; [lia|]. split; [auto|]. split; [|split; [auto|split; [auto|split; [auto|intros r Ir; specialize (I7 r Ir); lia]]]].
      intros y Vy Ly. destruct (Z.eq_dec y i) as [->|]; [auto|apply I3; auto; lia].
    - destruct (IH ltac:(lia)) as (I1 & I2 & I3 & I4 & I5 & I6 & I7). pose proof (walk_mono _ _ _ _ _ _ _ _ H1) as M. cbn [a_c] in M.
      assert (Vi : vx i) by lia. assert (Ni : node i) by (exists ia, ch, bs1, ars1; rewrite EP; exact H1).
      assert (NW : forall y, vx y -> c < P y < Q i -> node y /\ tedge y /\ Q y <= Q (A y) /\ c <= P (A y)).
      { intros y Vy R. destruct (walk_nodes _ _ _ _ _ _ H1 Vi (incl_refl _) ltac:(cbn [a_c]; lia) y Vy ltac:(cbn [a_c]; lia)) as (B1 & B2 & B3 & B4). cbn [a_c] in *.
        split; [auto|]. split; [auto|]. destruct B4 as [->|(B4 & B5)]; split; lia. }
      split; [lia|]. split; [lia|]. split; [|split; [|split; [|split]]].
      + intros y Vy Ly. destruct (Z.eq_dec y i) as [->|]; [lia|]. pose proof (I3 y Vy ltac:(lia)). lia.
      + intros y Vy R. destruct (Z.lt_ge_cases (P y) c) as [X|X]; [apply I4; auto; lia|]. destruct (Z.eq_dec (P y) c) as [E|E].
        * assert (y = i) as -> by (apply inj; auto; lia). split; auto.
        * destruct (NW y Vy ltac:(lia)) as (B1 & B2 & B3 & B4). split; auto.
      + apply NoDup_app_snoc; auto. intro Ir. apply I7 in Ir. lia.
      + intro r. rewrite in_app_iff, I6. cbn [In]. split.
        * intros [(X1 & X2 & X3)|[<-|[]]]; [split; [auto|split; [lia|auto]]|split; [auto|split; [lia|auto]]].
        * intros (X1 & X2 & X3). destruct (Z.lt_ge_cases (P r) c) as [X|X]; [left; split; [auto|split; [lia|auto]]|]. right. left. destruct (Z.eq_dec (P r) c) as [E|E]; [apply inj; auto; lia|].
          destruct (NW r X1 ltac:(lia)) as (_ & (_ & (X4 & _) & _) & _). lia.
      + intros r Ir. apply in_app_or in Ir. destruct Ir as [Ir|[<-|[]]]; [apply I7 in Ir|]; lia.
  Qed.

  (* second pass: all vertices are placed *)
  Hypothesis PL : forall y, vx y -> 0 <= P y /\ placed y.
  Lemma P_lt_Q y : vx y -> P y < Q y.
  Proof. intro Vy. destruct (PL y Vy) as (_ & (ia & ch & bs & ars & H) & _). apply walk_mono in H. cbn [a_c] in H. lia. Qed.
  Lemma child y : vx y -> A y <> -1 -> tedge y /\ Q y <= Q (A y) /\ P y < Q (A y).
  Proof. intros Vy N. destruct (PL y Vy) as (_ & _ & [(X & _)|(X1 & X2)]); [congruence|]. pose proof (P_lt_Q y Vy). split; [auto|]. split; lia. Qed.
  Lemma inside x y : vx x -> vx y -> P x < P y < Q x -> A y <> -1 /\ P x <= P (A y).
  Proof.
    intros Vx Vy R. destruct (PL x Vx) as (X0 & (ia & ch & bs & ars & H) & _).
    destruct (walk_nodes _ _ _ _ _ _ H Vx (incl_refl _) ltac:(cbn [a_c]; lia) y Vy ltac:(cbn [a_c]; lia)) as (B1 & B2 & (_ & B3 & _) & B4). cbn [a_c] in *.
    split; [lia|]. destruct B4 as [->|(B4 & _)]; lia.
  Qed.
  Definition low_le (u : Z) (adj : list (Z * Z)) (c c' l : Z) : Prop :=
    (forall y id, In (y, id) adj -> id <> T u -> l <= P y) /\ (forall z, vx z -> A z = u -> c <= P z < c' -> l <= L z).
  Definition low_is (u : Z) (adj : list (Z * Z)) (c c' l l' : Z) : Prop :=
    l' = l \/ (exists y id, In (y, id) adj /\ id <> T u /\ l' = P y) \/ (exists z, vx z /\ A z = u /\ c <= P z < c' /\ l' = L z).
  (* children of u in the interval [c, c') *)
  Definition kids (u c c' : Z) (cs : list Z) : Prop := NoDup cs /\ forall z, In z cs <-> vx z /\ A z = u /\ c <= P z < c'.
  Definition a_l (a : acc) : Z := let '(_, l, _, _) := a in l.
  Definition a_i (a : acc) : bool := let '(_, _, i, _) := a in i.
  Definition a_h (a : acc) : Z := let '(_, _, _, h) := a in h.
  Lemma no_kid u y z : vx z -> vx y -> A z = u -> 0 <= P u < P y -> P y < P z < Q y -> False.
  Proof. intros Vz Vy Az Hu R. destruct (inside y z Vy Vz R) as (_ & B). rewrite Az in B. lia. Qed.
  Lemma walk_facts : forall u adj a a' bs ars, walk G w u adj a a' bs ars -> vx u -> incl adj (G u) -> 0 <= P u < a_c a ->
    (forall y id, In (y, id) adj -> P y < a_c a') /\ a_l a' <= a_l a /\ low_le u adj (a_c a) (a_c a') (a_l a') /\ low_is u adj (a_c a) (a_c a') (a_l a) (a_l a') /\
    (T u < 0 -> a_i a = false -> a_i a' = false) /\ (0 <= T u -> (a_i a' = true <-> a_i a = true \/ exists z, vx z /\ A z = u /\ a_c a <= P z < a_c a' /\ P u <= L z)) /\
    (exists cs, kids u (a_c a) (a_c a') cs /\ a_h a' = a_h a + zlen cs).
  Proof.
    intros u adj a a' bs ars H. induction H as [u a|u y adj c l ia ch a' bs ars Hy H IH|u y id adj c l ia ch a' bs ars N Hy H IH|u y id adj c l ia ch ia1 ch1 bs1 ars1 a' bs ars N EP EA ET H1 _ H2 IH2];
      intros Hu Hin Pu; cbn [a_c a_l a_i a_h] in *; try (assert (Hin' : incl adj (G u)) by (intros e Ie; apply Hin; right; auto)).
    - split; [intros y id []|]. split; [qlia|]. split; [split; [intros y id []|intros; qlia]|]. split; [left; auto|]. split; [auto|]. split.
      + intros _. split; [auto|]. intros [X|(z & _ & _ & X & _)]; [auto|qlia].
      + exists []. split; [split; [constructor|]|change (zlen (@nil Z)) with 0; qlia]. intro z. split; [intros []|intros (_ & _ & X); qlia].
    - pose proof (walk_mono _ _ _ _ _ _ _ _ H) as M. cbn [a_c] in M. destruct (IH Hu Hin' Pu) as (B1 & B2 & (B3 & B3') & B4 & B5 & B6 & B7).
      split; [intros z id [X|X]; [injection X as <- <-; qlia|eauto]|]. split; [auto|]. split; [split; [intros z id [X|X] Nz; [congruence|eauto]|auto]|]. split; [|split; [auto|split; [auto|auto]]].
      destruct B4 as [B4|[(z & id & B4 & B4')|B4]]; [left; auto|right; left; exists z, id; split; [right; auto|auto]|right; right; auto].
    - pose proof (walk_mono _ _ _ _ _ _ _ _ H) as M. cbn [a_c] in M. destruct (IH Hu Hin' Pu) as (B1 & B2 & (B3 & B3') & B4 & B5 & B6 & B7).
      split; [intros z i [X|X]; [injection X as <- <-; qlia|eauto]|]. split; [qlia|]. split; [split; [intros z i [X|X] Nz; [injection X as <- <-; qlia|eauto]|auto]|]. split; [|split; [auto|split; [auto|auto]]].
      destruct B4 as [B4|[(z & i & B4 & B4')|B4]]; [|right; left; exists z, i; split; [right; auto|auto]|right; right; auto].
      destruct (Z.le_gt_cases l (P y)); [left; qlia|right; left]. exists y, id. split; [left; auto|]. split; [auto|]. qlia.
    - pose proof (walk_mono _ _ _ _ _ _ _ _ H1) as M1. pose proof (walk_mono _ _ _ _ _ _ _ _ H2) as M2. cbn [a_c] in M1, M2.
      assert (Iy : In (y, id) (G u)) by (apply Hin; left; auto). destruct (HG1 u y id Hu Iy) as (Vy & Hid).
      destruct (IH2 Hu Hin' ltac:(qlia)) as (B1 & B2 & (B3 & B3') & B4 & B5 & B6 & B7). 
      assert (Cz : forall z, vx z -> A z = u -> c <= P z < a_c a' -> z = y \/ Q y <= P z < a_c a').
      { intros z Vz Az R. destruct (Z.eq_dec (P z) c) as [E|E]; [left; apply inj; auto; qlia|right]. split; [|qlia]. destruct (Z.le_gt_cases (Q y) (P z)); auto. exfalso. apply (no_kid u y z); auto; qlia. }
      assert (Cy : c <= P y < a_c a') by qlia.
      assert (Ly : L y <= P y).
      { destruct (PL y Vy) as (_ & (i1 & h1 & b1 & r1 & HH) & _). clear - HH. assert (LL : forall u adj a a' bs ars, walk G w u adj a a' bs ars -> a_l a' <= a_l a) by (induction 1; cbn [a_l] in *; qlia). apply LL in HH. cbn [a_l] in HH. auto. }
      split; [intros z i [X|X]; [injection X as <- <-; qlia|eauto]|]. split; [qlia|]. split; [|split; [|split; [|split]]].
      + split; [intros z i [X|X] Nz; [injection X as <- <-; qlia|eauto]|]. intros z Vz Az R. destruct (Cz z Vz Az R) as [->|X]; [qlia|apply B3'; auto].
      + destruct B4 as [B4|[(z & i & B4 & B4')|(z & Z1 & Z2 & Z3 & Z4)]]; [|right; left; exists z, i; split; [right; auto|auto]|right; right; exists z; split; [auto|split; [auto|split; [qlia|auto]]]].
        destruct (Z.le_gt_cases l (L y)); [left; qlia|right; right]. exists y. split; [auto|]. split; [auto|]. split; [qlia|qlia].
      + intros Tu Ia. apply B5; auto. destruct (Z.leb_spec (P u) (L y)); auto. destruct (Z.ltb_spec (T u) 0); [auto|qlia].
      + intro Tu. rewrite (B6 Tu). split.
        * intros [X|(z & Z1 & Z2 & Z3 & Z4)]; [|right; exists z; split; [auto|split; [auto|split; [qlia|auto]]]].
          destruct (Z.leb_spec (P u) (L y)); [right; exists y; auto|left; auto].
        * intros [X|(z & Z1 & Z2 & Z3 & Z4)].
          -- left. rewrite X. destruct (Z.leb_spec (P u) (L y)); auto. destruct (Z.ltb_spec (T u) 0); [qlia|auto].
          -- destruct (Cz z Z1 Z2 Z3) as [->|X]; [|right; exists z; auto]. left. destruct (Z.leb_spec (P u) (L y)); [|qlia]. destruct (Z.ltb_spec (T u) 0); [qlia|auto].
      + destruct B7 as (cs & (K1 & K2) & K3). exists (y :: cs). split; [|rewrite zlen_cons; qlia]. split.
        * constructor; auto. rewrite K2. intros (_ & _ & X). qlia.
        * intro z. cbn [In]. rewrite K2. split.
          -- intros [<-|(Z1 & Z2 & Z3)]; [auto|]. split; [auto|split; [auto|qlia]].
          -- intros (Z1 & Z2 & Z3). destruct (Cz z Z1 Z2 Z3) as [->|X]; [left; auto|right; auto].
  Qed.

  Lemma in_interval y u : vx y -> vx u -> A y = u -> P u < P y < Q u.
  Proof. intros Vy Vu Ay. destruct (child y Vy ltac:(lia)) as ((_ & _ & _ & X1) & _ & X2). rewrite Ay in *. lia. Qed.
  Definition cuts_child (x : Z) : Prop := exists z, vx z /\ A z = x /\ P x <= L z.
  Lemma node_art y ia ch bs ars : vx y -> 0 <= T y -> walk G w y (G y) (P y + 1, P y, false, 0) (Q y, L y, ia, ch) bs ars -> (ia = true <-> cuts_child y).
  Proof.
    intros Vy Ty H. destruct (walk_facts _ _ _ _ _ _ H Vy (incl_refl _)) as (_ & _ & _ & _ & _ & B & _). { cbn [a_c]. destruct (PL y Vy). lia. } cbn [a_i a_c] in B. rewrite (B Ty). split.
    - intros [X|(z & Z1 & Z2 & Z3 & Z4)]; [discriminate|]. exists z. auto.
    - intros (z & Z1 & Z2 & Z3). right. exists z. pose proof (in_interval z y Z1 Vy Z2). split; [auto|]. split; [auto|]. split; [lia|auto].
  Qed.
  Hypothesis Tinj : forall y y', vx y -> vx y' -> 0 <= T y -> T y = T y' -> y = y'.
  Lemma walk_lists : forall u adj a a' bs ars, walk G w u adj a a' bs ars -> vx u -> incl adj (G u) -> 0 <= P u < a_c a ->
    (forall i, In i bs <-> exists z, vx z /\ a_c a <= P z < a_c a' /\ T z = i /\ P (A z) < L z) /\ NoDup bs /\
    (forall x, In x ars <-> vx x /\ a_c a <= P x < a_c a' /\ cuts_child x) /\ NoDup ars.
  Proof.
    intros u adj a a' bs ars H. induction H as [u a|u y adj c l ia ch a' bs ars Hy H IH|u y id adj c l ia ch a' bs ars N Hy H IH|u y id adj c l ia ch ia1 ch1 bs1 ars1 a' bs ars N EP EA ET H1 IH1 H2 IH2];
      intros Hu Hin Pu; cbn [a_c] in *; try (assert (Hin' : incl adj (G u)) by (intros e Ie; apply Hin; right; auto)).
    - split; [intro i; split; [intros []|intros (z & _ & X & _); qlia]|]. split; [constructor|]. split; [|constructor]. intro x. split; [intros []|intros (_ & X & _); qlia].
    - apply IH; auto.
    - apply IH; auto.
    - pose proof (walk_mono _ _ _ _ _ _ _ _ H1) as M1. pose proof (walk_mono _ _ _ _ _ _ _ _ H2) as M2. cbn [a_c] in M1, M2.
      assert (Iy : In (y, id) (G u)) by (apply Hin; left; auto). destruct (HG1 u y id Hu Iy) as (Vy & Hid).
      destruct (IH1 Vy (incl_refl _) ltac:(qlia)) as (B1 & B2 & B3 & B4). destruct (IH2 Hu Hin' ltac:(qlia)) as (C1 & C2 & C3 & C4).
      assert (Ty : 0 <= T y) by qlia. rewrite <- EP in H1. pose proof (node_art y ia1 ch1 bs1 ars1 Vy Ty H1) as NA.
      assert (Cz : forall z, vx z -> c <= P z < a_c a' -> c + 1 <= P z < Q y \/ z = y \/ Q y <= P z < a_c a').
      { intros z Vz R. destruct (Z.eq_dec (P z) c) as [E|E]; [right; left; apply inj; auto; qlia|qlia]. }
      assert (Tpos : forall z, vx z -> c <= P z < a_c a' -> 0 <= T z).
      { intros z Vz R. destruct (Cz z Vz R) as [X|[->|X]]; [|auto|].
        - destruct (walk_nodes _ _ _ _ _ _ H1 Vy (incl_refl _) ltac:(cbn [a_c]; qlia) z Vz ltac:(cbn [a_c]; qlia)) as (_ & _ & (Y & _) & _). auto.
        - destruct (walk_nodes _ _ _ _ _ _ H2 Hu Hin' ltac:(cbn [a_c]; qlia) z Vz ltac:(cbn [a_c]; qlia)) as (_ & _ & (Y & _) & _). auto. }
      split; [|split; [|split]].
      + intro i. rewrite !in_app_iff, B1, C1. split.
        * intros [(z & Z1 & Z2 & Z3)|[X|(z & Z1 & Z2 & Z3)]]; [exists z; split; [auto|split; [qlia|auto]]| |exists z; split; [auto|split; [qlia|auto]]].
          destruct (Z.ltb_spec (P u) (L y)); [|destruct X]. destruct X as [<-|[]]. exists y. rewrite EA. split; [auto|split; [qlia|auto]].
        * intros (z & Z1 & Z2 & Z3 & Z4). destruct (Cz z Z1 Z2) as [X|[->|X]]; [left; exists z; auto| |right; right; exists z; auto]. right. left. rewrite EA in Z4. destruct (Z.ltb_spec (P u) (L y)); [|qlia]. left. congruence.
      + apply NoDup_app3. split; [auto|]. split; [apply NoDup_app3; split; [|split; [auto|]]|].
        * destruct (P u <? L y); repeat constructor. intros [].
        * intros i X1 X2. apply C1 in X2. destruct X2 as (z & Z1 & Z2 & Z3 & Z4). destruct (P u <? L y); [|destruct X1]. destruct X1 as [<-|[]]. assert (y = z) by (apply Tinj; auto; congruence). subst z. qlia.
        * intros i X1 X2. apply B1 in X1. destruct X1 as (z & Z1 & Z2 & Z3 & Z4). apply in_app_or in X2. destruct X2 as [X2|X2].
          -- destruct (P u <? L y); [|destruct X2]. destruct X2 as [<-|[]]. assert (y = z) by (apply Tinj; auto; congruence). subst z. qlia.
          -- apply C1 in X2. destruct X2 as (z' & Y1 & Y2 & Y3 & Y4). assert (z = z') by (apply Tinj; auto; [apply Tpos; auto; qlia|congruence]). subst z'. qlia.
      + intro x. rewrite !in_app_iff, B3, C3. split.
        * intros [(Z1 & Z2 & Z3)|[X|(Z1 & Z2 & Z3)]]; [split; [auto|split; [qlia|auto]]| |split; [auto|split; [qlia|auto]]].
          destruct ia1; [|destruct X]. destruct X as [<-|[]]. split; [auto|split; [qlia|]]. apply NA. auto.
        * intros (Z1 & Z2 & Z3). destruct (Cz x Z1 Z2) as [X|[->|X]]; [left; auto| |right; right; auto]. right. left. apply NA in Z3. rewrite Z3. left; auto.
      + apply NoDup_app3. split; [auto|]. split; [apply NoDup_app3; split; [|split; [auto|]]|].
        * destruct ia1; repeat constructor. intros [].
        * intros x X1 X2. apply C3 in X2. destruct ia1; [|destruct X1]. destruct X1 as [<-|[]]. qlia.
        * intros x X1 X2. apply B3 in X1. apply in_app_or in X2. destruct X2 as [X2|X2].
          -- destruct ia1; [|destruct X2]. destruct X2 as [<-|[]]. qlia.
          -- apply C3 in X2. qlia.
  Qed.
  (* roots with two children *)
  Definition forks (x : Z) : Prop := exists z z', z <> z' /\ vx z /\ vx z' /\ A z = x /\ A z' = x.
  Definition is_art (x : Z) : Prop := vx x /\ ((A x = -1 /\ forks x) \/ (A x <> -1 /\ cuts_child x)).
  Lemma trees_lists : forall i c bs ars rs, trees G w i c bs ars rs -> i <= n ->
    (forall e, In e bs <-> exists z, vx z /\ P z < c /\ A z <> -1 /\ T z = e /\ P (A z) < L z) /\ NoDup bs /\
    (forall x, In x ars <-> is_art x /\ P x < c) /\ NoDup ars.
  Proof.
    intros i c bs ars rs H. induction H as [|i c bs ars rs H IH Hc|i c bs ars rs ia ch bs1 ars1 H IH EP EA ET H1]; intros Hi.
    - split; [intro e; split; [intros []|intros (z & Vz & Lz & _); destruct (PL z Vz); lia]|]. split; [constructor|]. split; [|constructor]. intro x. split; [intros []|intros ((Vx & _) & Lx); destruct (PL x Vx); lia].
    - apply IH. lia.
    - destruct (trees_all _ _ _ _ _ H ltac:(lia)) as (I1 & I2 & _). destruct (IH ltac:(lia)) as (B1 & B2 & B3 & B4). pose proof (walk_mono _ _ _ _ _ _ _ _ H1) as M. cbn [a_c] in M.
      assert (Vi : vx i) by lia. destruct (walk_lists _ _ _ _ _ _ H1 Vi (incl_refl _) ltac:(cbn [a_c]; lia)) as (C1 & C2 & C3 & C4). cbn [a_c] in *.
      assert (Nw : forall z, vx z -> c + 1 <= P z < Q i -> A z <> -1 /\ 0 <= T z).
      { intros z Vz R. destruct (walk_nodes _ _ _ _ _ _ H1 Vi (incl_refl _) ltac:(cbn [a_c]; lia) z Vz ltac:(cbn [a_c]; lia)) as (_ & _ & (X1 & X2 & _) & _). lia. }
      assert (Cz : forall z, vx z -> P z < Q i -> P z < c \/ z = i \/ c + 1 <= P z < Q i).
      { intros z Vz R. destruct (Z.eq_dec (P z) c) as [E|E]; [right; left; apply inj; auto; lia|lia]. }
      assert (IA : (ia || (1 <? ch) = true) <-> forks i).
      { rewrite <- EP in H1. destruct (walk_facts _ _ _ _ _ _ H1 Vi (incl_refl _) ltac:(cbn [a_c]; lia)) as (_ & _ & _ & _ & D1 & _ & cs & (K1 & K2) & K3). cbn [a_i a_h a_c] in *.
        rewrite D1 by (auto; lia). cbn [orb].
        assert (K4 : forall z, In z cs <-> vx z /\ A z = i). { intro z. rewrite K2. split; [tauto|]. intros (Vz & Az). pose proof (in_interval z i Vz Vi Az). split; [auto|split; [auto|lia]]. }
        split.
        - intro X. destruct cs as [|z [|z' cs]]; [change (zlen (@nil Z)) with 0 in K3; lia|change (zlen [z]) with 1 in K3; lia|]. inversion K1; subst. exists z, z'. split; [intros ->; apply H3; left; auto|].
          destruct (proj1 (K4 z) ltac:(left; auto)). destruct (proj1 (K4 z') ltac:(right; left; auto)). auto.
        - intros (z & z' & X1 & X2 & X3 & X4 & X5). assert (incl [z; z'] cs) as X by (intros q [<-|[<-|[]]]; apply K4; auto).
          apply NoDup_incl_length in X; [|repeat constructor; cbn; intuition congruence]. unfold zlen in K3. cbn [length] in X. lia. }
      split; [|split; [|split]].
      + intro e. rewrite in_app_iff, B1, C1. split.
        * intros [(z & Z1 & Z2 & Z3)|(z & Z1 & Z2 & Z3)]; exists z; [split; [auto|split; [lia|auto]]|]. split; [auto|split; [lia|]]. split; [apply Nw; auto|auto].
        * intros (z & Z1 & Z2 & Z3 & Z4). destruct (Cz z Z1 Z2) as [X|[->|X]]; [left; exists z; auto|congruence|right; exists z; auto].
      + apply NoDup_app3. split; [auto|]. split; [auto|]. intros e X1 X2. apply B1 in X1. apply C1 in X2. destruct X1 as (z & Z1 & Z2 & Z3 & Z4 & _), X2 as (z' & Y1 & Y2 & Y3 & _).
        assert (z' = z) as -> by (apply Tinj; auto; [apply Nw; auto|congruence]). lia.
      + intro x. rewrite !in_app_iff, B3, C3. unfold is_art at 2. split.
        * intros [(Z1 & Z2)|[(Z1 & Z2 & Z3)|X]]; [split; [auto|lia]| |].
          -- split; [|lia]. split; [auto|]. right. split; [apply Nw; auto|auto].
          -- destruct (ia || (1 <? ch)) eqn:E; [|destruct X]. destruct X as [<-|[]]. split; [|lia]. split; [auto|]. left. split; [auto|]. apply IA; auto.
        * intros ((Z1 & Z2) & Z3). destruct (Cz x Z1 Z3) as [X|[->|X]]; [left; split; [split; auto|auto]| |right; left].
          -- right. right. destruct Z2 as [(_ & Z2)|(Z2 & _)]; [|congruence]. apply IA in Z2. rewrite Z2. left; auto.
          -- split; [auto|]. split; [auto|]. destruct Z2 as [(Z2 & _)|(_ & Z2)]; [|auto]. destruct (Nw x Z1 X). congruence.
      + apply NoDup_app3. split; [auto|]. split; [apply NoDup_app3; split; [auto|split]|].
        * destruct (ia || (1 <? ch)); repeat constructor. intros [].
        * intros x X1 X2. apply C3 in X1. destruct (ia || (1 <? ch)); [|destruct X2]. destruct X2 as [<-|[]]. lia.
        * intros x X1 X2. apply B3 in X1. apply in_app_or in X2. destruct X2 as [X2|X2]; [apply C3 in X2; lia|]. destruct (ia || (1 <? ch)); [|destruct X2]. destruct X2 as [<-|[]]. lia.
  Qed.
End D.
