(* Proofs about Bcc_model: the search numbers the blocks. *)
From Verif Require Import Base BaseLemmas ListZ Seq ListMore SpSeg_proof UnionFind_proof Kruskal_proof LowLink_spec LowLink_model LowLink_proof LowLink_proof2 LowLink_proof3 LowLink_proof4 Bcc_spec Bcc_model Bcc_proof.

Lemma bc_pop_ok m id k st : forall ps comp f, rep comp m f -> 0 <= id < m -> (forall e, In e ps -> 0 <= e < m) -> ~ In id ps ->
  exists comp' f', bc_pop id k (ps ++ id :: st) comp = Ok (st, comp') /\ rep comp' m f' /\ (forall e, In e (id :: ps) -> f' e = k) /\ (forall e, ~ In e (id :: ps) -> f' e = f e).
Proof.
  induction ps as [|p ps IH]; intros comp f R Hi Hp N; cbn [app bc_pop].
  - rewrite (rep_set _ _ _ id _ R Hi). cbn [bind]. rewrite Z.eqb_refl. eexists. exists (fupd f id k). split; [reflexivity|]. split; [apply rep_upd; auto|]. split.
    + intros e [<-|[]]. apply fupd_same.
    + intros e Ne. apply fupd_diff. intros ->. apply Ne. left. auto.
  - assert (Hpp : 0 <= p < m) by (apply Hp; left; auto). rewrite (rep_set _ _ _ p _ R Hpp). cbn [bind]. destruct (Z.eqb_spec p id) as [->|Np]; [exfalso; apply N; left; auto|].
    destruct (IH _ _ (rep_upd _ _ _ p k R Hpp) Hi) as (comp' & f' & X1 & X2 & X3 & X4). { intros e Ie. apply Hp. right. auto. } { intro I. apply N. right. auto. }
    exists comp', f'. split; [exact X1|]. split; [auto|]. assert (DE : forall e, In e (id :: ps) \/ ~ In e (id :: ps)) by (intro e; destruct (in_dec Z.eq_dec e (id :: ps)); auto). split.
    + intros e Ie. destruct (DE e) as [I|I]; [auto|]. rewrite X4 by auto. destruct Ie as [->|[<-|Ie]]; [exfalso; apply I; left; auto|apply fupd_same|exfalso; apply I; right; auto].
    + intros e Ne. rewrite X4; [apply fupd_diff; intros ->; apply Ne; right; left; auto|]. intros [->|I]; apply Ne; [left; auto|right; right; auto].
Qed.

Lemma bc_dfs_S fuel s u pe used stk comp num : bc_dfs (S fuel) s u pe (used, stk, comp, num) =
  let* used := vset used u true in let* adj := vget (l_g s) u in for_each adj (bc_body (bc_dfs fuel s) s u pe) (used, stk, comp, num).
Proof. reflexivity. Qed.
Ltac slimz := repeat match goal with
  | H : ?X -> _ |- _ => lazymatch X with (_ = _ :> Z) => fail | _ => match type of X with Prop => clear H end end
  | H : _ \/ _ |- _ => clear H | H : _ <-> _ |- _ => clear H | H : forall _, _ |- _ => lazymatch type of H with (_ = _ :> Z) -> False => fail | ~ _ => fail | _ => clear H end | H : exists _, _ |- _ => clear H | H : rep _ _ _ |- _ => clear H | H : walk _ _ _ _ _ _ _ _ |- _ => clear H end.
Ltac zlia := solve [slimz; lia].
Section Q.
  Variable n : Z. Variable E : list (Z * Z). Variable s : ll. Variable G : Z -> list (Z * Z). Variable w : W. Variable rs : list Z.
  Hypothesis C : cert n E s G w rs.
  Notation vx v := (0 <= v < n).
  Notation P := (wP w). Notation A := (wA w). Notation L := (wL w). Notation T := (wT w). Notation Q := (wO w).
  Let HE : graph_on n E := c_on _ _ _ _ _ _ C.
  Let HG := ad_in _ _ _ (c_adj _ _ _ _ _ _ C).
  Let inj := c_inj _ _ _ _ _ _ C.
  Let PL := c_pl _ _ _ _ _ _ C.
  Let RI : forall r, In r rs <-> vx r /\ A r = -1 := c_rin _ _ _ _ _ _ C.
  Let bnd := c_bnd _ _ _ _ _ _ C.
  Let g1 := G1 n E G HE HG.
  Let g2 := G2 n E G HE HG.
  Let par := par n E G HE HG w inj PL.
  Let sub_up := sub_up n E G HE HG w inj PL.
  Let sub_Q := sub_Q n E G HE HG w inj PL.
  Let sub_self := sub_self n E G HE HG w inj PL.
  Let eqP := eqP n G w inj PL.
  Let m := zlen E.
  Notation chead := (chead w).
  Notation hd := (hd n w).
  Notation sub := (sub n w).
  (* x is the lower end of edge id *)
  Definition lower (id x : Z) : Prop := vx x /\ exists a, In (a, id) (G x) /\ P a < P x.
  Lemma lower_range id x : lower id x -> 0 <= id < m.
  Proof. intros (Vx & a & I & _). apply HG in I; auto. destruct I as [I|I]; apply vget_range in I; auto. Qed.
  Lemma lower_unique id x x' : lower id x -> lower id x' -> x = x'.
  Proof.
    intros (Vx & a & I & Lp) (Vx' & a' & I' & Lp'). apply HG in I; auto. apply HG in I'; auto. destruct I as [I|I], I' as [I'|I']; rewrite I in I'; injection I'; intros; subst; auto; lia.
  Qed.
  Lemma lower_T y : vx y -> A y <> -1 -> lower (T y) y.
  Proof. intros Vy N. destruct (par y Vy N) as (VA & _ & I & PA & _). split; [auto|]. exists (A y). split; [apply (G_sym n E G HE HG (A y)); auto|lia]. Qed.
  Definition touched (u : Z) (adj : list (Z * Z)) (c c' id : Z) : Prop :=
    (exists x, lower id x /\ c <= P x < c') \/ (exists v, In (v, id) adj /\ id <> T u /\ P v < P u).
  Definition closed (c c' id : Z) : Prop := exists x t, lower id x /\ vx t /\ chead t /\ sub t x /\ c <= P t < c'.
  Definition BW (u : Z) (adj : list (Z * Z)) (c c' k k' : Z) (ps : list Z) (f f' F : Z -> Z) : Prop :=
    k <= k' /\
    (forall id, In id ps <-> touched u adj c c' id /\ ~ closed c c' id) /\
    (forall id, ~ (touched u adj c c' id /\ closed c c' id) -> f' id = f id) /\
    (forall id x t, lower id x -> hd t x -> c <= P t < c' -> f' id = F t) /\
    (forall t, vx t -> chead t -> c <= P t < c' -> k <= F t < k') /\
    (forall t t', vx t -> vx t' -> chead t -> chead t' -> c <= P t < c' -> c <= P t' < c' -> F t = F t' -> t = t') /\
    (forall i, k <= i < k' -> exists t, vx t /\ chead t /\ c <= P t < c' /\ F t = i).
  Lemma touched_u u adj (c c' id : Z) : vx u -> incl adj (G u) -> (exists v, In (v, id) adj /\ id <> T u /\ P v < P u) -> lower id u.
  Proof. intros Vu Hin (v & I & _ & Lp). split; [auto|]. exists v. auto. Qed.
  Lemma closed_u u c c' id : lower id u -> P u < c -> ~ closed c c' id.
  Proof. intros H Lp (x & t & Hx & _ & _ & (_ & S) & R). rewrite (lower_unique id x u) in S by auto. lia. Qed.
  (* the subtree of a called vertex *)
  Lemma touched_y y id : vx y -> A y <> -1 -> (exists x, lower id x /\ P y <= P x < Q y) <-> id = T y \/ touched y (G y) (P y + 1) (Q y) id.
  Proof.
    intros Vy N. destruct (par y Vy N) as (VA & _ & _ & PA & PQ & _). split.
    - intros (x & Lx & R). destruct (Z.eq_dec (P x) (P y)) as [Q0|Q0].
      + assert (x = y) as -> by (apply eqP; auto; apply Lx). destruct (Z.eq_dec id (T y)) as [->|Ni]; [left; auto|]. destruct Lx as (_ & a & I & Lp). right. right. exists a. auto.
      + right. left. exists x. split; auto. lia.
    - intros [->|[(x & Lx & R)|H]]; [exists y; split; [apply lower_T; auto|lia]|exists x; split; auto; lia|]. exists y. split; [|lia]. apply (touched_u y (G y) 0 0); auto. apply incl_refl.
  Qed.
  Lemma used_get used c y : rep used n (fun v => P v <? c) -> vx y -> vget used y = Ok (P y <? c).
  Proof. intros R Vy. apply (rep_get _ _ _ y R Vy). Qed.
  Lemma bw_walk : forall u adj a a' bs ars, walk G w u adj a a' bs ars -> vx u -> incl adj (G u) -> 0 <= P u < a_c a ->
    forall fuel used stk comp k f, rep used n (fun v => P v <? a_c a) -> rep comp m f -> n - a_c a <= Z.of_nat fuel ->
    exists used' ps comp' k' f' F, for_each adj (bc_body (bc_dfs fuel s) s u (T u)) (used, stk, comp, k) = Ok (used', ps ++ stk, comp', k') /\
      rep used' n (fun v => P v <? a_c a') /\ rep comp' m f' /\ BW u adj (a_c a) (a_c a') k k' ps f f' F.
  Proof.
    intros u adj a a' bs ars H. induction H as [u a|u y adj c l ia ch a' bs ars Hy H IH|u y id adj c l ia ch a' bs ars N Hy H IH|u y id adj c l ia ch ia1 ch1 bs1 ars1 a' bs ars N EP EA ET H1 IH1 H2 IH2];
      intros Hu Hin Pu fuel used stk comp k f RU RC HF; cbn [a_c] in *; try (assert (Hin' : incl adj (G u)) by (intros e Ie; apply Hin; right; auto)).
    - exists used, [], comp, k, f, (fun _ => 0). split; [reflexivity|]. split; [auto|]. split; [auto|]. split; [zlia|]. split; [|split; [auto|split; [intros; zlia|split; [intros; zlia|split; [intros; zlia|intros; zlia]]]]].
      intro id. split; [intros []|]. intros ([(x & _ & R)|(v & [] & _)] & _). zlia.
    - (* the edge to the parent *)
      cbn [for_each]. unfold bc_body at 1. rewrite Z.eqb_refl. cbn [bind]. destruct (IH Hu Hin' Pu fuel used stk comp k f RU RC HF) as (used' & ps & comp' & k' & f' & F & X & RU' & RC' & B1 & B2 & B3 & B4 & B5).
      exists used', ps, comp', k', f', F. split; [exact X|]. split; [auto|]. split; [auto|].
      assert (TE : forall id, touched u ((y, T u) :: adj) c (a_c a') id <-> touched u adj c (a_c a') id).
      { intro id. unfold touched. split; (intros [X1|(v & I & NT & Lp)]; [left; auto|]); [destruct I as [I|I]; [injection I as -> <-; congruence|]|]; right; exists v; split; auto; right; auto. }
      split; [auto|]. split; [intro id; rewrite TE; auto|]. split; [intro id; rewrite TE; auto|]. auto.
    - (* a visited vertex *)
      assert (Iy : In (y, id) (G u)) by (apply Hin; left; auto). assert (Vy : vx y) by (apply (g1 u y id); auto).
      cbn [for_each]. unfold bc_body at 1. destruct (Z.eqb_spec id (T u)) as [?|_]; [congruence|]. rewrite (used_get _ _ y RU Vy), (rep_get _ _ _ y (c_pre _ _ _ _ _ _ C) Vy), (rep_get _ _ _ u (c_pre _ _ _ _ _ _ C) Hu). cbn [bind].
      assert ((P y <? c) = true) as -> by (apply Z.ltb_lt; zlia). cbn [negb orb bind].
      destruct (IH Hu Hin' Pu fuel used (if P y <? P u then id :: stk else stk) comp k f RU RC HF) as (used' & ps & comp' & k' & f' & F & X & RU' & RC' & B1 & B2 & B3 & B4 & B5).
      destruct (Z.ltb_spec (P y) (P u)) as [Lp|Lp].
      + exists used', (ps ++ [id]), comp', k', f', F. split; [rewrite X, <- app_assoc; reflexivity|]. split; [auto|]. split; [auto|].
        assert (TE : forall e, touched u ((y, id) :: adj) c (a_c a') e <-> e = id \/ touched u adj c (a_c a') e).
        { intro e. unfold touched. split.
          - intros [X1|(v & [I|I] & NT & Lv)]; [right; left; auto|injection I as -> ->; left; auto|right; right; exists v; auto].
          - intros [->|[X1|(v & I & NT & Lv)]]; [right; exists y; split; [left; auto|auto]|left; auto|right; exists v; split; [right; auto|auto]]. }
        assert (Lid : lower id u) by (split; [auto|exists y; auto]). assert (NC : ~ closed c (a_c a') id) by (apply (closed_u u); auto; zlia).
        split; [auto|]. split; [|split; [|auto]].
        * intro e. rewrite in_app_iff, B2, TE. cbn [In]. split; [intros [(X1 & X2)|[<-|[]]]; tauto|]. intros ([->|X1] & X2); tauto.
        * intros e. rewrite TE. intro Ne. apply B3. tauto.
      + exists used', ps, comp', k', f', F. split; [exact X|]. split; [auto|]. split; [auto|].
        assert (TE : forall e, touched u ((y, id) :: adj) c (a_c a') e <-> touched u adj c (a_c a') e).
        { intro e. unfold touched. split; (intros [X1|(v & I & NT & Lv)]; [left; auto|]); [destruct I as [I|I]; [injection I as -> <-; zlia|]|]; right; exists v; split; auto; right; auto. }
        split; [auto|]. split; [intro e; rewrite TE; auto|]. split; [intro e; rewrite TE; auto|]. auto.
    - (* a call *)
      pose proof (walk_mono _ _ _ _ _ _ _ _ H1) as M1. pose proof (walk_mono _ _ _ _ _ _ _ _ H2) as M2. cbn [a_c] in M1, M2.
      assert (Iy : In (y, id) (G u)) by (apply Hin; left; auto). assert (Vy : vx y) by (apply (g1 u y id); auto). assert (NA : A y <> -1) by zlia.
      destruct (par y Vy NA) as (_ & T0 & _ & PA & PQ & _). pose proof (bnd y Vy) as By. destruct fuel as [|fuel]; [zlia|].
      cbn [for_each]. unfold bc_body at 1. destruct (Z.eqb_spec id (T u)) as [?|_]; [congruence|]. rewrite (used_get _ _ y RU Vy), (rep_get _ _ _ y (c_pre _ _ _ _ _ _ C) Vy), (rep_get _ _ _ u (c_pre _ _ _ _ _ _ C) Hu). cbn [bind].
      assert ((P y <? c) = false) as -> by (apply Z.ltb_ge; zlia). cbn [negb orb]. rewrite bc_dfs_S. rewrite (rep_set _ _ _ y _ RU Vy), (rep_get _ _ _ y (c_g _ _ _ _ _ _ C) Vy). cbn [bind].
      assert (RU1 : rep (zupd used y true) n (fun v => P v <? c + 1)).
      { eapply rep_ext; [apply (rep_upd _ _ _ y true RU Vy)|]. intros v Vv. cbn beta. destruct (Z.eq_dec v y) as [->|Nv]; [rewrite fupd_same; symmetry; apply Z.ltb_lt; zlia|]. rewrite fupd_diff by auto.
        assert (P v <> c) by (intro Q0; apply Nv, eqP; auto; zlia). destruct (Z.ltb_spec (P v) c), (Z.ltb_spec (P v) (c + 1)); auto; zlia. }
      destruct (IH1 Vy (incl_refl _) ltac:(zlia) fuel (zupd used y true) (id :: stk) comp k f RU1 RC ltac:(zlia)) as (used1 & ps1 & comp1 & k1 & f1 & F1 & X1 & RU1' & RC1 & B1 & B2 & B3 & B4 & B5 & B6 & B7).
      rewrite ET in X1. rewrite X1. clear X1. cbn [bind]. rewrite (rep_get _ _ _ y (c_low _ _ _ _ _ _ C) Vy). cbn [bind].
      assert (LT : lower id y) by (rewrite <- ET; apply lower_T; auto).
      assert (TY : forall e, (exists x, lower e x /\ c <= P x < Q y) <-> e = id \/ touched y (G y) (c + 1) (Q y) e). { intro e. rewrite <- ET, <- EP. apply touched_y; auto. }
      assert (TS : forall e, touched u ((y, id) :: adj) c (a_c a') e <-> (exists x, lower e x /\ c <= P x < Q y) \/ touched u adj (Q y) (a_c a') e).
      { intro e. unfold touched. split.
        - intros [(x & Lx & R)|(v & [I|I] & NT & Lv)]; [|injection I as -> ->; zlia|right; right; exists v; auto]. destruct (Z.lt_ge_cases (P x) (Q y)); [left; exists x; split; auto; zlia|right; left; exists x; split; auto; zlia].
        - intros [(x & Lx & R)|[(x & Lx & R)|(v & I & NT & Lv)]]; [left; exists x; split; auto; zlia|left; exists x; split; auto; zlia|right; exists v; split; [right; auto|auto]]. }
      (* a head in the subtree of y closes only edges whose lower end is there *)
      assert (INY : forall x t, vx t -> sub t x -> c <= P t < Q y -> c <= P x < Q y). { intros x t Vt (Vx & S) R. assert (Q t <= Q y) by (apply sub_Q; auto; split; auto; zlia). zlia. }
      assert (OUT : forall e, touched u adj (Q y) (a_c a') e -> forall x, lower e x -> c <= P x < Q y -> False).
      { intros e [(x' & Lx' & R')|H'] x Lx R; [rewrite (lower_unique e x x') in R by auto; zlia|]. rewrite (lower_unique e x u) in R; auto; [zlia|]. apply (touched_u u adj 0 0); auto. }
      assert (RU2 : rep used1 n (fun v => P v <? Q y)) by exact RU1'.
      destruct (Z.ltb_spec (L y) (P u)) as [HL|HL].
      + (* the block stays open *)
        assert (NCy : ~ chead y) by (intros (_ & X); rewrite EA in X; zlia).
        destruct (IH2 Hu Hin' ltac:(zlia) (S fuel) used1 (ps1 ++ id :: stk) comp1 k1 f1 RU2 RC1 ltac:(zlia)) as (used2 & ps2 & comp2 & k2 & f2 & F2 & X2 & RU2' & RC2 & D1 & D2 & D3 & D4 & D5 & D6 & D7). cbn [bind]. rewrite X2.
        exists used2, (ps2 ++ ps1 ++ [id]), comp2, k2, f2, (fun t => if P t <? Q y then F1 t else F2 t). split; [rewrite <- !app_assoc; reflexivity|]. split; [auto|]. split; [auto|].
        assert (CL : forall e, closed c (a_c a') e <-> closed (c + 1) (Q y) e \/ closed (Q y) (a_c a') e).
        { intro e. unfold closed. split.
          - intros (x & t & Lx & Vt & Ct & S & R). destruct (Z.lt_ge_cases (P t) (Q y)); [left|right]; exists x, t; (split; [auto|]); (split; [auto|]); (split; [auto|]); (split; [auto|]); [|zlia].
            assert (P t <> c) by (intro Q0; assert (t = y) as -> by (apply eqP; auto; zlia); contradiction). zlia.
          - intros [(x & t & Lx & Vt & Ct & S & R)|(x & t & Lx & Vt & Ct & S & R)]; exists x, t; (split; [auto|]); (split; [auto|]); (split; [auto|]); (split; [auto|]); zlia. }
        assert (SEP1 : forall e, closed (c + 1) (Q y) e -> exists x, lower e x /\ c <= P x < Q y). { intros e (x & t & Lx & Vt & _ & S & R). exists x. split; [auto|]. apply (INY x t); auto. zlia. }
        assert (SEP2 : forall e x, lower e x -> c <= P x < Q y -> ~ closed (Q y) (a_c a') e). { intros e x Lx R (x' & t & Lx' & Vt & _ & (_ & S) & R'). rewrite (lower_unique e x' x) in S by auto. zlia. }
        split; [zlia|]. split; [|split; [|split; [|split; [|split]]]].
        * intro e. rewrite !in_app_iff, B2, D2, TS, CL, TY. cbn [In]. split.
          -- intros [(Y1 & Y2)|[(Y1 & Y2)|[<-|[]]]].
             ++ split; [right; auto|]. intros [Y3|Y3]; [|auto]. destruct (SEP1 e Y3) as (x & Lx & R). apply (OUT e Y1 x); auto.
             ++ split; [left; right; auto|]. intros [Y3|Y3]; [auto|]. assert (exists x, lower e x /\ c <= P x < Q y) as (x & Lx & R) by (apply TY; right; auto). apply (SEP2 e x); auto.
             ++ split; [left; left; auto|]. intros [Y3|Y3]; [apply (closed_u y (c + 1) (Q y) id LT); auto; zlia|apply (SEP2 id y LT); auto; zlia].
          -- intros ([[->|Y1]|Y1] & Y2); [right; right; left; auto|right; left; split; [auto|tauto]|left; split; [auto|tauto]].
        * intros e Ne. rewrite TS, CL in Ne. rewrite D3 by tauto. apply B3. intros (Y1 & Y2). apply Ne. split; [left; apply TY; right; auto|left; auto].
        * intros e x t Lx Ht R. cbn beta. pose proof Ht as (Vt & Ct & St & Mt). destruct (Z.ltb_spec (P t) (Q y)) as [Lt|Lt]; [|apply (D4 e x t); auto; zlia].
          assert (P t <> c) by (intro Q0; assert (t = y) as -> by (apply eqP; auto; zlia); contradiction). rewrite D3; [apply (B4 e x t); auto; zlia|]. intros (_ & Y2). apply (SEP2 e x Lx); auto. apply (INY x t); auto. zlia.
        * intros t Vt Ct R. cbn beta. destruct (Z.ltb_spec (P t) (Q y)) as [Lt|Lt]; [|specialize (D5 t Vt Ct ltac:(zlia)); zlia]. assert (P t <> c) by (intro Q0; assert (t = y) as -> by (apply eqP; auto; zlia); contradiction). specialize (B5 t Vt Ct ltac:(zlia)). zlia.
        * assert (NB : forall t, vx t -> chead t -> c <= P t -> c + 1 <= P t). { intros t Vt Ct R. assert (P t <> c) by (intro Q0; assert (t = y) as -> by (apply eqP; auto; zlia); contradiction). zlia. }
          intros t t' Vt Vt' Ct Ct' R R'. cbn beta. pose proof (NB t Vt Ct ltac:(zlia)). pose proof (NB t' Vt' Ct' ltac:(zlia)).
          destruct (Z.ltb_spec (P t) (Q y)) as [Lt|Lt], (Z.ltb_spec (P t') (Q y)) as [Lt'|Lt']; intro Q0.
          -- apply B6; auto; zlia.
          -- specialize (B5 t Vt Ct ltac:(zlia)). specialize (D5 t' Vt' Ct' ltac:(zlia)). zlia.
          -- specialize (B5 t' Vt' Ct' ltac:(zlia)). specialize (D5 t Vt Ct ltac:(zlia)). zlia.
          -- apply D6; auto; zlia.
        * intros i Hi. cbn beta. destruct (Z.lt_ge_cases i k1) as [Li|Li].
          -- destruct (B7 i ltac:(zlia)) as (t & Vt & Ct & R & Ft). exists t. split; [auto|]. split; [auto|]. split; [zlia|]. destruct (Z.ltb_spec (P t) (Q y)); [auto|zlia].
          -- destruct (D7 i ltac:(zlia)) as (t & Vt & Ct & R & Ft). exists t. split; [auto|]. split; [auto|]. split; [zlia|]. destruct (Z.ltb_spec (P t) (Q y)); [zlia|auto].
      + (* the block is closed *)
        assert (Cy : chead y) by (split; [auto|rewrite EA; zlia]).
        assert (NI : ~ In id ps1). { intro I. apply B2 in I. destruct I as ([(x & Lx & R)|(v & _ & NT & _)] & _); [rewrite (lower_unique id x y) in R by auto; zlia|congruence]. }
        assert (TR : forall e, touched y (G y) (c + 1) (Q y) e -> exists x, lower e x /\ c <= P x < Q y) by (intros e X; apply TY; right; auto).
        destruct (bc_pop_ok m id k1 stk ps1 comp1 f1 RC1) as (comp1' & f1' & X1 & RC1' & Z1 & Z2); auto. { apply (lower_range id y); auto. } { intros e Ie. apply B2 in Ie. destruct Ie as (Y & _). destruct (TR e Y) as (x & Lx & _). apply (lower_range e x); auto. }
        rewrite X1. cbn [bind]. clear X1.
        destruct (IH2 Hu Hin' ltac:(zlia) (S fuel) used1 stk comp1' (k1 + 1) f1' RU2 RC1' ltac:(zlia)) as (used2 & ps2 & comp2 & k2 & f2 & F2 & X2 & RU2' & RC2 & D1 & D2 & D3 & D4 & D5 & D6 & D7). cbn [bind]. rewrite X2.
        exists used2, ps2, comp2, k2, f2, (fun t => if P t <? Q y then (if t =? y then k1 else F1 t) else F2 t). split; [reflexivity|]. split; [auto|]. split; [auto|].
        assert (SEP2 : forall e x, lower e x -> c <= P x < Q y -> ~ closed (Q y) (a_c a') e). { intros e x Lx R (x' & t & Lx' & Vt & _ & (_ & S) & R'). rewrite (lower_unique e x' x) in S by auto. zlia. }
        assert (CY : forall e x, lower e x -> c <= P x < Q y -> closed c (a_c a') e). { intros e x Lx R. exists x, y. split; [auto|]. split; [auto|]. split; [auto|]. split; [split; [apply Lx|zlia]|zlia]. }
        assert (C2 : forall e, closed (Q y) (a_c a') e -> closed c (a_c a') e). { intros e (x & t & Lx & Vt & Ct & S & R). exists x, t. split; [auto|]. split; [auto|]. split; [auto|]. split; [auto|zlia]. }
        assert (INP : forall e, In e (id :: ps1) -> exists x, lower e x /\ c <= P x < Q y). { intros e [<-|I]; [exists y; split; auto; zlia|apply B2 in I; apply TR; tauto]. }
        split; [zlia|]. split; [|split; [|split; [|split; [|split]]]].
        * intro e. rewrite D2, TS. split.
          -- intros (Y1 & Y2). split; [right; auto|]. intros (x & t & Lx & Vt & Ct & S & R). destruct (Z.lt_ge_cases (P t) (Q y)) as [Lt|Lt].
             ++ apply (OUT e Y1 x Lx). apply (INY x t); auto. zlia.
             ++ apply Y2. exists x, t. split; [auto|]. split; [auto|]. split; [auto|]. split; [auto|zlia].
          -- intros ([(x & Lx & R)|Y1] & Y2); [exfalso; apply Y2, (CY e x); auto|]. split; [auto|]. intro Y3. apply Y2, C2. auto.
        * intros e Ne. rewrite TS in Ne. rewrite D3. 2:{ intros (Y1 & Y2). apply Ne. split; [right; auto|apply C2; auto]. }
          assert (NIN : forall x, lower e x -> c <= P x < Q y -> False). { intros x Lx R. apply Ne. split; [left; exists x; auto|apply (CY e x); auto]. }
          rewrite Z2. 2:{ intro I. destruct (INP e I) as (x & Lx & R). apply (NIN x); auto. }
          apply B3. intros (Y1 & _). destruct (TR e Y1) as (x & Lx & R). apply (NIN x); auto.
        * intros e x t Lx Ht R. cbn beta. pose proof Ht as (Vt & Ct & St & Mt). destruct (Z.ltb_spec (P t) (Q y)) as [Lt|Lt]; [|apply (D4 e x t); auto; zlia].
          pose proof (INY x t Vt St ltac:(zlia)) as Rx. rewrite D3. 2:{ intros (_ & Y2). apply (SEP2 e x Lx); auto. }
          destruct (Z.eqb_spec t y) as [->|Nt].
          -- apply Z1. assert (e = id \/ touched y (G y) (c + 1) (Q y) e) as [->|Y] by (apply TY; exists x; auto); [left; auto|]. right. apply B2. split; [auto|].
             intros (x' & t' & Lx' & Vt' & Ct' & S' & R'). rewrite (lower_unique e x' x) in S' by auto. specialize (Mt t' Vt' Ct' S'). zlia.
          -- assert (P t <> c) by (intro Q0; apply Nt, eqP; auto; zlia). rewrite Z2.
             { apply (B4 e x t); auto. zlia. }
             intros [<-|I]. { rewrite (lower_unique id x y) in St by auto. destruct St. zlia. }
             apply B2 in I. destruct I as (_ & I). apply I. exists x, t. split; [auto|]. split; [auto|]. split; [auto|]. split; [auto|zlia].
        * intros t Vt Ct R. cbn beta. destruct (Z.ltb_spec (P t) (Q y)) as [Lt|Lt]; [|specialize (D5 t Vt Ct ltac:(zlia)); zlia]. destruct (Z.eqb_spec t y) as [->|Nt]; [zlia|].
          assert (P t <> c) by (intro Q0; apply Nt, eqP; auto; zlia). specialize (B5 t Vt Ct ltac:(zlia)). zlia.
        * assert (NB : forall t, vx t -> t <> y -> c <= P t -> c + 1 <= P t). { intros t Vt Nt R. assert (P t <> c) by (intro Q0; apply Nt, eqP; auto; zlia). zlia. }
          assert (V : forall t, vx t -> chead t -> c <= P t < Q y -> (t = y /\ (if t =? y then k1 else F1 t) = k1) \/ (t <> y /\ (if t =? y then k1 else F1 t) = F1 t /\ c + 1 <= P t /\ F1 t < k1)).
          { intros t Vt Ct R. destruct (Z.eqb_spec t y) as [->|Nt]; [left; auto|right]. pose proof (NB t Vt Nt ltac:(zlia)). specialize (B5 t Vt Ct ltac:(zlia)). split; [auto|]. split; [auto|zlia]. }
          intros t t' Vt Vt' Ct Ct' R R'. cbn beta.
          destruct (Z.ltb_spec (P t) (Q y)) as [Lt|Lt], (Z.ltb_spec (P t') (Q y)) as [Lt'|Lt']; intro Q0.
          -- destruct (V t Vt Ct ltac:(zlia)) as [(Y1 & Y2)|(Y1 & Y2 & Y3 & Y4)], (V t' Vt' Ct' ltac:(zlia)) as [(W1 & W2)|(W1 & W2 & W3 & W4)]; [congruence|zlia|zlia|]. apply B6; auto; zlia.
          -- specialize (D5 t' Vt' Ct' ltac:(zlia)). destruct (V t Vt Ct ltac:(zlia)) as [(Y1 & Y2)|(Y1 & Y2 & Y3 & Y4)]; zlia.
          -- specialize (D5 t Vt Ct ltac:(zlia)). destruct (V t' Vt' Ct' ltac:(zlia)) as [(Y1 & Y2)|(Y1 & Y2 & Y3 & Y4)]; zlia.
          -- apply D6; auto; zlia.
        * intros i Hi. cbn beta. destruct (Z.lt_ge_cases i k1) as [Li|Li]; [|destruct (Z.eq_dec i k1) as [->|Ni]].
          -- destruct (B7 i ltac:(zlia)) as (t & Vt & Ct & R & Ft). exists t. split; [auto|]. split; [auto|]. split; [zlia|]. destruct (Z.ltb_spec (P t) (Q y)); [|zlia]. destruct (Z.eqb_spec t y) as [->|]; [zlia|auto].
          -- exists y. split; [auto|]. split; [auto|]. split; [zlia|]. destruct (Z.ltb_spec (P y) (Q y)); [|zlia]. rewrite Z.eqb_refl. auto.
          -- destruct (D7 i ltac:(zlia)) as (t & Vt & Ct & R & Ft). exists t. split; [auto|]. split; [auto|]. split; [zlia|]. destruct (Z.ltb_spec (P t) (Q y)); [zlia|auto].
  Qed.
  Definition is_nil {X} (l : list X) : bool := match l with [] => true | _ => false end.
  Definition RB (c k : Z) (f F : Z -> Z) : Prop :=
    0 <= k /\ (forall id x t, lower id x -> hd t x -> P t < c -> f id = F t) /\ (forall id, (forall x, lower id x -> c <= P x) -> f id = -1) /\
    (forall t, vx t -> chead t -> P t < c -> 0 <= F t < k) /\ (forall t t', vx t -> vx t' -> chead t -> chead t' -> P t < c -> P t' < c -> F t = F t' -> t = t') /\
    (forall i, 0 <= i < k -> exists t, vx t /\ chead t /\ P t < c /\ F t = i).
  Lemma lower_A_ id x : lower id x -> A x <> -1.
  Proof. intros (Vx & a & I & Lp). apply (lower_A n E G HE HG w inj PL rs RI x a id); auto. Qed.
  Lemma hd_ex_ id x : lower id x -> exists t, hd t x.
  Proof. intro H. apply (hd_ex n E G HE HG w inj PL rs RI x); [apply H|]. apply (lower_A_ id x); auto. Qed.
  Lemma root_nil i : vx i -> G i = [] -> A i = -1.
  Proof.
    intros Vi Gi. destruct (Z.eq_dec (A i) (-1)) as [|N]; auto. exfalso. destruct (par i Vi N) as (VA & _ & I & _). apply (G_sym n E G HE HG (A i)) in I; auto. rewrite Gi in I. destruct I.
  Qed.
  Lemma bw_trees stk iso : forall i c bs ars rs', trees G w i c bs ars rs' -> i <= n -> 0 <= i -> exists used comp k f F,
    for_ 0 i (bc_root s) ((vrep n false, stk, vrep m (-1), 0), iso) = Ok ((used, stk, comp, k), iso ++ filter (fun v => is_nil (G v)) (zrange i)) /\
    rep used n (fun v => P v <? c) /\ rep comp m f /\ RB c k f F.
  Proof.
    intros i c bs ars rs' H. induction H as [|i c bs ars rs' H IH Hc|i c bs ars rs' ia ch bs1 ars1 H IH EP EA ET H1]; intros Hi Hi0.
    - exists (vrep n false), (vrep m (-1)), 0, (fun _ => -1), (fun _ => 0). split; [cbn [zrange]; change (filter _ (zrange 0)) with (@nil Z); rewrite app_nil_r; reflexivity|].
      assert (P0 : forall v, vx v -> 0 <= P v) by (intros v Vv; apply PL; auto).
      split; [eapply rep_ext; [apply rep_vrep; auto|]; intros v Vv; symmetry; apply Z.ltb_ge; auto|]. split; [apply rep_vrep; apply zlen_nonneg|]. split; [zlia|]. split; [|split; [auto|split; [|split]]].
      + intros id x t _ (Vt & _) Lt. specialize (P0 t Vt). zlia.
      + intros t Vt _ Lt. specialize (P0 t Vt). zlia.
      + intros t t' Vt _ _ _ Lt. specialize (P0 t Vt). zlia.
      + intros j Hj. zlia.
    - pose proof (trees_all n G g1 g2 w inj _ _ _ _ _ H ltac:(zlia)) as (I0 & _ & _ & _ & _ & IR & IL). destruct (IH ltac:(zlia) I0) as (used & comp & k & f & F & E1 & RU & RC & I). rewrite for_snoc, E1 by zlia. cbn [bind]. unfold bc_root.
      assert (Vi : vx i) by zlia. rewrite (used_get _ _ i RU Vi). cbn [bind]. assert ((P i <? c) = true) as -> by (apply Z.ltb_lt; zlia).
      exists used, comp, k, f, F. split; [|auto]. rewrite zrange_S, filter_snoc by zlia. destruct (G i) eqn:Gi; cbn [is_nil]; [|rewrite app_nil_r; reflexivity].
      exfalso. assert (In i rs') by (apply IR; split; [auto|split; [zlia|apply root_nil; auto]]). specialize (IL i H0). zlia.
    - pose proof (trees_all n G g1 g2 w inj _ _ _ _ _ H ltac:(zlia)) as (I0 & C0 & _). destruct (IH ltac:(zlia) I0) as (used & comp & k & f & F & E1 & RU & RC & I). rewrite for_snoc, E1 by zlia. cbn [bind]. unfold bc_root.
      assert (Vi : vx i) by zlia. rewrite (used_get _ _ i RU Vi). cbn [bind]. assert ((P i <? c) = false) as -> by (apply Z.ltb_ge; zlia).
      rewrite bc_dfs_S, (rep_set _ _ _ i _ RU Vi), (rep_get _ _ _ i (c_g _ _ _ _ _ _ C) Vi). cbn [bind].
      assert (RU1 : rep (zupd used i true) n (fun v => P v <? c + 1)).
      { eapply rep_ext; [apply (rep_upd _ _ _ i true RU Vi)|]. intros v Vv. cbn beta. destruct (Z.eq_dec v i) as [->|Nv]; [rewrite fupd_same; symmetry; apply Z.ltb_lt; zlia|]. rewrite fupd_diff by auto.
        assert (P v <> c) by (intro Q0; apply Nv, eqP; auto; zlia). destruct (Z.ltb_spec (P v) c), (Z.ltb_spec (P v) (c + 1)); auto; zlia. }
      pose proof (walk_mono _ _ _ _ _ _ _ _ H1) as M1. cbn [a_c] in M1.
      destruct (bw_walk _ _ _ _ _ _ H1 Vi (incl_refl _) ltac:(cbn [a_c]; zlia) (Z.to_nat (l_n s)) (zupd used i true) stk comp k f RU1 RC) as (used1 & ps & comp1 & k1 & f1 & F1 & X1 & RU1' & RC1 & B1 & B2 & B3 & B4 & B5 & B6 & B7). { rewrite (c_n _ _ _ _ _ _ C). cbn [a_c]. zlia. }
      rewrite ET in X1. rewrite X1. cbn [bind a_c] in *. 
      assert (NC : ~ chead i) by (intros (X & _); congruence).
      (* heads above an edge of this tree lie in this tree *)
      assert (HT : forall x t, hd t x -> c + 1 <= P x < Q i -> c + 1 <= P t < Q i).
      { intros x t (Vt & Ct & St & _) R. pose proof St as (Vx & St'). split; [|zlia]. destruct (Z.le_gt_cases (c + 1) (P t)) as [X|X]; auto. exfalso.
        assert (S : sub t i) by (split; auto; zlia). destruct (sub_up t i Vt S) as [->|(Y & _)]; auto. }
      assert (ps = []) as ->.
      { destruct ps as [|e ps]; auto. exfalso. assert (I' : In e (e :: ps)) by (left; auto). apply B2 in I'. destruct I' as ([(x & Lx & R)|Y] & NCl).
        - destruct (hd_ex_ e x Lx) as (t & Ht). apply NCl. pose proof Ht as (Vt & Ct & St & _). exists x, t. split; [auto|]. split; [auto|]. split; [auto|]. split; [auto|]. apply (HT x t); auto.
        - apply (touched_u i (G i) 0 0) in Y; auto; [|apply incl_refl]. apply lower_A_ in Y. auto. }
      cbn [app]. exists used1, comp1, k1, f1, (fun t => if P t <? c then F t else F1 t). split.
      { rewrite zrange_S, filter_snoc by zlia. destruct (G i); cbn [is_nil]; [rewrite app_assoc|rewrite app_nil_r]; reflexivity. }
      split; [exact RU1'|]. split; [auto|]. destruct I as (K0 & J1 & J2 & J3 & J4 & J5).
      assert (NB : forall t, vx t -> chead t -> P t < Q i -> ~ P t < c -> c + 1 <= P t < Q i). { intros t Vt Ct R R'. assert (P t <> c) by (intro Q0; assert (t = i) as -> by (apply eqP; auto; zlia); contradiction). zlia. }
      assert (KEEP : forall e x t, lower e x -> hd t x -> P t < c -> f1 e = f e).
      { intros e x t Lx (Vt & Ct & St & Mt) R. apply B3. intros (_ & (x' & t' & Lx' & Vt' & Ct' & S' & R')). rewrite (lower_unique e x' x) in S' by auto. specialize (Mt t' Vt' Ct' S'). zlia. }
      split; [zlia|]. split; [|split; [|split; [|split]]].
      + intros e x t Lx Ht R. cbn beta. destruct (Z.ltb_spec (P t) c) as [Lt|Lt]; [rewrite (KEEP e x t); auto; apply (J1 e x t); auto|]. apply (B4 e x t); auto. destruct Ht as (Vt & Ct & _). apply NB; auto; zlia.
      + intros e He. rewrite B3; [apply J2; intros x Lx; specialize (He x Lx); zlia|]. intros (_ & (x & t & Lx & Vt & _ & (Vx & S) & R)). specialize (He x Lx). assert (Q t <= Q i) by (apply sub_Q; auto; split; auto; zlia). zlia.
      + intros t Vt Ct R. cbn beta. destruct (Z.ltb_spec (P t) c) as [Lt|Lt]; [specialize (J3 t Vt Ct Lt); zlia|]. specialize (B5 t Vt Ct (NB t Vt Ct R ltac:(zlia))). zlia.
      + intros t t' Vt Vt' Ct Ct' R R'. cbn beta. destruct (Z.ltb_spec (P t) c) as [Lt|Lt], (Z.ltb_spec (P t') c) as [Lt'|Lt']; intro Q0.
        * apply J4; auto.
        * specialize (J3 t Vt Ct Lt). specialize (B5 t' Vt' Ct' (NB t' Vt' Ct' R' ltac:(zlia))). zlia.
        * specialize (J3 t' Vt' Ct' Lt'). specialize (B5 t Vt Ct (NB t Vt Ct R ltac:(zlia))). zlia.
        * apply B6; auto; apply NB; auto; zlia.
      + intros j Hj. cbn beta. destruct (Z.lt_ge_cases j k) as [Lj|Lj].
        * destruct (J5 j ltac:(zlia)) as (t & Vt & Ct & R & Ft). exists t. split; [auto|]. split; [auto|]. split; [zlia|]. destruct (Z.ltb_spec (P t) c); [auto|zlia].
        * destruct (B7 j ltac:(zlia)) as (t & Vt & Ct & R & Ft). exists t. split; [auto|]. split; [auto|]. split; [zlia|]. destruct (Z.ltb_spec (P t) c); [zlia|auto].
  Qed.
  Definition isos : list Z := filter (fun v => is_nil (G v)) (zrange n).
  Lemma In_isos v : In v isos <-> isolated n E v.
  Proof.
    unfold isos, isolated. rewrite filter_In, In_zrange. split.
    - intros (Vv & X). split; [auto|]. intros id (y & J). apply joins_iff in J. assert (In (y, id) (G v)) as I by (apply HG; auto). destruct (G v); [destruct I|discriminate].
    - intros (Vv & X). split; [auto|]. destruct (G v) as [|(y, id) l] eqn:Gv; [reflexivity|exfalso]. apply (X id). exists y. apply joins_iff. apply HG; auto. rewrite Gv. left. auto.
  Qed.
  (* the blocks, numbered through their heads *)
  Definition blocks (f F : Z -> Z) (k : Z) : Prop :=
    0 <= k /\ (forall id x t, lower id x -> hd t x -> f id = F t) /\ (forall id, (forall x, ~ lower id x) -> f id = -1) /\
    (forall t, vx t -> chead t -> 0 <= F t < k) /\ (forall t t', vx t -> vx t' -> chead t -> chead t' -> F t = F t' -> t = t') /\
    (forall i, 0 <= i < k -> exists t, vx t /\ chead t /\ F t = i).
  Lemma search_ok iso stk : 0 <= n -> exists comp k f F, bc_search s iso stk = Ok (mkB s comp k (iso ++ isos), stk) /\ rep comp m f /\ blocks f F k.
  Proof.
    intro Hn. destruct (c_tr _ _ _ _ _ _ C) as (bs & ars & TR). pose proof (trees_all n G g1 g2 w inj _ _ _ _ _ TR ltac:(zlia)) as (_ & _ & T3 & _).
    destruct (bw_trees stk iso _ _ _ _ _ TR ltac:(zlia) Hn) as (used & comp & k & f & F & E1 & RU & RC & K0 & J1 & J2 & J3 & J4 & J5). unfold bc_search. rewrite (c_n _ _ _ _ _ _ C), (c_E _ _ _ _ _ _ C). fold m. rewrite E1. cbn [bind].
    assert (B : forall v, vx v -> P v < d_ord (l_ds s)) by (intros v Vv; apply T3; auto; zlia).
    exists comp, k, f, F. split; [reflexivity|]. split; [auto|]. split; [auto|]. split; [|split; [|split; [|split]]].
    - intros id x t Lx Ht. apply (J1 id x t); auto. apply B, Ht.
    - intros id H. apply J2. intros x Lx. exfalso. apply (H x); auto.
    - intros t Vt Ct. apply J3; auto.
    - intros t t' Vt Vt' Ct Ct'. apply J4; auto.
    - intros i Hi. destruct (J5 i Hi) as (t & Vt & Ct & _ & Ft). exists t. auto.
  Qed.
  (* consequences, in terms of the graph *)
  Lemma lower_ex id a b : vget E id = Ok (a, b) -> a <> b -> exists x, lower id x.
  Proof.
    intros H N. pose proof (vget_In _ _ _ H) as I. apply HE in I. destruct I as (Va & Vb). assert (P a <> P b) by (intro Q0; apply N, eqP; auto).
    destruct (Z.lt_ge_cases (P a) (P b)); [exists b|exists a]; (split; [auto|]); [exists a|exists b]; (split; [apply HG; auto|zlia]).
  Qed.
  Variables f F : Z -> Z. Variable k : Z.
  Hypothesis BL : blocks f F k.
  Lemma f_range id a b : vget E id = Ok (a, b) -> a <> b -> 0 <= f id < k.
  Proof.
    intros H N. destruct BL as (_ & B1 & _ & B3 & _). destruct (lower_ex id a b H N) as (x & Lx). destruct (hd_ex_ id x Lx) as (t & Ht). rewrite (B1 id x t) by auto. apply B3; apply Ht.
  Qed.
  Lemma f_loop id a : vget E id = Ok (a, a) -> f id = -1.
  Proof.
    intros H. destruct BL as (_ & _ & B2 & _). apply B2. intros x (Vx & y & I & Lp). apply HG in I; auto. destruct I as [I|I]; rewrite H in I; injection I as -> ->; zlia.
  Qed.
  Lemma f_onto i : 0 <= i < k -> exists id, 0 <= id < m /\ f id = i.
  Proof.
    intros Hi. destruct BL as (_ & B1 & _ & _ & _ & B5). destruct (B5 i Hi) as (t & Vt & Ct & Ft). pose proof Ct as (N & _). exists (T t). pose proof (lower_T t Vt N) as LT. split; [apply (lower_range _ t); auto|].
    rewrite (B1 (T t) t t); auto. split; [auto|]. split; [auto|]. split; [apply sub_self; auto|]. intros t' _ _ (_ & S). zlia.
  Qed.
  Lemma f_insep e e' a b a' b' : vget E e = Ok (a, b) -> a <> b -> vget E e' = Ok (a', b') -> a' <> b' -> (f e = f e' <-> inseparable E e e').
  Proof.
    intros H N H' N'. destruct BL as (_ & B1 & _ & _ & B4 & _). destruct (lower_ex e a b H N) as (x & Lx). destruct (lower_ex e' a' b' H' N') as (x' & Lx').
    destruct (hd_ex_ e x Lx) as (t & Ht), (hd_ex_ e' x' Lx') as (t' & Ht'). rewrite (B1 e x t), (B1 e' x' t') by auto. pose proof Ht as (Vt & Ct & _). pose proof Ht' as (Vt' & Ct' & _).
    destruct Lx as (Vx & y & I & Lp), Lx' as (Vx' & y' & I' & Lp'). rewrite (insep_iff n E G HE HG w inj PL rs RI t t' x y e x' y' e') by auto. split; [apply B4; auto|congruence].
  Qed.
End Q.
