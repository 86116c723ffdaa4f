(* Proofs about BM_model: vertex cover, independent set, edge cover. *)
From Verif Require Import Base BaseLemmas ListZ ListMore Seq BM_spec BM_model BM_proof BM_proof2 BM_proof3.
From Coq Require Import Permutation.

Section C.
  Variables (n m : Z). Hypothesis Hn : 0 <= n. Hypothesis Hm : 0 <= m.
  Notation lf l := (0 <= l < n). Notation rt r := (0 <= r < m).
  Notation OInv := (OInv n m).
  Section V.
    Variables (E : list (Z * Z)) (b : bm) (TR TL : Z -> Z) (G : Z -> list Z).
    Hypothesis OI : OInv E b TR TL G.
    Let RT : rep (b_tr b) n TR := o_tr _ _ _ _ _ _ _ OI.
    Let RG : rep (b_g b) (n + m) G := o_g _ _ _ _ _ _ _ OI.
    Let CO : Cons n m (HE E) TR TL := o_co _ _ _ _ _ _ _ OI.
    Lemma GR l r : lf l -> In r (G l) -> rt r.
    Proof. intros Hl I. apply (o_E _ _ _ _ _ _ _ OI l r). apply (o_G _ _ _ _ _ _ _ OI); auto. Qed.
    (* the residual graph after the edges pr have been entered *)
    Definition Res (pr : Z -> Z -> Prop) (g2 : list (list Z)) (cl : list bool) : Prop := exists G2 CL, rep g2 (n + m) G2 /\ rep cl n CL /\
      (forall x w, 0 <= x < n + m -> (In w (G2 x) <-> exists u v, pr u v /\ ((TR u <> v /\ x = u /\ w = v + n) \/ (TR u = v /\ x = v + n /\ w = u)))) /\
      (forall u, lf u -> (CL u = false <-> exists v, pr u v /\ TR u = v)).
    Lemma Res_ext pr pr' g2 cl : (forall u v, pr u v <-> pr' u v) -> Res pr g2 cl -> Res pr' g2 cl.
    Proof.
      intros K (G2 & CL & A & B & C & D). exists G2, CL. split; [auto|]. split; [auto|]. split.
      - intros x w Hx. rewrite C by auto. split; intros (u & v & P & Q); exists u, v; (split; [apply K; auto|auto]).
      - intros u Hu. rewrite D by auto. split; intros (v & P & Q); exists v; (split; [apply K; auto|auto]).
    Qed.
    Lemma Res_step pr g2 cl u v : lf u -> rt v -> Res pr g2 cl -> exists st,
      (let* t := vget (b_tr b) u in if t =? v then let* x := vget g2 (v + n) in let* g := vset g2 (v + n) (x ++ [u]) in let* cl := vset cl u false in Ok (g, cl) else let* x := vget g2 u in let* g := vset g2 u (x ++ [v + n]) in Ok (g, cl)) = Ok st /\ Res (fun x y => pr x y \/ (x = u /\ y = v)) (fst st) (snd st).
    Proof.
      intros Hu Hv (G2 & CL & A & B & C & D). rewrite (rep_get _ _ _ u RT) by auto. cbn [bind]. destruct (Z.eqb_spec (TR u) v) as [Q|Q].
      - rewrite (rep_get _ _ _ (v + n) A) by lia. cbn [bind]. rewrite (rep_set _ _ _ (v + n) _ A) by lia. cbn [bind]. rewrite (rep_set _ _ _ u _ B) by lia. cbn [bind]. eexists. split; [reflexivity|]. cbn [fst snd]. exists (fupd G2 (v + n) (G2 (v + n) ++ [u])), (fupd CL u false). split; [apply rep_upd; [auto|lia]|]. split; [apply rep_upd; auto|]. split.
        + intros x w Hx. destruct (Z.eq_dec x (v + n)) as [->|N].
          * rewrite fupd_same, in_app_iff, C by auto. cbn [In]. split.
            -- intros [(a & c & P & K)|[<-|[]]]; [exists a, c; auto|]. exists u, v. split; [auto|]. right. auto.
            -- intros (a & c & [P|(-> & ->)] & K); [left; exists a, c; auto|]. destruct K as [(K1 & K2 & K3)|(K1 & K2 & K3)]; [congruence|auto].
          * rewrite fupd_diff, C by auto. split; [intros (a & c & P & K); exists a, c; auto|]. intros (a & c & [P|(-> & ->)] & K); [exists a, c; auto|]. destruct K as [(K1 & K2 & K3)|(K1 & K2 & K3)]; congruence.
        + intros x Hx. destruct (Z.eq_dec x u) as [->|N]; [rewrite fupd_same; split; [intros _; exists v; auto|auto]|]. rewrite fupd_diff, D by auto. split; [intros (y & P & K); exists y; auto|]. intros (y & [P|(P & _)] & K); [exists y; auto|congruence].
      - rewrite (rep_get _ _ _ u A) by lia. cbn [bind]. rewrite (rep_set _ _ _ u _ A) by lia. cbn [bind]. eexists. split; [reflexivity|]. cbn [fst snd]. exists (fupd G2 u (G2 u ++ [v + n])), CL. split; [apply rep_upd; [auto|lia]|]. split; [auto|]. split.
        + intros x w Hx. destruct (Z.eq_dec x u) as [->|N].
          * rewrite fupd_same, in_app_iff, C by auto. cbn [In]. split.
            -- intros [(a & c & P & K)|[<-|[]]]; [exists a, c; auto|]. exists u, v. split; [auto|]. left. auto.
            -- intros (a & c & [P|(-> & ->)] & K); [left; exists a, c; auto|]. destruct K as [(K1 & K2 & K3)|(K1 & K2 & K3)]; [auto|congruence].
          * rewrite fupd_diff, C by auto. split; [intros (a & c & P & K); exists a, c; auto|]. intros (a & c & [P|(-> & ->)] & K); [exists a, c; auto|]. destruct K as [(K1 & K2 & K3)|(K1 & K2 & K3)]; congruence.
        + intros x Hx. rewrite D by auto. split; [intros (y & P & K); exists y; auto|]. intros (y & [P|(-> & ->)] & K); [exists y; auto|congruence].
    Qed.
    (* the marks of the breadth-first search; X: reached vertices, D: those already expanded *)
    Variables (g2 : list (list Z)) (G2 : Z -> list Z) (A B : Z -> bool).
    Hypothesis R2 : rep g2 (n + m) G2.
    Hypothesis K2 : forall x w, 0 <= x < n + m -> (In w (G2 x) <-> exists u v, (lf u /\ In v (G u)) /\ ((TR u <> v /\ x = u /\ w = v + n) \/ (TR u = v /\ x = v + n /\ w = u))).
    Hypothesis A1 : forall l, lf l -> TR l = -1 -> A l = true.
    Hypothesis A2 : forall l r, lf l -> A l = true -> In r (G l) -> B r = true.
    Hypothesis A3 : forall r, rt r -> B r = true -> TL r <> -1 /\ A (TL r) = true.
    Record VInv (CL CR VIS : Z -> bool) (X : list Z) (clo : Z -> Z -> Prop) : Prop := {
      w_nd : NoDup X;
      w_in : forall x, 0 <= x < n + m -> (VIS x = true <-> In x X);
      w_rg : forall x, In x X -> 0 <= x < n + m;
      w_cl : forall l, lf l -> CL l = VIS l;
      w_cr : forall r, rt r -> CR r = VIS (n + r);
      w_free : forall l, lf l -> TR l = -1 -> VIS l = true;
      w_clo : forall x w, clo x w -> VIS w = true;
      w_l : forall l, lf l -> VIS l = true -> A l = true /\ (TR l <> -1 -> VIS (n + TR l) = true);
      w_r : forall r, rt r -> VIS (n + r) = true -> B r = true
    }.
    Definition vbody (v : Z) (st : list bool * list bool * list bool * list Z) : res (list bool * list bool * list bool * list Z) :=
      let '(cl, cr, vis, dq) := st in
      let* x := vget vis v in
      if (x : bool) then Ok (cl, cr, vis, dq) else
      let* vis := vset vis v true in
      let* (cl, cr) := (if v <? n then let* cl := vset cl v true in Ok (cl, cr) else let* cr := vset cr (v - n) true in Ok (cl, cr)) in
      Ok (cl, cr, vis, dq ++ [v]).
    Lemma vbody_ok u v cl cr vis dq CL CR VIS D clo : 0 <= u < n + m -> In v (G2 u) -> rep cl n CL -> rep cr m CR -> rep vis (n + m) VIS -> VInv CL CR VIS (D ++ u :: dq) clo ->
      exists cl' cr' vis' dq' CL' CR' VIS', vbody v (cl, cr, vis, dq) = Ok (cl', cr', vis', dq') /\ rep cl' n CL' /\ rep cr' m CR' /\ rep vis' (n + m) VIS' /\ VInv CL' CR' VIS' (D ++ u :: dq') (fun x w => clo x w \/ (x = u /\ w = v)).
    Proof.
      intros Hu Iv P1 P2 P3 [W1 W2 W3 W4 W5 W6 W7 W8 W9]. assert (VU : VIS u = true) by (apply W2; [auto|apply in_or_app; right; left; auto]). assert (Hv : 0 <= v < n + m). { apply K2 in Iv; [|auto]. destruct Iv as (a & c & (Ha & Ic) & K). pose proof (GR a c Ha Ic). destruct K as [(_ & _ & ->)|(_ & _ & ->)]; lia. }
      unfold vbody. rewrite (rep_get _ _ _ v P3) by auto. cbn [bind]. destruct (VIS v) eqn:Q.
      { exists cl, cr, vis, dq, CL, CR, VIS. split; [auto|]. split; [auto|]. split; [auto|]. split; [auto|]. constructor; auto. intros x w [C|(-> & ->)]; [apply (W7 x w C)|auto]. }
      rewrite (rep_set _ _ _ v _ P3) by auto. cbn [bind]. assert (NI : ~ In v (D ++ u :: dq)) by (rewrite <- W2 by auto; congruence). assert (AP : D ++ u :: dq ++ [v] = (D ++ u :: dq) ++ [v]) by (rewrite <- app_assoc; auto).
      pose (CL' := if v <? n then fupd CL v true else CL). pose (CR' := if v <? n then CR else fupd CR (v - n) true). pose (VIS' := fupd VIS v true).
      assert (VM : forall x, VIS x = true -> VIS' x = true) by (intros x Hx; unfold VIS', fupd; destruct (x =? v); auto).
      assert (KE : (exists cl' cr', (if v <? n then let* cl := vset cl v true in Ok (cl, cr) else let* cr := vset cr (v - n) true in Ok (cl, cr)) = Ok (cl', cr') /\ rep cl' n CL' /\ rep cr' m CR')).
      { unfold CL', CR'. destruct (Z.ltb_spec v n) as [L|L]; [rewrite (rep_set _ _ _ v _ P1) by lia|rewrite (rep_set _ _ _ (v - n) _ P2) by lia]; cbn [bind]; do 2 eexists; (split; [reflexivity|]); split; auto; apply rep_upd; auto; lia. }
      destruct KE as (cl' & cr' & -> & P4 & P5). cbn [bind]. exists cl', cr', (zupd vis v true), (dq ++ [v]), CL', CR', VIS'. split; [auto|]. split; [auto|]. split; [auto|]. split; [apply rep_upd; auto|]. rewrite AP. constructor.
      - apply NoDup_app_snoc; auto.
      - intros x Hx. rewrite in_app_iff. cbn [In]. unfold VIS', fupd. destruct (Z.eqb_spec x v) as [->|N]; [tauto|]. rewrite W2 by auto. split; [auto|intros [Y|[Y|[]]]; [auto|congruence]].
      - intros x Y. apply in_app_or in Y. destruct Y as [Y|[<-|[]]]; auto.
      - intros l Hl. unfold CL', VIS'. destruct (Z.ltb_spec v n) as [L|L]; [unfold fupd; destruct (l =? v); auto|rewrite fupd_diff by lia; auto].
      - intros r Hr. unfold CR', VIS'. destruct (Z.ltb_spec v n) as [L|L]; [rewrite fupd_diff by lia; auto|]. unfold fupd. destruct (Z.eqb_spec r (v - n)), (Z.eqb_spec (n + r) v); auto; lia.
      - intros l Hl T. apply VM. auto.
      - intros x w [C|(-> & ->)]; [apply VM, (W7 x w C)|]. unfold VIS'. apply fupd_same.
      - intros l Hl. unfold VIS' at 1, fupd. destruct (Z.eqb_spec l v) as [->|N]; intro Y.
        + apply K2 in Iv; [|auto]. destruct Iv as (a & c & (Ha & Ic) & [(_ & _ & K)|(K & -> & ->)]); [pose proof (GR a c Ha Ic); lia|]. rewrite K. split; [|intros _; apply VM; rewrite Z.add_comm; auto]. assert (Hc := GR a c Ha Ic). assert (BB : B c = true) by (apply W9; [auto|rewrite Z.add_comm; auto]). destruct (A3 c Hc BB) as (_ & AT). destruct (proj1 CO a Ha ltac:(lia)) as (_ & TA & _). rewrite K in TA. rewrite TA in AT. auto.
        + destruct (W8 l Hl Y) as (Y1 & Y2). split; [auto|]. intro T. apply VM. auto.
      - intros r Hr. unfold VIS', fupd. destruct (Z.eqb_spec (n + r) v) as [N|N]; intro Y; [|apply W9; auto]. apply K2 in Iv; [|auto]. destruct Iv as (a & c & (Ha & Ic) & [(_ & -> & K)|(K & _ & K')]); [|lia]. assert (c = r) by lia. subst c. apply (A2 a r Ha); [apply W8; auto|auto].
    Qed.
    Lemma VInv_clo CL CR VIS X (c c' : Z -> Z -> Prop) : (forall x y, c' x y -> c x y) -> VInv CL CR VIS X c -> VInv CL CR VIS X c'.
    Proof. intros M [W1 W2 W3 W4 W5 W6 W7 W8 W9]. constructor; auto. intros x w C. apply (W7 x w). auto. Qed.
    Lemma vloop_ok : forall fuel cl cr vis dq CL CR VIS D, rep cl n CL -> rep cr m CR -> rep vis (n + m) VIS -> VInv CL CR VIS (D ++ dq) (fun x w => In x D /\ In w (G2 x)) -> n + m - zlen D < Z.of_nat fuel ->
      exists cl' cr' CL' CR' VIS' D', loop fuel (fun st => let '(cl, cr, vis, dq) := st in match dq with | [] => Ok (inr (cl, cr)) | u :: dq => let* a := vget g2 u in let* st := for_each a vbody (cl, cr, vis, dq) in Ok (inl st) end) (cl, cr, vis, dq) = Ok (cl', cr') /\ rep cl' n CL' /\ rep cr' m CR' /\ VInv CL' CR' VIS' D' (fun x w => In x D' /\ In w (G2 x)).
    Proof.
      induction fuel as [|fuel IH]; intros cl cr vis dq CL CR VIS D P1 P2 P3 W F.
      { exfalso. assert (zlen D <= zlen (zrange (n + m))); [|rewrite zlen_zrange in * by lia; lia]. apply zlen_incl; [apply (ND_app_l D dq); apply W|]. intros x Y. apply In_zrange. apply (w_rg _ _ _ _ _ W). apply in_or_app; auto. }
      cbn [loop]. destruct dq as [|u dq].
      - cbn [bind]. exists cl, cr, CL, CR, VIS, D. rewrite app_nil_r in W. auto.
      - assert (Hu : 0 <= u < n + m) by (apply (w_rg _ _ _ _ _ W); apply in_or_app; right; left; auto). rewrite (rep_get _ _ _ u R2) by auto. cbn [bind].
        destruct (for_each_inv (fun done st => let '(cl, cr, vis, dq) := st in exists CL CR VIS, rep cl n CL /\ rep cr m CR /\ rep vis (n + m) VIS /\ VInv CL CR VIS (D ++ u :: dq) (fun x w => (In x D /\ In w (G2 x)) \/ (x = u /\ In w done))) (G2 u) vbody (cl, cr, vis, dq)) as ((((cl1 & cr1) & vis1) & dq1) & X & CL1 & CR1 & VIS1 & Q1 & Q2 & Q3 & W1).
        + exists CL, CR, VIS. split; [auto|]. split; [auto|]. split; [auto|]. revert W. apply VInv_clo. intros x y [Y|(_ & [])]; auto.
        + intros done v todo (((cl1 & cr1) & vis1) & dq1) Eq (CL1 & CR1 & VIS1 & Q1 & Q2 & Q3 & W1). assert (Iv : In v (G2 u)) by (rewrite Eq; apply in_or_app; right; left; auto). destruct (vbody_ok u v cl1 cr1 vis1 dq1 CL1 CR1 VIS1 D _ Hu Iv Q1 Q2 Q3 W1) as (cl2 & cr2 & vis2 & dq2 & CL2 & CR2 & VIS2 & X & S1 & S2 & S3 & W2). exists (cl2, cr2, vis2, dq2). split; [auto|]. exists CL2, CR2, VIS2. split; [auto|]. split; [auto|]. split; [auto|]. revert W2. apply VInv_clo. intros x y [Y|(Y & Z0)]; [auto|]. apply in_app_or in Z0. destruct Z0 as [Z0|[Z0|[]]]; auto.
        + rewrite X. cbn [bind]. apply (IH cl1 cr1 vis1 dq1 CL1 CR1 VIS1 (D ++ [u])); auto; [|rewrite zlen_app; change (zlen [u]) with 1; lia]. rewrite <- app_assoc. cbn [app]. revert W1. apply VInv_clo. intros x y (Y & Z0). apply in_app_or in Y. destruct Y as [Y|[<-|[]]]; auto.
    Qed.
  End V.
  Lemma cover_ok E b TR TL G : OInv E b TR TL G -> exists C b' TR' TL', bm_min_vertex_cover b = Ok (C, b') /\ OInv E b' TR' TL' G /\ 0 <= b_f b' /\ is_min_cover n m E C /\ zlen C = cnt n TR'.
  Proof.
    intros OI0. unfold bm_min_vertex_cover. destruct (ensure_ok n m Hn Hm E b TR TL G OI0) as (b' & TR' & TL' & -> & OI & F). cbn [bind]. cbv zeta. pose proof OI as [O1 O2 O3 O4 O5 O6 O7 O8 O9]. rewrite O1, O2. destruct (O9 F) as (A & B & A1 & A2 & A3).
    match goal with |- context [for_ 0 n ?bd ?s0] => destruct (for_inv (fun i st => Res TR' (fun u v => 0 <= u < i /\ In v (G u)) (fst st) (snd st)) 0 n bd s0) as ((g2 & cl) & X & RS) end; [auto| | |].
    { exists (fun _ => []), (fun _ => true). split; [apply rep_vrep; lia|]. split; [apply rep_vrep; lia|]. split; [intros x w Hx; cbn [In]; split; [tauto|intros (u & v & (Y & _) & _); lia]|]. intros u Hu. split; [discriminate|intros (v & (Y & _) & _); lia]. }
    { intros i (g2 & cl) Hi RS. rewrite (rep_get _ _ _ i O5) by lia. cbn [bind]. match goal with |- context [for_each (G i) ?bd ?s0] => destruct (for_each_inv (fun done st => Res TR' (fun u v => (0 <= u < i /\ In v (G u)) \/ (u = i /\ In v done)) (fst st) (snd st)) (G i) bd s0) as (st & X & RS1) end.
      - cbn [fst snd] in *. revert RS. apply Res_ext. intros u v. cbn [In]. tauto.
      - intros done v todo (g3 & cl3) Eq RS1. assert (Iv : In v (G i)) by (rewrite Eq; apply in_or_app; right; left; auto). assert (Hv : 0 <= v < m) by (apply (GR E b' TR' TL' G OI i); [lia|auto]). destruct (Res_step E b' TR' TL' G OI _ g3 cl3 i v Hi Hv RS1) as (st & X & RS2). exists st. split; [exact X|]. revert RS2. apply Res_ext. intros u w. rewrite in_app_iff. cbn [In]. split; [intros [[Y|(Y1 & Y2)]|(-> & ->)]; auto|]. intros [Y|(-> & [Y|[Y|[]]])]; auto.
      - exists st. split; [auto|]. revert RS1. apply Res_ext. intros u v. split; [intros [(Y & Z0)|(-> & Z0)]; (split; [lia|auto])|]. intros (Y & Z0). destruct (Z.eq_dec u i) as [->|N]; [auto|left; split; [lia|auto]]. }
    rewrite X. cbn [bind]. destruct RS as (G2 & CL & R2 & RC & K2 & K3). cbn [fst snd] in *.
    assert (CLE : forall l, 0 <= l < n -> (CL l = true <-> TR' l = -1)). { intros l Hl. destruct (Z.eq_dec (TR' l) (-1)) as [T|T].
      - split; [auto|]. intros _. destruct (CL l) eqn:Q; [auto|]. apply K3 in Q; [|auto]. destruct Q as (v & (_ & Iv) & Q). pose proof (GR E b' TR' TL' G OI l v Hl Iv). lia.
      - split; [|tauto]. intro Q. assert (CL l = false); [|congruence]. apply K3; [auto|]. exists (TR' l). split; [|auto]. split; [auto|]. apply O7; [auto|]. apply In_HE. apply (proj1 O8 l Hl T). }
    match goal with |- context [for_ 0 n ?bd (vrep (n + m) false, [])] => destruct (for_inv (fun i st => let '(vis, dq) := st in rep vis (n + m) (fun x => (x <? i) && CL x) /\ NoDup dq /\ forall x, In x dq <-> 0 <= x < i /\ CL x = true) 0 n bd (vrep (n + m) false, [])) as ((vis & dq) & Y & RV & ND & DQ) end; [auto| | |].
    { split; [apply (rep_ext _ _ (fun _ => false)); [apply rep_vrep; lia|intros i Hi; destruct (Z.ltb_spec i 0); [lia|auto]]|]. split; [constructor|]. intro x. cbn [In]. lia. }
    { intros i (vis & dq) Hi (RV & ND & DQ). rewrite (rep_get _ _ _ i RC) by auto. cbn [bind]. destruct (CL i) eqn:Q.
      - rewrite (rep_set _ _ _ i _ RV) by lia. cbn [bind]. eexists. split; [reflexivity|]. split; [|split].
        + apply (rep_ext _ _ _ _ (rep_upd _ _ _ i true RV ltac:(lia))). intros x Hx. unfold fupd. destruct (Z.eqb_spec x i) as [->|N]; [rewrite Q; destruct (Z.ltb_spec i (i + 1)); [auto|lia]|]. destruct (Z.ltb_spec x i), (Z.ltb_spec x (i + 1)); auto; lia.
        + apply NoDup_app_snoc; auto. rewrite DQ. lia.
        + intro x. rewrite in_app_iff, DQ. cbn [In]. split; [intros [V|[<-|[]]]; [split; [lia|tauto]|split; [lia|auto]]|]. intros (V & T). destruct (Z.eq_dec x i) as [->|N]; [auto|left; split; [lia|auto]].
      - eexists. split; [reflexivity|]. split; [|split; [auto|]].
        + apply (rep_ext _ _ _ _ RV). intros x Hx. destruct (Z.ltb_spec x i), (Z.ltb_spec x (i + 1)); auto; try lia. assert (x = i) by lia. subst x. rewrite Q. auto.
        + intro x. rewrite DQ. split; intros (V & T); (split; [|auto]); [lia|]. assert (x <> i) by (intro; subst x; congruence). lia. }
    rewrite Y. cbn [bind].
    destruct (vloop_ok E b' TR' TL' G OI g2 G2 A B R2 K2 A1 A2 A3 (Z.to_nat (n + m) + 1) cl (vrep m false) vis dq CL (fun _ => false) (fun x => (x <? n) && CL x) [] RC (rep_vrep m false Hm) RV) as (cl' & cr' & CL' & CR' & VIS & D & Z0 & RC' & RR' & W).
    { cbn [app]. constructor; auto.
      - intros x Hx. rewrite andb_true_iff, Z.ltb_lt, DQ. lia.
      - intros x V. apply DQ in V. lia.
      - intros l Hl. destruct (Z.ltb_spec l n); [auto|lia].
      - intros r Hr. destruct (Z.ltb_spec (n + r) n); [lia|auto].
      - intros l Hl T. apply andb_true_iff. rewrite Z.ltb_lt. split; [lia|]. apply CLE; auto.
      - intros x w ([] & _).
      - intros l Hl V. apply andb_true_iff in V. destruct V as (_ & V). apply CLE in V; [|auto]. split; [auto|congruence].
      - intros r Hr V. apply andb_true_iff in V. rewrite Z.ltb_lt in V. lia. }
    { change (zlen (@nil Z)) with 0. lia. }
    unfold vbody in Z0. rewrite Z0. cbn [bind]. destruct W as [W1 W2 W3 W4 W5 W6 W7 W8 W9].
    rewrite (filter_map_loop (fun l => negb (CL' l)) (fun l => l) n); [|auto|intros i s Hi; rewrite (rep_get _ _ _ i RC') by auto; cbn [bind]; destruct (CL' i); auto]. cbn [bind app]. rewrite map_id.
    rewrite (filter_map_loop CR' (fun r => n + r) m); [|auto|intros i s Hi; rewrite (rep_get _ _ _ i RR') by auto; cbn [bind]; auto]. cbn [bind].
    eexists. exists b', TR', TL'. split; [reflexivity|]. split; [auto|]. split; [auto|]. fold (acover n m CL' CR').
    assert (VC : forall x w, 0 <= x < n + m -> VIS x = true -> In w (G2 x) -> VIS w = true) by (intros x w Hx V I; apply (W7 x w); split; [apply W2; auto|auto]).
    assert (IC : is_cover n m E (acover n m CL' CR')). { apply acover_cover; auto. intros l r I Q. destruct (O6 l r I) as (Hl & Hr). rewrite W4 in Q by auto. rewrite W5 by auto. destruct (Z.eq_dec (TR' l) r) as [T|T]; [rewrite <- T; apply W8; auto; lia|]. apply (VC l); [lia|auto|]. apply K2; [lia|]. exists l, r. split; [split; [lia|apply O7; auto]|]. left. split; [auto|]. split; [auto|lia]. }
    assert (SZ : zlen (acover n m CL' CR') <= cnt n TR'). { apply (acover_size n m TR' TL' E); auto.
      - intros l Hl T. rewrite W4 by auto. auto.
      - intros r Hr Q. rewrite W5 in Q by auto. destruct (A3 r Hr (W9 r Hr Q)) as (T & _). split; [auto|]. destruct (proj2 O8 r Hr T) as (HL & TT). rewrite W4 by auto. apply (VC (n + r)); [lia|auto|]. apply K2; [lia|]. exists (TL' r), r. split; [split; [lia|]; apply O7; [auto|]; apply In_HE; rewrite <- TT at 2; apply (proj1 O8 (TL' r) HL); lia|]. right. split; [auto|]. split; [lia|auto]. }
    assert (LB : forall C', is_cover n m E C' -> cnt n TR' <= zlen C'). { intros C' IC'. rewrite <- zlen_mlist. apply (weak_duality n m E); auto. apply (mlist_matching n m E TR' TL'); auto. }
    split; [split; [auto|intros C' IC'; specialize (LB C' IC'); lia]|]. specialize (LB _ IC). lia.
  Qed.
  Lemma compl_len X : NoDup X -> (forall x, In x X -> 0 <= x < n + m) -> zlen (filter (fun v => negb (if in_dec Z.eq_dec v X then true else false)) (zrange (n + m))) = n + m - zlen X.
  Proof.
    intros ND K. set (Y := filter _ _). assert (P : Permutation (zrange (n + m)) (X ++ Y)). { apply NoDup_Permutation; [apply NoDup_zrange| |].
      - apply NoDup_app; [auto|apply NoDup_filter, NoDup_zrange|]. intros x I J. apply filter_In in J. destruct J as (_ & J). destruct (in_dec Z.eq_dec x X); [discriminate|auto].
      - intro x. rewrite in_app_iff. unfold Y. rewrite filter_In, In_zrange. destruct (in_dec Z.eq_dec x X) as [I|I]; cbn [negb]; [specialize (K x I); tauto|]. split; [auto|intros [J|J]; [contradiction|tauto]]. }
    apply Permutation_length in P. rewrite app_length in P. pose proof (zlen_zrange (n + m) ltac:(lia)). unfold zlen in *. lia.
  Qed.
  Lemma indep_ok E b TR TL G : OInv E b TR TL G -> exists C b' TR' TL', bm_max_independent_set b = Ok (C, b') /\ OInv E b' TR' TL' G /\ 0 <= b_f b' /\ is_max_independent n m E C /\ zlen C = n + m - cnt n TR'.
  Proof.
    intros OI0. unfold bm_max_independent_set. destruct (cover_ok E b TR TL G OI0) as (C & b' & TR' & TL' & -> & OI & F & ((ND & RG & CV) & MN) & SZ). cbn [bind]. rewrite (o_n _ _ _ _ _ _ _ OI), (o_m _ _ _ _ _ _ _ OI).
    destruct (for_each_inv (fun done use => rep use (n + m) (fun v => negb (if in_dec Z.eq_dec v done then true else false))) C (fun v use => vset use v false) (vrep (n + m) true)) as (use & X & RU).
    { apply (rep_ext _ _ (fun _ => true)); [apply rep_vrep; lia|]. intros i Hi. destruct (in_dec Z.eq_dec i []) as [[]|]; auto. }
    { intros done v todo use Eq RU. assert (Hv : 0 <= v < n + m) by (apply RG; rewrite Eq; apply in_or_app; right; left; auto). rewrite (rep_set _ _ _ v _ RU) by auto. eexists. split; [reflexivity|]. apply (rep_ext _ _ _ _ (rep_upd _ _ _ v false RU Hv)). intros x Hx. unfold fupd. destruct (Z.eqb_spec x v) as [->|N]; [destruct (in_dec Z.eq_dec v (done ++ [v])) as [I|I]; [auto|exfalso; apply I, in_or_app; right; left; auto]|]. destruct (in_dec Z.eq_dec x done) as [I|I], (in_dec Z.eq_dec x (done ++ [v])) as [J|J]; auto; exfalso; [apply J, in_or_app; auto|]. apply in_app_or in J. destruct J as [J|[J|[]]]; congruence. }
    rewrite X. cbn [bind]. set (u := fun v => negb _) in RU. rewrite (filter_map_loop u (fun x => x) (n + m)); [|lia|intros i s Hi; rewrite (rep_get _ _ _ i RU) by auto; cbn [bind]; auto]. cbn [bind app]. rewrite map_id. eexists. exists b', TR', TL'. split; [reflexivity|]. split; [auto|]. split; [auto|]. pose proof (compl_len C ND RG) as LC. fold u in LC. split; [|lia].
    assert (IU : forall v, In v (filter u (zrange (n + m))) <-> 0 <= v < n + m /\ ~ In v C) by (intro v; rewrite filter_In, In_zrange; unfold u; destruct (in_dec Z.eq_dec v C); cbn [negb]; intuition discriminate).
    split; [split; [apply NoDup_filter, NoDup_zrange|]; split; [intros v I; apply IU in I; tauto|]|].
    - intros l r I J1 J2. apply IU in J1. apply IU in J2. destruct (CV l r I); tauto.
    - intros C' (ND' & RG' & IN'). rewrite LC. pose proof (compl_len C' ND' RG') as LC'. set (u' := fun v => negb _) in LC'. assert (IU' : forall v, In v (filter u' (zrange (n + m))) <-> 0 <= v < n + m /\ ~ In v C') by (intro v; rewrite filter_In, In_zrange; unfold u'; destruct (in_dec Z.eq_dec v C'); cbn [negb]; intuition discriminate).
      assert (zlen C <= zlen (filter u' (zrange (n + m)))); [|lia]. apply MN. split; [apply NoDup_filter, NoDup_zrange|]. split; [intros v I; apply IU' in I; tauto|]. intros l r I. destruct (o_E _ _ _ _ _ _ _ OI l r I) as (Hl & Hr). destruct (in_dec Z.eq_dec l C') as [Y|Y]; [right|left]; apply IU'; (split; [lia|]); [intro Z0; apply (IN' l r I Y Z0)|auto].
  Qed.
  (* edge covers *)
  Lemma half_cover E F : edges_ok n m E -> incl F E -> exists M, is_matching E M /\ incl M F /\ forall X, NoDup X -> (forall x, In x X -> In x (map fst F) \/ In x (map (fun e => n + snd e) F)) -> zlen X <= zlen M + zlen F.
  Proof.
    intro EO. induction F as [|(u, v) F IH]; intro IF.
    - exists []. split; [split; [intros x []|split; constructor]|]. split; [intros x []|]. intros X ND K. destruct X as [|x X]; [unfold zlen; cbn [length]; lia|]. destruct (K x (or_introl eq_refl)) as [[]|[]].
    - destruct IH as (M & (M1 & M2 & M3) & MF & MK); [intros x I; apply IF; right; auto|]. assert (RM : forall a (X : list Z), NoDup X -> zlen X <= zlen (remove Z.eq_dec a X) + 1). { intros a X ND. transitivity (zlen (a :: remove Z.eq_dec a X)); [|rewrite zlen_cons; lia]. apply zlen_incl; [auto|]. intros x I. destruct (Z.eq_dec x a) as [->|N]; [left; auto|right]. apply in_in_remove; auto. }
      assert (NR : forall a (X : list Z), NoDup X -> NoDup (remove Z.eq_dec a X)). { intros a X ND. induction ND as [|x X NI ND IHN]; cbn [remove]; [constructor|]. destruct (Z.eq_dec a x); [auto|]. constructor; [|auto]. intro I. apply in_remove in I. tauto. }
      destruct (in_dec Z.eq_dec u (map fst F)) as [I|I]; [|destruct (in_dec Z.eq_dec v (map snd F)) as [J|J]].
      + exists M. split; [split; auto|]. split; [intros x Q; right; auto|]. intros X ND K. specialize (RM (n + v) X ND). specialize (MK (remove Z.eq_dec (n + v) X) (NR _ X ND)). rewrite zlen_cons. enough (zlen (remove Z.eq_dec (n + v) X) <= zlen M + zlen F) by lia. apply MK. intros x Q. apply in_remove in Q. destruct Q as (Q & N). destruct (K x Q) as [[<-|Y]|[Y|Y]]; cbn [fst snd] in *; auto. congruence.
      + exists M. split; [split; auto|]. split; [intros x Q; right; auto|]. intros X ND K. specialize (RM u X ND). specialize (MK (remove Z.eq_dec u X) (NR _ X ND)). rewrite zlen_cons. enough (zlen (remove Z.eq_dec u X) <= zlen M + zlen F) by lia. apply MK. intros x Q. apply in_remove in Q. destruct Q as (Q & N). destruct (K x Q) as [[Y|Y]|[Y|Y]]; cbn [fst snd] in *; auto; [congruence|]. right. apply in_map_iff in J. destruct J as (e & J1 & J2). apply in_map_iff. exists e. split; [lia|auto].
      + exists ((u, v) :: M). split.
        * split; [intros x [<-|Q]; [apply IF; left; auto|auto]|]. cbn [map fst snd]. split; constructor; auto; intro Q; apply in_map_iff in Q; destruct Q as (e & Q1 & Q2); [apply I|apply J]; rewrite <- Q1; apply in_map; auto.
        * split; [intros x [<-|Q]; [left; auto|right; auto]|]. intros X ND K. pose proof (RM u X ND) as RM1. pose proof (RM (n + v) (remove Z.eq_dec u X) (NR _ X ND)) as RM2. specialize (MK _ (NR (n + v) _ (NR u X ND))). rewrite !zlen_cons. enough (zlen (remove Z.eq_dec (n + v) (remove Z.eq_dec u X)) <= zlen M + zlen F) by lia. apply MK. intros x Q. apply in_remove in Q. destruct Q as (Q & N). apply in_remove in Q. destruct Q as (Q & N'). destruct (K x Q) as [[Y|Y]|[Y|Y]]; cbn [fst snd] in *; auto; congruence.
  Qed.
  Definition tc (k : Z) (p : Z -> bool) : Z := zlen (filter p (zrange k)).
  Lemma tc_le k p : 0 <= k -> tc k p <= k.
  Proof. intro Hk. rewrite <- (zlen_zrange k) at 2 by auto. apply zlen_incl; [apply NoDup_filter, NoDup_zrange|]. intros x I. apply filter_In in I. tauto. Qed.
  Lemma tc_mono k p q : (forall x, p x = true -> q x = true) -> tc k p <= tc k q.
  Proof. intro H. apply zlen_incl; [apply NoDup_filter, NoDup_zrange|]. intros x I. apply filter_In in I. apply filter_In. split; [tauto|]. apply H. tauto. Qed.
  Lemma tc_new k p q x : 0 <= x < k -> p x = false -> q x = true -> (forall x, p x = true -> q x = true) -> tc k p + 1 <= tc k q.
  Proof.
    intros Hx P Q H. unfold tc. replace (zlen (filter p (zrange k)) + 1) with (zlen (x :: filter p (zrange k))) by (rewrite zlen_cons; lia). apply zlen_incl.
    - constructor; [|apply NoDup_filter, NoDup_zrange]. intro I. apply filter_In in I. destruct I. congruence.
    - intros y [<-|I]; apply filter_In; [split; [apply In_zrange; auto|auto]|]. apply filter_In in I. split; [tauto|]. apply H. tauto.
  Qed.
  Lemma ecover_ok E b TR TL G : OInv E b TR TL G -> m <= n -> (forall l, lf l -> exists r, In (l, r) E) -> (forall r, rt r -> exists l, In (l, r) E) ->
    exists F b' TR' TL', bm_min_edge_cover b = Ok (F, b') /\ OInv E b' TR' TL' G /\ 0 <= b_f b' /\ is_min_edge_cover n m E F.
  Proof.
    intros OI0 LE IL IR. unfold bm_min_edge_cover. destruct (matching_ok n m Hn Hm E b TR TL G OI0) as (M & b' & TR' & TL' & -> & OI & F & EM). cbn [bind]. pose proof OI as [O1 O2 O3 O4 O5 O6 O7 O8 O9]. rewrite O1. destruct (max_of n m Hn Hm E b' TR' TL' G OI F) as ((M1 & M2 & M3) & MX). rewrite <- EM in *.
    destruct (for_each_inv (fun done st => let '(vl, vr) := st in exists VL VR, rep vl n VL /\ rep vr n VR /\ (forall x, lf x -> (VL x = true <-> In x (map fst done))) /\ (forall y, rt y -> (VR y = true <-> In y (map snd done)))) M (fun e st => let '(vl, vr) := st in let* vr := vset vr (snd e) true in let* vl := vset vl (fst e) true in Ok (vl, vr)) (vrep n false, vrep n false)) as ((vl & vr) & X & VL & VR & R1 & R2 & K1 & K2).
    { exists (fun _ => false), (fun _ => false). split; [apply rep_vrep; auto|]. split; [apply rep_vrep; auto|]. cbn [map In]. split; intros; (split; [discriminate|tauto]). }
    { intros done (u, v) todo (vl & vr) Eq (VL & VR & R1 & R2 & K1 & K2). destruct (O6 u v) as (Hu & Hv); [apply M1; rewrite Eq; apply in_or_app; right; left; auto|]. cbn [fst snd]. rewrite (rep_set _ _ _ v _ R2) by lia. cbn [bind]. rewrite (rep_set _ _ _ u _ R1) by lia. cbn [bind]. eexists. split; [reflexivity|]. exists (fupd VL u true), (fupd VR v true). split; [apply rep_upd; auto|]. split; [apply rep_upd; [auto|lia]|]. rewrite !map_app. cbn [map fst snd]. split; [intros x Hx|intros x Hx]; rewrite in_app_iff; cbn [In]; unfold fupd; [destruct (Z.eqb_spec x u) as [->|N]; [tauto|rewrite K1 by auto]|destruct (Z.eqb_spec x v) as [->|N]; [tauto|rewrite K2 by auto]]; (split; [auto|intros [Y|[Y|[]]]; [auto|congruence]]). }
    rewrite X. cbn [bind].
    pose (P := fun (pr : Z -> Z -> Prop) (st : list bool * list bool * list (Z * Z)) => let '(vl, vr, F) := st in exists VL VR, rep vl n VL /\ rep vr n VR /\ (forall x, lf x -> (VL x = true <-> In x (map fst F))) /\ (forall y, rt y -> (VR y = true <-> In y (map snd F))) /\ incl F E /\ zlen F + zlen M <= tc n VL + tc m VR /\ forall x y, pr x y -> VL x = true /\ VR y = true).
    match goal with |- context [for_ 0 n ?bd ?s0] => destruct (for_inv (fun i st => P (fun u v => 0 <= u < i /\ In v (G u)) st) 0 n bd s0) as (((vl1 & vr1) & F1) & Y & PF) end; [auto| | |].
    { exists VL, VR. split; [auto|]. split; [auto|]. split; [auto|]. split; [auto|]. split; [auto|]. split; [|intros; lia].
      assert (zlen M <= tc n VL). { rewrite <- (zlen_map fst M). apply zlen_incl; [auto|]. intros x I. apply filter_In. rewrite In_zrange. assert (lf x). { apply in_map_iff in I. destruct I as ((a, c) & <- & I). apply (O6 a c). auto. } split; [auto|apply K1; auto]. }
      assert (zlen M <= tc m VR). { rewrite <- (zlen_map snd M). apply zlen_incl; [auto|]. intros x I. apply filter_In. rewrite In_zrange. assert (rt x). { apply in_map_iff in I. destruct I as ((a, c) & <- & I). apply (O6 a c). auto. } split; [auto|apply K2; auto]. }
      lia. }
    { intros i st Hi PS. rewrite (rep_get _ _ _ i O5) by lia. cbn [bind]. match goal with |- context [for_each (G i) ?bd st] => destruct (for_each_inv (fun done st => P (fun u v => (0 <= u < i /\ In v (G u)) \/ (u = i /\ In v done)) st) (G i) bd st) as (st1 & Y & PS1) end.
      - destruct st as ((vl2 & vr2) & F2). destruct PS as (VL2 & VR2 & B1 & B2 & B3 & B4 & B5 & B6 & B7). exists VL2, VR2. split; [auto|]. split; [auto|]. split; [auto|]. split; [auto|]. split; [auto|]. split; [auto|]. intros x y [Q|(_ & [])]; auto.
      - intros done v todo ((vl2 & vr2) & F2) Eq (VL2 & VR2 & B1 & B2 & B3 & B4 & B5 & B6 & B7). assert (Iv : In v (G i)) by (rewrite Eq; apply in_or_app; right; left; auto). assert (IE : In (i, v) E) by (apply O7; auto). destruct (O6 i v IE) as (_ & Hv). rewrite (rep_get _ _ _ i B1) by auto. cbn [bind].
        assert (YY : exists y, (if VL2 i then vget vr2 v else Ok false) = Ok y /\ (y = true <-> VL2 i = true /\ VR2 v = true)). { destruct (VL2 i); [rewrite (rep_get _ _ _ v B2) by lia; exists (VR2 v); split; [auto|tauto]|exists false; split; [auto|intuition discriminate]]. } destruct YY as (y & -> & Hy). cbn [bind]. destruct y.
        + eexists. split; [reflexivity|]. exists VL2, VR2. split; [auto|]. split; [auto|]. split; [auto|]. split; [auto|]. split; [auto|]. split; [auto|]. intros a c [Q|(-> & Q)]; [auto|]. apply in_app_or in Q. destruct Q as [Q|[<-|[]]]; [apply B7; auto|apply Hy; auto].
        + rewrite (rep_set _ _ _ v _ B2) by lia. cbn [bind]. rewrite (rep_set _ _ _ i _ B1) by lia. cbn [bind]. eexists. split; [reflexivity|]. assert (MU1 : forall x, VL2 x = true -> fupd VL2 i true x = true) by (intros x Q; unfold fupd; destruct (x =? i); auto). assert (MU2 : forall x, VR2 x = true -> fupd VR2 v true x = true) by (intros x Q; unfold fupd; destruct (x =? v); auto). exists (fupd VL2 i true), (fupd VR2 v true). split; [apply rep_upd; auto|]. split; [apply rep_upd; [auto|lia]|]. rewrite !map_app. cbn [map fst snd]. split; [|split; [|split; [|split]]].
          * intros x Hx. rewrite in_app_iff. cbn [In]. unfold fupd. destruct (Z.eqb_spec x i) as [->|N]; [tauto|]. rewrite B3 by auto. split; [auto|intros [Q|[Q|[]]]; [auto|congruence]].
          * intros x Hx. rewrite in_app_iff. cbn [In]. unfold fupd. destruct (Z.eqb_spec x v) as [->|N]; [tauto|]. rewrite B4 by auto. split; [auto|intros [Q|[Q|[]]]; [auto|congruence]].
          * intros e Q. apply in_app_or in Q. destruct Q as [Q|[<-|[]]]; auto.
          * rewrite zlen_app. change (zlen [(i, v)]) with 1. pose proof (tc_mono n _ _ MU1). pose proof (tc_mono m _ _ MU2). destruct (VL2 i) eqn:Q1; [|pose proof (tc_new n _ _ i Hi Q1 (fupd_same _ _ _) MU1); lia]. destruct (VR2 v) eqn:Q2; [destruct Hy as (_ & Hy); specialize (Hy (conj eq_refl eq_refl)); discriminate|]. pose proof (tc_new m _ _ v Hv Q2 (fupd_same _ _ _) MU2). lia.
          * intros a c [Q|(-> & Q)]; [destruct (B7 a c (or_introl Q)); auto|]. apply in_app_or in Q. destruct Q as [Q|[<-|[]]]; [destruct (B7 i c (or_intror (conj eq_refl Q))); auto|]. rewrite !fupd_same. auto.
      - exists st1. split; [auto|]. destruct st1 as ((vl2 & vr2) & F2). destruct PS1 as (VL2 & VR2 & B1 & B2 & B3 & B4 & B5 & B6 & B7). exists VL2, VR2. split; [auto|]. split; [auto|]. split; [auto|]. split; [auto|]. split; [auto|]. split; [auto|]. intros x y (Q1 & Q2). apply B7. destruct (Z.eq_dec x i) as [->|N]; [auto|left; split; [lia|auto]]. }
    rewrite Y. cbn [bind]. destruct PF as (VL1 & VR1 & B1 & B2 & B3 & B4 & B5 & B6 & B7). exists F1, b', TR', TL'. split; [auto|]. split; [auto|]. split; [auto|]. split.
    - split; [auto|]. split.
      + intros l Hl. apply B3; [auto|]. destruct (IL l Hl) as (r & I). apply (B7 l r). split; [auto|apply O7; auto].
      + intros r Hr. apply B4; [auto|]. destruct (IR r Hr) as (l & I). apply (B7 l r). destruct (O6 l r I). split; [auto|apply O7; auto].
    - intros F' (I1 & I2 & I3). destruct (half_cover E F' O6 I1) as (M' & IM & _ & MK). specialize (MX M' IM). specialize (MK (zrange (n + m)) (NoDup_zrange _)). rewrite zlen_zrange in MK by lia. pose proof (tc_le n VL1 Hn). pose proof (tc_le m VR1 Hm). enough (n + m <= zlen M' + zlen F') by lia. apply MK. intros x Hx. apply In_zrange in Hx. destruct (Z_lt_ge_dec x n) as [L|L]; [left; apply I2; lia|right]. assert (J := I3 (x - n) ltac:(lia)). apply in_map_iff in J. destruct J as (e & J1 & J2). apply in_map_iff. exists e. split; [lia|auto].
  Qed.
End C.
