(* find_centroids: the walk *)
From Verif Require Import Base BaseLemmas ListZ ListMore Graph_spec Tree_spec BFS_proof Tree_proof Tree_proof2 Tree_proof3 Tree_proof4 HLD_proof LevAnc_proof Centroid_spec Centroid_model.

(* vectors as functions *)
Definition vec {X} (n : Z) (f : Z -> X) : list X := map f (zrange n).
Definition fput {X} (f : Z -> X) (v : Z) (x : X) : Z -> X := fun w => if w =? v then x else f w.
Lemma fput_same {X} (f : Z -> X) v x : fput f v x v = x. Proof. unfold fput. now rewrite Z.eqb_refl. Qed.
Lemma fput_diff {X} (f : Z -> X) v x w : w <> v -> fput f v x w = f w. Proof. unfold fput. intros H. destruct (Z.eqb_spec w v); congruence. Qed.
Lemma zlen_vec {X} n (f : Z -> X) : 0 <= n -> zlen (vec n f) = n. Proof. intros H. unfold vec. rewrite zlen_map, zlen_zrange; lia. Qed.
Lemma vget_vec {X} n (f : Z -> X) v : 0 <= v < n -> vget (vec n f) v = Ok (f v).
Proof. intros H. unfold vec. now rewrite vget_map, vget_zrange by auto. Qed.
Lemma vset_vec {X} n (f : Z -> X) v x : 0 <= v < n -> vset (vec n f) v x = Ok (vec n (fput f v x)).
Proof.
  intros H. rewrite vset_ok by (rewrite zlen_vec; lia). f_equal. apply vget_ext; [rewrite zlen_zupd, !zlen_vec; lia|]. rewrite zlen_zupd, zlen_vec by lia. intros i Hi. rewrite vget_zupd by (rewrite zlen_vec; lia). rewrite !vget_vec by auto. unfold fput. rewrite (Z.eqb_sym i v). now destruct (v =? i).
Qed.
Lemma vrep_vec {X} n (a : X) : 0 <= n -> vrep n a = vec n (fun _ => a).
Proof. intros H. apply vget_ext; [rewrite zlen_vrep, zlen_vec; lia|]. intros i Hi. rewrite zlen_vrep in Hi by lia. now rewrite vget_vrep, vget_vec by lia. Qed.
Lemma loop_step {S R} (body : S -> res (S + R)) k s s' : body s = Ok (inl s') -> loop (Datatypes.S k) body s = loop k body s'.
Proof. intros E. cbn [loop]. now rewrite E. Qed.

Section Walk.
  Variables (g : list (list Z)) (pf dep rt : Z -> Z).
  Hypothesis R : rooted g pf.
  Hypothesis D : dep_ok g pf dep rt.
  Notation n := (zlen g).
  Notation size t := (zlen (nodes t)).
  (* the test of the code at the root of t *)
  Definition balanced (t : rose) : bool := forallb (fun c => 2 * size c <=? n) (kids t) && (2 * size t >=? n).
  Fixpoint cent (t : rose) : list Z := match t with Rose u cs => flat_map cent cs ++ (if balanced (Rose u cs) then [u] else []) end.
  Definition deg (v : Z) : nat := match vget g v with Ok r => length r | _ => O end.
  Definition cost (l : list Z) : nat := fold_right (fun v k => Datatypes.S (deg v) + k)%nat O l.
  Lemma cost_app a b : cost (a ++ b) = (cost a + cost b)%nat. Proof. unfold cost. rewrite fold_right_app. induction a; cbn [fold_right]; lia. Qed.
  Lemma cost_cons v a : cost (v :: a) = (S (deg v) + cost a)%nat. Proof. reflexivity. Qed.
  Definition st cur rs (C : Z -> bool) (E P S : Z -> Z) : cst := CS cur rs (vec n C) (vec n E) (vec n P) (vec n S).
  Definition agree (l : list Z) (C C' : Z -> bool) (E P S E' P' S' : Z -> Z) : Prop := forall v, ~ In v l -> C' v = C v /\ E' v = E v /\ P' v = P v /\ S' v = S v.
  Definition goal (t : rose) : Prop := forall rs C E P S f, (forall w, In w (nodes t) -> C w = true /\ E w = 0 /\ S w = 1) -> P (root t) = pf (root t) ->
    exists C' E' P' S', loop (cost (nodes t) + f) (fc_step g) (st (root t) rs C E P S) = loop f (fc_step g) (st (pf (root t)) (rs ++ cent t) C' E' P' S') /\
      agree (pf (root t) :: nodes t) C C' E P S E' P' S' /\
      (pf (root t) <> -1 -> C' (pf (root t)) = C (pf (root t)) && (2 * size t <=? n) /\ E' (pf (root t)) = E (pf (root t)) /\ P' (pf (root t)) = P (pf (root t)) /\ S' (pf (root t)) = S (pf (root t)) + size t).
  (* the children of u, from the neighbours that are still to be looked at *)
  Lemma kids_run u adj : vertex g u -> vget g u = Ok adj -> forall todo done cs rs C E P S f, adj = done ++ todo -> map root cs = filter (not_ (pf u)) todo -> (forall c, In c cs -> pf (root c) = u) -> (forall c, In c cs -> goal c) ->
    NoDup (u :: cnodes cs) -> (forall w, In w (cnodes cs) -> vertex g w) -> E u = zlen done -> P u = pf u -> (forall w, In w (cnodes cs) -> C w = true /\ E w = 0 /\ S w = 1) ->
    exists C' E' P' S', loop (length todo + (cost (cnodes cs) + f)) (fc_step g) (st u rs C E P S) = loop f (fc_step g) (st u (rs ++ flat_map cent cs) C' E' P' S') /\
      agree (u :: cnodes cs) C C' E P S E' P' S' /\ C' u = C u && forallb (fun c => 2 * size c <=? n) cs /\ E' u = zlen adj /\ P' u = pf u /\ S' u = S u + zlen (cnodes cs).
  Proof.
    intros Hu Ea. pose proof Hu as Hu'. unfold vertex in Hu'. induction todo as [|x todo IH]; intros done cs rs C E P S f Eadj M Pc G Nd V Eu Pu Fr.
    - destruct cs; [|discriminate]. cbn [flat_map length cost fold_right Nat.add]. exists C, E, P, S. rewrite !app_nil_r in *. split; auto. split; [intros v _; auto|]. cbn [forallb]. rewrite andb_true_r. change (zlen (@nil Z)) with 0. rewrite Z.add_0_r, Eadj. auto.
    - cbn [length Nat.add]. assert (Lt : zlen adj = zlen done + (1 + zlen todo)) by (rewrite Eadj, zlen_app, zlen_cons; lia). pose proof (zlen_nonneg done). pose proof (zlen_nonneg todo).
      assert (Gx : vget adj (E u) = Ok x) by (rewrite Eu, Eadj; now apply vget_mid).
      assert (Ed : adj = (done ++ [x]) ++ todo) by (rewrite <- app_assoc; exact Eadj).
      cbn [filter] in M. destruct (Z.eqb_spec x (pf u)) as [Ex|Nx]; cbn [negb] in M.
      + rewrite (loop_step _ _ _ (st u rs C (fput E u (E u + 1)) P S)).
        * destruct (IH (done ++ [x]) cs rs C (fput E u (E u + 1)) P S f) as (C' & E' & P' & S' & Run & Ag & X); auto.
          -- rewrite fput_same, Eu, zlen_app. reflexivity.
          -- intros w Hw. rewrite fput_diff; auto. inversion Nd; subst. intros ->. contradiction.
          -- exists C', E', P', S'. split; auto. split; auto. intros v Hv. destruct (Ag v Hv) as (A1 & A2 & A3 & A4). rewrite fput_diff in A2 by (intros ->; apply Hv; now left). auto.
        * unfold fc_step, st. destruct (Z.ltb_spec u 0); [lia|]. rewrite !vget_vec by lia. cbn [bind]. rewrite Ea. cbn [bind]. destruct (Z.eqb_spec (E u) (zlen adj)); [lia|]. rewrite Gx. cbn [bind]. rewrite vset_vec by lia. cbn [bind]. rewrite Pu. destruct (Z.eqb_spec x (pf u)); [reflexivity|contradiction].
      + destruct cs as [|c cs]; [discriminate|]. cbn [map] in M. injection M as Ex M. assert (Pc' := Pc c (or_introl eq_refl)). cbn [flat_map] in *. rewrite cost_app.
        assert (Vx : vertex g x) by (apply V, in_app_iff; left; rewrite <- Ex; apply root_In). unfold vertex in Vx.
        inversion Nd as [|? ? Nu Nc]; subst x0 l.
        rewrite (loop_step _ _ _ (st x rs C (fput E u (E u + 1)) (fput P x u) S)).
        * replace (length todo + (cost (nodes c) + cost (cnodes cs) + f))%nat with (cost (nodes c) + (length todo + (cost (cnodes cs) + f)))%nat by lia.
          destruct (G c (or_introl eq_refl) rs C (fput E u (E u + 1)) (fput P x u) S (length todo + (cost (cnodes cs) + f))%nat) as (C1 & E1 & P1 & S1 & R1 & A1 & B1).
          -- intros w Hw. rewrite fput_diff by (intros ->; apply Nu, in_app_iff; now left). apply Fr, in_app_iff. now left.
          -- rewrite Ex, fput_same. now rewrite <- Ex.
          -- rewrite Ex in R1. rewrite R1. clear R1. rewrite Ex in A1, B1. rewrite <- Ex in A1, B1 |- *. rewrite Pc' in A1, B1 |- *. destruct (B1 ltac:(lia)) as (B2 & B3 & B4 & B5). rewrite fput_same in B3. rewrite fput_diff in B4 by (intros Xu; apply Nu, in_app_iff; left; rewrite Xu at 1; apply root_In).
             assert (Dj : forall w, In w (cnodes cs) -> ~ In w (u :: nodes c)). { intros w Hw [<-|Hc]; [apply Nu, in_app_iff; auto|]. apply (NoDup_app_disj _ _ w Nc); auto. }
             destruct (IH (done ++ [x]) cs (rs ++ cent c) C1 E1 P1 S1 f) as (C' & E' & P' & S' & Run & Ag & C2 & E2 & P2 & S2); auto.
             ++ intros; apply Pc; now right.
             ++ intros; apply G; now right.
             ++ constructor; [intros I; apply Nu, in_app_iff; auto|]. now apply NoDup_app_r in Nc.
             ++ intros; apply V, in_app_iff; auto.
             ++ rewrite B3, Eu, zlen_app. reflexivity.
             ++ congruence.
             ++ intros w Hw. destruct (A1 w (Dj w Hw)) as (-> & -> & _ & ->). rewrite fput_diff by (intros ->; apply Nu, in_app_iff; auto). apply Fr, in_app_iff; auto.
             ++ exists C', E', P', S'. rewrite Run, <- app_assoc. split; auto. split; [|split; [|split; [auto|split; [auto|]]]].
                ** intros v Hv. destruct (Ag v) as (X1 & X2 & X3 & X4); [intros [->|I]; apply Hv; [now left|right; apply in_app_iff; auto]|]. destruct (A1 v) as (Y1 & Y2 & Y3 & Y4); [intros [->|I]; apply Hv; [now left|right; apply in_app_iff; auto]|].
                   rewrite fput_diff in Y2 by (intros ->; apply Hv; now left). rewrite fput_diff in Y3 by (intros ->; apply Hv; right; apply in_app_iff; left; apply root_In). repeat split; congruence.
                ** rewrite C2, B2. cbn [forallb]. now rewrite andb_assoc.
                ** rewrite S2, B5, zlen_app. lia.
        * unfold fc_step, st. destruct (Z.ltb_spec u 0); [lia|]. rewrite !vget_vec by lia. cbn [bind]. rewrite Ea. cbn [bind]. destruct (Z.eqb_spec (E u) (zlen adj)); [lia|]. rewrite Gx. cbn [bind]. rewrite vset_vec by lia. cbn [bind]. rewrite Pu. destruct (Z.eqb_spec x (pf u)); [contradiction|]. rewrite vset_vec by lia. reflexivity.
  Qed.
  Lemma walk t : fits g pf t -> goal t.
  Proof.
    induction 1 as [u cs adj Hu Ea M P0 F IH]. intros rs C E P S f Fr Pr. cbn [nodes root] in *. pose proof Hu as Hu'. unfold vertex in Hu'.
    pose proof (fits_nodup g pf dep rt R D (Rose u cs) ltac:(econstructor; eauto)) as Nd. cbn [nodes] in Nd.
    assert (V : forall w, In w (cnodes cs) -> vertex g w). { intros w Hw. apply in_flat_map in Hw as (c & Ic & Hw). apply (fits_anc g pf c); auto. }
    destruct (Fr u (or_introl eq_refl)) as (Cu & Eu & Su).
    rewrite cost_cons. assert (Dg : deg u = length adj) by (unfold deg; now rewrite Ea). rewrite Dg. replace (Datatypes.S (length adj) + cost (cnodes cs) + f)%nat with (length adj + (cost (cnodes cs) + Datatypes.S f))%nat by lia.
    destruct (kids_run u adj Hu Ea adj [] cs rs C E P S (Datatypes.S f)) as (C1 & E1 & P1 & S1 & R1 & Ag & C2 & E2 & P2 & S2); auto.
    { intros w Hw. apply Fr. now right. }
    rewrite R1. clear R1. rewrite Cu in C2. cbn [andb] in C2. rewrite Su in S2.
    assert (Sz : S1 u = size (Rose u cs)) by (rewrite S2; cbn [nodes]; rewrite zlen_cons; lia).
    assert (Np : pf u = -1 \/ vertex g (pf u)) by apply (proj1 R u Hu). assert (Npu : pf u <> u) by apply (par_neq g pf dep rt D u Hu).
    assert (Npc : ~ In (pf u) (cnodes cs)).
    { intros I. destruct (fits_anc g pf (Rose u cs) ltac:(econstructor; eauto) (pf u)) as (Vp & Ap); [cbn [nodes]; now right|]. cbn [root] in Ap. pose proof (anc_dep g pf dep rt R D _ _ Ap Vp). pose proof (dep_par g pf dep rt D u Hu ltac:(unfold vertex in Vp; lia)). lia. }
    set (b := balanced (Rose u cs)).
    assert (Bb : C1 u && (2 * S1 u >=? n) = b). { unfold b, balanced. cbn [kids]. now rewrite C2, Sz. }
    destruct (Z.leb_spec 0 (pf u)) as [Pp|Pp].
    - assert (Vp : 0 <= pf u < n) by (destruct Np as [X|X]; [lia|exact X]).
      rewrite (loop_step _ _ _ (st (pf u) (rs ++ cent (Rose u cs)) (fput C1 (pf u) (C1 (pf u) && (2 * size (Rose u cs) <=? n))) E1 P1 (fput S1 (pf u) (S1 (pf u) + size (Rose u cs))))).
      + do 4 eexists. split; [reflexivity|]. destruct (Ag (pf u)) as (A1 & A2 & A3 & A4); [intros [X|X]; [congruence|contradiction]|]. split.
        * intros v Hv. destruct (Ag v) as (B1 & B2 & B3 & B4); [intros X; apply Hv; now right|]. rewrite !fput_diff by (intros ->; apply Hv; now left). auto.
        * intros _. rewrite !fput_same, A1, A2, A3, A4. auto.
      + unfold fc_step, st. destruct (Z.ltb_spec u 0); [lia|]. rewrite !vget_vec by lia. cbn [bind]. rewrite Ea. cbn [bind]. rewrite E2, Z.eqb_refl. rewrite P2. rewrite Z.geb_leb. destruct (Z.leb_spec 0 (pf u)); [|lia].
        rewrite ?vget_vec by lia. cbn [bind]. rewrite vset_vec by lia. cbn [bind]. rewrite ?vget_vec by lia. cbn [bind]. rewrite vset_vec by lia. cbn [bind]. rewrite ?vget_vec by lia. cbn [bind]. rewrite !fput_diff by auto. rewrite Bb, Sz. cbn [cent]. fold b. rewrite app_assoc. destruct b; [reflexivity|]. now rewrite app_nil_r.
    - assert (Em : pf u = -1) by (destruct Np as [X|X]; [exact X|unfold vertex in X; lia]).
      rewrite (loop_step _ _ _ (st (pf u) (rs ++ cent (Rose u cs)) C1 E1 P1 S1)).
      + exists C1, E1, P1, S1. split; [reflexivity|]. split; [|intros X; contradiction]. intros v Hv. apply Ag. intros X; apply Hv; now right.
      + unfold fc_step, st. destruct (Z.ltb_spec u 0); [lia|]. rewrite !vget_vec by lia. cbn [bind]. rewrite Ea. cbn [bind]. rewrite E2, Z.eqb_refl. rewrite P2. rewrite Z.geb_leb. destruct (Z.leb_spec 0 (pf u)); [lia|].
        cbn [bind]. rewrite !vget_vec by lia. cbn [bind]. rewrite Bb. cbn [cent]. fold b. rewrite app_assoc. destruct b; [reflexivity|]. now rewrite app_nil_r.
  Qed.
End Walk.
