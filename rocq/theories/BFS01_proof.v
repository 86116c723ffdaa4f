(* BFS01 *)
From Verif Require Import Base BaseLemmas ListZ ListMore Graph_spec BFS_proof Dijkstra_proof BFS01_model.
#[local] Opaque bfs01_inf.

Lemma zupd_split {A} (l : list A) v x y : vget l v = Ok y -> exists a b, l = a ++ y :: b /\ zupd l v x = a ++ x :: b /\ zlen a = v.
Proof.
  intros E. apply vget_split in E as (a & b & -> & <-). exists a, b. split; auto. split; auto. unfold zupd. replace (Z.to_nat (zlen a)) with (length a) by (unfold zlen; lia).
  induction a; cbn [app length upd]; congruence.
Qed.
Definition lsumn (f : Z -> nat) (l : list Z) : nat := fold_right (fun x s => (f x + s)%nat) O l.
Lemma lsumn_app f a b : lsumn f (a ++ b) = (lsumn f a + lsumn f b)%nat.
Proof. induction a as [|x a IH]; cbn [app lsumn fold_right] in *; [auto|]. unfold lsumn in *. lia. Qed.
Lemma lsumn_zupd f l v x y : vget l v = Ok y -> (lsumn f (zupd l v x) + f y = lsumn f l + f x)%nat.
Proof.
  intros E. destruct (zupd_split l v x y E) as (a & b & -> & -> & _). rewrite !lsumn_app. cbn [lsumn fold_right]. unfold lsumn. lia.
Qed.
Lemma lsumn_le f k l : (forall x, In x l -> (f x <= k)%nat) -> (lsumn f l <= length l * k)%nat.
Proof. induction l as [|x l IH]; intros H; cbn [lsumn fold_right length]; [lia|]. pose proof (H x (or_introl eq_refl)). unfold lsumn in IH. specialize (IH (fun y Hy => H y (or_intror Hy))). lia. Qed.

Section B.
  Variables (g : list (list (Z * Z))) (src : list Z).
  Hypothesis G : wgraph_ok g.
  Hypothesis Bin : forall u v c, wedge g u v c -> c = 0 \/ c = 1.
  Hypothesis Hsrc : forall s, In s src -> vertex g s.
  Hypothesis Len : zlen g <= bfs01_inf.
  Notation n := (zlen g).
  Notation E := (wedge g).
  Notation inf := bfs01_inf.
  Lemma inf_val : inf = 2 ^ 31 - 1. Proof. reflexivity. Qed.
  Definition fin (x : Z) : nat := if x <? inf then 1 else 0.
  Definition cap (x : Z) : nat := Z.to_nat (Z.min x n).
  Lemma fin_full l : (lsumn fin l <= length l)%nat.
  Proof. replace (length l) with (length l * 1)%nat by lia. apply lsumn_le. intros x _. unfold fin. destruct (x <? inf); lia. Qed.
  Definition good0 (dist : list Z) : Prop :=
    zlen dist = n /\ (forall v, vertex g v -> 0 <= dv dist v <= inf) /\ (forall s, In s src -> dv dist s = 0) /\
    (forall v, vertex g v -> dv dist v < inf -> dv dist v < Z.of_nat (lsumn fin dist) /\ exists s, In s src /\ reach E s v (dv dist v)).
  Definition dq_ok (dist dq : list Z) : Prop := forall v, In v dq -> vertex g v /\ dv dist v < inf.
  Definition done1 (dist : list Z) (u : Z) : Prop := forall v c, E u v c -> dv dist v <= dv dist u + c.
  Definition meas (dist dq : list Z) : nat := (length dq + lsumn cap dist)%nat.
  Definition P01 (k : nat) (s : list Z * list Z) : Prop :=
    let '(dist, dq) := s in good0 dist /\ dq_ok dist dq /\ (forall u, vertex g u -> dv dist u < inf -> In u dq \/ done1 dist u) /\ (meas dist dq <= k)%nat.
  Lemma small dist v : good0 dist -> vertex g v -> dv dist v < inf -> dv dist v < n.
  Proof. intros (Zd & _ & _ & H) Hv L. destruct (H v Hv L) as (H1 & _). pose proof (fin_full dist). unfold zlen in *. lia. Qed.
  Lemma step01 k s : P01 k s -> exists x, bfs01_loop g s = Ok x /\ match x with inl s' => exists k', (k' < k)%nat /\ P01 k' s' | inr dist => good0 dist /\ forall u, vertex g u -> dv dist u < inf -> done1 dist u end.
  Proof.
    destruct s as [dist dq]. intros (Gd & Qk & Cl & Ms). unfold bfs01_loop. destruct dq as [|u dq].
    - eexists. split; [reflexivity|]. split; auto. intros u Hu L. destruct (Cl u Hu L) as [[]|]; auto.
    - destruct (Qk u (or_introl eq_refl)) as (Hu & Lu). destruct (vget_Ok g u Hu) as (a & Ea). rewrite Ea. cbn [bind].
      set (d := dv dist u).
      destruct (for_each_inv (fun done s => let '(dist1, dq1) := s in good0 dist1 /\ dq_ok dist1 dq1 /\ dv dist1 u = d /\
         (forall w, vertex g w -> w <> u -> dv dist1 w < inf -> In w dq1 \/ done1 dist1 w) /\ (forall v c, In (v, c) done -> dv dist1 v <= d + c) /\ (meas dist1 dq1 <= meas dist dq)%nat) a (bfs01_visit u) (dist, dq)) as ((dist' & dq') & E' & G' & Q' & Du & Cl' & Dn & M').
      + split; auto. split; [intros v Hv; apply Qk; now right|]. split; auto. split; [|split; [intros v c []|lia]].
        intros w Hw Nw L. destruct (Cl w Hw L) as [[|]|]; auto. congruence.
      + intros done (v, c) todo (dist1, dq1) El (G1 & Q1 & Du & Cl1 & Dn & M1). pose proof G1 as (Z1 & R1 & S1 & W1).
        assert (He : E u v c) by (exists a; split; auto; rewrite El; apply in_app_iff; right; now left). pose proof (G _ _ _ He) as Hv. pose proof (Bin _ _ _ He) as Hc.
        unfold bfs01_visit. unfold vertex in Hu. rewrite !vget_dv by lia. cbn [bind]. rewrite Du.
        assert (Sd : 0 <= d < n). { split; [rewrite <- Du; apply (R1 u); auto|]. rewrite <- Du. apply small; auto. rewrite Du. exact Lu. }
        unfold i32. pose proof inf_val as Iv. replace ((- 2 ^ 31 <=? d + c) && (d + c <? 2 ^ 31)) with true by lia. cbn [bind].
        destruct (Z.ltb_spec (d + c) (dv dist1 v)) as [Lt|Ge].
        * rewrite vset_ok by lia. cbn [bind]. eexists. split; [reflexivity|]. cbn beta iota.
          assert (Nv : v <> u) by (intros ->; rewrite Du in Lt; lia).
          assert (Ev : vget dist1 v = Ok (dv dist1 v)) by (apply vget_dv; lia).
          assert (Dz : forall w, vertex g w -> dv (zupd dist1 v (d + c)) w = if v =? w then d + c else dv dist1 w) by (intros w Hw; unfold vertex in Hw; rewrite dv_zupd by lia; auto).
          assert (Li : d + c < inf) by (specialize (R1 v Hv); lia).
          pose proof (lsumn_zupd fin dist1 v (d + c) _ Ev) as Fs. pose proof (lsumn_zupd cap dist1 v (d + c) _ Ev) as Cs.
          assert (F1 : fin (d + c) = 1%nat) by (unfold fin; rewrite (proj2 (Z.ltb_lt _ _) Li); auto).
          assert (Md : d < Z.of_nat (lsumn fin dist1)) by (rewrite <- Du; apply (W1 u Hu); rewrite Du; exact Lu).
          assert (Nw : d + c < Z.of_nat (lsumn fin (zupd dist1 v (d + c)))).
          { destruct (Z_lt_le_dec (dv dist1 v) inf) as [Lv|Lv].
            - assert (F2 : fin (dv dist1 v) = 1%nat) by (unfold fin; rewrite (proj2 (Z.ltb_lt _ _) Lv); auto). destruct (W1 v Hv Lv). lia.
            - assert (F2 : fin (dv dist1 v) = 0%nat) by (unfold fin; rewrite (proj2 (Z.ltb_ge _ _) Lv); auto). lia. }
          assert (Cd : (cap (d + c) < cap (dv dist1 v))%nat).
          { unfold cap. destruct (Z_lt_le_dec (dv dist1 v) inf) as [Lv|Lv]; [pose proof (small _ _ G1 Hv Lv); lia|].
            pose proof (fin_full (zupd dist1 v (d + c))) as Fz. assert (zlen (zupd dist1 v (d + c)) = n) by now rewrite zlen_zupd. unfold zlen in *. lia. }
          split; [|split; [|split; [|split; [|split]]]].
          -- split; [now rewrite zlen_zupd|]. split; [intros w Hw; rewrite Dz by auto; specialize (R1 w Hw); destruct (v =? w); lia|].
             split; [intros s Is; rewrite Dz by auto; destruct (Z.eqb_spec v s) as [->|]; auto; specialize (S1 s Is); lia|].
             intros w Hw. rewrite Dz by auto. destruct (Z.eqb_spec v w) as [->|].
             ++ intros _. split; auto. destruct (W1 u Hu) as (_ & s & Is & Rs); [lia|]. exists s. split; auto. rewrite Du in Rs. eapply reach_snoc; eauto.
             ++ intros L. destruct (W1 w Hw L) as (A & B). split; auto. assert (fin (dv dist1 v) <= 1)%nat by (unfold fin; destruct (_ <? _); lia). lia.
          -- intros w Hw. assert (K : w = v \/ In w dq1) by (destruct (c =? 0); [destruct Hw; auto|apply in_app_iff in Hw as [|[|[]]]; auto]).
             destruct K as [->|K]; [split; auto; rewrite Dz, Z.eqb_refl by auto; lia|]. destruct (Q1 w K) as (Vw & Lw). split; auto. rewrite Dz by auto. destruct (v =? w); lia.
          -- rewrite Dz by auto. destruct (Z.eqb_spec v u); auto. congruence.
          -- intros w Hw Nu. rewrite Dz by auto. destruct (Z.eqb_spec v w) as [->|Ne]; [intros _; left; destruct (c =? 0); [now left|apply in_app_iff; right; now left]|].
             intros L. destruct (Cl1 w Hw Nu L) as [I|D]; [left; destruct (c =? 0); [now right|apply in_app_iff; auto]|right]. intros x e Hx. specialize (D x e Hx). pose proof (G _ _ _ Hx) as Vx.
             rewrite (Dz x) by auto. rewrite (Dz w) by auto. rewrite (proj2 (Z.eqb_neq v w)) by auto. destruct (Z.eqb_spec v x) as [->|]; lia.
          -- intros w e Hw. apply in_app_iff in Hw as [Hw|[[= <- <-]|[]]].
             ++ assert (Vw : vertex g w) by (apply (G u _ e); exists a; split; auto; rewrite El; apply in_app_iff; now left). rewrite Dz by auto. specialize (Dn _ _ Hw). destruct (Z.eqb_spec v w) as [->|]; lia.
             ++ rewrite Dz, Z.eqb_refl by auto. lia.
          -- unfold meas in *. assert (length (if c =? 0 then v :: dq1 else dq1 ++ [v]) = S (length dq1)) by (destruct (c =? 0); [auto|rewrite app_length; cbn [length]; lia]). lia.
        * eexists. split; [reflexivity|]. cbn beta iota. split; auto. split; auto. split; auto. split; auto. split; auto. intros w e Hw. apply in_app_iff in Hw as [Hw|[[= <- <-]|[]]]; auto.
      + rewrite E'. cbn [bind]. eexists. split; [reflexivity|]. exists (meas dist' dq'). split; [unfold meas in *; cbn [length] in Ms; lia|]. split; auto. split; auto. split; [|lia].
        intros w Hw L. destruct (Z.eq_dec w u) as [->|N]; [|auto]. right. intros v c He. rewrite Du. apply Dn. destruct He as (b & Eb & I). congruence.
  Qed.
  Lemma bfs01_ok : exists dist, bfs01_run g src = Ok dist /\ forall t, vertex g t ->
    (bfs01_at dist t = Ok inf /\ bfs01_is_reachable dist t = Ok false /\ bfs01_is_unreachable dist t = Ok true /\ forall s c, In s src -> ~ reach E s t c) \/
    (exists s d, bfs01_at dist t = Ok d /\ d < inf /\ bfs01_is_reachable dist t = Ok true /\ bfs01_is_unreachable dist t = Ok false /\ In s src /\ reach E s t d /\
      forall s' d', In s' src -> reach E s' t d' -> d <= d').
  Proof.
    pose proof (zlen_nonneg g) as N0. unfold bfs01_run. pose proof inf_val as Iv.
    destruct (for_each_inv (fun done dist => zlen dist = n /\ (forall v, vertex g v -> dv dist v = if in_dec Z.eq_dec v done then 0 else inf)) src (fun v dist => vset dist v 0) (vrep n inf)) as (dist & Ed & Zd & Dd).
    - split; [now apply zlen_vrep|]. intros v Hv. rewrite dv_vrep by auto. reflexivity.
    - intros done v todo dist El (Zd & Dd). assert (Hv : vertex g v) by (apply Hsrc; rewrite El; apply in_app_iff; right; now left). rewrite vset_ok by (unfold vertex in Hv; lia). eexists. split; [reflexivity|]. split; [now rewrite zlen_zupd|].
      intros w Hw. unfold vertex in Hw, Hv. rewrite dv_zupd, Dd by (auto; lia). destruct (Z.eqb_spec v w) as [->|], (in_dec Z.eq_dec w done), (in_dec Z.eq_dec w (done ++ _)) as [I|I]; auto; rewrite in_app_iff in I; cbn [In] in I; tauto.
    - rewrite Ed. cbn [bind].
      destruct (loop_rel P01 (fun dist => good0 dist /\ forall u, vertex g u -> dv dist u < inf -> done1 dist u) (bfs01_loop g) step01 (length src + length g * length g + 1) (meas dist src) (dist, src)) as (r & Er & Gr & Cl).
      + split; [|split; [|split]].
        * split; auto. split; [intros v Hv; rewrite Dd by auto; destruct (in_dec _ _ _); lia|]. split; [intros s Is; rewrite Dd by auto; destruct (in_dec _ _ _); tauto|].
          intros v Hv. rewrite Dd by auto. destruct (in_dec Z.eq_dec v src) as [I|I]; [|lia]. intros _. split; [|exists v; split; auto; apply reach_end].
          assert (Ev : vget dist v = Ok 0) by (rewrite vget_dv by (unfold vertex in Hv; lia); rewrite Dd by auto; destruct (in_dec _ _ _); tauto).
          apply vget_split in Ev as (a & b & -> & _). rewrite lsumn_app. cbn [lsumn fold_right]. assert (fin 0 = 1%nat) by (unfold fin; rewrite (proj2 (Z.ltb_lt 0 inf)); auto; lia). lia.
        * intros v Iv'. split; auto. rewrite Dd by auto. destruct (in_dec _ _ _); [lia|tauto].
        * intros u Hu. rewrite Dd by auto. destruct (in_dec _ _ _); [auto|lia].
        * lia.
      + unfold meas. assert (L : (lsumn cap dist <= length dist * length g)%nat) by (apply lsumn_le; intros x _; unfold cap, zlen; lia). assert (length dist = length g) by (unfold zlen in *; lia). lia.
      + pose proof Gr as (Zr & Rr & Sr & Wr). exists r. split; auto. intros t Ht. unfold bfs01_at, bfs01_is_reachable, bfs01_is_unreachable. rewrite vget_dv by (unfold vertex in Ht; lia). cbn [bind].
        assert (K : forall s c, In s src -> reach E s t c -> dv r t < inf /\ dv r t <= c).
        { intros s c Is (p & R). destruct (route_potential E (fun v => vertex g v /\ dv r v < inf) (dv r) s t p c R) as (A & B); [| |rewrite (Sr s) in B by auto; split; [apply A|lia]]; [split; [now apply Hsrc|rewrite Sr by auto; lia]|].
          intros u v d (Hu & Lu) He. pose proof (Cl u Hu Lu _ _ He) as C. split; auto. split; [eapply G; eauto|]. pose proof (small r u Gr Hu Lu) as Su. pose proof (Bin _ _ _ He) as Hb.
          destruct (Z_lt_le_dec (dv r v) inf) as [|Ge]; auto. exfalso. pose proof (G _ _ _ He) as Hv.
          (* every vertex but v may be finite: dist u + c < n unless v is finite *)
          destruct (Wr u Hu Lu) as (Wu & _). assert (Fv : (lsumn fin r < length g)%nat).
          { assert (Ev : vget r v = Ok (dv r v)) by (apply vget_dv; lia). pose proof (lsumn_zupd fin r v 0 _ Ev) as Fs. assert (F0 : fin 0 = 1%nat) by (unfold fin; rewrite (proj2 (Z.ltb_lt 0 inf)); auto; lia).
            assert (F2 : fin (dv r v) = 0%nat) by (unfold fin; rewrite (proj2 (Z.ltb_ge _ _) Ge); auto). pose proof (fin_full (zupd r v 0)) as Fz. assert (zlen (zupd r v 0) = n) by now rewrite zlen_zupd. unfold zlen in *. lia. }
          unfold zlen in *. lia. }
        destruct (Z_lt_le_dec (dv r t) inf) as [L|Ge].
        * right. destruct (Wr t Ht L) as (_ & s & Is & Rs). exists s, (dv r t). rewrite (proj2 (Z.eqb_neq _ _)) by lia. repeat (split; auto). intros s' d' Is' Rs'. eapply K; eauto.
        * left. assert (Et : dv r t = inf) by (pose proof (Rr t Ht); lia). rewrite Et, Z.eqb_refl. repeat (split; auto). intros s c Is R. destruct (K s c Is R). lia.
  Qed.
End B.
