(* bipartite_coloring *)
From Verif Require Import Base BaseLemmas ListZ ListMore Graph_spec BFS_proof BFS01_proof Dijkstra_proof Bipartite_model.

Lemma unc_ok c0 c1 : exists u, bc_uncolored c0 c1 = Ok u /\ u <> c0 /\ u <> c1.
Proof.
  unfold bc_uncolored. cbn [loop].
  destruct (Z.eqb_spec 2 c0), (Z.eqb_spec 2 c1); cbn [orb bind]; [| | |eexists; split; [reflexivity|lia]];
  (destruct (Z.eqb_spec (2 + 1) c0), (Z.eqb_spec (2 + 1) c1); cbn [orb bind]; [| | |eexists; split; [reflexivity|lia]];
   (destruct (Z.eqb_spec (2 + 1 + 1) c0), (Z.eqb_spec (2 + 1 + 1) c1); cbn [orb bind]; [| | |eexists; split; [reflexivity|lia]]; exfalso; lia)).
Qed.
Section Bip.
  Variables (g : list (list Z)) (c0 c1 unc : Z).
  Hypothesis G : graph_ok g.
  Hypothesis Sym : forall u v, edge g u v -> edge g v u.
  Hypothesis N01 : c0 <> c1.
  Hypothesis U0 : unc <> c0.
  Hypothesis U1 : unc <> c1.
  Notation n := (zlen g).
  Definition proper (f : Z -> bool) : Prop := forall u v, edge g u v -> f u <> f v.
  Definition flip (c : Z) : Z := Z.lxor (Z.lxor c c0) c1.
  Lemma flip0 : flip c0 = c1. Proof. unfold flip. now rewrite Z.lxor_nilpotent, Z.lxor_0_l. Qed.
  Lemma flip1 : flip c1 = c0. Proof. unfold flip. now rewrite (Z.lxor_comm c1 c0), Z.lxor_assoc, Z.lxor_nilpotent, Z.lxor_0_r. Qed.
  Definition un (x : Z) : nat := if x =? unc then 1 else 0.
  Definition colored (col : list Z) (v : Z) : Prop := dv col v <> unc.
  Definition fair (col : list Z) (u : Z) : Prop := forall v, edge g u v -> colored col v /\ dv col v <> dv col u.
  Definition two (col : list Z) : Prop := zlen col = n /\ forall v, vertex g v -> dv col v = unc \/ dv col v = c0 \/ dv col v = c1.
  (* old: the colouring when the search from i began *)
  Definition link (old col : list Z) (i : Z) : Prop :=
    (forall v, vertex g v -> colored old v -> dv col v = dv old v) /\
    forall f, proper f -> forall v, vertex g v -> colored col v -> ~ colored old v -> (dv col v = c0 <-> f v = f i).
  Definition PB (old : list Z) (i : Z) (k : nat) (s : list Z * list Z) : Prop :=
    let '(col, dq) := s in
    two col /\ (forall v, In v dq -> vertex g v /\ colored col v /\ ~ colored old v) /\ (forall u, vertex g u -> colored col u -> In u dq \/ fair col u) /\ link old col i /\ colored col i /\
    (length dq + lsumn un col <= k)%nat.
  Lemma step_b old i : vertex g i -> zlen old = n -> (forall u, vertex g u -> colored old u -> fair old u) -> forall k s, PB old i k s ->
    exists x, bc_loop c0 c1 unc g s = Ok x /\
    match x with inl s' => exists k', (k' < k)%nat /\ PB old i k' s' | inr None => forall f, ~ proper f
    | inr (Some col) => two col /\ (forall u, vertex g u -> colored col u -> fair col u) /\ (forall v, vertex g v -> colored old v -> colored col v) /\ colored col i end.
  Proof.
    intros Hi Zo Fo k (col, dq) (Tw & Qk & Cl & Lk & Ci & Ms). unfold bc_loop. destruct dq as [|u dq].
    - eexists. split; [reflexivity|]. cbn beta iota. split; auto. split; [intros u Hu Hc; destruct (Cl u Hu Hc) as [[]|]; auto|]. split; auto. intros v Hv Hc. unfold colored. rewrite (proj1 Lk) by auto. exact Hc.
    - destruct (Qk u (or_introl eq_refl)) as (Hu & Cu & Ou). destruct (vget_Ok g u Hu) as (a & Ea). rewrite Ea. cbn [bind].
      destruct (for_each_inv (fun done s => match s with None => forall f, ~ proper f | Some (col1, dq1) => two col1 /\ dv col1 u = dv col u /\ (forall v, In v dq1 -> vertex g v /\ colored col1 v /\ ~ colored old v) /\
         (forall w, vertex g w -> w <> u -> colored col1 w -> In w dq1 \/ fair col1 w) /\ link old col1 i /\ colored col1 i /\
         (forall v, In v done -> colored col1 v /\ dv col1 v <> dv col1 u) /\ (length dq1 + lsumn un col1 <= length dq + lsumn un col)%nat end) a (bc_visit c0 c1 unc u) (Some (col, dq))) as (r & Er & Hr).
      + split; auto. split; auto. split; [intros v Hv; apply Qk; now right|]. split; [intros w Hw Nw Cw; destruct (Cl w Hw Cw) as [[|]|]; auto; congruence|]. split; auto. split; auto. split; [intros v []|lia].
      + intros done v todo [(col1, dq1)|] El; [|intros H; exists None; split; auto; reflexivity]. intros (T1 & Du & Q1 & Cl1 & L1 & Ci1 & Dn & M1).
        assert (He : edge g u v) by (exists a; split; auto; rewrite El; apply in_app_iff; right; now left). pose proof (G _ _ He) as Hv.
        pose proof T1 as (Z1 & Tv). unfold bc_visit. unfold vertex in Hu. rewrite !vget_dv by lia. cbn [bind].
        assert (Cu1 : colored col1 u) by (unfold colored; rewrite Du; exact Cu).
        assert (Bu : dv col1 u = c0 \/ dv col1 u = c1) by (destruct (Tv u Hu) as [A|A]; [destruct (Cu1 A)|auto]).
        destruct (Z.eqb_spec (dv col1 v) unc) as [Eu|Nu].
        * rewrite vset_ok by lia. cbn [bind]. eexists. split; [reflexivity|]. cbn beta iota. fold (flip (dv col1 u)).
          set (x := flip (dv col1 u)). assert (Bx : (x = c0 \/ x = c1) /\ x <> dv col1 u) by (unfold x; destruct Bu as [ -> | -> ]; rewrite ?flip0, ?flip1; split; auto).
          assert (Xu : x <> unc) by (destruct Bx as ([|] & _); congruence).
          assert (Nvu : v <> u) by (intros ->; exact (Cu1 Eu)).
          assert (Dz : forall w, vertex g w -> dv (zupd col1 v x) w = if v =? w then x else dv col1 w) by (intros w Hw; unfold vertex in Hw; rewrite dv_zupd by lia; auto).
          assert (Ov : ~ colored old v). { intros Co. destruct L1 as (L1 & _). specialize (L1 v Hv Co). rewrite Eu in L1. symmetry in L1. exact (Co L1). }
          assert (Col : forall w, vertex g w -> colored col1 w -> colored (zupd col1 v x) w) by (intros w Hw Cw; unfold colored; rewrite Dz by auto; destruct (v =? w); auto).
          assert (Cv : colored (zupd col1 v x) v) by (unfold colored; rewrite Dz, Z.eqb_refl; auto).
          split; [split; [now rewrite zlen_zupd|]; intros w Hw; rewrite Dz by auto; destruct (v =? w); [right; apply Bx|auto]|].
          split; [rewrite Dz by auto; now rewrite (proj2 (Z.eqb_neq v u))|].
          split; [intros w Hw; apply in_app_iff in Hw as [Hw|[<-|[]]]; [destruct (Q1 w Hw) as (A & B & C); auto|auto]|].
          split. { intros w Hw Nw. unfold colored at 1. rewrite Dz by auto. destruct (Z.eqb_spec v w) as [->|Nvw]; [intros _; left; apply in_app_iff; right; now left|]. intros Cw. destruct (Cl1 w Hw Nw Cw) as [I|F]; [left; apply in_app_iff; auto|right].
            intros y Hy. destruct (F y Hy) as (A & B). pose proof (G _ _ Hy) as Vy. split; [auto|]. rewrite !Dz by auto. rewrite (proj2 (Z.eqb_neq v w)) by auto. destruct (Z.eqb_spec v y) as [<-|]; [destruct (A Eu)|auto]. }
          split. { destruct L1 as (La & Lb). split.
            - intros w Hw Cw. rewrite Dz by auto. destruct (Z.eqb_spec v w) as [->|]; auto. destruct (Ov Cw).
            - intros f Pf w Hw Cw Ow. rewrite Dz by auto. destruct (Z.eqb_spec v w) as [<-|Nw].
              + specialize (Lb f Pf u Hu Cu1 Ou). pose proof (Pf _ _ He) as Fuv. unfold x. destruct Bu as [B|B]; rewrite B; rewrite ?flip0, ?flip1.
                * split; [intros; congruence|]. intros E. destruct (f u), (f v), (f i); destruct Lb as (Lb1 & Lb2); try congruence; specialize (Lb1 B); congruence.
                * split; [|auto]. intros _. assert (f u <> f i) by (intros E; apply Lb in E; congruence). destruct (f u), (f v), (f i); congruence.
              + apply Lb; auto. unfold colored in *. rewrite Dz in Cw by auto. now rewrite (proj2 (Z.eqb_neq v w)) in Cw by auto. }
          split; [apply Col; auto|].
          split. { intros w Hw. assert (Vw : vertex g w) by (apply in_app_iff in Hw as [Hw|[<-|[]]]; auto; apply (G u); exists a; split; auto; rewrite El; apply in_app_iff; auto).
            rewrite !Dz by auto. rewrite (proj2 (Z.eqb_neq v u)) by auto. apply in_app_iff in Hw as [Hw|[<-|[]]]; [destruct (Dn w Hw) as (A & B)|].
            - split; [auto|]. destruct (Z.eqb_spec v w) as [<-|]; [apply Bx|auto].
            - split; [auto|]. rewrite Z.eqb_refl. apply Bx. }
          assert (Ev : vget col1 v = Ok (dv col1 v)) by (apply vget_dv; lia). pose proof (lsumn_zupd un col1 v x _ Ev) as Ls. rewrite Eu in Ls. assert (un unc = 1%nat) by (unfold un; now rewrite Z.eqb_refl). assert (un x = 0%nat) by (unfold un; now rewrite (proj2 (Z.eqb_neq x unc))).
          rewrite app_length. cbn [length]. lia.
        * destruct (Z.eqb_spec (dv col1 v) (dv col1 u)) as [Ee|Ne].
          -- eexists. split; [reflexivity|]. cbn beta iota. intros f Pf. assert (Ov : ~ colored old v).
             { intros Co. apply Ou. destruct (Fo v Hv Co u (Sym _ _ He)) as (A & _). exact A. }
             destruct L1 as (_ & Lb). pose proof (Lb f Pf u Hu Cu1 Ou) as A. pose proof (Lb f Pf v Hv Nu Ov) as B. rewrite Ee in B. pose proof (Pf _ _ He) as Fuv.
             destruct Bu as [Bu|Bu]; rewrite Bu in A, B; destruct (f u), (f v), (f i); try congruence; destruct A as (A1 & A2), B as (B1 & B2); try (specialize (A1 eq_refl); congruence); try (specialize (B1 eq_refl); congruence); try (specialize (A2 eq_refl); congruence); specialize (B2 eq_refl); congruence.
          -- eexists. split; [reflexivity|]. cbn beta iota. split; auto. split; auto. split; auto. split; auto. split; auto. split; auto. split; auto. intros w Hw. apply in_app_iff in Hw as [Hw|[<-|[]]]; auto.
      + rewrite Er. cbn [bind]. destruct r as [(col', dq')|]; [|eexists; split; [reflexivity|]; exact Hr]. destruct Hr as (T1 & Du & Q1 & Cl1 & L1 & Ci1 & Dn & M1). eexists. split; [reflexivity|]. cbn beta iota.
        exists (length dq' + lsumn un col')%nat. split; [cbn [length] in Ms; lia|]. split; auto. split; auto. split; [|split; auto].
        intros w Hw Cw. destruct (Z.eq_dec w u) as [->|Nw]; auto. right. intros y Hy. apply Dn. destruct Hy as (b & Eb & I). congruence.
  Qed.
  Lemma bip_ok0 : bc_uncolored c0 c1 = Ok unc -> exists r, bipartite_coloring g c0 c1 = Ok r /\
    match r with
    | Some col => zlen col = n /\ (forall v, vertex g v -> vget col v = Ok c0 \/ vget col v = Ok c1) /\ (forall u v, edge g u v -> vget col u <> vget col v)
    | None => ~ exists f, proper f
    end.
  Proof.
    intros Eu. pose proof (zlen_nonneg g) as N0. unfold bipartite_coloring. rewrite Eu. cbn [bind].
    match goal with |- context [for_ 0 n ?b ?s0] => destruct (for_inv (fun i st => match st with None => forall f, ~ proper f
      | Some col => two col /\ (forall u, vertex g u -> colored col u -> fair col u) /\ forall v, 0 <= v < i -> colored col v end) 0 n b s0) as (r & Er & Hr) end; [auto| | |].
    - split; [split; [now apply zlen_vrep|]; intros v Hv; left; now apply dv_vrep|]. split; [|intros; lia]. intros u Hu Cu. destruct Cu. now apply dv_vrep.
    - intros i [col|] Hi; [|intros H; exists None; auto]. intros (Tw & Fr & Cp). pose proof Tw as (Zc & Tv). cbn beta iota. rewrite vget_dv by lia. cbn [bind]. destruct (Z.eqb_spec (dv col i) unc) as [Ei|Ni]; cbn [negb].
      + rewrite vset_ok by lia. cbn [bind].
        assert (Dz : forall w, vertex g w -> dv (zupd col i c0) w = if i =? w then c0 else dv col w) by (intros w Hw; unfold vertex in Hw; rewrite dv_zupd by lia; auto).
        destruct (loop_rel (PB col i) (fun r => match r with None => forall f, ~ proper f | Some col' => two col' /\ (forall u, vertex g u -> colored col' u -> fair col' u) /\ (forall v, vertex g v -> colored col v -> colored col' v) /\ colored col' i end)
          (bc_loop c0 c1 unc g)) with (fuel := (length g + 2)%nat) (k := (length g + 1)%nat) (s := (zupd col i c0, [i])) as (r & Er & Hr).
        * intros k s HP. destruct (step_b col i Hi Zc Fr k s HP) as (x & Ex & Hx). exists x. split; auto. 
        * split; [split; [now rewrite zlen_zupd|]; intros v Hv; rewrite Dz by auto; destruct (i =? v); auto|]. split.
          { intros v [<-|[]]. split; auto. split; [unfold colored; rewrite Dz, Z.eqb_refl; auto|]. intros C. exact (C Ei). }
          split. { intros u Hu. unfold colored at 1. rewrite Dz by auto. destruct (Z.eqb_spec i u) as [->|Nu]; [intros _; left; now left|]. intros Cu. right. intros v He. destruct (Fr u Hu Cu v He) as (A & B). pose proof (G _ _ He) as Hv.
            assert (Niv : i <> v) by (intros ->; exact (A Ei)). unfold colored. rewrite !Dz by auto. rewrite !(proj2 (Z.eqb_neq i _)) by auto. auto. }
          split. { split.
            - intros v Hv Cv. rewrite Dz by auto. destruct (Z.eqb_spec i v) as [->|]; auto. destruct (Cv Ei).
            - intros f Pf v Hv Cv Ov. unfold colored in Cv. rewrite Dz in * by auto. destruct (Z.eqb_spec i v) as [->|]; [tauto|]. destruct (Ov Cv). }
          split; [unfold colored; rewrite Dz, Z.eqb_refl; auto|].
          assert (L : (lsumn un (zupd col i c0) <= length g * 1)%nat) by (replace (length g) with (length (zupd col i c0)) by (assert (zlen (zupd col i c0) = n) by (now rewrite zlen_zupd); unfold zlen in *; lia); apply lsumn_le; intros x _; unfold un; destruct (x =? unc); lia).
          cbn [length]. lia.
        * lia.
        * exists r. split; auto. destruct r as [col'|]; auto. destruct Hr as (A & B & C & D). split; auto. split; auto. intros v Hv. destruct (Z.eq_dec v i) as [->|]; auto. apply C; [unfold vertex; lia|apply Cp; lia].
      + exists (Some col). split; auto. split; auto. split; auto. intros v Hv. destruct (Z.eq_dec v i) as [->|]; auto. apply Cp. lia.
    - exists r. split; auto. destruct r as [col|]; [|intros (f & Pf); exact (Hr f Pf)]. destruct Hr as ((Zc & Tv) & Fr & Cp). split; auto. split.
      + intros v Hv. rewrite vget_dv by (unfold vertex in Hv; lia). destruct (Tv v Hv) as [A|[ -> | -> ]]; auto. destruct (Cp v Hv A).
      + intros u v He. assert (Hu : vertex g u) by (destruct He as (b & Eb & _); eapply vget_range; eauto). pose proof (G _ _ He) as Hv. unfold vertex in Hu. rewrite !vget_dv by lia. destruct (Fr u Hu (Cp u Hu) v He) as (_ & B). congruence.
  Qed.
End Bip.
Lemma bip_ok g c0 c1 : graph_ok g -> (forall u v, edge g u v -> edge g v u) -> c0 <> c1 -> exists r, bipartite_coloring g c0 c1 = Ok r /\
    match r with
    | Some col => zlen col = zlen g /\ (forall v, vertex g v -> vget col v = Ok c0 \/ vget col v = Ok c1) /\ (forall u v, edge g u v -> vget col u <> vget col v)
    | None => ~ exists f : Z -> bool, forall u v, edge g u v -> f u <> f v
    end.
Proof. intros G S N. destruct (unc_ok c0 c1) as (u & Eu & A & B). exact (bip_ok0 g c0 c1 u G S N A B Eu). Qed.
