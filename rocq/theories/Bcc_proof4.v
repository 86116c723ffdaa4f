(* Proofs about Bcc_model: remove_multiedges() and the construction of the block-cut forest. *)
From Verif Require Import Base BaseLemmas ListZ Seq ListMore SpSeg_proof LowLink_spec LowLink_model LowLink_proof2 LowLink_proof4 Bcc_spec Bcc_model Bcc_proof Bcc_proof3.

Lemma firsts_In seen vs v : In v (firsts seen vs) <-> In v vs /\ ~ In v seen.
Proof.
  revert seen. induction vs as [|x vs IH]; intro seen; cbn [firsts In]; [tauto|]. destruct (in_dec Z.eq_dec x seen) as [I|I].
  - rewrite IH. split; [tauto|]. intros ([->|X] & Y); [contradiction|tauto].
  - cbn [In]. rewrite IH. cbn [In]. split.
    + intros [->|(X & Y)]; [tauto|]. split; [tauto|]. intro Z0. apply Y. auto.
    + intros ([->|X] & Y); [tauto|]. destruct (Z.eq_dec x v) as [->|N]; [tauto|]. right. split; [auto|]. intros [->|Z0]; [contradiction|auto].
Qed.
Lemma firsts_NoDup vs : forall seen, NoDup (firsts seen vs).
Proof.
  induction vs as [|x vs IH]; intro seen; cbn [firsts]; [constructor|]. destruct (in_dec Z.eq_dec x seen); [auto|]. constructor; [|auto]. rewrite firsts_In. intros (_ & X). apply X. left. auto.
Qed.
Lemma rm_keep_ok N vs : forall seen ex g, rep ex N g -> (forall v, In v vs -> 0 <= v < N) -> (forall v, In v vs -> g v = true <-> ~ In v seen) ->
  exists ex', rm_keep ex vs = Ok (ex', firsts seen vs) /\ rep ex' N (fun v => g v && negb (memb v vs)).
Proof.
  induction vs as [|x vs IH]; intros seen ex g R Hv H; cbn [rm_keep firsts].
  - exists ex. split; [reflexivity|]. eapply rep_ext; [exact R|]. intros v _. cbn. rewrite Bool.andb_true_r. reflexivity.
  - assert (Hx : 0 <= x < N) by (apply Hv; left; auto). rewrite (rep_get _ _ _ x R Hx), (rep_set _ _ _ x _ R Hx). cbn [bind].
    destruct (IH (x :: seen) _ _ (rep_upd _ _ _ x false R Hx)) as (ex' & X & R').
    { intros v I. apply Hv. right. auto. }
    { intros v I. destruct (Z.eq_dec v x) as [->|N0]; [rewrite fupd_same; split; [discriminate|intro Z0; exfalso; apply Z0; left; auto]|]. rewrite fupd_diff by auto. rewrite H by (right; auto). cbn [In]. split; [intros Y [Z0|Z0]; [congruence|auto]|tauto]. }
    assert (F : firsts (x :: seen) vs = if in_dec Z.eq_dec x seen then firsts seen vs else firsts (x :: seen) vs).
    { destruct (in_dec Z.eq_dec x seen) as [I|I]; auto. assert (K : forall l s s', (forall v, In v l -> In v s <-> In v s') -> firsts s l = firsts s' l).
      { clear. induction l as [|y l IHl]; intros s s' H; cbn [firsts]; auto. destruct (in_dec Z.eq_dec y s) as [I|I], (in_dec Z.eq_dec y s') as [I'|I']; try (exfalso; apply I' + apply I; apply H; auto; left; auto; fail).
        - apply IHl. intros v Iv. apply H. right. auto.
        - f_equal. apply IHl. intros v Iv. cbn [In]. rewrite (H v) by (right; auto). tauto. }
      apply K. intros v _. cbn [In]. split; [intros [<-|]; auto|auto]. }
    rewrite X. cbn [bind]. exists ex'. split.
    + specialize (H x (or_introl eq_refl)). destruct (in_dec Z.eq_dec x seen) as [I|I].
      * destruct (g x); [exfalso; apply H; auto|]. rewrite F. reflexivity.
      * destruct (g x); [reflexivity|]. exfalso. assert (false = true) by (apply H; auto). discriminate.
    + eapply rep_ext; [exact R'|]. intros v Hv'. cbn beta. unfold memb. cbn [existsb]. destruct (Z.eq_dec v x) as [->|N0].
      * rewrite fupd_same, Z.eqb_refl. cbn [orb andb negb]. rewrite Bool.andb_false_r. reflexivity.
      * rewrite fupd_diff by auto. destruct (Z.eqb_spec v x); [contradiction|]. reflexivity.
Qed.
Lemma remove_ok g : (forall l v, In l g -> In v l -> 0 <= v < zlen g) -> remove_multiedges g = Ok (map (firsts []) g).
Proof.
  intro H. unfold remove_multiedges. set (N := zlen g) in *. assert (N0 : 0 <= N) by apply zlen_nonneg.
  destruct (for_each_inv (fun done st => rep (fst st) N (fun _ => false) /\ snd st = map (firsts []) done) g rm_list (vrep N false, [])) as ((ex, out) & X & _ & E).
  - cbn [fst snd]. split; [apply rep_vrep; auto|auto].
  - intros done l tl (ex, out) Eq (I1 & I2). cbn [fst snd] in *. assert (Hl : forall v, In v l -> 0 <= v < N) by (intros v I; apply (H l); auto; rewrite Eq; apply in_or_app; right; left; auto). unfold rm_list.
    destruct (for_each_inv (fun d ex => rep ex N (fun v => memb v d)) l (fun v ex => vset ex v true) ex) as (ex1 & X1 & R1).
    + exact I1.
    + intros d v t e Eq' Re. assert (Hv : 0 <= v < N) by (apply Hl; rewrite Eq'; apply in_or_app; right; left; auto). rewrite (rep_set _ _ _ v _ Re Hv). eexists. split; [reflexivity|].
      eapply rep_ext; [apply (rep_upd _ _ _ v true Re Hv)|]. intros u Hu. cbn beta. destruct (Z.eq_dec u v) as [->|Nu]; [rewrite fupd_same; symmetry; apply memb_In, in_or_app; right; left; auto|]. rewrite fupd_diff by auto.
      apply memb_ext. rewrite in_app_iff. cbn [In]. split; [auto|intros [|[->|[]]]; [auto|contradiction]].
    + rewrite X1. cbn [bind]. destruct (rm_keep_ok N l [] ex1 _ R1 Hl) as (ex2 & X2 & R2). { intros v I. split; [intros _ []|]. intros _. apply memb_In. auto. }
      rewrite X2. cbn [bind]. eexists. split; [reflexivity|]. cbn [fst snd]. split; [|rewrite map_app, I2; reflexivity]. eapply rep_ext; [exact R2|]. intros v _. cbn beta. apply Bool.andb_negb_r.
  - rewrite X. cbn [bind snd] in *. rewrite E. reflexivity.
Qed.

Section F.
  Variable n : Z. Variable E : list (Z * Z). Variable b : bc. Variable f : Z -> Z.
  Hypothesis Hn : 0 <= n.
  Hypothesis HE : graph_on n E.
  Hypothesis BB : l_built (b_ll b) = true.
  Hypothesis BN : l_n (b_ll b) = n.
  Hypothesis BE : l_edges (b_ll b) = E.
  Hypothesis RC : rep (b_comp b) (zlen E) f.
  Hypothesis K0 : 0 <= b_num b.
  Hypothesis FR : forall id, 0 <= id < zlen E -> 0 <= f id < b_num b.
  Notation k := (b_num b).
  Let iso := b_iso b.
  Let arts := d_art (l_ds (b_ll b)).
  Hypothesis IN : NoDup iso.
  Hypothesis II : forall v, In v iso <-> isolated n E v.
  Hypothesis AN : NoDup arts.
  Hypothesis AI : forall v, In v arts -> 0 <= v < n.
  Let base := k + zlen iso.
  Let N := base + zlen arts.
  Notation m := (zlen E).
  (* numbering a list *)
  Lemma number_ok l art g0 nx : NoDup l -> (forall v, In v l -> 0 <= v < n) -> rep art n g0 ->
    exists art' g, for_each l (fun v st => let '(art, nx) := st in let* art := vset art v nx in Ok (art, nx + 1)) (art, nx) = Ok (art', nx + zlen l) /\ rep art' n g /\
      (forall j v, vget l j = Ok v -> g v = nx + j) /\ (forall v, ~ In v l -> g v = g0 v).
  Proof.
    intros ND V R. destruct (for_each_inv (fun done st => snd st = nx + zlen done /\ exists g, rep (fst st) n g /\ (forall j v, vget done j = Ok v -> g v = nx + j) /\ (forall v, ~ In v done -> g v = g0 v))
      l (fun v st => let '(art, nx) := st in let* art := vset art v nx in Ok (art, nx + 1)) (art, nx)) as ((art', q) & X & Q & g & G1 & G2 & G3).
    - cbn [fst snd]. change (zlen (@nil Z)) with 0. split; [lia|]. exists g0. split; [auto|]. split; [|auto]. intros j v Y. apply vget_range in Y. change (zlen (@nil Z)) with 0 in Y. lia.
    - intros done v tl (a, q) Eq (I1 & g & I2 & I3 & I4). cbn [fst snd] in *. subst q. assert (Hv : 0 <= v < n) by (apply V; rewrite Eq; apply in_or_app; right; left; auto). rewrite (rep_set _ _ _ v _ I2 Hv). cbn [bind]. eexists. split; [reflexivity|]. cbn [fst snd].
      rewrite zlen_app. change (zlen [v]) with 1. split; [lia|]. assert (Nv : ~ In v done) by (rewrite Eq in ND; apply NoDup_remove_2 in ND; intro I; apply ND, in_or_app; auto).
      eexists. split; [apply rep_upd; [exact I2|exact Hv]|]. split.
      + intros j u Y. apply vget_snoc in Y. destruct Y as [Y|(-> & ->)]; [|apply fupd_same]. rewrite fupd_diff; [auto|]. intros ->. apply Nv. apply (vget_In _ _ _ Y).
      + intros u Nu. rewrite in_app_iff in Nu. cbn [In] in Nu. rewrite fupd_diff by (intros ->; tauto). apply I4. tauto.
    - cbn [fst snd] in *. exists art', g. rewrite X, Q. auto.
  Qed.
  Variable ai : Z -> Z.
  Hypothesis A1 : forall j v, vget arts j = Ok v -> ai v = base + j.
  Hypothesis A2 : forall v, ~ In v arts -> ai v = -1.
  Lemma ai_range v : 0 <= ai v -> In v arts /\ base <= ai v < N.
  Proof using A1 A2.
    intro H. destruct (in_dec Z.eq_dec v arts) as [I|I]; [|rewrite A2 in H by assumption; clear -H; lia]. split; [auto|]. apply In_vget in I. destruct I as (j & Hj & Y). rewrite (A1 j v Y). unfold N. clear -Hj. lia.
  Qed.
  Definition link (i x y : Z) : Prop := exists e v, 0 <= e < i /\ endpoint E e v /\ 0 <= ai v /\ ((x = ai v /\ y = f e) \/ (x = f e /\ y = ai v)).
  Lemma bf_link_ok vid cid g gl : rep g N gl -> (0 <= vid -> base <= vid < N) -> 0 <= cid < k -> exists g' gl', bf_link vid cid g = Ok g' /\ rep g' N gl' /\
    forall x y, 0 <= x < N -> (In y (gl' x) <-> In y (gl x) \/ (0 <= vid /\ ((x = vid /\ y = cid) \/ (x = cid /\ y = vid)))).
  Proof.
    intros R Hv Hc. unfold bf_link. pose proof (zlen_nonneg iso) as Z1. pose proof (zlen_nonneg arts) as Z2. destruct (Z.leb_spec 0 vid) as [L|L].
    - specialize (Hv L). assert (V : 0 <= vid < N) by lia. assert (V' : 0 <= cid < N) by (unfold N, base; lia). assert (vid <> cid) by (unfold base in Hv; lia). rewrite (rep_get _ _ _ vid R V). cbn [bind]. rewrite (rep_set _ _ _ vid _ R V). cbn [bind]. pose proof (rep_upd _ _ _ vid (gl vid ++ [cid]) R V) as R1.
      rewrite (rep_get _ _ _ cid R1 V'). cbn [bind]. rewrite (rep_set _ _ _ cid _ R1 V'). cbn [bind]. eexists. eexists. split; [reflexivity|]. split; [apply rep_upd; [exact R1|exact V']|].
      intros x y Hx. destruct (Z.eq_dec x cid) as [->|Nx].
      + rewrite fupd_same, fupd_diff by auto. rewrite in_app_iff. cbn [In]. split; [intros [|[<-|[]]]; auto|]. intros [|(_ & [(-> & ->)|(_ & ->)])]; auto.
      + rewrite fupd_diff by auto. destruct (Z.eq_dec x vid) as [->|Nv]; [rewrite fupd_same, in_app_iff; cbn [In]|rewrite fupd_diff by auto].
        * split; [intros [|[<-|[]]]; auto|]. intros [|(_ & [(_ & ->)|(-> & ->)])]; auto.
        * split; [auto|]. intros [|(_ & [(-> & ->)|(-> & ->)])]; auto; contradiction.
    - exists g, gl. split; [reflexivity|]. split; [auto|]. intros x y _. split; [auto|]. intros [|(Y & _)]; [auto|lia].
  Qed.
  Lemma edges_ok art : rep art n ai -> exists g gl comp cv, for_ 0 m (bf_edge b art) (vrep N [], vrep n (-1)) = Ok (g, comp) /\ rep g N gl /\ rep comp n cv /\
    (forall x y, 0 <= x < N -> (In y (gl x) <-> link m x y)) /\
    (forall v, (cv v = -1 /\ forall e, ~ endpoint E e v) \/ exists e, 0 <= e < m /\ endpoint E e v /\ cv v = f e).
  Proof.
    intro RA. pose proof (zlen_nonneg iso) as Z1. pose proof (zlen_nonneg arts) as Z2. pose proof (zlen_nonneg E) as E0.
    destruct (for_inv (fun i st => exists gl cv, rep (fst st) N gl /\ rep (snd st) n cv /\ (forall x y, 0 <= x < N -> (In y (gl x) <-> link i x y)) /\
      (forall v, (cv v = -1 /\ forall e, e < i -> ~ endpoint E e v) \/ exists e, 0 <= e < i /\ endpoint E e v /\ cv v = f e)) 0 m (bf_edge b art) (vrep N [], vrep n (-1))) as ((g, comp) & X & gl & cv & R1 & R2 & L & V); auto.
    - exists (fun _ => []), (fun _ => -1). cbn [fst snd]. split; [apply rep_vrep; unfold N, base; lia|]. split; [apply rep_vrep; auto|]. split.
      + intros x y _. split; [intros []|]. intros (e & v & He & _). lia.
      + intro v. left. split; [auto|]. intros e He (y & (Y & _)). lia.
    - intros i (g, comp) Hi (gl & cv & R1 & R2 & L & V). cbn [fst snd] in R1, R2. unfold bf_edge, bc_get. rewrite BB. cbn [assert_ bind]. rewrite (rep_get _ _ _ i RC Hi), BE. cbn [bind].
      destruct (edge_get n E HE i Hi) as (x & y & G & Hx & Hy & EP). rewrite G. cbn [bind fst snd]. rewrite (rep_set _ _ _ y _ R2 Hy). cbn [bind]. pose proof (rep_upd _ _ _ y (f i) R2 Hy) as R3. rewrite (rep_set _ _ _ x _ R3 Hx). cbn [bind]. pose proof (rep_upd _ _ _ x (f i) R3 Hx) as R4.
      rewrite (rep_get _ _ _ x RA Hx). cbn [bind]. destruct (bf_link_ok (ai x) (f i) g gl R1 ltac:(intro Y; apply ai_range; auto) (FR i Hi)) as (g1 & gl1 & X1 & S1 & L1). rewrite X1. cbn [bind].
      rewrite (rep_get _ _ _ y RA Hy). cbn [bind]. destruct (bf_link_ok (ai y) (f i) g1 gl1 S1 ltac:(intro Y; apply ai_range; auto) (FR i Hi)) as (g2 & gl2 & X2 & S2 & L2). rewrite X2. cbn [bind].
      eexists. split; [reflexivity|]. cbn [fst snd]. exists gl2. eexists. split; [exact S2|]. split; [exact R4|]. split.
      + intros p q Hp. rewrite L2, L1, L by auto. unfold link. split.
        * intros [[(e & v & He & H)|H]|H]; [exists e, v; split; [lia|auto]|exists i, x; split; [lia|split; [apply EP; auto|tauto]]|exists i, y; split; [lia|split; [apply EP; auto|tauto]]].
        * intros (e & v & He & P1 & P2 & P3). destruct (Z.eq_dec e i) as [->|Ne]; [|left; left; exists e, v; split; [lia|auto]]. apply EP in P1. destruct P1 as [->| ->]; auto.
      + intro v. destruct (Z.eq_dec v x) as [->|Nx]; [right; exists i; rewrite fupd_same; split; [lia|split; [apply EP; auto|auto]]|]. rewrite fupd_diff by auto.
        destruct (Z.eq_dec v y) as [->|Ny]; [right; exists i; rewrite fupd_same; split; [lia|split; [apply EP; auto|auto]]|]. rewrite fupd_diff by auto.
        destruct (V v) as [(Y1 & Y2)|(e & Y1 & Y2)]; [left; split; [auto|]|right; exists e; split; [lia|auto]]. intros e He. destruct (Z.eq_dec e i) as [->|Ne]; [rewrite EP; tauto|apply Y2; lia].
    - exists g, gl, comp, cv. split; [exact X|]. split; [auto|]. split; [auto|]. split; [auto|]. intro v. destruct (V v) as [(Y1 & Y2)|Y]; [left; split; [auto|]|right; auto]. intros e Y. apply (Y2 e); auto. destruct Y as (q & (Y & _)). lia.
  Qed.
  Definition inB (cv : Z -> Z) (gl : Z -> list Z) (c v : Z) : bool := if ai v <? 0 then cv v =? c else memb c (gl (ai v)).
  Lemma ai_inj v v' : 0 <= ai v -> ai v = ai v' -> v = v'.
  Proof using A1 A2.
    intros H Q. destruct (ai_range v H) as (I & _). destruct (ai_range v' ltac:(clear -H Q; lia)) as (I' & _). apply In_vget in I, I'. destruct I as (j & _ & Y), I' as (j' & _ & Y'). rewrite (A1 j v Y), (A1 j' v' Y') in Q. assert (j = j') by (clear -Q; lia). subst j'. clear -Y Y'. congruence.
  Qed.
  Lemma bump_ok l : forall vn h, NoDup l -> (forall c, In c l -> 0 <= c < N) -> rep vn N h ->
    exists vn', for_each l (fun cid vn => let* x := vget vn cid in vset vn cid (x + 1)) vn = Ok vn' /\ rep vn' N (fun c => h c + (if memb c l then 1 else 0)).
  Proof.
    induction l as [|c l IH]; intros vn h ND V R; cbn [for_each].
    - exists vn. split; [reflexivity|]. eapply rep_ext; [exact R|]. intros; cbn; lia.
    - assert (Hc : 0 <= c < N) by (apply V; left; auto). inversion ND as [|? ? N1 N2]. rewrite (rep_get _ _ _ c R Hc). cbn [bind]. rewrite (rep_set _ _ _ c _ R Hc). cbn [bind].
      destruct (IH _ _ N2 ltac:(intros d I; apply V; right; auto) (rep_upd _ _ _ c (h c + 1) R Hc)) as (vn' & X & R'). exists vn'. split; [exact X|]. eapply rep_ext; [exact R'|].
      intros d Hd. cbn beta. unfold memb. cbn [existsb]. fold (memb d l). destruct (Z.eq_dec d c) as [->|Nd]; [rewrite fupd_same, Z.eqb_refl; assert (memb c l = false) as -> by (apply memb_false; auto); cbn; lia|]. rewrite fupd_diff by auto. destruct (Z.eqb_spec d c); [contradiction|]. cbn [orb]. reflexivity.
  Qed.
  Lemma count_ok art comp g cv gl : rep art n ai -> rep comp n cv -> rep g N gl -> (forall x, 0 <= x < N -> NoDup (gl x)) -> (forall x y, 0 <= x < N -> (In y (gl x) <-> link m x y)) ->
    (forall v, 0 <= v < n -> ai v < 0 -> 0 <= cv v < base) ->
    exists vn h, for_ 0 n (bf_count art comp g) (vrep N 0) = Ok vn /\ rep vn N h /\ (forall c, 0 <= c < base -> h c = zlen (filter (inB cv gl c) (zrange n))) /\ (forall c, base <= c < N -> h c = 1).
  Proof.
    intros RA RV RG ND L CR. pose proof (zlen_nonneg iso) as Z1. pose proof (zlen_nonneg arts) as Z2. assert (N0 : 0 <= N) by (unfold N, base; lia).
    destruct (for_inv (fun i vn => exists h, rep vn N h /\ (forall c, 0 <= c < base -> h c = zlen (filter (inB cv gl c) (zrange i))) /\ (forall v, 0 <= v < i -> 0 <= ai v -> h (ai v) = 1)) 0 n (bf_count art comp g) (vrep N 0)) as (vn & X & h & R & H1 & H2); auto.
    - exists (fun _ => 0). split; [apply rep_vrep; auto|]. split; [intros; reflexivity|intros; lia].
    - intros i vn Hi (h & R & H1 & H2). unfold bf_count. rewrite (rep_get _ _ _ i RA Hi). cbn [bind]. destruct (Z.ltb_spec (ai i) 0) as [La|La].
      + specialize (CR i Hi La). assert (Hc : 0 <= cv i < N) by (unfold N; lia). rewrite (rep_get _ _ _ i RV Hi). cbn [bind]. rewrite (rep_get _ _ _ _ R Hc). cbn [bind]. rewrite (rep_set _ _ _ _ _ R Hc). eexists. split; [reflexivity|].
        eexists. split; [apply rep_upd; [exact R|exact Hc]|]. split.
        * intros c Hcc. rewrite zrange_S, filter_snoc, zlen_app by lia. unfold inB at 2. destruct (Z.ltb_spec (ai i) 0); [|lia]. destruct (Z.eq_dec c (cv i)) as [->|Nc]; [rewrite fupd_same, Z.eqb_refl, H1 by lia; reflexivity|].
          rewrite fupd_diff by auto. destruct (Z.eqb_spec (cv i) c); [congruence|]. rewrite H1 by lia. change (zlen (@nil Z)) with 0. lia.
        * intros v Hv Pv. destruct (Z.eq_dec v i) as [->|Nv]; [lia|]. rewrite fupd_diff; [apply H2; auto; lia|]. destruct (ai_range v Pv). lia.
      + destruct (ai_range i La) as (_ & Ra). assert (Ha : 0 <= ai i < N) by lia. rewrite (rep_set _ _ _ _ _ R Ha). cbn [bind]. rewrite (rep_get _ _ _ _ RG Ha). cbn [bind].
        assert (GB : forall c, In c (gl (ai i)) -> 0 <= c < base). { intros c I. apply L in I; auto. destruct I as (e & v & He & _ & Pv & [(_ & ->)|(Q & ->)]); specialize (FR e He); [unfold base; lia|]. destruct (ai_range v Pv). unfold base in *. lia. }
        destruct (bump_ok (gl (ai i)) (zupd vn (ai i) 1) _ (ND _ Ha) ltac:(intros c I; specialize (GB c I); unfold N; lia) (rep_upd _ _ _ _ 1 R Ha)) as (vn' & X & R'). rewrite X. eexists. split; [reflexivity|]. eexists. split; [exact R'|]. cbn beta. split.
        * intros c Hc. rewrite fupd_diff by lia. rewrite zrange_S, filter_snoc, zlen_app, H1 by lia. f_equal. unfold inB. destruct (Z.ltb_spec (ai i) 0); [lia|]. destruct (memb c (gl (ai i))); reflexivity.
        * intros v Hv Pv. assert (memb (ai v) (gl (ai i)) = false) as -> by (apply memb_false; intro I; specialize (GB _ I); destruct (ai_range v Pv); lia). rewrite Z.add_0_r. destruct (Z.eq_dec v i) as [->|Nv]; [apply fupd_same|]. rewrite fupd_diff; [apply H2; auto; lia|]. intro Q. apply Nv, ai_inj; auto.
    - exists vn, h. split; [exact X|]. split; [auto|]. split; [auto|]. intros c Hc. destruct (vget_Ok arts (c - base) ltac:(unfold N in Hc; lia)) as (v & Y). pose proof (A1 _ _ Y) as Q. replace c with (ai v) by lia. apply H2; [apply AI, (vget_In _ _ _ Y)|lia].
  Qed.
End F.
Section M.
  Variable n : Z. Variable E : list (Z * Z). Variable b : bc. Variable f : Z -> Z.
  Hypothesis Hn : 0 <= n.
  Hypothesis HE : graph_on n E.
  Hypothesis BB : l_built (b_ll b) = true.
  Hypothesis BN : l_n (b_ll b) = n.
  Hypothesis BE : l_edges (b_ll b) = E.
  Hypothesis RC : rep (b_comp b) (zlen E) f.
  Hypothesis K0 : 0 <= b_num b.
  Hypothesis FR : forall id, 0 <= id < zlen E -> 0 <= f id < b_num b.
  Notation k := (b_num b).
  Notation iso := (b_iso b).
  Notation arts := (d_art (l_ds (b_ll b))).
  Hypothesis IN : NoDup iso.
  Hypothesis II : forall v, In v iso <-> isolated n E v.
  Hypothesis AN : NoDup arts.
  Hypothesis AI : forall v, In v arts -> 0 <= v < n.
  Notation base := (k + zlen iso).
  Notation N := (base + zlen arts).
  Notation m := (zlen E).
  Record made (F : bcf) (ai : Z -> Z) (gl : Z -> list Z) (cv vn : Z -> Z) : Prop := {
    m_e : f_edge_num F = k; m_i : f_iso_num F = zlen iso; m_a : f_art_num F = zlen arts;
    m_g : rep (f_g F) N gl; m_v : rep (f_vnum F) N vn; m_c : rep (f_comp F) n cv;
    m_ai : forall j v, vget arts j = Ok v -> ai v = base + j; m_an : forall v, ~ In v arts -> ai v = -1;
    m_nd : forall x, 0 <= x < N -> NoDup (gl x); m_link : forall x y, 0 <= x < N -> (In y (gl x) <-> link E f ai m x y);
    m_cv : forall v, 0 <= v < n -> (exists j, vget iso j = Ok v /\ cv v = k + j) \/ (exists e, 0 <= e < m /\ endpoint E e v /\ cv v = f e);
    m_ci : forall j v, vget iso j = Ok v -> cv v = k + j;
    m_vn : forall c, 0 <= c < base -> vn c = zlen (filter (inB ai cv gl c) (zrange n)); m_va : forall c, base <= c < N -> vn c = 1 }.
  Lemma bf_make_ok : exists F ai gl cv vn, bf_make b = Ok F /\ made F ai gl cv vn.
  Proof.
    pose proof (zlen_nonneg iso) as Z1. pose proof (zlen_nonneg arts) as Z2.
    unfold bf_make, bc_edge_component_num, bc_isolated_vertex_num, ll_articulation_points, bc_isolated_vertices. rewrite BB. cbn [assert_ bind]. rewrite BN, BE.
    destruct (number_ok n E b f BB FR II AI arts (vrep n (-1)) (fun _ => -1) base AN AI (rep_vrep _ _ Hn)) as (art & ai & X1 & RA & A1 & A2). rewrite X1. cbn [bind].
    destruct (edges_ok n E b f Hn HE BB BE RC K0 FR II AI ai A1 A2 art RA) as (g & gl & comp & cv & X2 & RG & RV & L & V). rewrite X2. cbn [bind].
    assert (IV : forall v, In v iso -> 0 <= v < n) by (intros v I; apply II in I; apply I).
    destruct (number_ok n E b f BB FR II AI iso comp cv k IN IV RV) as (comp' & cv' & X3 & RV' & V1 & V2). rewrite X3. cbn [bind].
    assert (LN : zlen g = N) by apply RG. assert (GB : forall x y, 0 <= x < N -> In y (gl x) -> 0 <= y < N).
    { intros x y Hx I. apply L in I; auto. destruct I as (e & v & He & _ & Pv & [(_ & ->)|(Q & ->)]); specialize (FR e He); [lia|]. destruct (ai_range b ai A1 A2 v Pv). lia. }
    rewrite remove_ok. 2:{ intros l y Il Iy. apply In_vget in Il. destruct Il as (x & Hx & Y). rewrite LN in *. rewrite (rep_get _ _ _ x RG Hx) in Y. injection Y as <-. apply (GB x y); auto. }
    cbn [bind].
    assert (RG' : rep (map (firsts []) g) N (fun x => firsts [] (gl x))). { split; [rewrite zlen_map; auto|]. intros x Hx. apply vget_map_Ok. apply (rep_get _ _ _ x RG Hx). }
    assert (L' : forall x y, 0 <= x < N -> (In y (firsts [] (gl x)) <-> link E f ai m x y)). { intros x y Hx. rewrite firsts_In, L by auto. split; [tauto|]. intro Y. split; [auto|intros []]. }
    assert (CV : forall v, 0 <= v < n -> (exists j, vget iso j = Ok v /\ cv' v = k + j) \/ (exists e, 0 <= e < m /\ endpoint E e v /\ cv' v = f e)).
    { intros v Hv. destruct (in_dec Z.eq_dec v iso) as [I|I]. { left. apply In_vget in I. destruct I as (j & _ & Y). exists j. split; [auto|apply V1; auto]. }
      right. rewrite V2 by auto. destruct (V v) as [(_ & Y)|Y]; [exfalso; apply I, II; split; auto|auto]. }
    destruct (count_ok n E b f Hn BB K0 FR II AI ai A1 A2 art comp' (map (firsts []) g) cv' (fun x => firsts [] (gl x)) RA RV' RG' (fun x _ => firsts_NoDup _ _) L') as (vn & h & X4 & RN & H1 & H2).
    { intros v Hv _. destruct (CV v Hv) as [(j & Y & ->)|(e & He & _ & ->)]; [apply vget_range in Y; lia|specialize (FR e He); lia]. }
    rewrite X4. cbn [bind]. eexists. exists ai, (fun x => firsts [] (gl x)), cv', h. split; [reflexivity|]. split; cbn [f_edge_num f_iso_num f_art_num f_g f_vnum f_comp]; auto. intros x _. apply firsts_NoDup.
  Qed.
End M.
