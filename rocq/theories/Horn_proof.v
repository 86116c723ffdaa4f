(* Proofs about Horn_model. *)
From Verif Require Import Base BaseLemmas ListZ ListMore Seq Topo_proof BFS01_proof Horn_spec Horn_model.

Definition ns (sn : Z -> bool) (l : list Z) : Z := zlen (filter (fun i => negb (sn i)) l).
Lemma ns_fupd sn i l : sn i = false -> ns (fupd sn i true) l = ns sn l - occ l i.
Proof.
  intro H. unfold ns. induction l as [|x l IH]; [reflexivity|]. rewrite occ_cons. cbn [filter]. destruct (Z.eqb_spec x i) as [->|N].
  - rewrite fupd_same, H. cbn [negb]. rewrite zlen_cons. lia.
  - rewrite fupd_diff by auto. destruct (negb (sn x)); [rewrite !zlen_cons|]; lia.
Qed.
Lemma ns_nonneg sn l : 0 <= ns sn l. Proof. apply zlen_nonneg. Qed.
Lemma ns_zero sn l : ns sn l = 0 <-> forall i, In i l -> sn i = true.
Proof.
  unfold ns. induction l as [|x l IH]; [split; [intros _ i []|auto]|]. cbn [filter]. destruct (sn x) eqn:E; cbn [negb].
  - rewrite IH. split; [intros H i [<-|I]; auto|intros H i I; apply H; right; auto].
  - rewrite zlen_cons. pose proof (zlen_nonneg (filter (fun i => negb (sn i)) l)). split; [lia|]. intro H0. rewrite H0 in E by (left; auto). discriminate.
Qed.
Lemma ns_none l : ns (fun _ => false) l = zlen l.
Proof. unfold ns. induction l as [|x l IH]; [reflexivity|]. cbn [filter negb] in *. rewrite !zlen_cons. now rewrite IH. Qed.
Definition pos (c : list Z) : Z := zlen (filter (fun x => 0 <? x) c).
Lemma pos_upd c j x y : vget c j = Ok y -> pos (zupd c j x) = pos c - (if 0 <? y then 1 else 0) + (if 0 <? x then 1 else 0).
Proof.
  intro H. destruct (zupd_split c j x y H) as (a & b & -> & -> & _). unfold pos. rewrite !filter_app, !zlen_app. cbn [filter]. destruct (0 <? y), (0 <? x); rewrite ?zlen_cons; lia.
Qed.

Definition dcl := mkClause [] 0 true.
Definition cl (cs : list clause) (j : Z) : clause := nth (Z.to_nat j) cs dcl.
Definition rr (cs : list clause) (j : Z) : Z * bool := (concl (cl cs j), positive (cl cs j)).
Record hobj (n : Z) (cs : list clause) (h : horn) : Prop := {
  o_n : h_n h = n; o_n0 : 0 <= n; o_ans : zlen (h_ans h) = n; o_cnt : h_cnt h = map (fun c => zlen (premises c)) cs;
  o_r : h_r h = map (fun c => (concl c, positive c)) cs; o_ok : forall c, In c cs -> clause_ok n c;
  o_ls : exists LS, rep (h_ls h) n LS /\ forall i, 0 <= i < n -> (forall j, In j (LS i) -> 0 <= j < zlen cs) /\ forall j, 0 <= j < zlen cs -> occ (LS i) j = occ (premises (cl cs j)) i }.
Lemma cl_In cs j : 0 <= j < zlen cs -> In (cl cs j) cs.
Proof. intro H. unfold cl. apply nth_In. unfold zlen in H. lia. Qed.
Lemma cl_app1 cs ds j : 0 <= j < zlen cs -> cl (cs ++ ds) j = cl cs j.
Proof. intro H. unfold cl. apply app_nth1. unfold zlen in H. lia. Qed.
Lemma cl_app2 cs d : cl (cs ++ [d]) (zlen cs) = d.
Proof. unfold cl. rewrite app_nth2 by (unfold zlen; lia). replace (Z.to_nat (zlen cs) - length cs)%nat with 0%nat by (unfold zlen; lia). reflexivity. Qed.
Lemma rep_cl {A} (f : clause -> A) cs : rep (map f cs) (zlen cs) (fun j => f (cl cs j)).
Proof. split; [apply zlen_map|]. intros i Hi. unfold cl. erewrite <- map_nth. rewrite <- (vget_nth (f dcl)); [reflexivity|rewrite zlen_map; auto]. Qed.
Lemma new_ok n : 0 <= n -> hobj n [] (horn_new n).
Proof.
  intro H. split; try reflexivity; auto.
  - apply zlen_vrep; auto.
  - intros c [].
  - exists (fun _ => []). split; [apply rep_vrep; auto|]. intros i Hi. split; [intros j []|]. intros j Hj. change (zlen (@nil clause)) with 0 in Hj. lia.
Qed.
Lemma add_ok n cs h c : hobj n cs h -> clause_ok n c -> exists h', horn_add h c = Ok h' /\ hobj n (cs ++ [c]) h'.
Proof.
  intros O K. destruct (o_ls _ _ _ O) as (LS & R & KL). unfold horn_add. cbv zeta. assert (SZ : zlen (h_cnt h) = zlen cs) by (rewrite (o_cnt _ _ _ O); apply zlen_map). rewrite SZ.
  destruct (for_each_inv (fun done ls => exists L', rep ls n L' /\ forall i, 0 <= i < n -> (forall j, In j (L' i) -> In j (LS i) \/ j = zlen cs) /\ (forall j, j <> zlen cs -> occ (L' i) j = occ (LS i) j) /\ occ (L' i) (zlen cs) = occ done i) (premises c)
    (fun i ls => let* row := vget ls i in vset ls i (row ++ [zlen cs])) (h_ls h)) as (ls & X & L' & R' & K').
  - exists LS. split; [auto|]. intros i Hi. split; [auto|]. split; [auto|]. apply occ_zero. intro I. apply KL in I; auto. lia.
  - intros done i todo ls Eq (L1 & R1 & K1). assert (Hi : 0 <= i < n) by (apply (proj1 K); rewrite Eq; apply in_or_app; right; left; auto). rewrite (rep_get _ _ _ i R1 Hi). cbn [bind]. rewrite (rep_set _ _ _ i _ R1 Hi). eexists. split; [reflexivity|]. eexists. split; [apply rep_upd; [exact R1|exact Hi]|]. intros i' Hi'. destruct (K1 i' Hi') as (A1 & A2 & A3). rewrite occ_app, occ_cons. unfold occ at 5. cbn [count_occ]. destruct (Z.eqb_spec i i') as [<-|N].
    + rewrite fupd_same. rewrite occ_app, occ_cons, Z.eqb_refl. split; [|split].
      * intros j I. apply in_app_or in I. destruct I as [I|[<-|[]]]; auto.
      * intros j Nj. rewrite occ_app, occ_cons. destruct (Z.eqb_spec (zlen cs) j); [congruence|]. change (occ [] j) with 0. rewrite A2 by auto. lia.
      * change (occ [] (zlen cs)) with 0. lia.
    + rewrite fupd_diff by auto. split; [auto|]. split; [auto|lia].
  - rewrite X. cbn [bind]. eexists. split; [reflexivity|]. split; cbn [h_n h_ans h_cnt h_ls h_r]; try apply O.
    + rewrite (o_cnt _ _ _ O), map_app. reflexivity.
    + rewrite (o_r _ _ _ O), map_app. reflexivity.
    + intros d I. apply in_app_or in I. destruct I as [I|[<-|[]]]; [apply (o_ok _ _ _ O); auto|auto].
    + exists L'. split; [auto|]. intros i Hi. destruct (K' i Hi) as (A1 & A2 & A3). destruct (KL i Hi) as (B1 & B2). rewrite zlen_app. change (zlen [c]) with 1. split.
      * intros j I. destruct (A1 j I) as [I'| ->]; [apply B1 in I'; lia|]. pose proof (zlen_nonneg cs). lia.
      * intros j Hj. destruct (Z.eq_dec j (zlen cs)) as [->|Nj]; [rewrite cl_app2; auto|]. rewrite A2 by auto. rewrite cl_app1 by lia. apply B2. lia.
Qed.

Section S.
  Variables (n : Z) (cs : list clause) (h : horn).
  Hypothesis O : hobj n cs h.
  Notation m := (zlen cs).
  Notation PR j := (premises (cl cs j)).
  Notation rr := (rr cs).
  Notation vx i := (0 <= i < n).
  Variable LS : Z -> list Z.
  Hypothesis RL : rep (h_ls h) n LS.
  Hypothesis KL : forall i, vx i -> (forall j, In j (LS i) -> 0 <= j < m) /\ forall j, 0 <= j < m -> occ (LS i) j = occ (PR j) i.
  Record hinv (c : list Z) (seen ans : list bool) (dq : list (Z * bool)) (C : Z -> Z) (SN A : Z -> bool) : Prop := {
    i_c : rep c m C; i_s : rep seen n SN; i_a : rep ans n A;
    i_1 : forall j, 0 <= j < m -> C j = ns SN (PR j);
    i_2 : forall j, 0 <= j < m -> C j = 0 -> In (rr j) dq \/ (0 <= fst (rr j) /\ SN (fst (rr j)) = true /\ A (fst (rr j)) = snd (rr j));
    i_3 : forall p, In p dq -> exists j, 0 <= j < m /\ C j = 0 /\ rr j = p;
    i_4 : forall i, vx i -> SN i = true -> exists j, 0 <= j < m /\ rr j = (i, A i);
    i_5 : separated cs -> forall x, model_of n cs x -> (forall i, vx i -> SN i = true -> vget x i = Ok (A i)) /\ forall p, In p dq -> 0 <= fst p /\ vget x (fst p) = Ok (snd p) }.
  Lemma rr_lt j : 0 <= j < m -> fst (rr j) < n.
  Proof. intro H. apply (o_ok _ _ _ O (cl cs j)). apply cl_In; auto. Qed.
  (* conclusions of clauses all of whose premises are seen hold in every model *)
  Lemma forced SN A j x : 0 <= j < m -> (forall i, vx i -> SN i = true -> exists k, 0 <= k < m /\ rr k = (i, A i)) -> separated cs -> model_of n cs x -> (forall i, vx i -> SN i = true -> vget x i = Ok (A i)) -> ns SN (PR j) = 0 -> 0 <= fst (rr j) /\ vget x (fst (rr j)) = Ok (snd (rr j)).
  Proof.
    intros Hj I4 SP (Lx & Mx) F Z0. apply (Mx (cl cs j)); [apply cl_In; auto|]. intros i I. assert (Vi : vx i) by (apply (o_ok _ _ _ O (cl cs j)); [apply cl_In; auto|auto]). assert (Si : SN i = true) by (apply (proj1 (ns_zero SN (PR j)) Z0); auto). rewrite (F i Vi Si). f_equal. destruct (A i) eqn:Q; [auto|]. exfalso.
    destruct (I4 i Vi Si) as (k & Hk & E). unfold rr in E. injection E as E1 E2. rewrite Q in E2. apply (SP (cl cs k) (cl cs j)); [apply cl_In; auto|apply cl_In; auto|auto|lia|]. rewrite E1. auto.
  Qed.
  Lemma fire_ok c dq C row : rep c m C -> (forall j, In j row -> 0 <= j < m) -> (forall j, 0 <= j < m -> occ row j <= C j) ->
    exists c' dq', for_each row (fire (h_r h)) (c, dq) = Ok (c', dq') /\ rep c' m (fun j => C j - occ row j) /\ zlen dq' + pos c' = zlen dq + pos c /\
      (forall p, In p dq' <-> In p dq \/ exists j, 0 <= j < m /\ 0 < C j /\ C j - occ row j = 0 /\ rr j = p).
  Proof.
    intros R HR HC. destruct (for_each_inv (fun done s => rep (fst s) m (fun j => C j - occ done j) /\ zlen (snd s) + pos (fst s) = zlen dq + pos c /\
      (forall p, In p (snd s) <-> In p dq \/ exists j, 0 <= j < m /\ 0 < C j /\ C j - occ done j = 0 /\ rr j = p)) row (fire (h_r h)) (c, dq)) as ((c', dq') & X & R' & P' & D').
    - cbn [fst snd]. split; [eapply rep_ext; [exact R|]; intros; change (occ [] i) with 0; lia|]. split; [auto|]. intro p. split; [auto|]. intros [I|(j & Hj & H1 & H2 & _)]; [auto|]. change (occ [] j) with 0 in H2. lia.
    - intros done j todo (c1, dq1) Eq (R1 & P1 & D1). cbn [fst snd] in *. assert (Hj : 0 <= j < m) by (apply HR; rewrite Eq; apply in_or_app; right; left; auto). unfold fire. rewrite (rep_get _ _ _ j R1 Hj). cbn [bind]. rewrite (rep_set _ _ _ j _ R1 Hj). cbn [bind]. set (y := C j - occ done j).
      assert (Y1 : 1 <= y). { unfold y. pose proof (HC j Hj) as Q. rewrite Eq, occ_app, occ_cons, Z.eqb_refl in Q. pose proof (occ_nonneg todo j). lia. }
      assert (R2 : rep (zupd c1 j (y - 1)) m (fun k => C k - occ (done ++ [j]) k)). { eapply rep_ext; [apply rep_upd; [exact R1|exact Hj]|]. intros k Hk. rewrite occ_app, occ_cons. change (occ [] k) with 0. destruct (Z.eqb_spec j k) as [<-|Nk]; [rewrite fupd_same; unfold y; lia|rewrite fupd_diff by auto; lia]. }
      pose proof (pos_upd c1 j (y - 1) y (rep_get _ _ _ j R1 Hj)) as PU. replace (0 <? y) with true in PU by (symmetry; apply Z.ltb_lt; lia).
      assert (OD : forall k, C k - occ (done ++ [j]) k = if k =? j then y - 1 else C k - occ done k). { intro k. rewrite occ_app, occ_cons. change (occ [] k) with 0. rewrite (Z.eqb_sym j k). destruct (Z.eqb_spec k j) as [->|]; unfold y; lia. }
      destruct (Z.eqb_spec (y - 1) 0) as [Z1|Z1].
      + rewrite (o_r _ _ _ O), (rep_get _ _ _ j (rep_cl (fun c => (concl c, positive c)) cs) Hj). cbn [bind]. eexists. split; [reflexivity|]. cbn [fst snd]. split; [auto|]. rewrite Z1 in PU. cbn in PU. split; [rewrite zlen_app; change (zlen [_]) with 1; rewrite Z1; lia|].
        intro p. rewrite in_app_iff, D1. cbn [In]. split.
        * intros [[I|(k & Hk & K1 & K2 & K3)]|[<-|[]]]; [auto| |].
          -- right. exists k. rewrite OD. destruct (Z.eqb_spec k j) as [->|]; [unfold y in *; lia|auto].
          -- right. exists j. rewrite OD, Z.eqb_refl. split; [auto|]. pose proof (occ_nonneg done j). split; [unfold y in *; lia|auto].
        * intros [I|(k & Hk & K1 & K2 & K3)]; [auto|]. rewrite OD in K2. destruct (Z.eqb_spec k j) as [->|]; [right; left; auto|]. left. right. exists k. auto.
      + eexists. split; [reflexivity|]. cbn [fst snd]. split; [auto|]. replace (0 <? y - 1) with true in PU by (symmetry; apply Z.ltb_lt; lia). split; [lia|]. intro p. rewrite D1. split; (intros [I|(k & Hk & K1 & K2 & K3)]; [auto|right; exists k]).
        * rewrite OD. destruct (Z.eqb_spec k j) as [->|]; [unfold y in *; lia|auto].
        * rewrite OD in K2. destruct (Z.eqb_spec k j) as [->|]; [lia|auto].
    - exists c', dq'. cbn [fst snd] in *. auto.
  Qed.
  Definition good (out : bool * list bool * list bool) : Prop := let '(b, ans, seen) := out in zlen ans = n /\
    (if b then exists SN A c C, hinv c seen ans [] C SN A else separated cs -> forall x, ~ model_of n cs x).
  Lemma run_ok : forall fuel c seen ans dq C SN A, hinv c seen ans dq C SN A -> zlen dq + pos c < Z.of_nat fuel -> exists out, loop fuel (horn_step h) (c, seen, ans, dq) = Ok out /\ good out.
  Proof.
    induction fuel as [|fuel IH]; intros c seen ans dq C SN A I L; [pose proof (zlen_nonneg dq); pose proof (zlen_nonneg (filter (fun x => 0 <? x) c)); unfold pos in L; lia|]. cbn [loop]. unfold horn_step at 1. pose proof (o_n _ _ _ O) as EN. destruct dq as [|(i, val) dq].
    - cbn [bind]. eexists. split; [reflexivity|]. cbn [good]. split; [apply (i_a _ _ _ _ _ _ _ I)|]. exists SN, A, c, C. auto.
    - destruct (i_3 _ _ _ _ _ _ _ I (i, val) (or_introl eq_refl)) as (j0 & Hj0 & CJ0 & EJ0). assert (Li : i < n) by (pose proof (rr_lt j0 Hj0) as Q; rewrite EJ0 in Q; exact Q). replace (i <? h_n h) with true by (symmetry; apply Z.ltb_lt; lia). cbn [assert_ bind]. rewrite zlen_cons in L. destruct (Z.ltb_spec i 0) as [Ni|Ni].
      + cbn [bind]. eexists. split; [reflexivity|]. cbn [good]. split; [apply (i_a _ _ _ _ _ _ _ I)|]. intros SP x Mx. destruct (i_5 _ _ _ _ _ _ _ I SP x Mx) as (_ & F). destruct (F (i, val) (or_introl eq_refl)) as (F1 & _). cbn [fst] in F1. lia.
      + assert (Vi : vx i) by lia. rewrite (rep_get _ _ _ i (i_s _ _ _ _ _ _ _ I) Vi). cbn [bind]. destruct (SN i) eqn:Si; cbn [negb].
        * rewrite (rep_get _ _ _ i (i_a _ _ _ _ _ _ _ I) Vi). cbn [bind]. destruct (Bool.eqb val (A i)) eqn:Eq; cbn [negb bind].
          -- apply Bool.eqb_prop in Eq. apply (IH c seen ans dq C SN A); [|lia]. destruct I as [Ic Is Ia I1 I2 I3 I4 I5]. split; auto.
             ++ intros j Hj Z0. destruct (I2 j Hj Z0) as [[E|I]|R]; auto. right. rewrite <- E. cbn [fst snd]. auto.
             ++ intros p Ip. apply I3. right. auto.
             ++ intros SP x Mx. destruct (I5 SP x Mx) as (F1 & F2). split; [auto|]. intros p Ip. apply F2. right. auto.
          -- eexists. split; [reflexivity|]. cbn [good]. split; [apply (i_a _ _ _ _ _ _ _ I)|]. intros SP x Mx. destruct (i_5 _ _ _ _ _ _ _ I SP x Mx) as (F1 & F2). destruct (F2 (i, val) (or_introl eq_refl)) as (_ & F3). cbn [fst snd] in F3. rewrite (F1 i Vi Si) in F3. injection F3 as F3. rewrite F3, Bool.eqb_reflx in Eq. discriminate.
        * rewrite (rep_set _ _ _ i val (i_a _ _ _ _ _ _ _ I) Vi). cbn [bind]. rewrite (rep_set _ _ _ i true (i_s _ _ _ _ _ _ _ I) Vi). cbn [bind]. rewrite (rep_get _ _ _ i RL Vi). cbn [bind]. destruct I as [Ic Is Ia I1 I2 I3 I4 I5]. destruct (KL i Vi) as (KL1 & KL2).
          assert (NS : forall j, 0 <= j < m -> C j - occ (LS i) j = ns (fupd SN i true) (PR j)) by (intros j Hj; rewrite ns_fupd, I1, KL2 by auto; auto).
          destruct (fire_ok c dq C (LS i) Ic KL1) as (c' & dq' & X & R' & P' & D').
          { intros j Hj. pose proof (NS j Hj). pose proof (ns_nonneg (fupd SN i true) (PR j)). lia. }
          rewrite X. cbn [bind]. set (A' := fupd A i val). set (SN' := fupd SN i true) in *.
          assert (I4' : forall k, vx k -> SN' k = true -> exists j, 0 <= j < m /\ rr j = (k, A' k)). { intros k Vk Sk. unfold A', SN' in *. destruct (Z.eq_dec k i) as [->|Nk]; [rewrite fupd_same; exists j0; auto|]. rewrite fupd_diff in * by auto. apply I4; auto. }
          apply (IH c' _ _ dq' (fun j => C j - occ (LS i) j) SN' A'); [|lia]. split; auto.
          -- apply rep_upd; auto.
          -- apply rep_upd; auto.
          -- intros j Hj Z0. pose proof (occ_nonneg (LS i) j) as OC. destruct (Z.eq_dec (C j) 0) as [CJ|CJ].
             ++ destruct (I2 j Hj CJ) as [[E|Ij]|(R1 & R2 & R3)].
                ** right. rewrite <- E. cbn [fst snd]. unfold SN', A'. rewrite !fupd_same. auto.
                ** left. apply D'. auto.
                ** right. unfold SN', A'. destruct (Z.eq_dec (fst (rr j)) i) as [E|N]; [congruence|]. rewrite !fupd_diff by auto. auto.
             ++ left. apply D'. right. exists j. pose proof (I1 j Hj). pose proof (ns_nonneg SN (PR j)). split; [auto|]. split; [lia|auto].
          -- intros p Ip. apply D' in Ip. destruct Ip as [Ip|(j & Hj & J1 & J2 & J3)]; [|exists j; auto]. destruct (I3 p (or_intror Ip)) as (j & Hj & J1 & J2). exists j. split; [auto|]. split; [|auto]. pose proof (NS j Hj). pose proof (ns_nonneg SN' (PR j)). pose proof (occ_nonneg (LS i) j). lia.
          -- intros SP x Mx. destruct (I5 SP x Mx) as (F1 & F2). assert (F1' : forall k, vx k -> SN' k = true -> vget x k = Ok (A' k)). { intros k Vk Sk. unfold SN', A' in *. destruct (Z.eq_dec k i) as [->|Nk]; [rewrite fupd_same; apply (F2 (i, val) (or_introl eq_refl))|]. rewrite fupd_diff in * by auto. apply F1; auto. }
             split; [auto|]. intros p Ip. apply D' in Ip. destruct Ip as [Ip|(j & Hj & J1 & J2 & J3)]; [apply F2; right; auto|]. rewrite <- J3. apply (forced SN' A' j x); auto. rewrite <- NS; auto.
  Qed.
  Lemma start_ok : exists dq, for_ 0 (zlen (h_r h)) (fun j dq => let* x := vget (h_cnt h) j in if x =? 0 then let* p := vget (h_r h) j in Ok (dq ++ [p]) else Ok dq) [] = Ok dq /\
    zlen dq + pos (h_cnt h) <= m /\ exists A, hinv (h_cnt h) (vrep n false) (h_ans h) dq (fun j => zlen (PR j)) (fun _ => false) A.
  Proof.
    assert (LR : zlen (h_r h) = m) by (rewrite (o_r _ _ _ O); apply zlen_map). rewrite LR.
    assert (RC : rep (h_cnt h) m (fun j => zlen (PR j))) by (rewrite (o_cnt _ _ _ O); apply (rep_cl (fun c => zlen (premises c)))).
    destruct (for_inv (fun k dq => zlen dq + pos (firstn (Z.to_nat k) (h_cnt h)) <= k /\ forall p, In p dq <-> exists j, 0 <= j < k /\ zlen (PR j) = 0 /\ rr j = p) 0 m (fun j dq => let* x := vget (h_cnt h) j in if x =? 0 then let* p := vget (h_r h) j in Ok (dq ++ [p]) else Ok dq) []) as (dq & X & L & D).
    - apply zlen_nonneg.
    - split; [reflexivity|]. intro p. split; [intros []|]. intros (j & Hj & _). lia.
    - intros k dq Hk (L & D). rewrite (rep_get _ _ _ k RC Hk). cbn [bind].
      assert (PF : pos (firstn (Z.to_nat (k + 1)) (h_cnt h)) = pos (firstn (Z.to_nat k) (h_cnt h)) + (if 0 <? zlen (PR k) then 1 else 0)).
      { destruct (vget_split _ _ _ (rep_get _ _ _ k RC Hk)) as (a & b & E & La). rewrite E. replace (Z.to_nat k) with (length a) by (unfold zlen in La; lia). replace (Z.to_nat (k + 1)) with (length (a ++ [zlen (PR k)])) by (rewrite app_length; unfold zlen in La; cbn [length]; lia). assert (FF : forall u v : list Z, firstn (length u) (u ++ v) = u) by (intros u v; rewrite firstn_app, Nat.sub_diag, firstn_all; apply app_nil_r). rewrite FF. replace (a ++ zlen (PR k) :: b) with ((a ++ [zlen (PR k)]) ++ b) by (rewrite <- app_assoc; reflexivity). rewrite FF. unfold pos. rewrite filter_app, zlen_app. cbn [filter]. destruct (0 <? zlen (PR k)); reflexivity. }
      destruct (Z.eqb_spec (zlen (PR k)) 0) as [Z0|Z0].
      + rewrite (o_r _ _ _ O), (rep_get _ _ _ k (rep_cl (fun c => (concl c, positive c)) cs) Hk). cbn [bind]. eexists. split; [reflexivity|]. rewrite Z0 in PF. cbn in PF. split; [rewrite zlen_app; change (zlen [_]) with 1; lia|]. intro p. rewrite in_app_iff, D. cbn [In]. split.
        * intros [(j & Hj & K)|[<-|[]]]; [exists j; split; [lia|auto]|exists k; split; [lia|auto]].
        * intros (j & Hj & K1 & K2). destruct (Z.eq_dec j k) as [->|Nj]; [right; left; auto|left; exists j; split; [lia|auto]].
      + eexists. split; [reflexivity|]. split; [destruct (0 <? zlen (PR k)); lia|]. intro p. rewrite D. split; intros (j & Hj & K1 & K2); exists j; split; auto; [lia|]. destruct (Z.eq_dec j k) as [->|]; [congruence|lia].
    - exists dq. split; [exact X|]. assert (FA : firstn (Z.to_nat m) (h_cnt h) = h_cnt h) by (apply firstn_all2; pose proof (proj1 RC) as Q; unfold zlen in Q |- *; lia). rewrite FA in L. split; [auto|]. exists (fun i => nth (Z.to_nat i) (h_ans h) false). split; auto.
      + apply rep_vrep. apply O.
      + rewrite <- (o_ans _ _ _ O). apply rep_nth.
      + intros j Hj. symmetry. apply ns_none.
      + intros j Hj Z0. left. apply D. exists j. auto.
      + intros p Ip. apply D in Ip. destruct Ip as (j & Hj & K1 & K2). exists j. auto.
      + discriminate.
      + intros SP x Mx. split; [discriminate|]. intros p Ip. apply D in Ip. destruct Ip as (j & Hj & K1 & K2). rewrite <- K2. apply (forced (fun _ => false) (fun _ => false) j x); auto; try discriminate. rewrite ns_none. auto.
  Qed.
  Lemma sat_ok : exists b h', horn_sat h = Ok (b, h') /\ hobj n cs h' /\
    (if b then exists x, horn_answer h' = Ok x /\ model_of n cs x /\ (separated cs -> forall y i, model_of n cs y -> vget x i = Ok true -> vget y i = Ok true)
     else separated cs -> forall x, ~ model_of n cs x).
  Proof.
    unfold horn_sat. cbv zeta. destruct start_ok as (dq & X & L & A & I). rewrite X. cbn [bind]. rewrite (o_n _ _ _ O). destruct (run_ok (length (h_r h) + 1) _ _ _ _ _ _ _ I) as (((b, ans), seen) & Y & G).
    { rewrite (o_r _ _ _ O), map_length. unfold zlen in L. unfold zlen. lia. }
    rewrite Y. cbn [bind]. cbn [good] in G. destruct G as (La & G). destruct b.
    - destruct G as (SN & A' & c & C & [Ic Is Ia I1 I2 I3 I4 I5]).
      destruct (for_inv (fun k a => rep a n (fun i => if (i <? k) && negb (SN i) then false else A' i)) 0 n (fun i ans => let* s := vget seen i in if negb s then vset ans i false else Ok ans) ans) as (x & Z0 & R).
      + apply O.
      + eapply rep_ext; [exact Ia|]. intros i Hi. replace (i <? 0) with false by lia. reflexivity.
      + intros k a Hk R. rewrite (rep_get _ _ _ k Is Hk). cbn [bind]. destruct (SN k) eqn:Q; cbn [negb].
        * eexists. split; [reflexivity|]. eapply rep_ext; [exact R|]. intros i Hi. cbn beta. destruct (Z.ltb_spec i k), (Z.ltb_spec i (k + 1)); try lia; auto. assert (i = k) by lia. subst i. rewrite Q. reflexivity.
        * rewrite (rep_set _ _ _ k false R Hk). eexists. split; [reflexivity|]. eapply rep_ext; [apply rep_upd; [exact R|exact Hk]|]. intros i Hi. destruct (Z.eq_dec i k) as [->|Ni]; [rewrite fupd_same, Q; replace (k <? k + 1) with true by lia; reflexivity|]. rewrite fupd_diff by auto. destruct (Z.ltb_spec i k), (Z.ltb_spec i (k + 1)); try lia; auto.
      + rewrite Z0. cbn [bind]. exists true. eexists. split; [reflexivity|].
        assert (RX : rep x n (fun i => A' i && SN i)%bool). { eapply rep_ext; [exact R|]. intros i Hi. cbn beta. replace (i <? n) with true by lia. destruct (SN i), (A' i); reflexivity. }
        split; [destruct O as [O1 O2 O3 O4 O5 O6 O7]; split; auto; cbn [h_ans]; apply RX|]. exists x. split; [reflexivity|]. split.
        * split; [apply RX|]. intros cc Icc. destruct (In_nth cs cc dcl Icc) as (k & Hk & Ek). set (j := Z.of_nat k). assert (Hj : 0 <= j < m) by (unfold j, zlen; lia). assert (Ecl : cl cs j = cc) by (unfold cl, j; rewrite Nat2Z.id; auto). rewrite <- Ecl. intro PT.
          assert (Z1 : C j = 0). { rewrite I1 by auto. apply ns_zero. intros i Ii. specialize (PT i Ii). pose proof (vget_range _ _ _ PT) as Rg. rewrite (proj1 RX) in Rg. rewrite (rep_get _ _ _ i RX Rg) in PT. injection PT as PT. apply Bool.andb_true_iff in PT. tauto. }
          destruct (I2 j Hj Z1) as [[]|(R1 & R2 & R3)]. cbn [rr Horn_proof.rr fst snd] in R1, R2, R3. split; [auto|]. pose proof (rr_lt j Hj) as Lt. cbn [fst Horn_proof.rr] in Lt. rewrite (rep_get _ _ _ _ RX) by lia. rewrite R2, R3, Bool.andb_true_r. reflexivity.
        * intros SP y i My Vi. pose proof (vget_range _ _ _ Vi) as Rg. rewrite (proj1 RX) in Rg. rewrite (rep_get _ _ _ i RX Rg) in Vi. injection Vi as Vi. apply Bool.andb_true_iff in Vi. destruct Vi as (V1 & V2). destruct (I5 SP y My) as (F & _). rewrite (F i Rg V2), V1. reflexivity.
    - exists false. eexists. split; [reflexivity|]. split; [destruct O as [O1 O2 O3 O4 O5 O6 O7]; split; auto|exact G].
  Qed.
End S.
Lemma run_obj n ops : 0 <= n -> (forall c, In (HAdd c) ops -> clause_ok n c) -> exists h, hrun n ops = Ok h /\ hobj n (hclauses ops) h.
Proof.
  intros Hn HC. unfold hrun. destruct (for_each_inv (fun done h => hobj n (hclauses done) h) ops hdo (horn_new n)) as (h & X & H).
  - apply new_ok; auto.
  - intros done o todo h Eq H. unfold hclauses. rewrite flat_map_app. cbn [flat_map]. rewrite app_nil_r. fold (hclauses done). destruct o as [c|]; cbn [hdo].
    + apply add_ok; auto. apply HC. rewrite Eq. apply in_or_app. right. left. auto.
    + destruct (o_ls _ _ _ H) as (LS & RL & KL). destruct (sat_ok n _ h H LS RL KL) as (b & h' & X & H' & _). rewrite X. cbn [bind]. exists h'. rewrite app_nil_r. auto.
  - exists h. auto.
Qed.
