(* DynamicBitSet: every operation against the list of bits *)
From Verif Require Import Base BaseLemmas ListZ Seq Bits BitVector_spec BitVector_proof Hist DynBitset_model DynBitset_spec DynBitset_proof.

(* lists of bits *)
Lemma bitv_vget l i : 0 <= i < zlen l -> vget l i = Ok (bitv l i). Proof. apply vget_nth. Qed.
Lemma bitv_out l i : zlen l <= i -> bitv l i = false.
Proof. intros. apply nth_overflow. unfold zlen in H. lia. Qed.
Lemma bitv_ext l k : zlen l = zlen k -> (forall i, 0 <= i < zlen l -> bitv l i = bitv k i) -> l = k.
Proof. intros Z H. apply list_eq; auto. intros i Hi. rewrite !bitv_vget by lia. f_equal. auto. Qed.
Lemma zlen_tab n f : 0 <= n -> zlen (tab n f) = n.
Proof. intros. unfold tab. rewrite zlen_map. now apply zlen_zrange. Qed.
Lemma bitv_tab n f i : 0 <= i < n -> bitv (tab n f) i = f i.
Proof.
  intros. assert (E : vget (tab n f) i = Ok (bitv (tab n f) i)) by (apply bitv_vget; rewrite zlen_tab; lia).
  unfold tab in E at 1. rewrite vget_map, vget_zrange in E by auto. cbn [bind] in E. congruence.
Qed.
Lemma bitv_map f l i : 0 <= i < zlen l -> bitv (map f l) i = f (bitv l i).
Proof.
  intros. assert (E : vget (map f l) i = Ok (bitv (map f l) i)) by (apply bitv_vget; rewrite zlen_map; auto).
  rewrite vget_map, bitv_vget in E by auto. cbn [bind] in E. congruence.
Qed.
Lemma bitv_cons_S x l i : 0 <= i -> bitv (x :: l) (i + 1) = bitv l i.
Proof. intros. unfold bitv. replace (Z.to_nat (i + 1)) with (S (Z.to_nat i)) by lia. reflexivity. Qed.
Lemma bitv_app l v i : 0 <= i <= zlen l -> bitv (l ++ [v]) i = if i =? zlen l then v else bitv l i.
Proof.
  intros. unfold bitv. destruct (Z.eqb_spec i (zlen l)) as [->|].
  - unfold zlen. rewrite Nat2Z.id, app_nth2, Nat.sub_diag by lia. reflexivity.
  - rewrite app_nth1; auto. unfold zlen in *. lia.
Qed.
Lemma removelast_snoc {A} (l : list A) : l <> [] -> exists k x, l = k ++ [x] /\ removelast l = k.
Proof. intros H. destruct (exists_last H) as (k & x & ->). exists k, x. split; auto. now rewrite removelast_last. Qed.
Lemma ones_count l : forall k, ones (firstn (Z.to_nat k) l) = count_upto (bitv l) (Z.min (Z.max 0 k) (zlen l)).
Proof.
  intros k. assert (G : forall m : nat, ones (firstn m l) = count_upto (bitv l) (Z.min (Z.of_nat m) (zlen l))).
  { induction m as [|m IH].
    - cbn [firstn]. rewrite Z.min_l by (pose proof (zlen_nonneg l); lia). now rewrite count_0.
    - destruct (Nat.lt_ge_cases m (length l)) as [L|L].
      + assert (E : firstn (S m) l = firstn m l ++ [nth m l false]).
        { clear IH. revert l L. induction m as [|m IHm]; intros [|x l] L; cbn [length] in L; try lia; [reflexivity|]. cbn [firstn nth app]. f_equal. apply IHm. lia. }
        rewrite E. unfold ones in *. rewrite filter_app, zlen_app, IH. unfold zlen at 2. rewrite Z.min_l by (unfold zlen; lia). rewrite Z.min_l by (unfold zlen; lia).
        replace (Z.of_nat (S m)) with (Z.of_nat m + 1) by lia. rewrite count_S by lia. unfold bitv at 3. rewrite Nat2Z.id. cbn [filter]. now destruct (nth m l false).
      + rewrite !firstn_all2 in * by lia. rewrite IH. f_equal. unfold zlen. lia. }
  rewrite G. f_equal. lia.
Qed.
Lemma ones_all l : ones l = count_upto (bitv l) (zlen l).
Proof.
  pose proof (ones_count l (zlen l)) as H. rewrite firstn_all2 in H by (unfold zlen; lia). rewrite H. f_equal. pose proof (zlen_nonneg l). lia.
Qed.
Lemma ones_app l k : ones (l ++ k) = ones l + ones k.
Proof. unfold ones. now rewrite filter_app, zlen_app. Qed.
Lemma ones_slice l lo hi : 0 <= lo -> lo <= hi <= zlen l -> ones (slice lo hi l) = count_upto (bitv l) hi - count_upto (bitv l) lo.
Proof.
  intros Hl Hh. pose proof (ones_count l hi) as H1. pose proof (ones_count l lo) as H2.
  replace (Z.min (Z.max 0 hi) (zlen l)) with hi in H1 by lia. replace (Z.min (Z.max 0 lo) (zlen l)) with lo in H2 by lia.
  assert (E : firstn (Z.to_nat hi) l = firstn (Z.to_nat lo) l ++ slice lo hi l).
  { unfold slice. rewrite <- (firstn_skipn (Z.to_nat lo) (firstn (Z.to_nat hi) l)) at 1. rewrite firstn_firstn, Nat.min_l by lia. f_equal.
    rewrite skipn_firstn_comm. f_equal. lia. }
  rewrite E, ones_app in H1. lia.
Qed.
Lemma first_unique l : forall r, 0 <= r <= zlen l -> (forall i, 0 <= i < r -> bitv l i = false) -> (r < zlen l -> bitv l r = true) -> first_true l = r.
Proof.
  induction l as [|x l IH]; intros r Hr H0 H1; [rewrite zlen_nil in *; cbn [first_true]; lia|]. rewrite zlen_cons in *. cbn [first_true]. destruct x.
  - destruct (Z.eq_dec r 0); auto. specialize (H0 0 ltac:(lia)). discriminate.
  - destruct (Z.eq_dec r 0) as [->|]; [specialize (H1 ltac:(pose proof (zlen_nonneg l); lia)); discriminate|].
    rewrite (IH (r - 1)); [lia|lia| |].
    + intros i Hi. rewrite <- (bitv_cons_S false) by lia. apply H0. lia.
    + intros L. rewrite <- (bitv_cons_S false) by lia. replace (r - 1 + 1) with r by lia. apply H1. lia.
Qed.
Lemma bitv_skipn l k i : 0 <= k -> 0 <= i -> bitv (skipn (Z.to_nat k) l) i = bitv l (k + i).
Proof.
  intros. unfold bitv. replace (Z.to_nat (k + i)) with (Z.to_nat k + Z.to_nat i)%nat by lia. generalize (Z.to_nat k) (Z.to_nat i). clear. intros k i. revert l.
  induction k as [|k IH]; intros l; [reflexivity|]. destruct l; [cbn; now destruct i|]. cbn [skipn Nat.add nth]. apply IH.
Qed.
Lemma next_unique l k r : 0 <= k -> k <= r <= zlen l -> (forall i, k <= i < r -> bitv l i = false) -> (r < zlen l -> bitv l r = true) ->
  k + first_true (skipn (Z.to_nat k) l) = r.
Proof.
  intros Hk Hr H0 H1. rewrite (first_unique _ (r - k)); [lia| | |].
  - rewrite zlen_skipn by lia. lia.
  - intros i Hi. rewrite bitv_skipn by lia. apply H0. lia.
  - rewrite zlen_skipn by lia. intros L. rewrite bitv_skipn by lia. replace (k + (r - k)) with r by lia. apply H1. lia.
Qed.
Lemma forallb_bits f l : forallb f l = true <-> forall i, 0 <= i < zlen l -> f (bitv l i) = true.
Proof.
  rewrite forallb_forall. split.
  - intros H i Hi. apply H. eapply vget_In. now apply bitv_vget.
  - intros H x Hx. apply In_vget in Hx as (i & Hi & E). rewrite bitv_vget in E by auto. injection E as <-. auto.
Qed.
Lemma meet_bits x : forall y, meet x y = true <-> exists p, 0 <= p /\ bitv x p = true /\ bitv y p = true.
Proof.
  unfold meet. induction x as [|a x IH]; intros y.
  - cbn [combine existsb]. split; [discriminate|]. intros (p & Hp & A & _). rewrite bitv_out in A by (rewrite zlen_nil; lia). discriminate.
  - destruct y as [|b y].
    + cbn [combine existsb]. split; [discriminate|]. intros (p & Hp & _ & A). rewrite bitv_out in A by (rewrite zlen_nil; lia). discriminate.
    + cbn [combine existsb]. rewrite orb_true_iff, andb_true_iff, IH. split.
      * intros [[A B]|(p & Hp & A & B)]; [exists 0; split; [lia|auto]|]. exists (p + 1). rewrite !bitv_cons_S by auto. split; [lia|auto].
      * intros (p & Hp & A & B). destruct (Z.eq_dec p 0) as [->|]; [left; auto|]. right. exists (p - 1). split; [lia|].
        replace p with (p - 1 + 1) in A, B by lia. rewrite bitv_cons_S in A, B by lia. auto.
Qed.
Lemma meet_sym x y : meet x y = meet y x.
Proof. apply eq_true_iff_eq. rewrite !meet_bits. split; intros (p & A & B & C); exists p; auto. Qed.

(* the blocks of the number *)
Lemma value_nonneg l : 0 <= value l.
Proof. induction l as [|x l IH]; cbn [value]; [lia|]. destruct x; cbn [Z.b2z]; lia. Qed.
Lemma value_bits l : forall i, 0 <= i -> Z.testbit (value l) i = bitv l i.
Proof.
  induction l as [|x l IH]; intros i Hi; cbn [value]; [rewrite Z.bits_0; unfold bitv; now destruct (Z.to_nat i)|].
  destruct (Z.eq_dec i 0) as [->|].
  - rewrite Z.add_b2z_double_bit0. reflexivity.
  - replace i with (Z.succ (i - 1)) by lia. rewrite Z.add_comm, Z.testbit_succ_r by lia. rewrite IH by lia. unfold Z.succ. now rewrite bitv_cons_S by lia.
Qed.
Definition wd (v i : Z) : Z := u64 (Z.shiftr v (64 * i)).
Lemma wd_word v i : word (wd v i). Proof. apply u64_word. Qed.
Lemma wd_bits v i t : 0 <= i -> 0 <= t < 64 -> Z.testbit (wd v i) t = Z.testbit v (64 * i + t).
Proof.
  intros. unfold wd. rewrite u64_bits by lia. rewrite (proj2 (Z.ltb_lt t 64)) by lia. cbn [andb]. rewrite Z.shiftr_spec by lia. f_equal. lia.
Qed.
Lemma wd_high v w i : 0 <= i -> (forall j, i <= j -> wd v j = wd w j) -> Z.shiftr v (64 * i) = Z.shiftr w (64 * i).
Proof.
  intros Hi H. apply Z.bits_inj'. intros p Hp. rewrite !Z.shiftr_spec by auto. destruct (dm (p + 64 * i)) as (q & t & E & Ht & _). rewrite E.
  rewrite <- !wd_bits by lia. rewrite H by lia. reflexivity.
Qed.
Lemma shiftr_split v i : 0 <= i -> Z.shiftr v (64 * i) = 2 ^ 64 * Z.shiftr v (64 * (i + 1)) + wd v i.
Proof.
  intros Hi. replace (64 * (i + 1)) with (64 * i + 64) by lia. rewrite <- Z.shiftr_shiftr by lia. unfold wd, u64. rewrite (Z.shiftr_div_pow2 _ 64) by lia.
  apply Z.div_mod. apply Z.pow_nonzero; lia.
Qed.
Lemma wd_less v w i : 0 <= i -> (forall j, i < j -> wd v j = wd w j) -> wd v i < wd w i -> v < w.
Proof.
  intros Hi H L. assert (E : Z.shiftr v (64 * (i + 1)) = Z.shiftr w (64 * (i + 1))) by (apply wd_high; [lia|]; intros; apply H; lia).
  assert (S : Z.shiftr v (64 * i) < Z.shiftr w (64 * i)) by (rewrite (shiftr_split v i Hi), (shiftr_split w i Hi), E; lia).
  destruct (Z_lt_le_dec v w) as [|G]; auto. rewrite !Z.shiftr_div_pow2 in S by lia. apply (Z.div_le_mono _ _ (2 ^ (64 * i))) in G; [lia|]. apply Z.pow_pos_nonneg; lia.
Qed.
Lemma wd_ltb v w i : 0 <= i -> (forall j, i < j -> wd v j = wd w j) -> wd v i <> wd w i -> (v <? w) = (wd v i <? wd w i) /\ (v <=? w) = (wd v i <? wd w i).
Proof.
  intros Hi H Ne. destruct (Z.lt_ge_cases (wd v i) (wd w i)) as [L|L].
  - pose proof (wd_less v w i Hi H L). rewrite (proj2 (Z.ltb_lt _ _) L), (proj2 (Z.ltb_lt v w)), (proj2 (Z.leb_le v w)) by lia. auto.
  - assert (L' : wd w i < wd v i) by lia. pose proof (wd_less w v i Hi (fun j Hj => eq_sym (H j Hj)) L').
    rewrite (proj2 (Z.ltb_ge _ _) L), (proj2 (Z.ltb_ge v w)), (proj2 (Z.leb_gt v w)) by lia. auto.
Qed.
Lemma wd_all v w : (forall j, 0 <= j -> wd v j = wd w j) -> v = w.
Proof. intros H. apply (wd_high v w 0) in H; [|lia]. now rewrite Z.mul_0_r, !Z.shiftr_0_r in H. Qed.

(* a bitset and its bits *)
Definition rep (d : dbs) (l : list bool) : Prop :=
  wfb (db_n d) (db_b d) /\ zlen l = db_n d /\ forall p, 0 <= p < db_n d -> tb (db_b d) p = bitv l p.
Definition wl (l : list bool) (i : Z) : Z := wd (value l) i.
Lemma wl_bits l i t : 0 <= i -> 0 <= t < 64 -> Z.testbit (wl l i) t = bitv l (64 * i + t).
Proof. intros. unfold wl. rewrite wd_bits by auto. apply value_bits. lia. Qed.
Lemma rep_mid d l i : rep d l -> 0 <= i < zlen (db_b d) - 1 -> vget (db_b d) i = Ok (wl l i).
Proof.
  intros (Wf & Z1 & B) Hi. pose proof (wfb_len _ _ Wf). rewrite vget_blk by lia. f_equal. apply word_eq; [apply Wf; lia|apply wd_word|].
  intros t Ht. rewrite wl_bits by lia. rewrite <- B by lia. now rewrite tb_at.
Qed.
Lemma rep_last d l : rep d l -> 0 < db_n d -> exists b, last_block d = Ok b /\ word b /\ 1 <= last_num d <= 64 /\
  get_lower_bits b (last_num d) = Ok (wl l (zlen (db_b d) - 1)) /\ (forall t, 0 <= t < last_num d -> Z.testbit b t = bitv l (64 * (zlen (db_b d) - 1) + t)) /\
  db_n d = 64 * (zlen (db_b d) - 1) + last_num d.
Proof.
  intros (Wf & Z1 & B) Hn. pose proof (wfb_len _ _ Wf) as Ln. unfold last_block. rewrite vget_blk by lia. eexists. split; [reflexivity|].
  assert (Wb : word (blk (db_b d) (zlen (db_b d) - 1))) by (apply Wf; lia). split; auto.
  assert (En : db_n d = 64 * (zlen (db_b d) - 1) + last_num d).
  { unfold last_num. rewrite Z.shiftl_mul_pow2 by lia. lia. }
  assert (Rn : 1 <= last_num d <= 64) by lia. split; auto.
  assert (Bt : forall t, 0 <= t < last_num d -> Z.testbit (blk (db_b d) (zlen (db_b d) - 1)) t = bitv l (64 * (zlen (db_b d) - 1) + t)).
  { intros t Ht. rewrite <- B by lia. now rewrite tb_at by lia. }
  split; [|split; auto].
  destruct (get_lower_ok _ (last_num d) Wb ltac:(lia)) as (y & E & Wy & By). rewrite E. f_equal. apply word_eq; [auto|apply wd_word|].
  intros t Ht. rewrite By, wl_bits by lia. destruct (Z.ltb_spec t (last_num d)); [now rewrite Bt by lia|]. cbn [andb]. symmetry. apply bitv_out. lia.
Qed.
Lemma rep_zero d l : rep d l -> db_n d = 0 -> l = [] /\ db_b d = [].
Proof.
  intros (Wf & Z1 & _) E. pose proof (wfb_len _ _ Wf). split.
  - destruct l; auto. rewrite zlen_cons in Z1. pose proof (zlen_nonneg l). lia.
  - destruct (db_b d) as [|x k]; auto. rewrite zlen_cons in H. pose proof (zlen_nonneg k). lia.
Qed.
Lemma wl_out l i : zlen l <= 64 * i -> wl l i = 0.
Proof.
  intros H. apply word_zero; [apply wd_word|]. intros t Ht. pose proof (zlen_nonneg l). rewrite wl_bits by lia. apply bitv_out. lia.
Qed.

(* the loops with early exit *)
Lemma scan_ok {R} (body : Z -> res (option R)) (f : Z -> option R) lo hi : lo <= hi -> (forall i, lo <= i < hi -> body i = Ok (f i)) ->
  (scan lo hi body = Ok None /\ forall i, lo <= i < hi -> f i = None) \/
  (exists i r, scan lo hi body = Ok (Some r) /\ lo <= i < hi /\ f i = Some r /\ forall j, lo <= j < i -> f j = None).
Proof.
  intros Hl H. unfold scan.
  destruct (for_inv (fun k o => match o with None => forall i, lo <= i < k -> f i = None | Some r => exists i, lo <= i < k /\ f i = Some r /\ forall j, lo <= j < i -> f j = None end)
    lo hi (fun i o => match o with Some _ => Ok o | None => body i end) (None : option R)) as (o & E & Ho); [lia|lia| |].
  - intros i [r|] Hi Ho.
    + eexists. split; [reflexivity|]. destruct Ho as (k & Hk & A). exists k. split; [lia|auto].
    + rewrite H by auto. eexists. split; [reflexivity|]. destruct (f i) as [r|] eqn:Ef.
      * exists i. split; [lia|auto].
      * intros j Hj. destruct (Z.eq_dec j i) as [->|]; auto. apply Ho. lia.
  - rewrite E. destruct o as [r|]; [right|left; auto]. destruct Ho as (i & Hi & A & B). exists i, r. auto.
Qed.
Lemma scan_down_ok {R} (body : Z -> res (option R)) (f : Z -> option R) lo hi : lo <= hi -> (forall i, lo <= i < hi -> body i = Ok (f i)) ->
  (scan_down hi lo body = Ok None /\ forall i, lo <= i < hi -> f i = None) \/
  (exists i r, scan_down hi lo body = Ok (Some r) /\ lo <= i < hi /\ f i = Some r /\ forall j, i < j < hi -> f j = None).
Proof.
  intros Hl H. unfold scan_down.
  destruct (ford_inv (fun k o => match o with None => forall i, k <= i < hi -> f i = None | Some r => exists i, k <= i < hi /\ f i = Some r /\ forall j, i < j < hi -> f j = None end)
    hi lo (fun i o => match o with Some _ => Ok o | None => body (i - 1) end) (None : option R)) as (o & E & Ho); [lia|lia| |].
  - intros i [r|] Hi Ho.
    + eexists. split; [reflexivity|]. destruct Ho as (k & Hk & A). exists k. split; [lia|auto].
    + rewrite H by lia. eexists. split; [reflexivity|]. destruct (f (i - 1)) as [r|] eqn:Ef.
      * exists (i - 1). split; [lia|]. split; auto. intros j Hj. apply Ho. lia.
      * intros j Hj. destruct (Z.eq_dec j (i - 1)) as [->|]; auto. apply Ho. lia.
  - rewrite E. destruct o as [r|]; [right|left; auto]. destruct Ho as (i & Hi & A & B). exists i, r. auto.
Qed.

(* construction, single bits, ranges *)
Lemma rep_new n fill : 0 <= n -> rep (db_new n fill) (tab n (fun _ => fill)).
Proof.
  intros Hn. destruct (wfb_new n fill Hn) as (W & B). split; [exact W|]. split; [now rewrite zlen_tab|]. cbn [db_n db_new]. intros p Hp.
  pose proof (wfb_len _ _ W). rewrite bitv_tab by auto. apply B. cbn [db_n db_new] in *. lia.
Qed.
Lemma rep_get d l i : rep d l -> index_ok l i = true -> db_get d i = Ok (bitv l i).
Proof.
  intros (Wf & Z1 & B) Hi. unfold index_ok in Hi. apply andb_true_iff in Hi as [H1 H2]. apply Z.leb_le in H1. apply Z.ltb_lt in H2.
  pose proof (wfb_len _ _ Wf). destruct d as [n bs]. cbn [db_n db_b] in *. rewrite (get_raw n) by (auto; lia). f_equal. apply B. lia.
Qed.
Definition rr {A B} (R : A -> B -> Prop) (m : res A) (m' : res B) : Prop :=
  match m' with UB => True | Ok b => exists a, m = Ok a /\ R a b | Abort => m = Abort | OutOfFuel => False end.
Lemma rep_bit f fb d l i : rep d l ->
  (forall x i, word x -> 0 <= i < 64 -> exists y, f x i = Ok y /\ word y /\ forall k, 0 <= k < 64 -> Z.testbit y k = if k =? i then fb (Z.testbit x k) else Z.testbit x k) ->
  rr rep (db_ref f d i) (at_bit i fb l).
Proof.
  intros (Wf & Z1 & B) F. unfold at_bit, guard, index_ok. destruct (Z.leb_spec 0 i), (Z.ltb_spec i (zlen l)); cbn [andb rr]; auto.
  pose proof (wfb_len _ _ Wf). destruct d as [n bs]. cbn [db_n db_b] in *.
  destruct (ref_raw f fb n bs i Wf ltac:(lia) F) as (bs' & E & W' & Z' & B'). rewrite E. eexists. split; [reflexivity|]. split; [exact W'|]. split; [rewrite zlen_tab; cbn [db_n]; lia|].
  cbn [db_n db_b]. intros p Hp. rewrite B' by lia. rewrite bitv_tab by lia. now rewrite B.
Qed.
Lemma rep_range g h gb d l lo hi : rep d l -> acts g h gb -> rr rep (range_apply g h d lo hi) (on_range lo hi gb l).
Proof.
  intros (Wf & Z1 & B) G. unfold on_range, guard. destruct (Z.leb_spec 0 lo), (Z.leb_spec 0 hi); cbn [andb rr]; auto.
  pose proof (wfb_len _ _ Wf). destruct d as [n bs]. cbn [db_n db_b] in *.
  destruct (Z.leb_spec lo hi), (Z.leb_spec hi (zlen l)); cbn [andb assert_ bind rr].
  2-4: unfold range_apply; cbn [db_n]; rewrite <- Z1; destruct (Z.leb_spec lo hi), (Z.leb_spec hi (zlen l)); try lia; reflexivity.
  destruct (range_raw g h gb n bs lo hi G Wf ltac:(lia) ltac:(lia)) as (bs' & E & W' & Z' & B'). rewrite E. eexists. split; [reflexivity|]. split; [exact W'|]. split; [rewrite zlen_tab; cbn [db_n]; lia|].
  cbn [db_n db_b]. intros p Hp. rewrite B' by lia. rewrite bitv_tab by lia. now rewrite B.
Qed.
Lemma rep_range_count d l lo hi : rep d l -> rr eq (range_count d lo hi) (guard ((0 <=? lo) && (0 <=? hi)) (assert_ ((lo <=? hi) && (hi <=? zlen l)) ;;; Ok (ones (slice lo hi l)))).
Proof.
  intros (Wf & Z1 & B). unfold guard. destruct (Z.leb_spec 0 lo), (Z.leb_spec 0 hi); cbn [andb rr]; auto.
  pose proof (wfb_len _ _ Wf). destruct d as [n bs]. cbn [db_n db_b] in *.
  destruct (Z.leb_spec lo hi), (Z.leb_spec hi (zlen l)); cbn [andb assert_ bind rr].
  2-4: unfold range_count; cbn [db_n]; rewrite <- Z1; destruct (Z.leb_spec lo hi), (Z.leb_spec hi (zlen l)); try lia; reflexivity.
  rewrite range_count_raw by (auto; lia). eexists. split; [reflexivity|]. rewrite ones_slice by lia. f_equal; apply count_ext; intros j Hj; apply B; lia.
Qed.

(* size *)
Lemma blk_app bs k i : 0 <= i -> blk (bs ++ k) i = if i <? zlen bs then blk bs i else blk k (i - zlen bs).
Proof.
  intros. unfold blk. destruct (Z.ltb_spec i (zlen bs)); unfold zlen in *; [rewrite app_nth1 by lia; auto|]. rewrite app_nth2 by lia. f_equal. lia.
Qed.
Lemma blk_firstn bs k i : 0 <= i < k -> blk (firstn (Z.to_nat k) bs) i = blk bs i.
Proof.
  intros. unfold blk. assert (Hn : (Z.to_nat i < Z.to_nat k)%nat) by lia. revert Hn. generalize (Z.to_nat i) (Z.to_nat k). clear. intros i k. revert bs i.
  induction k as [|k IH]; intros [|x bs] [|i] H; try lia; auto. cbn [firstn nth]. apply IH. lia.
Qed.
Lemma blk_zeros k i : blk (vrep k 0) i = 0.
Proof. unfold blk, vrep. generalize (Z.to_nat k) (Z.to_nat i). clear. induction n as [|n IH]; intros [|m]; cbn [repeat nth]; auto. Qed.
Lemma resize_shape n bs m : wfb n bs -> 0 <= m -> wfb m (blocks_resize bs (blocks_for m)) /\ zlen (blocks_resize bs (blocks_for m)) = blocks_for m /\
  forall i, 0 <= i < blocks_for m -> blk (blocks_resize bs (blocks_for m)) i = if i <? zlen bs then blk bs i else 0.
Proof.
  intros (H0 & Z1 & W) Hm. unfold blocks_resize. assert (Nb : 0 <= blocks_for m) by (rewrite blocks_div; apply Z.div_pos; lia).
  assert (Zr : zlen (firstn (Z.to_nat (blocks_for m)) bs ++ vrep (blocks_for m - zlen bs) 0) = blocks_for m).
  { rewrite zlen_app. unfold zlen, vrep. rewrite firstn_length, repeat_length. lia. }
  assert (Bl : forall i, 0 <= i < blocks_for m -> blk (firstn (Z.to_nat (blocks_for m)) bs ++ vrep (blocks_for m - zlen bs) 0) i = if i <? zlen bs then blk bs i else 0).
  { intros i Hi. rewrite blk_app by lia. assert (Zf : zlen (firstn (Z.to_nat (blocks_for m)) bs) = Z.min (blocks_for m) (zlen bs)) by (unfold zlen; rewrite firstn_length; lia).
    rewrite Zf. rewrite blk_firstn by auto. rewrite blk_zeros. destruct (Z.ltb_spec i (Z.min (blocks_for m) (zlen bs))), (Z.ltb_spec i (zlen bs)); auto; lia. }
  split; [|split; auto]. split; auto. rewrite Zr. split; [apply blocks_div|]. intros i Hi. rewrite Zr in Hi. rewrite Bl by auto. destruct (Z.ltb_spec i (zlen bs)); [apply W; lia|apply word_0].
Qed.
Lemma rep_resize d l m fill : rep d l -> 0 <= m -> exists d', db_resize d m fill = Ok d' /\ rep d' (tab m (fun j => if j <? zlen l then bitv l j else fill)).
Proof.
  intros (Wf & Z1 & B) Hm. pose proof (zlen_nonneg l) as Nl. destruct d as [n bs]. cbn [db_n db_b] in *. pose proof (wfb_len _ _ Wf) as Ln.
  destruct (resize_shape n bs m Wf Hm) as (W' & Z' & B'). pose proof (wfb_len _ _ W') as Lm. rewrite Z' in Lm.
  assert (T : forall p, 0 <= p < 64 * blocks_for m -> p < n -> tb (blocks_resize bs (blocks_for m)) p = bitv l p).
  { intros p Hp Hn. rewrite <- B by lia. unfold tb. destruct (dm p) as (q & t & Ep & Ht & E1 & E2). rewrite E1, E2, B' by lia. rewrite (proj2 (Z.ltb_lt q (zlen bs))) by lia. reflexivity. }
  unfold db_resize. cbn [db_n db_b]. destruct (Z.ltb_spec (blocks_for m) (zlen bs)) as [L|L].
  - eexists. split; [reflexivity|]. split; [exact W'|]. split; [rewrite zlen_tab; auto|]. cbn [db_n db_b]. intros p Hp. rewrite bitv_tab by auto.
    rewrite T by lia. rewrite (proj2 (Z.ltb_lt p (zlen l))) by lia. reflexivity.
  - destruct (Z.leb_spec n m) as [Nm|Nm].
    + destruct (range_update_raw fill m _ n m W' ltac:(lia) ltac:(lia)) as (bs2 & E & W2 & Z2 & B2). rewrite E. eexists. split; [reflexivity|]. split; [exact W2|].
      split; [rewrite zlen_tab; auto|]. cbn [db_n db_b]. intros p Hp. rewrite bitv_tab by auto. rewrite B2 by lia. rewrite Z1.
      destruct (Z.leb_spec n p), (Z.ltb_spec p m), (Z.ltb_spec p n); cbn [andb]; solve [reflexivity|lia|apply T; lia].
    + eexists. split; [reflexivity|]. split; [exact W'|]. split; [rewrite zlen_tab; auto|]. cbn [db_n db_b]. intros p Hp. rewrite bitv_tab by auto.
      rewrite T by lia. rewrite (proj2 (Z.ltb_lt p (zlen l))) by lia. reflexivity.
Qed.
Lemma land63 n : Z.land n 63 = n mod 64. Proof. exact (bit_mod n). Qed.
Lemma rep_push d l v : rep d l -> exists d', db_push_back d v = Ok d' /\ rep d' (l ++ [v]).
Proof.
  intros (Wf & Z1 & B). destruct d as [n bs]. cbn [db_n db_b] in *. pose proof (wfb_len _ _ Wf) as Ln. unfold db_push_back. cbn [db_n db_b]. rewrite land63.
  pose proof Wf as (H0 & Zb & W). destruct (dm n) as (q & t & En & Ht & E1 & E2). rewrite E2. destruct (Z.eqb_spec t 0) as [->|Nt]; cbn [negb].
  - cbn [bind db_n db_b]. eexists. split; [reflexivity|].
    assert (Bl : forall i, 0 <= i < zlen bs + 1 -> blk (bs ++ [Z.b2z v]) i = if i =? zlen bs then Z.b2z v else blk bs i).
    { intros i Hi. rewrite blk_app by lia. destruct (Z.ltb_spec i (zlen bs)), (Z.eqb_spec i (zlen bs)); auto; try lia. replace (i - zlen bs) with 0 by lia. reflexivity. }
    split.
    + cbn [db_n db_b]. split; [lia|]. rewrite zlen_app, zlen_one. split.
      * rewrite Zb. replace (n + 1 + 63) with (n + 63 + 1) by lia. rewrite En. replace (64 * q + 0 + 63 + 1) with ((q + 1) * 64) by lia. rewrite Z.div_mul by lia.
        f_equal. symmetry. apply Z.div_unique with 63; lia.
      * intros i Hi. rewrite zlen_app, zlen_one in Hi. rewrite Bl by auto. destruct (Z.eqb_spec i (zlen bs)); [apply b2z_word|apply W; lia].
    + split; [cbn [db_n]; rewrite zlen_app, zlen_one; lia|]. cbn [db_n db_b]. intros p Hp. rewrite bitv_app by lia. unfold tb. destruct (dm p) as (q' & t' & Ep & Ht' & E1' & E2').
      rewrite E1', E2', Bl by lia. destruct (Z.eqb_spec q' (zlen bs)), (Z.eqb_spec p (zlen l)); try lia.
      * replace t' with (0 - 0) by lia. rewrite b2z_bit by lia. reflexivity.
      * rewrite <- B by lia. unfold tb. now rewrite E1', E2'.
  - destruct (ref_raw (ref_assign v) (fun _ => v) n bs n Wf ltac:(lia) (assign_ok v)) as (bs' & E & (H0' & Zb' & W') & Z' & B'). rewrite E. cbn [bind db_n db_b].
    eexists. split; [reflexivity|]. split.
    + cbn [db_n db_b]. split; [lia|]. split; auto. rewrite Z', Zb. replace (n + 1 + 63) with (n + 64) by lia. rewrite En.
      transitivity (q + 1); [symmetry; apply Z.div_unique with (t - 1); lia|apply Z.div_unique with t; lia].
    + split; [cbn [db_n]; rewrite zlen_app, zlen_one; lia|]. cbn [db_n db_b]. intros p Hp. rewrite bitv_app by lia. rewrite B' by lia. rewrite Z1. destruct (Z.eqb_spec p n); auto. apply B. lia.
Qed.
Lemma rep_pop d l : rep d l -> rr rep (db_pop_back d) (guard (0 <? zlen l) (Ok (removelast l))).
Proof.
  intros (Wf & Z1 & B). destruct d as [n bs]. cbn [db_n db_b] in *. pose proof (wfb_len _ _ Wf) as Ln. unfold guard. destruct (Z.ltb_spec 0 (zlen l)) as [L|L]; cbn [rr]; auto.
  unfold db_pop_back. cbn [db_n db_b]. rewrite (proj2 (Z.eqb_neq n 0)) by lia. rewrite land63. pose proof Wf as (H0 & Zb & W).
  destruct (removelast_snoc l) as (k & x & El & ->); [intros ->; discriminate L|]. assert (Zk : zlen l = zlen k + 1) by (rewrite El, zlen_app, zlen_one; lia).
  assert (Bk : forall p, 0 <= p < n - 1 -> bitv k p = bitv l p) by (intros p Hp; rewrite El, bitv_app by lia; rewrite (proj2 (Z.eqb_neq _ _)) by lia; reflexivity).
  destruct (dm n) as (q & t & En & Ht & E1 & E2). rewrite E2. eexists. split; [reflexivity|]. unfold rep. cbn [db_n db_b]. destruct (Z.eqb_spec t 1) as [->|Nt].
  - destruct (removelast_snoc bs) as (bk & bx & Eb & ->); [intros ->; change (zlen (@nil Z)) with 0 in Ln; lia|]. assert (Zbk : zlen bs = zlen bk + 1) by (rewrite Eb, zlen_app, zlen_one; lia).
    assert (Bl : forall i, 0 <= i < zlen bk -> blk bk i = blk bs i) by (intros i Hi; rewrite Eb, blk_app by lia; rewrite (proj2 (Z.ltb_lt _ _)) by lia; reflexivity).
    split; [|split; [lia|]].
    + split; [lia|]. split; [|intros i Hi; rewrite Bl by auto; apply W; lia]. rewrite <- (Z.add_simpl_r (zlen bk) 1), <- Zbk, Zb. rewrite En.
      replace ((64 * q + 1 + 63) / 64) with (q + 1) by (apply Z.div_unique with 0; lia). replace (q + 1 - 1) with q by lia. apply Z.div_unique with 63; lia.
    + intros p Hp. rewrite Bk, <- B by lia. unfold tb. destruct (dm p) as (q' & t' & Ep & Ht' & E1' & E2'). rewrite E1', E2'. rewrite Bl by lia. reflexivity.
  - split; [|split; [lia|]].
    + split; [lia|]. split; auto. rewrite Zb, En. destruct (Z.eq_dec t 0).
      * transitivity q; [symmetry; apply Z.div_unique with 63; lia|apply Z.div_unique with 62; lia].
      * transitivity (q + 1); [symmetry; apply Z.div_unique with (t - 1); lia|apply Z.div_unique with (t - 2); lia].
    + intros p Hp. rewrite Bk by lia. apply B. lia.
Qed.
