(* FunctionalGraph: doubling tables *)
From Verif Require Import Base BaseLemmas ListZ ListMore Bits Seq BFS_proof Perm_proof FGraph_model FGraph_spec.

Lemma lor_add s l : 0 <= l -> 0 <= s -> (2 ^ (l + 1) | s) -> Z.lor s (2 ^ l) = s + 2 ^ l.
Proof.
  intros Hl Hs (q & ->). symmetry. rewrite <- Z.lxor_lor; [apply Z.add_nocarry_lxor|];
  (apply Z.bits_inj'; intros i Hi; rewrite Z.land_spec, Z.bits_0, Z.pow2_bits_eqb by lia; destruct (Z.eqb_spec l i) as [->|]; [|now rewrite andb_false_r];
   rewrite Z.mul_pow2_bits_low by lia; reflexivity).
Qed.
Lemma log2_ok v : 0 <= v < 2 ^ 62 -> fg_floor_log2 v = Ok (Z.log2 v).
Proof.
  intros Hv. assert (L0 : 0 <= Z.log2 v) by apply Z.log2_nonneg. assert (L1 : Z.log2 v <= 61).
  { destruct (Z.eq_dec v 0) as [->|]; [cbn; lia|]. assert (Z.log2 v < 62) by (apply Z.log2_lt_pow2; lia). lia. }
  unfold fg_floor_log2.
  destruct (loop_inv (fun l => 0 <= l <= Z.log2 v) (fun l => Z.to_nat (Z.log2 v - l)) (fun r => r = Z.log2 v) (fun l => let* p := i64 (2 ^ (l + 1)) in if p <=? v then Ok (inl (l + 1)) else Ok (inr l)) 64 0) as (r & E & ->); [lia|lia| |auto].
  intros l Hl. cbv beta in Hl. unfold i64. assert (P : 0 < 2 ^ (l + 1)) by (apply Z.pow_pos_nonneg; lia). assert (P2 : 2 ^ (l + 1) <= 2 ^ 62) by (apply Z.pow_le_mono_r; lia).
  replace ((- 2 ^ 63 <=? 2 ^ (l + 1)) && (2 ^ (l + 1) <? 2 ^ 63)) with true by lia. cbn [bind].
  destruct (Z.leb_spec (2 ^ (l + 1)) v) as [A|A]; (eexists; split; [reflexivity|]); cbn beta iota.
  - assert (l + 1 <= Z.log2 v) by (apply Z.log2_le_pow2; lia). lia.
  - destruct (Z.eq_dec l (Z.log2 v)); auto. exfalso. assert (2 ^ (l + 1) <= 2 ^ Z.log2 v) by (apply Z.pow_le_mono_r; lia). destruct (Z.eq_dec v 0) as [->|]; [change (Z.log2 0) with 0 in *; lia|]. pose proof (Z.log2_spec v ltac:(lia)). lia.
Qed.

Section FG.
  Variable nxt : list Z.
  Hypothesis W : fgraph nxt.
  Notation n := (zlen nxt).
  Lemma dv_range u : 0 <= u < n -> 0 <= dv nxt u < n.
  Proof. intros Hu. destruct (W u Hu) as (v & E & R). rewrite vget_dv in E by auto. congruence. Qed.
  Lemma it_in k u : 0 <= u < n -> 0 <= it nxt k u < n.
  Proof. intros Hu. induction k as [|k IH]; auto. rewrite it_S. now apply dv_range. Qed.
  Lemma it_S' k u : it nxt (S k) u = it nxt k (dv nxt u). Proof. replace (S k) with (k + 1)%nat by lia. rewrite it_add. reflexivity. Qed.
  Lemma follow_it k : forall u, 0 <= u < n -> follow nxt k u = Ok (it nxt k u).
  Proof. induction k as [|k IH]; intros u Hu; cbn [follow]; auto. rewrite vget_dv by auto. cbn [bind]. rewrite IH by now apply dv_range. now rewrite it_S'. Qed.
  Definition p2 (i : Z) : nat := Z.to_nat (2 ^ i).
  Lemma p2_S i : 0 <= i -> p2 (i + 1) = (p2 i + p2 i)%nat.
  Proof. intros. unfold p2. rewrite Z.pow_add_r by lia. change (2 ^ 1) with 2. assert (0 <= 2 ^ i) by (apply Z.pow_nonneg; lia). lia. Qed.
  Definition rowok (i : Z) (row : list Z) : Prop := zlen row = n /\ forall j, 0 <= j < n -> vget row j = Ok (it nxt (p2 i) j).
  Definition dbok (log : Z) (D : doubling) : Prop := db_log D = log /\ zlen (db_nxt D) = log + 1 /\ forall i, 0 <= i <= log -> exists row, vget (db_nxt D) i = Ok row /\ rowok i row.
  Lemma db_make_ok m : 0 <= m < 2 ^ 62 -> exists D, db_make nxt m = Ok D /\ dbok (Z.log2 m) D.
  Proof.
    intros Hm. unfold db_make. rewrite log2_ok by auto. cbn [bind]. pose proof (Z.log2_nonneg m) as L0. set (log := Z.log2 m) in *. clearbody log. cbv zeta. pose proof (zlen_nonneg nxt) as N0.
    rewrite vset_ok by (rewrite zlen_vrep; lia). cbn [bind].
    destruct (for_inv (fun i t => zlen t = log + 1 /\ forall k, 0 <= k < i -> exists row, vget t k = Ok row /\ rowok k row) 1 (log + 1) (fun i t => let* row := db_row t i n in vset t i row) (zupd (vrep (log + 1) (vrep n 0)) 0 nxt)) as (t & E & Zt & Ht); [lia| | |].
    - split; [rewrite zlen_zupd, zlen_vrep; lia|]. intros k Hk. replace k with 0 by lia. exists nxt. split; [rewrite vget_zupd by (rewrite zlen_vrep; lia); reflexivity|]. split; auto. intros j Hj. rewrite vget_dv by auto. reflexivity.
    - intros i t Hi (Zt & Ht). destruct (Ht (i - 1)) as (prev & Ep & Zp & Hp); [lia|]. unfold db_row. rewrite Ep. cbn [bind].
      destruct (for_inv (fun j row => zlen row = n /\ forall k, 0 <= k < j -> vget row k = Ok (it nxt (p2 i) k)) 0 n (fun j row => let* a := vget prev j in let* b := vget prev a in vset row j b) (vrep n 0)) as (row & Er & Zr & Hr); [auto| | |].
      + split; [now apply zlen_vrep|intros; lia].
      + intros j row Hj (Zr & Hr). rewrite Hp by auto. cbn [bind]. rewrite Hp by (apply it_in; auto). cbn [bind]. rewrite vset_ok by lia. eexists. split; [reflexivity|]. split; [now rewrite zlen_zupd|]. intros k Hk. rewrite vget_zupd by lia.
        destruct (Z.eqb_spec j k) as [->|]; [|apply Hr; lia]. rewrite <- it_add. replace i with (i - 1 + 1) at 3 by lia. rewrite p2_S by lia. reflexivity.
      + rewrite Er. cbn [bind]. rewrite vset_ok by lia. eexists. split; [reflexivity|]. split; [now rewrite zlen_zupd|]. intros k Hk. rewrite vget_zupd by lia. destruct (Z.eqb_spec i k) as [->|]; [exists row; split; auto; split; auto|apply Ht; lia].
    - rewrite E. cbn [bind]. eexists. split; [reflexivity|]. split; auto. split; auto. intros i Hi. apply Ht. lia.
  Qed.
  (* the bits of d from l upwards *)
  Definition hi_bits (d l : Z) : Z := d / 2 ^ l * 2 ^ l.
  Lemma hi_bits_step d l : 0 <= d -> 0 <= l -> hi_bits d l = hi_bits d (l + 1) + if Z.testbit d l then 2 ^ l else 0.
  Proof.
    intros Hd Hl. unfold hi_bits. rewrite Z.pow_add_r by lia. change (2 ^ 1) with 2. assert (P : 0 < 2 ^ l) by (apply Z.pow_pos_nonneg; lia).
    rewrite <- Z.div_div by lia. pose proof (Z.div_mod (d / 2 ^ l) 2 ltac:(lia)) as E. rewrite (Z.testbit_true d l Hl) at 1 || idtac.
    destruct (Z.testbit d l) eqn:B.
    - apply Z.testbit_true in B; [|lia]. rewrite B in E. rewrite E at 1. ring.
    - apply Z.testbit_false in B; [|lia]. rewrite B in E. rewrite E at 1. ring.
  Qed.
  Lemma hi_bits_0 d : hi_bits d 0 = d. Proof. unfold hi_bits. change (2 ^ 0) with 1. rewrite Z.div_1_r. lia. Qed.
  Lemma hi_bits_top d l : 0 <= d < 2 ^ l -> hi_bits d l = 0. Proof. intros. unfold hi_bits. now rewrite Z.div_small. Qed.
  Lemma hi_bits_nn d l : 0 <= d -> 0 <= l -> 0 <= hi_bits d l.
  Proof. intros. unfold hi_bits. assert (0 < 2 ^ l) by (apply Z.pow_pos_nonneg; lia). assert (0 <= d / 2 ^ l) by (apply Z.div_pos; lia). nia. Qed.
  Lemma query_it log D u d : dbok log D -> 0 <= log -> 0 <= u < n -> 0 <= d < 2 ^ (log + 1) -> db_query D u d = Ok (it nxt (Z.to_nat d) u).
  Proof.
    intros (El & Zt & Ht) Hl Hu Hd. unfold db_query. rewrite El.
    destruct (ford_inv (fun l v => v = it nxt (Z.to_nat (hi_bits d (l + 1))) u) log (-1) (fun l u => if Z.testbit d l then let* row := vget (db_nxt D) l in vget row u else Ok u) u) as (v & E & Ev); [lia| | |].
    - rewrite hi_bits_top by lia. reflexivity.
    - intros l v Hli ->. replace (l - 1 + 1) with l by lia. rewrite (hi_bits_step d l) by lia. pose proof (hi_bits_nn d (l + 1) ltac:(lia) ltac:(lia)) as H0. assert (P : 0 < 2 ^ l) by (apply Z.pow_pos_nonneg; lia). destruct (Z.testbit d l).
      + destruct (Ht l) as (row & Er & _ & Hr); [lia|]. rewrite Er. cbn [bind]. rewrite Hr by now apply it_in. eexists. split; [reflexivity|]. rewrite <- it_add. f_equal. unfold p2. lia.
      + eexists. split; [reflexivity|]. f_equal. lia.
    - rewrite E, Ev. cbn. now rewrite hi_bits_0.
  Qed.
  (* one round of the search: pos k is the state after k steps *)
  Definition sinv {S} (pos : Z -> S) (f : Z -> bool) (log : Z) (l : Z) (s : S * Z) : Prop :=
    let step := snd s in fst s = pos step /\ 0 <= step /\ (2 ^ (l + 1) | step) /\ step + 2 ^ (l + 1) <= 2 ^ (log + 1) /\ f step = true /\
    (step + 2 ^ (l + 1) = 2 ^ (log + 1) \/ f (step + 2 ^ (l + 1)) = false).
  Lemma sinv_start {S} (pos : Z -> S) f log : f 0 = true -> sinv pos f log log (pos 0, 0).
  Proof. intros F. unfold sinv. cbn [fst snd]. split; auto. split; [lia|]. split; [apply Z.divide_0_r|]. split; [lia|]. auto. Qed.
  Lemma sinv_step {S} (pos : Z -> S) f log l s : 0 <= l -> sinv pos f log l s ->
    sinv pos f log (l - 1) (if f (snd s + 2 ^ l) then (pos (snd s + 2 ^ l), Z.lor (snd s) (2 ^ l)) else s).
  Proof.
    destruct s as [x step]. intros Hl (E & H0 & Dv & Le & F & B). unfold sinv in *. cbn [fst snd] in *. replace (l - 1 + 1) with l by lia. assert (P : 0 < 2 ^ l) by (apply Z.pow_pos_nonneg; lia).
    assert (D2 : 2 ^ (l + 1) = 2 * 2 ^ l) by (rewrite Z.pow_add_r by lia; lia). assert (Dl : (2 ^ l | step)) by (eapply Z.divide_trans; [|exact Dv]; exists 2; lia).
    destruct (f (step + 2 ^ l)) eqn:Fn; cbn [fst snd].
    - rewrite lor_add by auto. split; auto. split; [lia|]. split; [apply Z.divide_add_r; auto; apply Z.divide_refl|]. split; [lia|]. split; auto. replace (step + 2 ^ l + 2 ^ l) with (step + 2 ^ (l + 1)) by lia. exact B.
    - split; auto. split; auto. split; auto. split; [lia|]. auto.
  Qed.
  Lemma max_step_it log D u f : dbok log D -> 0 <= log -> 0 <= u < n -> f u = true ->
    exists step, db_max_step D u f = Ok (it nxt (Z.to_nat step) u, step) /\ 0 <= step < 2 ^ (log + 1) /\ f (it nxt (Z.to_nat step) u) = true /\
      (step = 2 ^ (log + 1) - 1 \/ f (it nxt (Z.to_nat (step + 1)) u) = false).
  Proof.
    intros (El & Zt & Ht) Hl Hu Fu. unfold db_max_step. rewrite Fu, El. cbn [assert_ bind].
    match goal with |- context [ford_ log (-1) ?b ?s0] => destruct (ford_inv (sinv (fun k => it nxt (Z.to_nat k) u) (fun k => f (it nxt (Z.to_nat k) u)) log) log (-1) b s0) as ((v & step) & E & I) end; [lia| | |].
    - now apply sinv_start.
    - intros l (v, step) Hli I. pose proof I as (Ev & H0 & _). cbn [fst snd] in Ev, H0. cbn beta iota. destruct (Ht l) as (row & Er & _ & Hr); [lia|]. rewrite Er. cbn [bind]. rewrite Ev, Hr by now apply it_in. cbn [bind].
      assert (P : 0 < 2 ^ l) by (apply Z.pow_pos_nonneg; lia). apply sinv_step in I; [|lia]. cbn [fst snd] in I. rewrite <- it_add. replace (p2 l + Z.to_nat step)%nat with (Z.to_nat (step + 2 ^ l)) by (unfold p2; lia).
      destruct (f (it nxt (Z.to_nat (step + 2 ^ l)) u)); (eexists; split; [reflexivity|]); auto. now rewrite Ev in I.
    - rewrite E. destruct I as (Ev & H0 & _ & Le & F & B). cbn [fst snd] in *. change (2 ^ (-1 + 1)) with 1 in *. exists step. rewrite Ev. split; auto. split; [lia|]. split; auto. destruct B; [left; lia|right; auto].
  Qed.

  Section Sum.
    Context {T : Type}.
    Variables (op : T -> T -> T) (e : T) (dat : list T).
    Hypothesis M : is_monoid op e.
    Hypothesis Zd : zlen dat = n.
    Definition tv (u : Z) : T := nth (Z.to_nat u) dat e.
    Lemma vget_tv u : 0 <= u < n -> vget dat u = Ok (tv u). Proof. intros. apply vget_nth. lia. Qed.
    Fixpoint gs (k : nat) (u : Z) : T := match k with O => e | S k => op (tv u) (gs k (dv nxt u)) end.
    Lemma gather_gs k : forall u, 0 <= u < n -> gather op e nxt dat k u = Ok (gs k u).
    Proof. induction k as [|k IH]; intros u Hu; cbn [gather gs]; auto. rewrite vget_tv, vget_dv by auto. cbn [bind]. rewrite IH by now apply dv_range. reflexivity. Qed.
    Lemma gs_add a b : forall u, gs (a + b) u = op (gs a u) (gs b (it nxt a u)).
    Proof. induction a as [|a IH]; intros u; cbn [gs plus]; [now rewrite (mon_l _ _ M)|]. rewrite IH, (mon_assoc _ _ M), it_S'. reflexivity. Qed.
    Lemma gs_one u : gs 1 u = tv u. Proof. cbn [gs]. apply M. Qed.
    Definition drow (i : Z) (row : list T) : Prop := zlen row = n /\ forall j, 0 <= j < n -> vget row j = Ok (gs (p2 i) j).
    Definition dsok (log : Z) (D : doubling_sum T) : Prop := dbok log (ds_db D) /\ forall i, 0 <= i <= log -> exists row, vget (ds_dat D) i = Ok row /\ drow i row.
    Lemma ds_make_ok m : 0 <= m < 2 ^ 62 -> exists D, ds_make op e nxt m dat = Ok D /\ dsok (Z.log2 m) D.
    Proof.
      intros Hm. unfold ds_make. destruct (db_make_ok m Hm) as (D & Ed & Od). rewrite Ed. cbn [bind]. pose proof (Z.log2_nonneg m) as L0. set (log := Z.log2 m) in *. clearbody log. cbv zeta. pose proof (zlen_nonneg nxt) as N0. pose proof Od as (El & Zt & Ht). rewrite El.
      rewrite vset_ok by (rewrite zlen_vrep; lia). cbn [bind].
      destruct (for_inv (fun i t => zlen t = log + 1 /\ forall k, 0 <= k < i -> exists row, vget t k = Ok row /\ drow k row) 1 (log + 1) (fun i t => let* row := ds_row op e (db_nxt D) t i n in vset t i row) (zupd (vrep (log + 1) (vrep n e)) 0 dat)) as (t & E & Zt' & Ht'); [lia| | |].
      - split; [rewrite zlen_zupd, zlen_vrep; lia|]. intros k Hk. replace k with 0 by lia. exists dat. split; [rewrite vget_zupd by (rewrite zlen_vrep; lia); reflexivity|]. split; auto. intros j Hj. rewrite vget_tv by auto. unfold p2. change (Z.to_nat (2 ^ 0)) with 1%nat. now rewrite gs_one.
      - intros i t Hi (Zt' & Ht'). destruct (Ht' (i - 1)) as (pd & Epd & Zpd & Hpd); [lia|]. destruct (Ht (i - 1)) as (pn & Epn & Zpn & Hpn); [lia|]. unfold ds_row. rewrite Epn. cbn [bind]. rewrite Epd. cbn [bind].
        destruct (for_inv (fun j row => zlen row = n /\ forall k, 0 <= k < j -> vget row k = Ok (gs (p2 i) k)) 0 n (fun j row => let* x := vget pd j in let* a := vget pn j in let* y := vget pd a in vset row j (op x y)) (vrep n e)) as (row & Er & Zr & Hr); [auto| | |].
        + split; [now apply zlen_vrep|intros; lia].
        + intros j row Hj (Zr & Hr). rewrite Hpd by auto. cbn [bind]. rewrite Hpn by auto. cbn [bind]. rewrite Hpd by (apply it_in; auto). cbn [bind]. rewrite vset_ok by lia. eexists. split; [reflexivity|]. split; [now rewrite zlen_zupd|]. intros k Hk. rewrite vget_zupd by lia.
          destruct (Z.eqb_spec j k) as [->|]; [|apply Hr; lia]. rewrite <- gs_add. replace i with (i - 1 + 1) at 3 by lia. rewrite p2_S by lia. reflexivity.
        + rewrite Er. cbn [bind]. rewrite vset_ok by lia. eexists. split; [reflexivity|]. split; [now rewrite zlen_zupd|]. intros k Hk. rewrite vget_zupd by lia. destruct (Z.eqb_spec i k) as [->|]; [exists row; split; auto; split; auto|apply Ht'; lia].
      - rewrite E. cbn [bind]. eexists. split; [reflexivity|]. split; auto. intros i Hi. apply Ht'. lia.
    Qed.
    Lemma ds_query_gs log D u d : dsok log D -> 0 <= log -> 0 <= u < n -> 0 <= d < 2 ^ (log + 1) -> ds_query op e D u d = Ok (it nxt (Z.to_nat d) u, gs (Z.to_nat d) u).
    Proof.
      intros ((El & Zt & Ht) & Hs) Hl Hu Hd. unfold ds_query. rewrite El.
      match goal with |- ford_ log (-1) ?b ?s0 = _ => destruct (ford_inv (fun l s => s = (it nxt (Z.to_nat (hi_bits d (l + 1))) u, gs (Z.to_nat (hi_bits d (l + 1))) u)) log (-1) b s0) as (v & E & Ev) end; [lia| | |].
      - rewrite hi_bits_top by lia. reflexivity.
      - intros l v Hli ->. replace (l - 1 + 1) with l by lia. rewrite (hi_bits_step d l) by lia. pose proof (hi_bits_nn d (l + 1) ltac:(lia) ltac:(lia)) as H0. assert (P : 0 < 2 ^ l) by (apply Z.pow_pos_nonneg; lia). destruct (Z.testbit d l).
        + destruct (Ht l) as (row & Er & _ & Hr); [lia|]. destruct (Hs l) as (row' & Er' & _ & Hr'); [lia|]. rewrite Er. cbn [bind]. rewrite Hr by now apply it_in. cbn [bind]. rewrite Er'. cbn [bind]. rewrite Hr' by now apply it_in. cbn [bind]. eexists. split; [reflexivity|]. rewrite <- it_add, <- gs_add. f_equal; f_equal; unfold p2; lia.
        + eexists. split; [reflexivity|]. rewrite Z.add_0_r. reflexivity.
      - rewrite E, Ev. cbn. now rewrite hi_bits_0.
    Qed.
    Lemma ds_max_step_gs log D u f : dsok log D -> 0 <= log -> 0 <= u < n -> f e = true ->
      exists step, ds_max_step op e D u f = Ok (it nxt (Z.to_nat step) u, gs (Z.to_nat step) u, step) /\ 0 <= step < 2 ^ (log + 1) /\ f (gs (Z.to_nat step) u) = true /\
        (step = 2 ^ (log + 1) - 1 \/ f (gs (Z.to_nat (step + 1)) u) = false).
    Proof.
      intros ((El & Zt & Ht) & Hs) Hl Hu Fu. unfold ds_max_step. rewrite Fu, El. cbn [assert_ bind].
      match goal with |- context [ford_ log (-1) ?b ?s0] => destruct (ford_inv (sinv (fun k => (it nxt (Z.to_nat k) u, gs (Z.to_nat k) u)) (fun k => f (gs (Z.to_nat k) u)) log) log (-1) b s0) as (((v & sm) & step) & E & I) end; [lia| | |].
      - now apply (sinv_start (fun k => (it nxt (Z.to_nat k) u, gs (Z.to_nat k) u))).
      - intros l ((v, sm), step) Hli I. pose proof I as (Ev & H0 & _). cbn [fst snd] in Ev, H0. injection Ev as Ev Es. cbn beta iota. destruct (Ht l) as (row & Er & _ & Hr); [lia|]. destruct (Hs l) as (row' & Er' & _ & Hr'); [lia|]. rewrite Er'. cbn [bind]. rewrite Ev, Hr' by now apply it_in. cbn [bind]. cbv zeta.
        assert (P : 0 < 2 ^ l) by (apply Z.pow_pos_nonneg; lia). apply sinv_step in I; [|lia]. cbn [fst snd] in I. rewrite Es, <- gs_add. rewrite Er. cbn [bind]. rewrite Hr by now apply it_in. cbn [bind]. rewrite <- it_add.
        replace (p2 l + Z.to_nat step)%nat with (Z.to_nat (step + 2 ^ l)) by (unfold p2; lia). replace (Z.to_nat step + p2 l)%nat with (Z.to_nat (step + 2 ^ l)) by (unfold p2; lia).
        destruct (f (gs (Z.to_nat (step + 2 ^ l)) u)); (eexists; split; [reflexivity|]); auto. now rewrite Ev, Es in I.
      - rewrite E. destruct I as (Ev & H0 & _ & Le & F & B). cbn [fst snd] in *. change (2 ^ (-1 + 1)) with 1 in *. exists step. injection Ev as -> ->. split; auto. split; [lia|]. split; auto. destruct B; [left; lia|right; auto].
    Qed.
  End Sum.
End FG.

(* in terms of the specification *)
Lemma boundary_max holds R step : boundary holds R step -> falls holds -> forall k, 0 <= k < R -> (holds k <-> k <= step).
Proof.
  intros (Hs & H1 & H2) Fl k Hk. split.
  - intros Hh. destruct (Z_le_gt_dec k step) as [|G]; auto. destruct H2 as [->|N]; [lia|]. destruct N. eapply Fl; [|exact Hh]. lia.
  - intros L. eapply Fl; [|exact H1]. lia.
Qed.
Lemma first_min holds step : first_true holds step -> rises holds -> forall k, 0 <= k -> (holds k <-> step <= k).
Proof.
  intros (Hs & H1 & H2) Rs k Hk. split.
  - intros Hh. destruct (Z_le_gt_dec step k) as [|G]; auto. destruct H2 as [->|N]; [lia|]. destruct N. eapply Rs; [|exact Hh]. lia.
  - intros L. eapply Rs; [|exact H1]. lia.
Qed.
Lemma doubling_full nxt m : fgraph nxt -> 0 <= m < 2 ^ 62 -> exists D, db_make nxt m = Ok D /\
  (forall u d, 0 <= u < zlen nxt -> 0 <= d < reach_of m -> db_query D u d = follow nxt (Z.to_nat d) u) /\
  (forall u f, 0 <= u < zlen nxt -> f u = true -> exists v step, db_max_step D u f = Ok (v, step) /\ follow nxt (Z.to_nat step) u = Ok v /\
     boundary (at_vertex nxt u f) (reach_of m) step) /\
  (forall u f, f u = false -> db_max_step D u f = Abort) /\
  (forall u f, 0 <= u < zlen nxt -> exists r, db_step_until D u f = Ok r /\
     match r with
     | Some (v, step) => follow nxt (Z.to_nat step) u = Ok v /\ step <= reach_of m /\ first_true (at_vertex nxt u f) step
     | None => ~ at_vertex nxt u f (reach_of m)
     end).
Proof.
  intros W Hm. destruct (db_make_ok nxt W m Hm) as (D & E & O). exists D. split; auto. pose proof (Z.log2_nonneg m) as L0. unfold reach_of. set (log := Z.log2 m) in *. clearbody log.
  assert (Atv : forall u f k, 0 <= u < zlen nxt -> (at_vertex nxt u f k <-> f (it nxt (Z.to_nat k) u) = true)).
  { intros u f k Hu. unfold at_vertex. rewrite follow_it by auto. split; [intros (v & [= <-] & H); auto|eauto]. }
  split; [|split; [|split]].
  - intros u d Hu Hd. rewrite follow_it by auto. eapply query_it; eauto.
  - intros u f Hu Fu. destruct (max_step_it nxt W log D u f O L0 Hu Fu) as (step & Es & R & F1 & F2). exists (it nxt (Z.to_nat step) u), step. split; auto. split; [now apply follow_it|]. split; auto. split; [now apply Atv|]. destruct F2 as [|F2]; auto. right. rewrite Atv by auto. congruence.
  - intros u f Fu. unfold db_max_step. now rewrite Fu.
  - intros u f Hu. unfold db_step_until. destruct (f u) eqn:Fu.
    + eexists. split; [reflexivity|]. split; [reflexivity|]. assert (P : 0 < 2 ^ (log + 1)) by (apply Z.pow_pos_nonneg; lia). split; [lia|]. split; [lia|]. split; auto. apply Atv; auto.
    + destruct (max_step_it nxt W log D u (fun v => negb (f v)) O L0 Hu ltac:(cbv beta; now rewrite Fu)) as (step & Es & R & F1 & F2). rewrite Es. cbn [bind]. destruct O as (El & Zt & Ht). destruct (Ht 0) as (row & Er & _ & Hr); [lia|]. rewrite Er. cbn [bind]. rewrite Hr by now apply it_in. cbn [bind]. rewrite <- it_add. change (p2 0) with 1%nat.
      replace (1 + Z.to_nat step)%nat with (Z.to_nat (step + 1)) in * by lia. destruct (f (it nxt (Z.to_nat (step + 1)) u)) eqn:Fv; cbn [negb] in *; (eexists; split; [reflexivity|]).
      * split; [now apply follow_it|]. split; [lia|]. split; [lia|]. split; [now apply Atv|]. right. replace (step + 1 - 1) with step by lia. rewrite Atv by auto. intros K. rewrite K in F1. discriminate.
      * destruct F2 as [->|F2]; [|discriminate]. rewrite Atv by auto. replace (2 ^ (log + 1) - 1 + 1) with (2 ^ (log + 1)) in Fv by lia. congruence.
Qed.
Lemma doubling_sum_full {T} (op : T -> T -> T) e nxt dat m : is_monoid op e -> fgraph nxt -> zlen dat = zlen nxt -> 0 <= m < 2 ^ 62 -> exists D, ds_make op e nxt m dat = Ok D /\
  (forall u d, 0 <= u < zlen nxt -> 0 <= d < reach_of m -> exists v s, ds_query op e D u d = Ok (v, s) /\ follow nxt (Z.to_nat d) u = Ok v /\ gather op e nxt dat (Z.to_nat d) u = Ok s) /\
  (forall u f, 0 <= u < zlen nxt -> f e = true -> exists v s step, ds_max_step op e D u f = Ok (v, s, step) /\ follow nxt (Z.to_nat step) u = Ok v /\ gather op e nxt dat (Z.to_nat step) u = Ok s /\
     boundary (at_sum op e nxt dat u f) (reach_of m) step) /\
  (forall u f, f e = false -> ds_max_step op e D u f = Abort) /\
  (forall u f, 0 <= u < zlen nxt -> exists r, ds_step_until op e D u f = Ok r /\
     match r with
     | Some (v, s, step) => follow nxt (Z.to_nat step) u = Ok v /\ gather op e nxt dat (Z.to_nat step) u = Ok s /\ step <= reach_of m /\ first_true (at_sum op e nxt dat u f) step
     | None => ~ at_sum op e nxt dat u f (reach_of m)
     end).
Proof.
  intros M W Zd Hm. destruct (ds_make_ok nxt W op e dat M Zd m Hm) as (D & E & O). exists D. split; auto. pose proof (Z.log2_nonneg m) as L0. unfold reach_of. set (log := Z.log2 m) in *. clearbody log.
  assert (Ats : forall u f k, 0 <= u < zlen nxt -> (at_sum op e nxt dat u f k <-> f (gs nxt op e dat (Z.to_nat k) u) = true)).
  { intros u f k Hu. unfold at_sum. rewrite (gather_gs nxt W) by auto. split; [intros (v & [= <-] & H); auto|eauto]. }
  split; [|split; [|split]].
  - intros u d Hu Hd. do 2 eexists. split; [eapply ds_query_gs; eauto|]. split; [now apply follow_it|now apply gather_gs].
  - intros u f Hu Fu. destruct (ds_max_step_gs nxt W op e dat M log D u f O L0 Hu Fu) as (step & Es & R & F1 & F2). do 3 eexists. split; [exact Es|]. split; [now apply follow_it|]. split; [now apply gather_gs|]. split; auto. split; [now apply Ats|]. destruct F2 as [|F2]; auto. right. rewrite Ats by auto. congruence.
  - intros u f Fu. unfold ds_max_step. now rewrite Fu.
  - intros u f Hu. unfold ds_step_until. destruct (f e) eqn:Fu.
    + eexists. split; [reflexivity|]. split; [reflexivity|]. split; [reflexivity|]. assert (P : 0 < 2 ^ (log + 1)) by (apply Z.pow_pos_nonneg; lia). split; [lia|]. split; [lia|]. split; auto. apply Ats; auto.
    + destruct (ds_max_step_gs nxt W op e dat M log D u (fun v => negb (f v)) O L0 Hu ltac:(cbv beta; now rewrite Fu)) as (step & Es & R & F1 & F2). rewrite Es. cbn [bind]. destruct O as ((El & Zt & Ht) & Hs). destruct (Ht 0) as (row & Er & _ & Hr); [lia|]. destruct (Hs 0) as (row' & Er' & _ & Hr'); [lia|].
      rewrite Er'. cbn [bind]. rewrite Hr' by now apply it_in. cbn [bind]. cbv zeta. rewrite Er. cbn [bind]. rewrite Hr by now apply it_in. cbn [bind]. rewrite <- it_add, <- (gs_add nxt op e dat M). change (p2 0) with 1%nat.
      replace (1 + Z.to_nat step)%nat with (Z.to_nat (step + 1)) in * by lia. replace (Z.to_nat step + 1)%nat with (Z.to_nat (step + 1)) in * by lia. destruct (f (gs nxt op e dat (Z.to_nat (step + 1)) u)) eqn:Fv; cbn [negb] in *; (eexists; split; [reflexivity|]).
      * split; [now apply follow_it|]. split; [now apply gather_gs|]. split; [lia|]. split; [lia|]. split; [now apply Ats|]. right. replace (step + 1 - 1) with step by lia. rewrite Ats by auto. intros K. rewrite K in F1. discriminate.
      * destruct F2 as [->|F2]; [|discriminate]. rewrite Ats by auto. replace (2 ^ (log + 1) - 1 + 1) with (2 ^ (log + 1)) in Fv by lia. congruence.
Qed.
Lemma wide_make nxt : db_make nxt (2 ^ 62) = UB.
Proof. unfold db_make. replace (fg_floor_log2 (2 ^ 62)) with (@UB Z) by (vm_compute; reflexivity). reflexivity. Qed.
