From Verif Require Import Base BaseLemmas ZMod Seq ListZ RingSum Transform_model Transform_spec Kron_proof Kron_alg.
From Coq Require Import Ring Znumtheory.

Section Naive.
  Context {T : Type}.
  Variables (r0 r1 : T) (add mul sub : T -> T -> T) (opp : T -> T).
  Hypothesis RT : ring_theory r0 r1 add mul sub opp (@eq T).
  Add Ring R4 : RT.
  Notation sum := (sum r0 add).
  Notation at_ := (at_ r0).
  (* a loop in which iteration i adds F i k to every entry k *)
  Lemma add_loop n lo hi (body : Z -> list T -> res (list T)) (F : Z -> Z -> T) c g : lo <= hi -> rep c n g ->
    (forall i c g, lo <= i < hi -> rep c n g -> exists c', body i c = Ok c' /\ rep c' n (fun k => add (g k) (F i k))) ->
    exists c', for_ lo hi body c = Ok c' /\ rep c' n (fun k => add (g k) (sum lo hi (fun i => F i k))).
  Proof.
    intros Hl Rc Hb. apply (for_inv (fun i c => rep c n (fun k => add (g k) (sum lo i (fun j => F j k)))) lo hi body c); auto.
    - eapply rep_ext; [exact Rc|]. intros k Hk. cbn beta. rewrite sum_nil by lia. ring.
    - intros i s Hi Rs. destruct (Hb i s _ Hi Rs) as (s' & E & R). exists s'. split; auto. eapply rep_ext; [exact R|]. intros k Hk. cbn beta.
      rewrite (sum_snoc _ _ _ _ _ _ RT) by lia. ring.
  Qed.
  Lemma add_loop' n lo hi body F c g : rep c n g ->
    (forall i c g, lo <= i < hi -> rep c n g -> exists c', body i c = Ok c' /\ rep c' n (fun k => add (g k) (F i k))) ->
    exists c', for_ lo hi body c = Ok c' /\ rep c' n (fun k => add (g k) (sum lo hi (fun i => F i k))).
  Proof.
    intros Rc Hb. destruct (Z.le_gt_cases lo hi); [now apply add_loop|]. unfold for_. replace (Z.to_nat (hi - lo)) with O by lia. exists c. split; auto.
    eapply rep_ext; [exact Rc|]. intros k Hk. cbn beta. rewrite sum_nil by lia. ring.
  Qed.
  Lemma acc_one (a b c : list T) n g i j x : rep c n g -> 0 <= i < zlen a -> 0 <= j < zlen b -> 0 <= x < n ->
    exists c', (let* ai := vget a i in let* bj := vget b j in let* y := vget c x in vset c x (add y (mul ai bj))) = Ok c' /\
      rep c' n (fun k => add (g k) (if x =? k then mul (at_ a i) (at_ b j) else r0)).
  Proof.
    intros Rc Hi Hj Hx. rewrite (rep_get _ _ _ _ (rep_at r0 a)) by auto. cbn [bind]. rewrite (rep_get _ _ _ _ (rep_at r0 b)) by auto. cbn [bind].
    rewrite (rep_get _ _ _ _ Rc) by auto. cbn [bind]. rewrite (rep_set _ _ _ _ _ Rc) by auto. eexists; split; [reflexivity|].
    eapply rep_ext; [apply rep_upd; [exact Rc|auto]|]. intros k Hk. unfold fupd. rewrite (Z.eqb_sym x k). destruct (Z.eqb_spec k x) as [->|]; ring.
  Qed.
  Lemma naive_ok a b : 1 <= zlen a + zlen b ->
    convolution_naive r0 add mul a b = Ok (tabulate (zlen a + zlen b - 1) (conv_by r0 add mul Z.add 0 a b)).
  Proof.
    intro H. unfold convolution_naive. pose proof (zlen_nonneg a). pose proof (zlen_nonneg b). rewrite (proj2 (Z.leb_le 0 _)) by lia. cbn [assert_ bind].
    set (n := zlen a + zlen b - 1). assert (R0 : rep (vrep n r0) n (fun _ => r0)) by (apply rep_vrep; lia).
    assert (X : exists c, (if zlen a <? zlen b then for_ 0 (zlen b) (fun j c => for_ 0 (zlen a) (fun i c => let* ai := vget a i in let* bj := vget b j in let* x := vget c (i + j) in vset c (i + j) (add x (mul ai bj))) c) (vrep n r0)
      else for_ 0 (zlen a) (fun i c => for_ 0 (zlen b) (fun j c => let* ai := vget a i in let* bj := vget b j in let* x := vget c (i + j) in vset c (i + j) (add x (mul ai bj))) c) (vrep n r0)) = Ok c /\
      rep c n (conv_by r0 add mul Z.add 0 a b)).
    { destruct (Z.ltb_spec (zlen a) (zlen b)).
      - destruct (add_loop' n 0 (zlen b) (fun j c => for_ 0 (zlen a) (fun i c => let* ai := vget a i in let* bj := vget b j in let* x := vget c (i + j) in vset c (i + j) (add x (mul ai bj))) c)
          (fun j k => sum 0 (zlen a) (fun i => if i + j =? k then mul (at_ a i) (at_ b j) else r0)) (vrep n r0) _ R0) as (c & E & R).
        { intros j c g Hj Rc. apply (add_loop' n 0 (zlen a) _ (fun i k => if i + j =? k then mul (at_ a i) (at_ b j) else r0)); auto.
          intros i c' g' Hi Rc'. apply acc_one; auto; lia. }
        exists c. split; auto. eapply rep_ext; [exact R|]. intros k Hk. cbn beta. unfold conv_by. rewrite (sum_swap _ _ _ _ _ _ RT). ring.
      - destruct (add_loop' n 0 (zlen a) (fun i c => for_ 0 (zlen b) (fun j c => let* ai := vget a i in let* bj := vget b j in let* x := vget c (i + j) in vset c (i + j) (add x (mul ai bj))) c)
          (fun i k => sum 0 (zlen b) (fun j => if i + j =? k then mul (at_ a i) (at_ b j) else r0)) (vrep n r0) _ R0) as (c & E & R).
        { intros i c g Hi Rc. apply (add_loop' n 0 (zlen b) _ (fun j k => if i + j =? k then mul (at_ a i) (at_ b j) else r0)); auto.
          intros j c' g' Hj Rc'. apply acc_one; auto; lia. }
        exists c. split; auto. eapply rep_ext; [exact R|]. intros k Hk. cbn beta. unfold conv_by. ring. }
    destruct X as (c & E & R). rewrite E. f_equal. apply (rep_map _ _ _ R).
  Qed.
  (* the index range of the Dirichlet loops *)
  Lemma quot_up n i : 1 <= i -> 0 <= n -> forall j, j < Z.quot (n + i - 1) i <-> i * j < n.
  Proof.
    intros Hi Hn j. rewrite Z.quot_div_nonneg by lia. pose proof (Z.div_mod (n + i - 1) i ltac:(lia)). pose proof (Z.mod_pos_bound (n + i - 1) i ltac:(lia)).
    set (q := (n + i - 1) / i) in *. split; intro; nia.
  Qed.
  Lemma sum_trunc lo m n f : m <= n -> (forall i, lo <= i -> m <= i < n -> f i = r0) -> sum lo m f = sum lo n f.
  Proof.
    intros Hm Hf. destruct (Z.le_gt_cases lo m).
    - rewrite (sum_split _ _ _ _ _ _ RT lo m n) by lia. rewrite (sum_zero _ _ _ _ _ _ RT m n) by (intros; apply Hf; lia). ring.
    - rewrite sum_nil by lia. symmetry. apply (sum_zero _ _ _ _ _ _ RT). intros; apply Hf; lia.
  Qed.
  Lemma dirichlet_trunc ok a b n k : 0 <= n -> 0 <= k < n ->
    sum 1 (Z.min (zlen a) n) (fun i => sum 1 (Z.min (Z.quot (n + i - 1) i) (Z.min (zlen b) n)) (fun j => if (i * j =? k) && ok i j then mul (at_ a i) (at_ b j) else r0)) =
    dirichlet r0 add mul ok a b k.
  Proof.
    intros Hn Hk. unfold dirichlet. pose proof (zlen_nonneg a). pose proof (zlen_nonneg b).
    rewrite (sum_trunc 1 (Z.min (zlen a) n) (zlen a)); [|lia|].
    - apply sum_ext. intros i Hi. apply sum_trunc; [lia|]. intros j Hj1 Hj. destruct (Z.eqb_spec (i * j) k) as [E|]; auto. exfalso.
      assert (j < Z.quot (n + i - 1) i) by (apply quot_up; lia). assert (j < n) by nia. lia.
    - intros i Hi1 Hi. apply (sum_zero _ _ _ _ _ _ RT). intros j Hj.
      destruct (Z.eqb_spec (i * j) k) as [E|]; auto. exfalso. assert (i < n) by nia. lia.
  Qed.
  Lemma dirichlet_ok a b n : 0 <= n -> dirichlet_convolution r0 add mul a b n = Ok (tabulate n (dirichlet r0 add mul (fun _ _ => true) a b)).
  Proof.
    intro Hn. unfold dirichlet_convolution. assert (R0 : rep (vrep n r0) n (fun _ => r0)) by (apply rep_vrep; lia).
    match goal with |- for_ ?lo ?hi ?bo ?st = _ => destruct (add_loop' n lo hi bo (fun i k => sum 1 (Z.min (Z.quot (n + i - 1) i) (Z.min (zlen b) n)) (fun j => if (i * j =? k) && true then mul (at_ a i) (at_ b j) else r0)) st _ R0) as (c & E & R) end.
    - intros i c g Hi Rc. cbn beta. apply (add_loop' n 1 _ _ (fun j k => if (i * j =? k) && true then mul (at_ a i) (at_ b j) else r0)); auto.
      intros j c' g' Hj Rc'. assert (i * j < n) by (apply quot_up; lia). destruct (acc_one a b c' n g' i j (i * j) Rc') as (d & Ed & Rd); [lia|lia|nia|].
      exists d. split; auto. eapply rep_ext; [exact Rd|]. intros k Hk. cbn beta. now rewrite Bool.andb_true_r.
    - rewrite E. f_equal. rewrite (rep_map _ _ _ R). apply map_ext_in. intros k Hk. apply In_zrange in Hk.
      rewrite <- (dirichlet_trunc (fun _ _ => true) a b n k Hn Hk). ring.
  Qed.
  (* the coprime version: dp[i][j] = gcd(i, j) *)
  Definition dlen n kk i := Z.max 1 (Z.min (Z.quot (n + i - 1) i) kk).
  Definition row i (l : Z) : list Z := map (fun j => Z.gcd i j) (zrange l).
  Lemma row_snoc i l : 0 <= l -> row i (l + 1) = row i l ++ [Z.gcd i l].
  Proof. intro. unfold row. rewrite zrange_S by auto. rewrite map_app. reflexivity. Qed.
  Lemma row_get i l j : 0 <= j < l -> vget (row i l) j = Ok (Z.gcd i j).
  Proof. intro. unfold row. rewrite vget_map, vget_zrange by auto. reflexivity. Qed.
  Lemma quot_mono n i j : 1 <= i <= j -> 1 <= n -> Z.quot (n + j - 1) j <= Z.quot (n + i - 1) i.
  Proof.
    intros Hi Hn. destruct (Z.le_gt_cases (Z.quot (n + j - 1) j) (Z.quot (n + i - 1) i)) as [|G]; auto. exfalso.
    apply (quot_up n j) in G; [|lia..]. assert (i * Z.quot (n + i - 1) i < n).
    { apply Z.le_lt_trans with (j * Z.quot (n + i - 1) i); auto. apply Z.mul_le_mono_nonneg_r; [|lia]. apply Z.quot_pos; lia. }
    apply quot_up in H; lia.
  Qed.
  Lemma coprime_ok a b n : 0 <= n -> dirichlet_convolution_coprime r0 add mul a b n = Ok (tabulate n (dirichlet r0 add mul (fun i j => Z.gcd i j =? 1) a b)).
  Proof.
    intro Hn. unfold dirichlet_convolution_coprime. pose proof (zlen_nonneg a). pose proof (zlen_nonneg b). set (m := Z.min (zlen a) n). set (kk := Z.min (zlen b) n).
    set (W := fun i j k => if (i * j =? k) && (Z.gcd i j =? 1) then mul (at_ a i) (at_ b j) else r0).
    destruct (Z.le_gt_cases m 1) as [Hm|Hm].
    { unfold for_. replace (Z.to_nat (m - 1)) with O by lia. cbn [for_up bind snd]. f_equal. assert (R0 : rep (vrep n r0) n (fun _ => r0)) by (apply rep_vrep; lia).
      rewrite (rep_map _ _ _ R0). apply map_ext_in. intros k Hk. apply In_zrange in Hk. rewrite <- (dirichlet_trunc _ a b n k Hn Hk). fold m kk. now rewrite sum_nil by lia. }
    assert (X : exists s, for_ 1 m (fun i '(dp, c) =>
      let jmax := Z.min (Z.quot (n + i - 1) i) kk in
      let* row := vget dp i in
      let* dp := vset dp i (row ++ [i]) in
      for_ 1 jmax (fun j '(dp, c) =>
        let* g := (if j <? i then let* r := vget dp (i - j) in vget r j else let* r := vget dp i in vget r (j - i)) in
        let* row := vget dp i in
        let* dp := vset dp i (row ++ [g]) in
        if g =? 1 then
          let* ai := vget a i in let* bj := vget b j in
          let* x := vget c (i * j) in let* c := vset c (i * j) (add x (mul ai bj)) in
          Ok (dp, c)
        else Ok (dp, c)) (dp, c)) (vrep m [], vrep n r0) = Ok s /\
       rep (fst s) m (fun t => if (1 <=? t) && (t <? m) then row t (dlen n kk t) else []) /\
       rep (snd s) n (fun k => sum 1 m (fun i => sum 1 (Z.min (Z.quot (n + i - 1) i) kk) (fun j => W i j k)))).
    { apply (for_inv (fun i s => rep (fst s) m (fun t => if (1 <=? t) && (t <? i) then row t (dlen n kk t) else []) /\
       rep (snd s) n (fun k => sum 1 i (fun i => sum 1 (Z.min (Z.quot (n + i - 1) i) kk) (fun j => W i j k))))).
      - lia.
      - cbn [fst snd]. split; (eapply rep_ext; [apply rep_vrep; lia|]); intros t Ht; cbn beta.
        + destruct (Z.leb_spec 1 t); destruct (Z.ltb_spec t 1); auto; lia.
        + symmetry. apply sum_nil. lia.
      - intros i (dp, c) Hi (R1 & R2). cbn [fst snd] in *. cbn zeta. rewrite (rep_get _ _ _ _ R1) by lia. rewrite (proj2 (Z.ltb_ge i i)) by lia. rewrite Bool.andb_false_r. cbn [bind app].
        rewrite (rep_set _ _ _ _ _ R1) by lia. cbn [bind]. pose proof (rep_upd _ _ _ i [i] R1 ltac:(lia)) as R3.
        set (jm := Z.min (Z.quot (n + i - 1) i) kk). set (dp' := zupd dp i [i]) in *. clearbody dp'.
        set (inv := fun j (s : list (list Z) * list T) => rep (fst s) m (fun t => if t =? i then row i j else if (1 <=? t) && (t <? i) then row t (dlen n kk t) else []) /\
          rep (snd s) n (fun k => add (sum 1 i (fun i => sum 1 (Z.min (Z.quot (n + i - 1) i) kk) (fun j => W i j k))) (sum 1 j (fun j => W i j k)))).
        assert (I1 : inv 1 (dp', c)).
        { split; cbn [fst snd].
          - eapply rep_ext; [exact R3|]. intros t Ht. unfold fupd. destruct (Z.eqb_spec t i); auto. subst. unfold row. change (zrange 1) with [0]. cbn [map]. now rewrite Z.gcd_0_r, Z.abs_eq by lia.
          - eapply rep_ext; [exact R2|]. intros k Hk. cbn beta. rewrite (sum_nil _ _ 1 1) by lia. ring. }
        match goal with |- exists s', for_ 1 jm ?bo ?st = _ /\ _ => assert (Y : exists s', for_ 1 jm bo st = Ok s' /\ inv (Z.max 1 jm) s') end.
        { destruct (Z.le_gt_cases jm 1).
          - unfold for_. replace (Z.to_nat (jm - 1)) with O by lia. exists (dp', c). split; auto. now replace (Z.max 1 jm) with 1 by lia.
          - replace (Z.max 1 jm) with jm by lia. apply (for_inv inv); [lia|exact I1|]. intros j (dp2, c2) Hj (Q1 & Q2). cbn [fst snd] in *.
            assert (Hij : i * j < n) by (apply quot_up; lia). assert (Hjn : 0 <= i * j) by nia.
            assert (G : (if j <? i then let* r := vget dp2 (i - j) in vget r j else let* r := vget dp2 i in vget r (j - i)) = Ok (Z.gcd i j)).
            { destruct (Z.ltb_spec j i).
              - rewrite (rep_get _ _ _ _ Q1) by lia. rewrite (proj2 (Z.eqb_neq (i - j) i)) by lia. rewrite (proj2 (Z.leb_le 1 (i - j))), (proj2 (Z.ltb_lt (i - j) i)) by lia. cbn [andb bind].
                rewrite row_get. { f_equal. rewrite (Z.gcd_comm i j), (Z.gcd_comm (i - j) j). apply Z.gcd_sub_diag_r || (replace i with (i - j + j) at 2 by lia; now rewrite Z.gcd_add_diag_r). }
                unfold dlen. pose proof (quot_mono n (i - j) i ltac:(lia) ltac:(lia)). lia.
              - rewrite (rep_get _ _ _ _ Q1) by lia. rewrite Z.eqb_refl. cbn [bind]. rewrite row_get by lia. f_equal. replace j with (j - i + i) at 2 by lia. now rewrite Z.gcd_add_diag_r. }
            rewrite G. cbn [bind]. rewrite (rep_get _ _ _ _ Q1) by lia. rewrite Z.eqb_refl. cbn [bind]. rewrite (rep_set _ _ _ _ _ Q1) by lia. cbn [bind].
            assert (Q3 : rep (zupd dp2 i (row i j ++ [Z.gcd i j])) m (fun t => if t =? i then row i (j + 1) else if (1 <=? t) && (t <? i) then row t (dlen n kk t) else [])).
            { eapply rep_ext; [apply rep_upd; [exact Q1|lia]|]. intros t Ht. unfold fupd. destruct (Z.eqb_spec t i); auto. now rewrite row_snoc by lia. }
            destruct (Z.eqb_spec (Z.gcd i j) 1) as [Eg|Eg].
            + assert (Y : exists c', (let* ai := vget a i in let* bj := vget b j in let* y := vget c2 (i * j) in vset c2 (i * j) (add y (mul ai bj))) = Ok c' /\
                 rep c' n (fun k => add (add (sum 1 i (fun i => sum 1 (Z.min (Z.quot (n + i - 1) i) kk) (fun j => W i j k))) (sum 1 j (fun j => W i j k))) (if i * j =? k then mul (at_ a i) (at_ b j) else r0))).
              { apply acc_one; auto; lia. }
              destruct Y as (c3 & E3 & R4). destruct (vget a i) as [ai| | |]; try discriminate E3. cbn [bind] in E3 |- *. destruct (vget b j) as [bj| | |]; try discriminate E3. cbn [bind] in E3 |- *.
              destruct (vget c2 (i * j)) as [x| | |]; try discriminate E3. cbn [bind] in E3 |- *. rewrite E3. cbn [bind]. eexists; split; [reflexivity|]. split; cbn [fst snd]; [exact Q3|].
              eapply rep_ext; [exact R4|]. intros k Hk. cbn beta. rewrite (sum_snoc _ _ _ _ _ _ RT 1 j) by lia. replace (W i j k) with (if i * j =? k then mul (at_ a i) (at_ b j) else r0) by (unfold W; rewrite Eg; now rewrite Bool.andb_true_r). ring.
            + eexists; split; [reflexivity|]. split; cbn [fst snd]; [exact Q3|]. eapply rep_ext; [exact Q2|]. intros k Hk. cbn beta. rewrite (sum_snoc _ _ _ _ _ _ RT 1 j) by lia. 
              replace (W i j k) with r0 by (unfold W; rewrite (proj2 (Z.eqb_neq _ _) Eg); now rewrite Bool.andb_false_r). ring. }
        destruct Y as ((dp3, c3) & E3 & Y1 & Y2). exists (dp3, c3). split; [exact E3|]. cbn [fst snd] in *. split.
        + eapply rep_ext; [exact Y1|]. intros t Ht. cbn beta. destruct (Z.eqb_spec t i) as [->|].
          * rewrite (proj2 (Z.leb_le 1 i)), (proj2 (Z.ltb_lt i (i + 1))) by lia. reflexivity.
          * destruct (Z.leb_spec 1 t); destruct (Z.ltb_spec t i); destruct (Z.ltb_spec t (i + 1)); auto; lia.
        + eapply rep_ext; [exact Y2|]. intros k Hk. cbn beta. rewrite (sum_snoc _ _ _ _ _ _ RT 1 i) by lia. f_equal. fold jm.
          destruct (Z.le_gt_cases jm 1); [rewrite !sum_nil by lia; reflexivity|]. now replace (Z.max 1 jm) with jm by lia. }
    destruct X as (s & E & _ & R). cbn zeta in E |- *. rewrite E. cbn [bind]. f_equal. rewrite (rep_map _ _ _ R). apply map_ext_in. intros k Hk. apply In_zrange in Hk.
    now rewrite <- (dirichlet_trunc (fun i j => Z.gcd i j =? 1) a b n k Hn Hk).
  Qed.
End Naive.
