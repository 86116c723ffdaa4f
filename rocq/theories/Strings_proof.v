(* Manacher's algorithm *)
From Verif Require Import Base BaseLemmas ListZ Seq Wavelet_proof Strings_model Strings_spec.
From Coq Require Import Sorted.

Lemma vget_slice {A} (a : list A) l r i : 0 <= l <= r -> r <= zlen a -> 0 <= i < r - l -> vget (slice l r a) i = vget a (l + i).
Proof.
  intros H1 H2 Hi. pose proof (slice_parts l r a H1) as E. pose proof (zlen_slice l r a H1 H2) as Zs.
  assert (Zf : zlen (firstn (Z.to_nat l) a) = l) by (apply zlen_firstn; lia).
  rewrite E at 2. rewrite vget_app2 by lia. rewrite Zf. rewrite vget_app1 by lia. f_equal. lia.
Qed.
Lemma slice_ext {A} (a b : list A) l r l' r' : 0 <= l <= r -> r <= zlen a -> 0 <= l' <= r' -> r' <= zlen b -> r - l = r' - l' ->
  slice l r a = slice l' r' b <-> forall i, 0 <= i < r - l -> vget a (l + i) = vget b (l' + i).
Proof.
  intros H1 H2 H3 H4 E. split.
  - intros Q i Hi. rewrite <- (vget_slice a l r), <- (vget_slice b l' r') by lia. congruence.
  - intro H. apply list_eq; [rewrite !zlen_slice by lia; auto|]. intros i Hi. rewrite zlen_slice in Hi by lia. rewrite !vget_slice by lia. auto.
Qed.
Lemma palindrome_slice {A} (a : list A) l r : 0 <= l <= r -> r <= zlen a ->
  palindrome (slice l r a) <-> forall i, 0 <= i < r - l -> vget a (l + i) = vget a (r - 1 - i).
Proof.
  intros H1 H2. pose proof (zlen_slice l r a H1 H2) as Zs. unfold palindrome. split.
  - intros Q i Hi. rewrite <- (vget_slice a l r) by lia. replace (r - 1 - i) with (l + (r - l - 1 - i)) by lia. rewrite <- (vget_slice a l r _ H1 H2) by lia.
    rewrite <- Q at 1. rewrite vget_rev by lia. f_equal. lia.
  - intro H. apply list_eq; [now rewrite zlen_rev|]. intros i Hi. rewrite zlen_rev, Zs in Hi. rewrite vget_rev by lia. rewrite Zs, !vget_slice by lia.
    rewrite (H i) by lia. f_equal. lia.
Qed.

Lemma vget_cons_S {T} (x : T) l i : 0 <= i -> vget (x :: l) (i + 1) = vget l i.
Proof. intro H. rewrite (vget_app2 [x] l) by (rewrite zlen_one; lia). rewrite zlen_one. f_equal. lia. Qed.
Lemma inter_odd {T} (dummy : T) s : forall i, 0 <= i -> vget (dummy :: interleave s dummy) (2 * i + 1) = vget s i.
Proof.
  induction s as [|x s' IH]; intros i H; rewrite vget_cons_S by lia.
  - cbn [interleave]. rewrite !vget_UB; auto; change (zlen (@nil T)) with 0; lia.
  - cbn [interleave]. destruct (Z.eq_dec i 0) as [->|]; [reflexivity|]. replace (2 * i) with (2 * (i - 1) + 1 + 1) by lia. rewrite vget_cons_S by lia. rewrite IH by lia.
    replace i with (i - 1 + 1) at 2 by lia. now rewrite vget_cons_S by lia.
Qed.
Lemma inter_even {T} (dummy : T) s : forall i, 0 <= i <= zlen s -> vget (dummy :: interleave s dummy) (2 * i) = Ok dummy.
Proof.
  induction s as [|x s' IH]; intros i H.
  - change (zlen (@nil T)) with 0 in H. replace i with 0 by lia. reflexivity.
  - rewrite zlen_cons in H. destruct (Z.eq_dec i 0) as [->|]; [reflexivity|]. cbn [interleave]. replace (2 * i) with (2 * (i - 1) + 1 + 1) by lia. rewrite !vget_cons_S by lia. apply IH. lia.
Qed.

Section M.
  Context {T : Type}.
  Variable eqb : T -> T -> bool.
  Hypothesis eqb_ok : forall x y, eqb x y = true <-> x = y.
  Section V.
  Variable v : list T.
  Notation n := (zlen v).
  Definition same (p d : Z) : Prop := exists x, vget v (p - d) = Ok x /\ vget v (p + d) = Ok x.
  Definition ok (p R : Z) : Prop := forall d, 0 <= d < R -> same p d.
  Definition rad (p R : Z) : Prop := 0 <= R /\ ok p R /\ ~ same p R.
  Lemma same_range p d : same p d -> 0 <= p - d < n /\ 0 <= p + d < n.
  Proof. intros (x & E1 & E2). split; eapply vget_range; eauto. Qed.
  Lemma same_0 p : 0 <= p < n -> same p 0.
  Proof. intro H. destruct (vget_Ok v p H) as (x & E). exists x. now rewrite Z.sub_0_r, Z.add_0_r. Qed.
  Lemma ok_bound p R : ok p R -> 0 < R -> R <= p + 1 /\ p + R <= n.
  Proof. intros H HR. pose proof (same_range _ _ (H (R - 1) ltac:(lia))). lia. Qed.
  Lemma grow_ok i j : 0 <= i < n -> 0 <= j -> ok i j -> exists R, grow eqb v i j = Ok R /\ rad i R /\ j <= R.
  Proof.
    intros Hi Hj O. unfold grow.
    destruct (loop_inv (fun j' => j <= j' /\ ok i j') (fun j' => Z.to_nat (n - j')) (fun R => rad i R /\ j <= R)
      (fun j => if (0 <=? i - j) && (i + j <? n) then let* x := vget v (i - j) in let* y := vget v (i + j) in if eqb x y then Ok (inl (j + 1)) else Ok (inr j) else Ok (inr j)) (S (length v)) j) as (R & E & H).
    - split; auto. lia.
    - unfold zlen. lia.
    - intros j' (L & O'). destruct (Z.leb_spec 0 (i - j')); [destruct (Z.ltb_spec (i + j') n)|]; cbn [andb].
      + destruct (vget_Ok v (i - j') ltac:(lia)) as (x & Ex), (vget_Ok v (i + j') ltac:(lia)) as (y & Ey). rewrite Ex, Ey. cbn [bind]. destruct (eqb x y) eqn:Q.
        * eexists. split; [reflexivity|]. cbv beta iota. apply eqb_ok in Q. subst y. split; [split; [lia|]|lia]. intros d Hd. destruct (Z.eq_dec d j') as [->|]; [exists x; auto|apply O'; lia].
        * eexists. split; [reflexivity|]. cbv beta iota. split; [|lia]. split; [lia|]. split; auto. intros (z & E1 & E2). assert (x = y) by congruence. apply eqb_ok in H1. congruence.
      + eexists. split; [reflexivity|]. cbv beta iota. split; [|lia]. split; [lia|]. split; auto. intro Q. apply same_range in Q. lia.
      + eexists. split; [reflexivity|]. cbv beta iota. split; [|lia]. split; [lia|]. split; auto. intro Q. apply same_range in Q. lia.
    - exists R. auto.
  Qed.
  (* mirror images about i inside the palindrome of radius R *)
  Lemma mirror i R d x : ok i R -> Z.abs d < R -> vget v (i + d) = Ok x -> vget v (i - d) = Ok x.
  Proof.
    intros O Hd E. destruct (O (Z.abs d) ltac:(lia)) as (y & E1 & E2). destruct (Z.abs_eq_cases d (Z.abs d)) as [Q|Q]; [lia| |].
    - rewrite <- Q in *. congruence.
    - replace (Z.abs d) with (- d) in * by lia. replace (i - - d) with (i + d) in * by lia. replace (i + - d) with (i - d) in * by lia. congruence.
  Qed.
  Lemma mirror_same i R k d : ok i R -> 0 <= k -> 0 <= d -> k + d < R -> same (i - k) d <-> same (i + k) d.
  Proof.
    intros O Hk Hd L. split; intros (x & E1 & E2); exists x.
    - split; [replace (i + k - d) with (i - (d - k)) by lia|replace (i + k + d) with (i - (- (k + d))) by lia]; apply (mirror i R); auto; try lia.
      + replace (i + (d - k)) with (i - k + d) by lia. auto.
      + replace (i + - (k + d)) with (i - k - d) by lia. auto.
    - split; [replace (i - k - d) with (i - (k + d)) by lia|replace (i - k + d) with (i - (k - d)) by lia]; apply (mirror i R); auto; try lia.
      + replace (i + (k + d)) with (i + k + d) by lia. auto.
      + replace (i + (k - d)) with (i + k - d) by lia. auto.
  Qed.
  Definition known (r : list Z) (m : Z) : Prop := zlen r = n /\ forall p, 0 <= p < m -> exists R, vget r p = Ok R /\ rad p R.
  Lemma copy_ok r i R : 0 <= i < n -> known r (i + 1) -> vget r i = Ok R -> rad i R -> 0 < R ->
    exists r' k, copy_radii r i R = Ok (r', k) /\ 1 <= k <= R /\ known r' (i + k) /\ ok (i + k) (R - k).
  Proof.
    intros Hi K Er Ra HR. unfold copy_radii. pose proof Ra as (_ & O & _). pose proof (ok_bound _ _ O HR) as Bd.
    match goal with |- context [loop ?f ?b ?s] =>
      destruct (loop_inv (fun '(r', k) => 1 <= k <= R /\ known r' (i + k)) (fun '(r', k) => Z.to_nat (R - k))
        (fun '(r', k) => 1 <= k <= R /\ known r' (i + k) /\ ok (i + k) (R - k)) b f s) as ((r', k) & E & H) end.
    - split; auto. lia.
    - destruct K as (Zr & _). unfold zlen in *. lia.
    - intros (r', k) (Hk & K'). destruct (Z.leb_spec 0 (i - k)).
      + destruct K' as (Zr & K'). destruct (K' (i - k) ltac:(lia)) as (c & Ec & Rc). rewrite Ec. cbn [bind]. pose proof Rc as (C0 & Oc & Nc). destruct (Z.ltb_spec (k + c) R).
        * rewrite vset_ok by lia. cbn [bind]. eexists. split; [reflexivity|]. cbv beta iota. split; [|lia]. split; [lia|]. split; [now rewrite zlen_zupd|].
          intros p Hp. rewrite vget_zupd by lia. destruct (Z.eqb_spec (i + k) p) as [<-|].
          -- exists c. split; auto. split; auto. split.
             ++ intros d Hd. rewrite <- (mirror_same i R) by (auto; lia). apply Oc. auto.
             ++ rewrite <- (mirror_same i R) by (auto; lia). auto.
          -- apply K'. lia.
        * eexists. split; [reflexivity|]. cbv beta iota. split; auto. split; [split; auto|]. intros d Hd. rewrite <- (mirror_same i R) by (auto; lia). apply Oc. lia.
      + eexists. split; [reflexivity|]. cbv beta iota. split; auto. split; auto. intros d Hd. lia.
    - exists r', k. auto.
  Qed.
  Lemma build_ok r : zlen r = n -> exists r', manacher_build eqb v r = Ok r' /\ zlen r' = n /\ forall p, 0 <= p < n -> exists R, vget r' p = Ok (R - 1) /\ rad p R.
  Proof.
    intro Zr. unfold manacher_build.
    match goal with |- context [loop ?f ?b ?s] =>
      destruct (loop_inv (fun '(i, j, r') => 0 <= i /\ 0 <= j /\ known r' (Z.min i n) /\ (i < n -> ok i j)) (fun '(i, j, r') => Z.to_nat (n - i))
        (fun r' => known r' n) b f s) as (r' & E & (Z' & H)) end.
    - split; [lia|]. split; [lia|]. split; [|intros _ d Hd; lia]. split; auto. intros p Hp. lia.
    - unfold zlen. lia.
    - intros ((i, j), r') (Hi & Hj & K & O). destruct (Z.ltb_spec i n).
      + destruct (grow_ok i j ltac:(lia) Hj (O H)) as (R & E & Ra & L). rewrite E. cbn [bind]. destruct K as (Zr' & K).
        rewrite vset_ok by lia. cbn [bind].
        assert (HR : 0 < R). { destruct (Z.eq_dec R 0) as [->|]; [|destruct Ra; lia]. destruct Ra as (_ & _ & N). exfalso. apply N. now apply same_0. }
        destruct (copy_ok (zupd r' i R) i R ltac:(lia)) as (r2 & k & E2 & Hk & K2 & O2); auto.
        * split; [now rewrite zlen_zupd|]. intros p Hp. rewrite vget_zupd by lia. destruct (Z.eqb_spec i p) as [<-|]; [exists R; auto|apply K; lia].
        * rewrite vget_zupd by lia. now rewrite Z.eqb_refl.
        * rewrite E2. cbn [bind]. eexists. split; [reflexivity|]. cbv beta iota. split; [|lia]. split; [lia|]. split; [lia|]. split; [|auto].
          destruct K2 as (Z2 & K2). split; auto. intros p Hp. apply K2. lia.
      + eexists. split; [reflexivity|]. cbv beta iota. rewrite Z.min_r in K by lia. exact K.
    - rewrite E. cbn [bind]. eexists. split; [reflexivity|]. split; [unfold zlen; now rewrite map_length|]. intros p Hp. destruct (H p Hp) as (R & ER & Ra). exists R.
      split; auto. apply (vget_map_Ok (fun x => x - 1)) in ER. exact ER.
  Qed.
  End V.

  Section S.
    Variable s : list T.
    Variable dummy : T.
    Notation v := (dummy :: interleave s dummy).
    Lemma zlen_v : zlen v = 2 * zlen s + 1.
    Proof. rewrite zlen_cons. induction s as [|x s' IH]; auto. cbn [interleave]. rewrite !zlen_cons. lia. Qed.
    Lemma vget_odd i : 0 <= i -> vget v (2 * i + 1) = vget s i.
    Proof. apply inter_odd. Qed.
    Lemma vget_even i : 0 <= i <= zlen s -> vget v (2 * i) = Ok dummy.
    Proof. apply inter_even. Qed.
    Notation sm := (same v).
    Lemma sm_odd i e : 0 <= e -> sm (2 * i + 1) (2 * e) <-> exists x, vget s (i - e) = Ok x /\ vget s (i + e) = Ok x.
    Proof.
      intro He. pose proof zlen_v as Zv. unfold same. split; intros (x & E1 & E2); exists x; pose proof (vget_range _ _ _ E1); pose proof (vget_range _ _ _ E2).
      - replace (2 * i + 1 - 2 * e) with (2 * (i - e) + 1) in * by lia. replace (2 * i + 1 + 2 * e) with (2 * (i + e) + 1) in * by lia. rewrite vget_odd in * by lia. auto.
      - replace (2 * i + 1 - 2 * e) with (2 * (i - e) + 1) by lia. replace (2 * i + 1 + 2 * e) with (2 * (i + e) + 1) by lia. rewrite !vget_odd by lia. auto.
    Qed.
    Lemma sm_even i e : 0 <= e -> sm (2 * i) (2 * e + 1) <-> exists x, vget s (i - 1 - e) = Ok x /\ vget s (i + e) = Ok x.
    Proof.
      intro He. pose proof zlen_v as Zv. unfold same. split; intros (x & E1 & E2); exists x; pose proof (vget_range _ _ _ E1); pose proof (vget_range _ _ _ E2).
      - replace (2 * i - (2 * e + 1)) with (2 * (i - 1 - e) + 1) in * by lia. replace (2 * i + (2 * e + 1)) with (2 * (i + e) + 1) in * by lia. rewrite vget_odd in * by lia. auto.
      - replace (2 * i - (2 * e + 1)) with (2 * (i - 1 - e) + 1) by lia. replace (2 * i + (2 * e + 1)) with (2 * (i + e) + 1) by lia. rewrite !vget_odd by lia. auto.
    Qed.
    Lemma sm_dummy p d : 0 <= p - d -> p + d <= 2 * zlen s -> Z.Even (p - d) -> 0 <= d -> sm p d.
    Proof.
      intros H1 H2 (q & Eq) Hd. exists dummy. rewrite Eq. replace (p + d) with (2 * (q + d)) by lia. rewrite !vget_even by lia. auto.
    Qed.
    Lemma rad_odd i R : 0 <= i < zlen s -> rad v (2 * i + 1) R -> longest_odd s i (R - 1).
    Proof.
      intros Hi (R0 & O & N).
      assert (HR : 0 < R). { destruct (Z.eq_dec R 0) as [->|]; [|lia]. exfalso. apply N. apply same_0. rewrite zlen_v. lia. }
      destruct (Z.Even_or_Odd R) as [(q & Eq)|(q & Eq)].
      - (* R = 2q: stops at s *)
        exists (q - 1). split; [lia|]. split; [lia|]. assert (Q : forall e, 0 <= e < q -> exists x, vget s (i - e) = Ok x /\ vget s (i + e) = Ok x).
        { intros e He. apply sm_odd; [lia|]. apply O. lia. }
        destruct (Q (q - 1) ltac:(lia)) as (x & E1 & E2). pose proof (vget_range _ _ _ E1). pose proof (vget_range _ _ _ E2). split; [lia|]. split; [lia|]. split.
        + apply palindrome_slice; [lia|lia|]. intros d Hd. destruct (Z.le_gt_cases d (q - 1)).
          * destruct (Q (q - 1 - d) ltac:(lia)) as (y & F1 & F2). replace (i - (q - 1) + d) with (i - (q - 1 - d)) by lia. replace (i + (q - 1) + 1 - 1 - d) with (i + (q - 1 - d)) by lia. congruence.
          * destruct (Q (d - (q - 1)) ltac:(lia)) as (y & F1 & F2). replace (i - (q - 1) + d) with (i + (d - (q - 1))) by lia. replace (i + (q - 1) + 1 - 1 - d) with (i - (d - (q - 1))) by lia. congruence.
        + intros h' Hh L1 L2 P. rewrite palindrome_slice in P by lia. apply N. rewrite Eq. apply sm_odd; [lia|].
          specialize (P (h' - q) ltac:(lia)). destruct (vget_Ok s (i - q) ltac:(lia)) as (y & Ey). exists y. split; auto.
          replace (i - h' + (h' - q)) with (i - q) in P by lia. replace (i + h' + 1 - 1 - (h' - q)) with (i + q) in P by lia. congruence.
      - exfalso. apply N. subst R. destruct (O (2 * q) ltac:(lia)) as (x & E1 & E2). pose proof (vget_range _ _ _ E1). pose proof (vget_range _ _ _ E2). rewrite zlen_v in *.
        apply sm_dummy; try lia. exists (i - q). lia.
    Qed.
    Lemma rad_even i R : 0 <= i <= zlen s -> rad v (2 * i) R -> longest_even s i (R - 1).
    Proof.
      intros Hi (R0 & O & N).
      assert (HR : 0 < R). { destruct (Z.eq_dec R 0) as [->|]; [|lia]. exfalso. apply N. apply same_0. rewrite zlen_v. lia. }
      destruct (Z.Even_or_Odd R) as [(q & Eq)|(q & Eq)].
      - exfalso. apply N. subst R. destruct (O (2 * q - 1) ltac:(lia)) as (x & E1 & E2). pose proof (vget_range _ _ _ E1). pose proof (vget_range _ _ _ E2). rewrite zlen_v in *.
        apply sm_dummy; try lia. exists (i - q). lia.
      - exists q. split; [lia|]. split; [lia|]. assert (Q : forall e, 0 <= e < q -> exists x, vget s (i - 1 - e) = Ok x /\ vget s (i + e) = Ok x).
        { intros e He. apply sm_even; [lia|]. apply O. lia. }
        assert (Rg : 0 <= i - q /\ i + q <= zlen s).
        { destruct (Z.eq_dec q 0); [lia|]. destruct (Q (q - 1) ltac:(lia)) as (x & E1 & E2). pose proof (vget_range _ _ _ E1). pose proof (vget_range _ _ _ E2). lia. }
        split; [lia|]. split; [lia|]. split.
        + apply palindrome_slice; [lia|lia|]. intros d Hd. destruct (Z.lt_ge_cases d q).
          * destruct (Q (q - 1 - d) ltac:(lia)) as (y & F1 & F2). replace (i - q + d) with (i - 1 - (q - 1 - d)) by lia. replace (i + q - 1 - d) with (i + (q - 1 - d)) by lia. congruence.
          * destruct (Q (d - q) ltac:(lia)) as (y & F1 & F2). replace (i - q + d) with (i + (d - q)) by lia. replace (i + q - 1 - d) with (i - 1 - (d - q)) by lia. congruence.
        + intros h' Hh L1 L2 P. rewrite palindrome_slice in P by lia. apply N. rewrite Eq. apply sm_even; [lia|].
          specialize (P (h' - q - 1) ltac:(lia)). destruct (vget_Ok s (i - 1 - q) ltac:(lia)) as (y & Ey). exists y. split; auto.
          replace (i - h' + (h' - q - 1)) with (i - 1 - q) in P by lia. replace (i + h' - 1 - (h' - q - 1)) with (i + q) in P by lia. congruence.
    Qed.
    Lemma manacher_ok : exists r, manacher eqb s dummy = Ok r /\ zlen r = 2 * zlen s + 1 /\
      (forall i, 0 <= i < zlen s -> exists len, odd_length r i = Ok len /\ longest_odd s i len) /\
      (forall i, 0 <= i <= zlen s -> exists len, even_length r i = Ok len /\ longest_even s i len).
    Proof.
      unfold manacher. pose proof (zlen_nonneg s). destruct (build_ok v (vrep (2 * zlen s + 1) 0)) as (r & E & Zr & H').
      { rewrite zlen_vrep, zlen_v by lia. lia. }
      exists r. rewrite zlen_v in *. split; auto. split; auto. split; intros i Hi.
      - destruct (H' (2 * i + 1) ltac:(lia)) as (R & ER & Ra). exists (R - 1). split; auto. now apply rad_odd.
      - destruct (H' (2 * i) ltac:(lia)) as (R & ER & Ra). exists (R - 1). split; auto. now apply rad_even.
    Qed.
  End S.
End M.
