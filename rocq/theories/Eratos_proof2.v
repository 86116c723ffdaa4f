(* sieve_of_eratosthenes.hpp: factorize and divisors of Sieve, and SimpleSieve *)
From Verif Require Import Base BaseLemmas ZMod NumTheory Lucas Seq ListZ ListMore RingSum Smooth Sieve_model Sieve_spec Sieve_proof Eratos_model Eratos_spec Wheel Eratos_proof.
From Coq Require Import Znumtheory Zpow_facts Sorted.

Lemma factor_loop_any (get : Z -> res Z) (n : Z) : 1 <= n -> (forall m, 2 <= m <= n -> exists q, get m = Ok q /\ prime q /\ (q | m)) ->
  exists l, loop (S (Z.to_nat n)) (fun '(n, out) =>
    if 1 <? n then
      let* p := get n in
      let* (n, c) := strip n p in
      Ok (inl (n, out ++ [(p, c)]))
    else Ok (inr out)) (n, []) = Ok l /\ prime_powers n l.
Proof.
  intros Hn Hg.
  apply (loop_inv (fun '(m, out) => 1 <= m <= n /\ pp_prod out * m = n /\ NoDup (map fst out) /\ (forall p c, In (p, c) out -> prime p /\ 1 <= c) /\
     (forall p, In p (map fst out) -> ~ (p | m))) (fun '(m, out) => Z.to_nat m) (prime_powers n)).
  - split; [lia|]. split; [change (pp_prod []) with 1; ring|]. split; [constructor|]. split; contradiction.
  - lia.
  - intros (m, out) (Hm & Pr & S & F & G). destruct (Z.ltb_spec 1 m).
    + destruct (Hg m ltac:(lia)) as (q & Eq & P & D). rewrite Eq. cbn [bind]. pose proof (prime_ge_2 q P). destruct (strip_ok m q ltac:(lia) ltac:(lia) D) as (m' & c & E & Em & Hc & Hm' & ND).
      rewrite E. cbn [bind]. eexists; split; [reflexivity|]. cbn beta iota. split; [|lia]. split; [lia|]. split; [rewrite pp_snoc, <- Z.mul_assoc, <- Em; exact Pr|]. rewrite map_app. cbn [map fst].
      split; [|split].
      * apply NoDup_app_snoc; auto. intro I. exact (G q I D).
      * intros p c' Hp. apply in_app_iff in Hp. destruct Hp as [Hp|[Hp|[]]]; eauto. injection Hp as <- <-. auto.
      * intros p Hp Dp. apply in_app_iff in Hp. destruct Hp as [Hp|[<-|[]]]; [|contradiction]. apply (G p Hp). rewrite Em. now apply Z.divide_mul_r.
    + eexists; split; [reflexivity|]. cbn beta iota. split; auto. split; auto. change (pp_prod out = n). replace m with 1 in Pr by lia. lia.
Qed.
Lemma es_factorize_ok N pf : 0 <= N -> es_make N = Ok pf -> forall n, 1 <= n <= N -> exists l, es_factorize N pf n = Ok l /\ prime_powers n l.
Proof.
  intros HN E n Hn. unfold es_factorize. rewrite (proj2 (Z.ltb_lt 0 n)), (proj2 (Z.leb_le n N)) by lia. cbn [andb assert_ bind].
  apply factor_loop_any; [lia|]. intros m Hm. apply (es_prime_factor_ok N HN pf E). lia.
Qed.

(* divisors *)
Lemma val_split p d : prime p -> 1 <= d -> exists j e, 0 <= j /\ 1 <= e /\ d = e * p ^ j /\ ~ (p | e).
Proof.
  intros P Hd. pose proof (prime_ge_2 p P). destruct (Zdivide_dec p d) as [D|D].
  - destruct (strip_ok d p ltac:(lia) Hd D) as (e & c & _ & E & Hc & He & ND). exists c, e. repeat split; auto; try lia.
  - exists 0, d. rewrite Z.pow_0_r. repeat split; auto; lia.
Qed.
Lemma rel_prime_pow p j e : prime p -> 0 <= j -> ~ (p | e) -> rel_prime e (p ^ j).
Proof. intros P Hj ND. apply rel_prime_sym. apply rel_prime_sym, rel_prime_Zpower_r; auto. apply rel_prime_sym. now apply prime_rel_prime. Qed.
Lemma pow_inj_div p j c : 2 <= p -> 0 <= j -> 0 <= c -> (p ^ j | p ^ c) -> j <= c.
Proof. intros Hp Hj Hc D. apply Z.divide_pos_le in D; [|apply Z.pow_pos_nonneg; lia]. apply Z.pow_le_mono_r_iff with (a := p); lia. Qed.
Lemma div_mult m p c d : prime p -> 1 <= m -> ~ (p | m) -> 0 <= c ->
  (0 < d /\ (d | m * p ^ c)) <-> (exists e j, 0 < e /\ (e | m) /\ 0 <= j <= c /\ d = e * p ^ j).
Proof.
  intros P Hm ND Hc. pose proof (prime_ge_2 p P). split.
  - intros (Hd & D). destruct (val_split p d P ltac:(lia)) as (j & e & Hj & He & E & Ne). exists e, j.
    assert (De : (e | m)). { apply Gauss with (p ^ c); [|now apply rel_prime_pow]. rewrite Z.mul_comm. eapply Z.divide_trans; [|exact D]. rewrite E. now exists (p ^ j); rewrite Z.mul_comm. }
    assert (Dj : (p ^ j | p ^ c)). { apply Gauss with m; [|apply rel_prime_sym; now apply rel_prime_pow]. eapply Z.divide_trans; [|exact D]. rewrite E. now exists e. }
    apply pow_inj_div in Dj; try lia. repeat split; auto; lia.
  - intros (e & j & He & De & Hj & ->). split; [apply Z.mul_pos_pos; auto; apply Z.pow_pos_nonneg; lia|].
    destruct De as (z & ->). exists (z * p ^ (c - j)). replace c with (c - j + j) at 1 by lia. rewrite Z.pow_add_r by lia. ring.
Qed.
Definition ext1 (p c d : Z) : list Z := map (fun j => d * p ^ (j + 1)) (zrange c).
Lemma extend_ok p c divs : 0 <= c -> extend_divisors p c divs = Ok (divs ++ flat_map (ext1 p c) divs).
Proof.
  intro Hc. unfold extend_divisors.
  destruct (for_inv (fun i l => l = divs ++ flat_map (ext1 p c) (firstn (Z.to_nat i) divs)) 0 (zlen divs)
    (fun i divs => let* d := vget divs i in let* s := for_ 0 c (fun j '(d, divs) => let d := d * p in Ok (d, divs ++ [d])) (d, divs) in Ok (snd s)) divs) as (l & E & I).
  - apply zlen_nonneg.
  - cbn [Z.to_nat firstn flat_map]. now rewrite app_nil_r.
  - intros i l Hi ->. rewrite vget_app1 by lia. destruct (vget_Ok divs i Hi) as (d & Ed). rewrite Ed. cbn [bind].
    set (l0 := divs ++ flat_map (ext1 p c) (firstn (Z.to_nat i) divs)).
    destruct (for_inv (fun j s => s = (d * p ^ j, l0 ++ map (fun j => d * p ^ (j + 1)) (zrange j))) 0 c (fun j '(d, divs) => let d := d * p in Ok (d, divs ++ [d])) (d, l0)) as (s & Es & Is).
    + lia.
    + rewrite Z.pow_0_r, Z.mul_1_r. change (zrange 0) with (@nil Z). cbn [map]. now rewrite app_nil_r.
    + intros j s Hj ->. cbn zeta. eexists; split; [reflexivity|]. rewrite zrange_S, map_app by lia. cbn [map]. rewrite app_assoc. rewrite Z.pow_add_r, Z.pow_1_r by lia. now rewrite Z.mul_assoc.
    + cbn zeta in Es |- *. rewrite Es. cbn [bind]. subst s. cbn [snd]. eexists; split; [reflexivity|]. unfold l0. replace (Z.to_nat (i + 1)) with (S (Z.to_nat i)) by lia.
      rewrite (firstn_S_nth divs (Z.to_nat i) d) by (apply vget_nth_error; exact Ed). rewrite flat_map_app. cbn [flat_map]. rewrite app_nil_r. unfold ext1 at 2. now rewrite app_assoc.
  - cbn zeta in E |- *. rewrite E, I. f_equal. f_equal. f_equal. apply firstn_all2. unfold zlen. lia.
Qed.
Lemma ext_in p c divs x : 0 <= c -> In x (divs ++ flat_map (ext1 p c) divs) <-> exists e j, In e divs /\ 0 <= j <= c /\ x = e * p ^ j.
Proof.
  intro Hc. rewrite in_app_iff, in_flat_map. split.
  - intros [I|(e & I & X)].
    + exists x, 0; rewrite Z.pow_0_r; repeat split; auto; lia.
    + apply in_map_iff in X. destruct X as (j & <- & J). apply In_zrange in J. exists e, (j + 1). repeat split; auto; lia.
  - intros (e & j & I & Hj & ->). destruct (Z.eq_dec j 0) as [->|]; [left; now rewrite Z.pow_0_r, Z.mul_1_r|]. right. exists e. split; auto. apply in_map_iff. exists (j - 1). split; [now rewrite Z.sub_add|apply In_zrange; lia].
Qed.
Lemma pp_unique p e e' j j' : prime p -> 0 <= j -> 0 <= j' -> 1 <= e -> 1 <= e' -> ~ (p | e) -> ~ (p | e') -> e * p ^ j = e' * p ^ j' -> e = e' /\ j = j'.
Proof.
  intros P Hj Hj' He He' N N' E. pose proof (prime_ge_2 p P).
  assert (A : (p ^ j | p ^ j')) by (apply Gauss with e'; [exists e; lia|apply rel_prime_sym; now apply rel_prime_pow]).
  assert (B : (p ^ j' | p ^ j)) by (apply Gauss with e; [exists e'; lia|apply rel_prime_sym; now apply rel_prime_pow]).
  apply pow_inj_div in A; try lia. apply pow_inj_div in B; try lia. assert (j = j') by lia. subst j'. split; auto. pose proof (Z.pow_pos_nonneg p j ltac:(lia) Hj). nia.
Qed.
Lemma ext_NoDup p c divs : prime p -> 0 <= c -> NoDup divs -> (forall e, In e divs -> 1 <= e /\ ~ (p | e)) -> NoDup (divs ++ flat_map (ext1 p c) divs).
Proof.
  intros P Hc ND H. pose proof (prime_ge_2 p P). apply NoDup_app; auto.
  - assert (G : forall l, NoDup l -> (forall e, In e l -> In e divs) -> NoDup (flat_map (ext1 p c) l)).
    { induction 1 as [|e l NI NDl IH]; intros Sub; cbn [flat_map]; [constructor|]. apply NoDup_app.
      - unfold ext1. apply NoDup_map_inj'; [|apply NoDup_zrange]. intros a b Ia Ib E. apply In_zrange in Ia, Ib. destruct (H e (Sub e (or_introl eq_refl))) as (He & Ne). apply pp_unique in E; auto; lia.
      - apply IH. intros; apply Sub; now right.
      - intros x I1 I2. unfold ext1 in I1. apply in_map_iff in I1. destruct I1 as (j & <- & J). apply in_flat_map in I2. destruct I2 as (e' & I' & X). unfold ext1 in X. apply in_map_iff in X. destruct X as (j' & E & J').
        apply In_zrange in J, J'. destruct (H e (Sub e (or_introl eq_refl))) as (He & Ne). destruct (H e' (Sub e' (or_intror I'))) as (He' & Ne'). apply pp_unique in E; auto; try lia. destruct E as (-> & _). contradiction. }
    apply G; auto.
  - intros x I1 I2. apply in_flat_map in I2. destruct I2 as (e' & I' & X). unfold ext1 in X. apply in_map_iff in X. destruct X as (j' & E & J'). apply In_zrange in J'. destruct (H x I1) as (_ & Nx).
    apply Nx. rewrite <- E. exists (e' * p ^ j'). rewrite Z.pow_add_r, Z.pow_1_r by lia. ring.
Qed.
Lemma divs_ok : forall l m divs, NoDup (map fst l) -> (forall p c, In (p, c) l -> prime p /\ 1 <= c /\ ~ (p | m)) -> 1 <= m -> divisor_list m divs ->
  exists r, for_each l (fun '(prime, index) divs => extend_divisors prime index divs) divs = Ok r /\ divisor_list (m * pp_prod l) r.
Proof.
  induction l as [|(p, c) l IH]; intros m divs ND H Hm DL.
  - exists divs. split; auto. now rewrite Z.mul_1_r.
  - destruct (H p c (or_introl eq_refl)) as (P & Hc & Nd). pose proof (prime_ge_2 p P). cbn [for_each]. rewrite extend_ok by lia. cbn [bind].
    cbn [map fst] in ND. inversion ND as [|? ? NI NDl]; subst. destruct DL as (DN & DI).
    destruct (IH (m * p ^ c) (divs ++ flat_map (ext1 p c) divs)) as (r & E & D); auto.
    + intros q c' I. destruct (H q c' (or_intror I)) as (Q & Hc' & Nq). split; auto. split; auto. intro D. apply prime_mult in D; auto. destruct D as [D|D]; auto.
      apply prime_power_prime in D; auto; [|lia]. subst q. apply NI. apply in_map_iff. exists (p, c'). auto.
    + pose proof (Z.pow_pos_nonneg p c ltac:(lia) ltac:(lia)). nia.
    + split.
      * apply ext_NoDup; auto; [lia|]. intros e Ie. apply DI in Ie. destruct Ie as (He & De). split; [lia|]. intro D. apply Nd. eapply Z.divide_trans; eauto.
      * intro d. rewrite ext_in by lia. rewrite div_mult by (auto; lia). split; intros (e & j & A); exists e, j.
        -- destruct A as (A & B & C). apply DI in A. tauto.
        -- destruct A as (A & B & C & D). split; [apply DI; auto|auto].
    + exists r. split; auto. cbn [pp_prod fold_right fst snd]. fold (pp_prod l). now rewrite Z.mul_assoc.
Qed.
Lemma es_divisors_ok N pf : 0 <= N -> es_make N = Ok pf -> forall n, 1 <= n <= N -> exists l, es_divisors N pf n = Ok l /\ divisor_list n l.
Proof.
  intros HN E n Hn. destruct (es_factorize_ok N pf HN E n Hn) as (l & El & ND & F & Pr). unfold es_divisors. rewrite (proj2 (Z.ltb_lt 0 n)), (proj2 (Z.leb_le n N)) by lia. cbn [andb assert_ bind].
  rewrite El. cbn [bind]. destruct (divs_ok l 1 [1]) as (r & Er & D); auto.
  - intros p c I. destruct (F p c I) as (P & Hc). split; auto. split; auto. intro D. pose proof (prime_ge_2 p P). apply Z.divide_pos_le in D; lia.
  - lia.
  - split; [repeat constructor; auto|]. intro d. cbn [In]. split; [intros [<-|[]]; split; [lia|apply Z.divide_refl]|]. intros (Hd & D). apply Z.divide_pos_le in D; [left; lia|lia].
  - exists r. split; auto. rewrite Z.mul_1_l in D. unfold pp_prod in D. now rewrite Pr in D.
Qed.
Lemma es_abort N pf n : n < 1 \/ N < n -> es_factorize N pf n = Abort /\ es_divisors N pf n = Abort.
Proof. intro H. unfold es_factorize, es_divisors. destruct (Z.ltb_spec 0 n); destruct (Z.leb_spec n N); cbn; auto; lia. Qed.
