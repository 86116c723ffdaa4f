From Verif Require Import Base BaseLemmas ZMod NumTheory Lucas Seq ListZ RingSum Smooth Sieve_model Sieve_spec.
From Coq Require Import Znumtheory Sorted.

Definition lpf (m : Z) : Z := match find (fun q => m mod q =? 0) (span 2 (m + 1)) with Some q => q | None => 1 end.
Lemma find_first (f : Z -> bool) : forall l, StronglySorted Z.lt l ->
  match find f l with Some q => In q l /\ f q = true /\ (forall r, In r l -> f r = true -> q <= r) | None => forall r, In r l -> f r = false end.
Proof.
  induction 1 as [|x l S IH F]; cbn [find]; [contradiction|]. destruct (f x) eqn:E.
  - split; [now left|]. split; auto. intros r [->|Hr] _; [lia|]. rewrite Forall_forall in F. specialize (F r Hr). lia.
  - destruct (find f l) as [q|]; [destruct IH as (I1 & I2 & I3); split; [now right|]; split; auto; intros r [->|Hr] Hf; [congruence|auto]|].
    intros r [->|Hr]; auto.
Qed.
Lemma span_sorted lo hi : StronglySorted Z.lt (span lo hi).
Proof.
  unfold span, zrange. generalize (Z.to_nat (hi - lo)). intro n. generalize 0%nat. induction n as [|n IH]; intro k; cbn [seq map]; constructor; auto.
  rewrite Forall_forall. intros x Hx. rewrite map_map in Hx. apply in_map_iff in Hx. destruct Hx as (i & <- & Hi). apply in_seq in Hi. lia.
Qed.
Lemma lpf_ok m : 2 <= m -> 2 <= lpf m <= m /\ (lpf m | m) /\ (forall d, 2 <= d -> (d | m) -> lpf m <= d) /\ prime (lpf m).
Proof.
  intro Hm. unfold lpf. pose proof (find_first (fun q => m mod q =? 0) (span 2 (m + 1)) (span_sorted _ _)) as F.
  destruct (find _ _) as [q|].
  - destruct F as (I & E & L). apply span_in in I. apply Z.eqb_eq in E. assert (D : (q | m)) by (apply Z.mod_divide; auto; lia).
    assert (L' : forall d, 2 <= d -> (d | m) -> q <= d).
    { intros d Hd Dd. apply L; [apply span_in; split; [lia|]; apply Z.divide_pos_le in Dd; lia|]. apply Z.eqb_eq. apply Z.mod_divide; auto; lia. }
    split; [lia|]. split; auto. split; auto. destruct (prime_factor q ltac:(lia)) as (r & Pr & Dr). pose proof (prime_ge_2 r Pr).
    assert (q <= r) by (apply L'; auto; eapply Z.divide_trans; eauto). apply Z.divide_pos_le in Dr as Dr'; [|lia]. now replace q with r by lia.
  - specialize (F m). assert (X : (m mod m =? 0) = false) by (apply F; apply span_in; lia). rewrite Z.mod_same in X by lia. discriminate.
Qed.
Lemma lpf_prime m : prime m -> lpf m = m.
Proof. intro P. pose proof (prime_ge_2 m P). destruct (lpf_ok m H) as (A & B & _). destruct (prime_divisors m P _ B) as [E|[E|[E|E]]]; lia. Qed.
Lemma lpf_self m : 2 <= m -> lpf m = m <-> prime m.
Proof. intro Hm. split; [|apply lpf_prime]. intro E. rewrite <- E. now apply lpf_ok. Qed.
Lemma lpf_least m : 2 <= m -> least_prime_factor m (lpf m).
Proof. intro Hm. destruct (lpf_ok m Hm) as (A & B & C & D). split; auto. split; auto. intros q Q Dq. apply C; auto. now apply prime_ge_2. Qed.
Lemma lpf_mul p d : prime p -> 2 <= d -> p <= lpf d -> lpf (p * d) = p.
Proof.
  intros P Hd Hl. pose proof (prime_ge_2 p P). destruct (lpf_ok (p * d) ltac:(nia)) as (A & B & C & D). destruct (lpf_ok d Hd) as (A' & B' & C' & D').
  assert (lpf (p * d) <= p) by (apply C; [lia|exists d; ring]). apply prime_mult in B; auto. destruct B as [B|B].
  - destruct (prime_divisors p P _ B) as [E|[E|[E|E]]]; lia.
  - assert (lpf d <= lpf (p * d)) by (apply C'; auto; lia). lia.
Qed.
Definition cof m := m / lpf m.
Lemma cof_ok m : 2 <= m -> m = lpf m * cof m /\ 1 <= cof m < m.
Proof.
  intro Hm. destruct (lpf_ok m Hm) as (A & B & _). unfold cof. assert (E : m mod lpf m = 0) by (apply Z.mod_divide; auto; lia). pose proof (div_exact_ (lpf m) m ltac:(lia) E).
  split; auto. nia.
Qed.
(* entry m when all d' < d have been processed *)
Definition mf d m : Z := if m <? 2 then m else if cof m <? d then lpf m else m.
Lemma mf_2 m : mf 2 m = m.
Proof.
  unfold mf. destruct (Z.ltb_spec m 2); auto. destruct (Z.ltb_spec (cof m) 2); auto. destruct (cof_ok m ltac:(lia)) as (E & L). assert (cof m = 1) by lia. rewrite H1 in E. lia.
Qed.
Lemma mf_self d : 2 <= d -> mf d d = lpf d.
Proof. intro Hd. unfold mf. rewrite (proj2 (Z.ltb_ge d 2)) by lia. destruct (cof_ok d Hd). rewrite (proj2 (Z.ltb_lt (cof d) d)) by lia. reflexivity. Qed.

Lemma mark_ok n d pm : forall primes mpf (g : Z -> Z), 2 <= d -> StronglySorted Z.lt primes -> (forall p, In p primes -> 2 <= p /\ (p <= pm -> p * d <= n)) ->
  rep mpf (n + 1) g ->
  exists mpf', mark_multiples primes pm d mpf = Ok mpf' /\
    rep mpf' (n + 1) (fun m => if existsb (fun p => (p <=? pm) && (p * d =? m)) primes then m / d else g m).
Proof.
  induction primes as [|p rest IH]; intros mpf g Hd S Hp R; cbn [mark_multiples].
  - exists mpf. split; auto.
  - inversion S as [|? ? S' F]; subst. destruct (Hp p ltac:(now left)) as (P2 & Pn). destruct (Z.ltb_spec pm p) as [L|L].
    + exists mpf. split; auto. eapply rep_ext; [exact R|]. intros m Hm. cbn beta.
      destruct (existsb _ _) eqn:E; auto. apply existsb_exists in E. destruct E as (q & I & E). apply Bool.andb_true_iff in E. destruct E as (E & _). apply Z.leb_le in E. destruct I as [<-|I]; [lia|].
      rewrite Forall_forall in F. specialize (F q I). lia.
    + specialize (Pn L). assert (0 <= p * d) by nia. rewrite (rep_set _ _ _ _ _ R) by lia. cbn [bind].
      destruct (IH _ (fupd g (p * d) p) Hd S' ltac:(intros q Hq; apply Hp; now right) ltac:(apply rep_upd; [exact R|lia])) as (mpf' & E & R').
      exists mpf'. split; auto. eapply rep_ext; [exact R'|]. intros m Hm. cbn beta. cbn [existsb]. rewrite (proj2 (Z.leb_le p pm)) by lia. cbn [andb]. unfold fupd.
      rewrite (Z.eqb_sym (p * d) m). destruct (Z.eqb_spec m (p * d)) as [->|]; cbn [orb]; auto. rewrite Z.div_mul by lia. destruct (existsb _ _); auto.
Qed.

Definition plist d := filter primeb (span 2 d).
Lemma plist_in d p : In p (plist d) <-> prime p /\ p < d.
Proof. unfold plist. rewrite filter_In, primeb_spec. rewrite span_in. split; [intros (H & P); split; auto; lia|]. intros (P & L). pose proof (prime_ge_2 p P). split; auto; lia. Qed.
Lemma plist_sorted d : StronglySorted Z.lt (plist d).
Proof.
  unfold plist. pose proof (span_sorted 2 d) as S. induction S as [|x l S IH F]; cbn [filter]; [constructor|]. destruct (primeb x); auto. constructor; auto.
  rewrite Forall_forall in *. intros y Hy. apply filter_In in Hy. now apply F.
Qed.
Lemma plist_S d : 2 <= d -> plist (d + 1) = if primeb d then plist d ++ [d] else plist d.
Proof.
  intro Hd. unfold plist. rewrite (span_app 2 d (d + 1)) by lia. rewrite span_one, filter_app. cbn [filter]. destruct (primeb d); auto. apply app_nil_r.
Qed.
Lemma sieve_ok n : 0 <= n + 1 -> exists s, sieve_make n = Ok s /\ sv_n s = n /\ sv_primes s = plist (n + 1) /\ rep (sv_mpf s) (n + 1) (fun m => if m <? 2 then m else lpf m).
Proof.
  intro Hn. unfold sieve_make. rewrite (proj2 (Z.leb_le _ _) Hn). cbn [assert_ bind].
  assert (X : exists s, for_ 2 (n + 1) (fun d '(mpf, primes) =>
    let* x := vget mpf d in
    let primes := if x =? d then primes ++ [d] else primes in
    let prime_max := Z.min x (Z.quot n d) in
    let* mpf := mark_multiples primes prime_max d mpf in
    Ok (mpf, primes)) (zrange (n + 1), []) = Ok s /\ snd s = plist (Z.max 2 (n + 1)) /\ rep (fst s) (n + 1) (mf (Z.max 2 (n + 1)))).
  { assert (I : [] = plist 2 /\ rep (zrange (n + 1)) (n + 1) (mf 2)).
    { split; [reflexivity|]. split; [now apply zlen_zrange|]. intros i Hi. rewrite vget_zrange by lia. now rewrite mf_2. }
    destruct (Z.le_gt_cases (n + 1) 2).
    { unfold for_. replace (Z.to_nat (n + 1 - 2)) with O by lia. eexists; split; [reflexivity|]. replace (Z.max 2 (n + 1)) with 2 by lia. exact I. }
    replace (Z.max 2 (n + 1)) with (n + 1) by lia.
    apply (for_inv (fun d s => snd s = plist d /\ rep (fst s) (n + 1) (mf d))); [lia|exact I|]. intros d (mpf, primes) Hd (Epl & R). cbn [fst snd] in *. subst primes.
    rewrite (rep_get _ _ _ _ R) by lia. cbn [bind]. rewrite mf_self by lia. destruct (lpf_ok d ltac:(lia)) as (A & B & C & D).
    assert (EP : (if lpf d =? d then plist d ++ [d] else plist d) = plist (d + 1)).
    { rewrite plist_S by lia. destruct (primeb d) eqn:E.
      - apply primeb_spec in E. now rewrite lpf_prime, Z.eqb_refl.
      - apply primeb_false in E. destruct (Z.eqb_spec (lpf d) d) as [F|F]; auto. apply lpf_self in F; [contradiction|lia]. }
    rewrite EP. assert (Q : forall p, p <= Z.quot n d <-> p * d <= n).
    { intro p. rewrite Z.quot_div_nonneg by lia. rewrite (Z.mul_comm p d). split; [intro; pose proof (Z.mul_div_le n d ltac:(lia)); nia|]. intro. apply Z.div_le_lower_bound; lia. }
    destruct (mark_ok n d (Z.min (lpf d) (Z.quot n d)) (plist (d + 1)) mpf (mf d) ltac:(lia) (plist_sorted _)) as (mpf' & E & R'); [|exact R|].
    - intros p Hp. apply plist_in in Hp. destruct Hp as (P & _). split; [now apply prime_ge_2|]. intro L. apply Q. lia.
    - rewrite E. cbn [bind]. eexists; split; [reflexivity|]. cbn [fst snd]. split; auto. eapply rep_ext; [exact R'|]. intros m Hm. cbn beta.
      destruct (existsb _ _) eqn:Ex.
      + apply existsb_exists in Ex. destruct Ex as (p & I1 & E1). apply Bool.andb_true_iff in E1. destruct E1 as (E1 & E2). apply Z.leb_le in E1. apply Z.eqb_eq in E2.
        apply plist_in in I1. destruct I1 as (P & L). pose proof (prime_ge_2 p P). subst m. rewrite Z.div_mul by lia. unfold mf. rewrite (proj2 (Z.ltb_ge (p * d) 2)) by nia.
        unfold cof. rewrite lpf_mul by (auto; lia). rewrite (Z.mul_comm p d), Z.div_mul by lia. now rewrite (proj2 (Z.ltb_lt d (d + 1))) by lia.
      + unfold mf. destruct (Z.ltb_spec m 2); auto. destruct (cof_ok m ltac:(lia)) as (Em & Lm). destruct (Z.ltb_spec (cof m) d); destruct (Z.ltb_spec (cof m) (d + 1)); auto; try lia.
        exfalso. assert (Ec : cof m = d) by lia. rewrite Ec in Em. destruct (lpf_ok m ltac:(lia)) as (A2 & B2 & C2 & D2).
        assert (Hl : lpf m <= lpf d) by (apply C2; [lia|]; eapply Z.divide_trans; [exact B|]; exists (lpf m); lia).
        apply Bool.not_true_iff_false in Ex. apply Ex. apply existsb_exists. exists (lpf m). split; [apply plist_in; split; auto; lia|].
        rewrite <- Em, Z.eqb_refl, Bool.andb_true_r. apply Z.leb_le. apply Z.min_glb; auto. apply Q. lia. }
  destruct X as ((mpf, primes) & E & Ep & R). cbn [fst snd] in *. cbn zeta in E |- *. rewrite E. cbn [bind]. eexists; split; [reflexivity|]. cbn [sv_n sv_primes sv_mpf fst snd]. split; auto.
  destruct (Z.le_gt_cases (n + 1) 2) as [L|L].
  - split.
    + rewrite Ep. unfold plist. replace (span 2 (Z.max 2 (n + 1))) with (@nil Z) by (symmetry; apply span_nil; lia). now rewrite span_nil by lia.
    + eapply rep_ext; [exact R|]. intros m Hm. unfold mf. now rewrite (proj2 (Z.ltb_lt m 2)) by lia.
  - replace (Z.max 2 (n + 1)) with (n + 1) in * by lia. split; auto. eapply rep_ext; [exact R|]. intros m Hm. unfold mf. destruct (Z.ltb_spec m 2); auto.
    destruct (cof_ok m ltac:(lia)). now rewrite (proj2 (Z.ltb_lt (cof m) (n + 1))) by lia.
Qed.

Lemma strip_ok n p : 2 <= p -> 1 <= n -> (p | n) -> exists n' c, strip n p = Ok (n', c) /\ n = p ^ c * n' /\ 1 <= c /\ 1 <= n' < n /\ ~ (p | n').
Proof.
  intros Hp Hn D. unfold strip.
  destruct (loop_inv (fun '(m, c) => 0 <= c /\ 1 <= m <= n /\ n = p ^ c * m /\ (p | m)) (fun '(m, c) => Z.to_nat m)
    (fun '(m, c) => 1 <= c /\ 1 <= m < n /\ n = p ^ c * m /\ ~ (p | m))
    (fun '(n, c) => if p =? 0 then UB else let n := Z.quot n p in let c := c + 1 in if Z.rem n p =? 0 then Ok (inl (n, c)) else Ok (inr (n, c))) (S (Z.to_nat n)) (n, 0)) as ((n', c) & E & Q).
  - rewrite Z.pow_0_r. repeat split; auto; lia.
  - lia.
  - intros (m, c) (Hc & Hm & E & Dm). rewrite (proj2 (Z.eqb_neq p 0)) by lia. cbn zeta. rewrite Z.quot_div_nonneg by lia.
    assert (M0 : m mod p = 0) by (apply Z.mod_divide; auto; lia). pose proof (div_exact_ p m ltac:(lia) M0) as Em. set (t := m / p) in *. clearbody t. assert (1 <= t < m) by nia.
    assert (E' : n = p ^ (c + 1) * t) by (rewrite Z.pow_add_r, Z.pow_1_r by lia; rewrite E, Em; ring).
    rewrite Z.rem_mod_nonneg by lia. destruct (Z.eqb_spec (t mod p) 0) as [F|F].
    + eexists; split; [reflexivity|]. cbn beta iota. split; [|lia]. repeat split; auto; try lia. apply Z.mod_divide; auto; lia.
    + eexists; split; [reflexivity|]. cbn beta iota. repeat split; auto; try lia. intro. apply F. apply Z.mod_divide; auto; lia.
  - exists n', c. cbn zeta in E. rewrite E. tauto.
Qed.
Lemma sorted_snoc {A} (R : A -> A -> Prop) l x : StronglySorted R l -> (forall y, In y l -> R y x) -> StronglySorted R (l ++ [x]).
Proof.
  induction 1 as [|y l S IH F]; intro H; cbn [app]; [constructor; constructor|]. constructor; [apply IH; intros; apply H; now right|].
  rewrite Forall_forall in *. intros z Hz. apply in_app_iff in Hz. destruct Hz as [Hz|[<-|[]]]; auto. apply H. now left.
Qed.
Definition pp_prod (l : list (Z * Z)) := fold_right (fun a r => fst a ^ snd a * r) 1 l.
Lemma pp_snoc l p c : pp_prod (l ++ [(p, c)]) = pp_prod l * p ^ c.
Proof. induction l as [|a l IH]; cbn [app pp_prod fold_right fst snd]; [lia|]. fold (pp_prod (l ++ [(p, c)])). fold (pp_prod l). rewrite IH. ring. Qed.
(* the factorisation loop, for any source of least prime factors *)
Lemma factor_loop (get : Z -> res Z) (n : Z) : 1 <= n -> (forall m, 2 <= m <= n -> get m = Ok (lpf m)) ->
  exists l, loop (S (Z.to_nat n)) (fun '(n, out) =>
    if 1 <? n then
      let* p := get n in
      let* (n, c) := strip n p in
      Ok (inl (n, out ++ [(p, c)]))
    else Ok (inr out)) (n, []) = Ok l /\ factorization n l.
Proof.
  intros Hn Hg.
  apply (loop_inv (fun '(m, out) => 1 <= m <= n /\ pp_prod out * m = n /\ StronglySorted (fun a b => fst a < fst b) out /\ (forall p c, In (p, c) out -> prime p /\ 1 <= c) /\
     (forall p c q, In (p, c) out -> prime q -> (q | m) -> p < q)) (fun '(m, out) => Z.to_nat m) (factorization n)).
  - split; [lia|]. split; [change (pp_prod []) with 1; ring|]. split; [constructor|]. split; contradiction.
  - lia.
  - intros (m, out) (Hm & Pr & S & F & G). destruct (Z.ltb_spec 1 m).
    + rewrite Hg by lia. cbn [bind]. destruct (lpf_ok m ltac:(lia)) as (A & B & C & D). destruct (strip_ok m (lpf m) ltac:(lia) ltac:(lia) B) as (m' & c & E & Em & Hc & Hm' & ND).
      rewrite E. cbn [bind]. eexists; split; [reflexivity|]. cbn beta iota. split; [|lia]. split; [lia|]. split; [rewrite pp_snoc, <- Z.mul_assoc, <- Em; exact Pr|].
      split; [apply sorted_snoc; auto; intros (q, c') Hq; cbn [fst]; eapply G; eauto|]. split.
      * intros p c' Hp. apply in_app_iff in Hp. destruct Hp as [Hp|[Hp|[]]]; eauto. injection Hp as <- <-. auto.
      * intros p c' q Hp Q Dq. assert (Dm : (q | m)) by (rewrite Em; now apply Z.divide_mul_r). apply in_app_iff in Hp. destruct Hp as [Hp|[Hp|[]]]; [eapply G; eauto|]. injection Hp as <- <-.
        pose proof (prime_ge_2 q Q). assert (lpf m <= q) by (apply C; auto). destruct (Z.eq_dec (lpf m) q); [subst; congruence|lia].
    + eexists; split; [reflexivity|]. cbn beta iota. split; auto. split; auto. change (pp_prod out = n). replace m with 1 in Pr by lia. lia.
Qed.
Lemma sieve_factor_ok n m s : sieve_make n = Ok s -> 1 <= m <= n -> exists l, sv_factorize s m = Ok l /\ factorization m l.
Proof.
  intros E Hm. destruct (sieve_ok n ltac:(lia)) as (s' & E' & En & _ & R). rewrite E in E'. injection E' as <-. unfold sv_factorize. rewrite En.
  rewrite (proj2 (Z.ltb_lt 0 m)), (proj2 (Z.leb_le m n)) by lia. cbn [andb assert_ bind].
  apply (factor_loop (vget (sv_mpf s)) m); [lia|]. intros k Hk. rewrite (rep_get _ _ _ _ R) by lia. now rewrite (proj2 (Z.ltb_ge k 2)) by lia.
Qed.
Lemma sieve_factor_abort n m s : sieve_make n = Ok s -> m < 1 \/ n < m -> sv_factorize s m = Abort.
Proof.
  intros E Hm. assert (En : sv_n s = n). { unfold sieve_make in E. destruct (assert_ _); try discriminate. cbn [bind] in E. destruct (for_ _ _ _ _); try discriminate. cbn [bind] in E. now injection E as <-. }
  unfold sv_factorize. rewrite En. destruct (Z.ltb_spec 0 m); destruct (Z.leb_spec m n); try reflexivity; lia.
Qed.
Lemma sieve_spec_ok n : -1 <= n -> exists s, sieve_make n = Ok s /\ primes_upto n (get_prime_list s) /\ prime_num s = zlen (get_prime_list s) /\
  (forall m, 2 <= m <= n -> exists p, vget (get_min_prime_factor s) m = Ok p /\ least_prime_factor m p).
Proof.
  intro Hn. destruct (sieve_ok n ltac:(lia)) as (s & E & _ & Ep & R). exists s. split; auto. unfold get_prime_list, get_min_prime_factor. split; [|split; [reflexivity|]].
  - rewrite Ep. split; [apply plist_sorted|]. intro p. rewrite plist_in. split; intros (P & L); split; auto; lia.
  - intros m Hm. rewrite (rep_get _ _ _ _ R) by lia. rewrite (proj2 (Z.ltb_ge m 2)) by lia. eexists; split; [reflexivity|]. apply lpf_least. lia.
Qed.
