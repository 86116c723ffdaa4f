From Verif Require Import Base BaseLemmas ListZ RLE_model RLE_spec.

Section Proof.
  Context {T : Type}.
  Variable eqb : T -> T -> bool.
  Hypothesis Heq : forall x y, eqb x y = true <-> x = y.

  Lemma expand_app (a b : list (T * Z)) : expand (a ++ b) = expand a ++ expand b.
  Proof. unfold expand. now rewrite map_app, concat_app. Qed.
  Lemma expand_one (x : T) k : expand [(x, k)] = vrep k x.
  Proof. unfold expand. cbn [map concat]. apply app_nil_r. Qed.
  Lemma vrep_add (x : T) j k : 0 <= j -> 0 <= k -> vrep (j + k) x = vrep j x ++ vrep k x.
  Proof. intros. unfold vrep. rewrite Z2Nat.inj_add by lia. apply repeat_app. Qed.

  (* adding a run at the end *)
  Lemma maximal_snoc (a : list (T * Z)) x k : maximal_runs a -> 0 < k -> (forall b y j, a = b ++ [(y, j)] -> y <> x) -> maximal_runs (a ++ [(x, k)]).
  Proof.
    intros (P & D) Hk Hx. split.
    - intros r Hr. apply in_app_or in Hr. destruct Hr as [Hr|[<-|[]]]; auto.
    - intros i u v Hu Hv. pose proof (vget_range _ _ _ Hu). pose proof (vget_range _ _ _ Hv) as R. rewrite zlen_app, zlen_one in R.
      destruct (Z.lt_ge_cases (i + 1) (zlen a)) as [C|C].
      + rewrite vget_app1 in Hu by lia. rewrite vget_app1 in Hv by lia. eapply D; eauto.
      + rewrite vget_app1 in Hu by lia. rewrite vget_app2 in Hv by lia. replace (i + 1 - zlen a) with 0 in Hv by lia.
        rewrite vget_cons0 in Hv. injection Hv as <-. destruct (vget_split _ _ _ Hu) as (b & b' & E & L).
        assert (b' = []). { apply zlen_0_nil. rewrite E, zlen_app, zlen_cons in C. pose proof (zlen_nonneg b').
          rewrite E, zlen_app, zlen_cons in R. lia. }
        subst b'. destruct u as [y j]. cbn [fst]. eapply Hx; eauto.
  Qed.
  Lemma maximal_grow (b : list (T * Z)) x j k : maximal_runs (b ++ [(x, j)]) -> 0 <= k -> maximal_runs (b ++ [(x, j + k)]).
  Proof.
    intros (P & D) Hk. split.
    - intros r Hr. apply in_app_or in Hr. destruct Hr as [Hr|[<-|[]]].
      + apply P. apply in_or_app. now left.
      + cbn [snd]. pose proof (P (x, j) ltac:(apply in_or_app; right; now left)) as Q. cbn [snd] in Q. lia.
    - intros i u v Hu Hv. pose proof (vget_range _ _ _ Hu). pose proof (vget_range _ _ _ Hv) as R. rewrite zlen_app, zlen_one in R.
      destruct (Z.lt_ge_cases (i + 1) (zlen b)) as [C|C].
      + rewrite vget_app1 in Hu by lia. rewrite vget_app1 in Hv by lia. apply (D i); rewrite vget_app1 by lia; auto.
      + rewrite vget_app1 in Hu by lia. rewrite vget_app2 in Hv by lia. replace (i + 1 - zlen b) with 0 in Hv by lia.
        rewrite vget_cons0 in Hv. injection Hv as <-. cbn [fst]. apply (D i u (x, j)); [rewrite vget_app1 by lia; auto|].
        apply vget_mid. lia.
  Qed.

  Definition rep_ (s : rle T) (c : list T) : Prop :=
    maximal_runs (rl_comp s) /\ expand (rl_comp s) = c /\ rl_length s = zlen c.

  Lemma push_ok s c v num : rep_ s c -> 0 < num -> exists s', rle_push_back eqb s v num = Ok s' /\ rep_ s' (c ++ vrep num v).
  Proof.
    intros (Hm & He & Hl) Hn. unfold rle_push_back. cbv zeta.
    destruct (Z.eqb_spec (zlen (rl_comp s)) 0) as [Z0|Z0]; cbn [negb].
    - cbn [bind]. apply zlen_0_nil in Z0. rewrite Z0 in *. eexists. split; [reflexivity|]. split; [|split].
      + apply (maximal_snoc [] v num); auto. intros b y j E. destruct b; discriminate.
      + cbn [rl_comp]. rewrite expand_app, He, expand_one. reflexivity.
      + cbn [rl_length]. rewrite zlen_app, zlen_vrep, Hl by lia. lia.
    - destruct (vget_last (rl_comp s)) as (b & x & E & Lb & Hg & _).
      { intro E. rewrite E in Z0. now apply Z0. }
      rewrite Hg. cbn [bind]. destruct x as [y j]. cbn [fst snd]. destruct (eqb y v) eqn:Q.
      + apply Heq in Q. subst y. rewrite Lb, E. rewrite vset_mid by lia. cbn [bind]. eexists. split; [reflexivity|].
        rewrite E in Hm, He. split; [|split]; cbn [rl_comp rl_length].
        * apply maximal_grow; auto. lia.
        * pose proof (proj1 Hm (v, j) ltac:(apply in_or_app; right; now left)) as Q. cbn [snd] in Q.
          rewrite expand_app, expand_one, vrep_add by lia. rewrite expand_app, expand_one in He. now rewrite app_assoc, He.
        * rewrite zlen_app, zlen_vrep, Hl by lia. lia.
      + cbn [bind]. eexists. split; [reflexivity|]. split; [|split]; cbn [rl_comp rl_length].
        * apply maximal_snoc; auto. intros b' y' j' E'. rewrite E in E'. apply app_inj_tail in E'. destruct E' as (_ & E'). injection E' as <- <-.
          intro. subst y. assert (eqb v v = true) by now apply Heq. congruence.
        * now rewrite expand_app, He, expand_one.
        * rewrite zlen_app, zlen_vrep, Hl by lia. lia.
  Qed.

  Lemma run_end_ok x c : exists k rest, run_end eqb x c = (k, rest) /\ 0 <= k /\ c = vrep k x ++ rest /\
    (forall y r, rest = y :: r -> x <> y).
  Proof.
    induction c as [|y c (k & rest & E & Hk & Hc & Hr)]; cbn [run_end].
    - exists 0, []. repeat split; auto; try lia. discriminate.
    - destruct (eqb x y) eqn:Q.
      + apply Heq in Q. subst y. rewrite E. exists (k + 1), rest. repeat split; auto; try lia.
        replace (k + 1) with (1 + k) by lia. rewrite vrep_add by lia. cbn [app]. rewrite Hc at 1. reflexivity.
      + exists 0, (y :: c). repeat split; auto; try lia. intros y' r E'. injection E' as <- <-. intro. subst y.
        assert (eqb x x = true) by now apply Heq. congruence.
  Qed.

  Lemma compress_ok c : exists r, compress eqb c = Ok r /\ maximal_runs r /\ expand r = c.
  Proof.
    unfold compress.
    destruct (loop_inv (fun '(d, acc) => c = expand acc ++ d /\ maximal_runs acc /\
         forall b y j z d', acc = b ++ [(y, j)] -> d = z :: d' -> y <> z)
      (fun '(d, acc) => length d) (fun r => maximal_runs r /\ expand r = c)
      (fun '(c, acc) => match c with [] => Ok (inr acc) | x :: _ => let '(k, rest) := run_end eqb x c in Ok (inl (rest, acc ++ [(x, k)])) end)
      (S (length c)) (c, [])) as (r & E & H).
    - split; [reflexivity|]. split.
      + split; [intros r []|]. intros i x y H. apply vget_range in H. change (zlen (@nil (T * Z))) with 0 in H. lia.
      + intros b y j z d' E. destruct b; discriminate.
    - cbn [length]. lia.
    - intros (d, acc) (Hc & Hm & Hd). destruct d as [|x d].
      + exists (inr acc). split; [reflexivity|]. split; auto. rewrite app_nil_r in Hc. auto.
      + destruct (run_end_ok x (x :: d)) as (k & rest & E & Hk & Hx & Hr). rewrite E. exists (inl (rest, acc ++ [(x, k)])). split; [reflexivity|].
        assert (0 < k). { destruct (Z.eq_dec k 0) as [->|]; [|lia]. cbn [vrep repeat Z.to_nat app] in Hx. exfalso. eapply Hr; [|reflexivity]. symmetry. exact Hx. }
        cbv beta iota. split.
        * split; [|split].
          -- now rewrite expand_app, expand_one, <- app_assoc, <- Hx.
          -- apply maximal_snoc; auto. intros b y j Eb. eapply Hd; eauto.
          -- intros b y j z d' Eb Er. apply app_inj_tail in Eb. destruct Eb as (_ & Eb). injection Eb as <- <-. eapply Hr; eauto.
        * rewrite Hx, app_length. unfold vrep. rewrite repeat_length. lia.
    - exists r. auto.
  Qed.
  Lemma rle_of_ok c : exists s, rle_of eqb c = Ok s /\ rep_ s c.
  Proof.
    unfold rle_of. destruct (compress_ok c) as (r & -> & Hm & He). cbn [bind]. eexists. split; [reflexivity|].
    split; [|split]; auto.
  Qed.
End Proof.
