(* Rerooting: the whole run *)
From Verif Require Import Base BaseLemmas ListZ ListMore Seq Graph_spec Tree_spec BFS_proof Tree_proof Tree_proof2 Tree_proof3 Tree_proof4 HLD_proof HLD_proof2 HLD_proof3 Rerooting_model Rerooting_spec Rerooting_proof Rerooting_proof2.
From Coq Require Import Permutation.

Lemma nbrs_sym {W} (es : list (cedge W)) u v w : In (v, w) (nbrs es u) -> In (u, w) (nbrs es v).
Proof.
  unfold nbrs. rewrite !in_flat_map. intros (((a, b), c) & I & H). exists (a, b, c). split; auto. rewrite in_app_iff in *. destruct H as [H|H].
  - destruct (Z.eqb_spec a u) as [->|]; [|destruct H]. destruct H as [H|[]]. injection H as -> ->. right. rewrite Z.eqb_refl. now left.
  - destruct (Z.eqb_spec b u) as [->|]; [|destruct H]. destruct H as [H|[]]. injection H as -> ->. left. rewrite Z.eqb_refl. now left.
Qed.
Definition ngraph {W} (n : Z) (nb : Z -> list (Z * W)) : list (list Z) := map (fun x => map fst (nb x)) (zrange n).
Lemma vget_ngraph {W} n (nb : Z -> list (Z * W)) u : 0 <= u < n -> vget (ngraph n nb) u = Ok (map fst (nb u)).
Proof. intros H. unfold ngraph. rewrite (vget_map _ _ u). rewrite vget_zrange by auto. reflexivity. Qed.
Lemma zlen_ngraph {W} n (nb : Z -> list (Z * W)) : 0 <= n -> zlen (ngraph n nb) = n.
Proof. intros H. unfold ngraph. rewrite zlen_map. apply zlen_zrange. lia. Qed.

Lemma conn_via g u v w : connected g u v -> connected g v w -> connected g u w.
Proof.
  intros (c & p & A) (d & q & B). induction A as [x|x y z p c k H A IH]; [exists d, q; exact B|].
  destruct (IH B) as (c' & q' & X). exists (c + c'), (x :: q'). econstructor; eauto.
Qed.

Section Run.
  Context {VW W DP : Type}.
  Variables (op : DP -> DP -> DP) (e : DP) (asr : DP -> VW -> W -> DP) (ar : DP -> VW -> DP) (w0 : W).
  Hypothesis M : is_monoid op e.
  Hypothesis C : forall x y, op x y = op y x.
  Theorem run_dp_ok ws es : (forall u v w, In (u, v, w) es -> 0 <= u < zlen ws /\ 0 <= v < zlen ws) -> edge_tree (zlen ws) es ->
    exists dp, rr_run_dp op e asr ar w0 (RR ws es) = Ok dp /\ zlen dp = zlen ws /\
      forall r, 0 <= r < zlen ws -> exists x wr, below op e asr (nbrs es) ws r (-1) x /\ vget ws r = Ok wr /\ vget dp r = Ok (ar x wr).
  Proof.
    intros Ok_ T. pose proof (zlen_nonneg ws) as Zw. unfold rr_run_dp. cbn [rr_w rr_e]. destruct (csr_ok w0 (zlen ws) es Zw Ok_) as (gr & Eg & Gr). rewrite Eg. cbn [bind].
    set (nb := fun u => rev (nbrs es u)). set (g0 := ngraph (zlen ws) (nbrs es)). set (g := ngraph (zlen ws) nb).
    change (edge_tree (zlen ws) es) with (tree g0) in T. assert (L0 : zlen g0 = zlen ws) by now apply zlen_ngraph. assert (Lg : zlen g = zlen ws) by now apply zlen_ngraph.
    pose proof (tree_forest g0 T) as Fo. pose proof T as (Pos & _ & _ & Cn & _). assert (V0 : vertex g0 0) by (unfold vertex; lia).
    assert (One : one_each g0 [0]). { split; [intros r [<-|[]]; auto|]. split; [repeat constructor|]. intros v Hv. exists 0. split; [now left|auto]. }
    destruct (choose_one_each g0 [0] Fo One) as (par & R0 & Hr).
    assert (R : rooted g par). { apply (rooted_perm g0 g par); auto; [congruence|]. intros w Hw. unfold vertex in Hw. rewrite L0 in Hw. unfold row. erewrite (gv_vget [] g w), (gv_vget [] g0 w) by (apply vget_ngraph; auto). unfold nb. rewrite map_rev. symmetry. apply Permutation_rev. }
    destruct (dep_fun g par R) as (dep & rt & D & m & B). assert (H0 : vertex g 0) by (unfold vertex in *; lia). destruct (grow_exists g par dep rt R D m B 0 H0) as (t & Rt & F).
    assert (P0 : par 0 = -1) by (apply Hr; auto; now left).
    destruct (run_ok op e asr ar M C gr ws nb g par dep rt) with (t := t) as (dp & Er & Ld & Hf); auto.
    - intros u Hu. apply Gr. unfold vertex in Hu. lia.
    - intros u Hu. apply vget_ngraph. unfold vertex in Hu. lia.
    - intros u v w I. unfold nb in *. rewrite <- in_rev in *. now apply nbrs_sym.
    - intros w Hw. apply (comp_nodes par dep rt g t 0 R D F Rt P0 H0). split; auto. assert (Vr : vertex g0 (rt w)). { pose proof (anc_vertex g par R _ _ (anc_rt g par dep rt D w Hw) Hw) as X. unfold vertex in *. lia. }
      destruct (proj1 (Hr (rt w) Vr)) as [X|[]]; auto. apply (D w Hw).
    - rewrite (ltac:(unfold zlen in *; lia) : length g = length ws) in Er. exists dp. split; [|split; [lia|]].
      + destruct ws; [unfold zlen in Pos, L0; cbn in L0; lia|exact Er].
      + intros r Hr'. assert (Vr : vertex g r) by (unfold vertex; lia). destruct (Hf r Vr) as (x & wv & Bx & Ew & Ex). exists x, wv. split; [|split; auto].
        * eapply (below_perm op e asr ws M C); [|exact Bx]. intros u. unfold nb. symmetry. apply Permutation_rev.
        * rewrite <- Ex. apply vget_gv. lia.
  Qed.
End Run.
