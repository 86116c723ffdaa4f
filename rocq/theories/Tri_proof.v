(* enumerate_triangles: proofs *)
From Verif Require Import Base BaseLemmas ListZ ListMore Graph_spec Tree_spec Tree_proof2 Centroid_proof CSort_proof Tri_spec Tri_model.

Lemma for_each_emit {X Y} (l : list X) (body : X -> list Y -> res (list Y)) (f : X -> list Y) : (forall x out, In x l -> body x out = Ok (out ++ f x)) -> forall out, for_each l body out = Ok (out ++ flat_map f l).
Proof.
  induction l as [|x l IH]; intros H out; cbn [for_each flat_map]; [now rewrite app_nil_r|]. rewrite H by now left. cbn [bind]. rewrite IH by (intros; apply H; now right). now rewrite app_assoc.
Qed.
Definition mem (l : list Z) (k : Z) : bool := existsb (Z.eqb k) l.
Lemma mem_In l k : mem l k = true <-> In k l.
Proof. unfold mem. rewrite existsb_exists. split; [intros (x & I & E); apply Z.eqb_eq in E; now subst|]. intros I. exists k. split; auto. apply Z.eqb_refl. Qed.
Lemma mem_snoc l x k : mem (l ++ [x]) k = mem l k || (k =? x).
Proof. unfold mem. rewrite existsb_app. cbn [existsb]. now rewrite orb_false_r. Qed.
Lemma flat_map_NoDup {A B} (f : A -> list B) l : (forall c, In c l -> NoDup (f c)) -> NoDup l -> (forall c d w, In c l -> In d l -> In w (f c) -> In w (f d) -> c = d) -> NoDup (flat_map f l).
Proof.
  induction l as [|x l IH]; intros H N D; [constructor|]. cbn [flat_map]. inversion N as [|? ? Nx Nl]; subst. apply NoDup_app; [apply H; now left|apply IH; auto; [intros; apply H; now right|intros c d w Ic Id; apply D; now right]|].
  intros w Iw Jw. apply in_flat_map in Jw as (c & Ic & Jw). assert (x = c) by (apply (D x c w); auto; [now left|now right]). subst c. contradiction.
Qed.
Lemma filter_flat {A} (P : A -> bool) l : filter P l = flat_map (fun x => if P x then [x] else []) l.
Proof. induction l as [|x l IH]; [reflexivity|]. cbn [filter flat_map]. destruct (P x); cbn [app]; congruence. Qed.

Lemma map_NoDup {A B} (f : A -> B) l : NoDup l -> (forall a b, In a l -> In b l -> f a = f b -> a = b) -> NoDup (map f l).
Proof.
  induction 1 as [|x l Nx Nl IH]; intros H; cbn [map]; constructor; [|apply IH; intros a b Ia Ib; apply H; now right]. intros I. apply in_map_iff in I as (y & E & Iy). assert (y = x) by (apply H; auto; [now right|now left]). now subst y.
Qed.

Section Tri.
  Variable g : list (list Z).
  Hypothesis S : simple_graph g.
  Notation n := (zlen g).
  Definition row (i : Z) : list Z := match vget g i with Ok r => r | _ => [] end.
  Definition deg (i : Z) : Z := zlen (row i).
  Notation rk := (rank n deg).
  Lemma row_get i : 0 <= i < n -> vget g i = Ok (row i).
  Proof. intros H. unfold row. destruct (vget_Ok g i H) as (r & ->). reflexivity. Qed.
  Lemma g_vec : g = vec n row.
  Proof. pose proof (zlen_nonneg g). apply vget_ext; [symmetry; now apply zlen_vec|]. intros i Hi. rewrite vget_vec by auto. now apply row_get. Qed.
  Lemma row_edge i j : 0 <= i < n -> In j (row i) <-> edge g i j.
  Proof. intros H. split; [intros I; exists (row i); split; auto; now apply row_get|]. intros (adj & E & I). rewrite row_get in E by auto. injection E as ->. exact I. Qed.
  Lemma row_range i j : 0 <= i < n -> In j (row i) -> 0 <= j < n /\ j <> i.
  Proof. intros H I. apply row_edge in I; auto. split; [now apply (proj1 S i)|]. intros ->. now apply (proj1 (proj2 (proj2 S)) i). Qed.
  Lemma deg_range i : 0 <= i < n -> 0 <= deg i < n.
  Proof.
    intros H. unfold deg. split; [apply zlen_nonneg|]. assert (X : zlen (i :: row i) <= Z.max 0 n); [|rewrite zlen_cons in X; lia]. apply NoDup_range_length.
    - constructor; [intros I; now apply (row_range i i H I)|]. apply (proj2 (proj2 (proj2 S)) i). now apply row_get.
    - intros x [<-|I]; auto. now apply (row_range i x).
  Qed.
  Lemma order_ok : exists ord, tri_order g = Ok (ord, vec n rk) /\ zlen ord = n /\ forall i, 0 <= i < n -> vget ord (rk i) = Ok i.
  Proof.
    pose proof (zlen_nonneg g) as Zn. unfold tri_order. cbv zeta.
    destruct (for_inv (fun i c => c = vec (n + 1) (fun d => cnt (fun k => deg k + 1 =? d) i)) 0 n (fun i cnt => let* row := vget g i in let* c := vget cnt (zlen row + 1) in vset cnt (zlen row + 1) (c + 1)) (vrep (n + 1) 0)) as (c1 & E1 & ->); auto.
    { rewrite vrep_vec by lia. reflexivity. }
    { intros i c Hi ->. pose proof (deg_range i Hi). rewrite row_get by auto. cbn [bind]. fold (deg i). rewrite vget_vec by lia. cbn [bind]. rewrite vset_vec by lia. eexists. split; [reflexivity|]. apply vec_ext. intros d Hd. rewrite cnt_S by lia. unfold fput. rewrite (Z.eqb_sym (deg i + 1) d). destruct (Z.eqb_spec d (deg i + 1)) as [->|]; [reflexivity|lia]. }
    rewrite E1. cbn [bind]. clear E1.
    destruct (for_inv (fun i c => c = vec (n + 1) (fun d => if d <=? i then cnt (fun k => deg k <? d) n else cnt (fun k => deg k + 1 =? d) n)) 0 n (fun i cnt => let* a := vget cnt i in let* b := vget cnt (i + 1) in vset cnt (i + 1) (b + a)) (vec (n + 1) (fun d => cnt (fun k => deg k + 1 =? d) n))) as (c2 & E2 & ->); auto.
    { apply vec_ext. intros d Hd. destruct (Z.leb_spec d 0); [|reflexivity]. assert (d = 0) as -> by lia. apply cnt_ext. intros k Hk. pose proof (deg_range k Hk). destruct (Z.eqb_spec (deg k + 1) 0), (Z.ltb_spec (deg k) 0); auto; lia. }
    { intros i c Hi ->. rewrite !vget_vec by lia. cbn [bind]. rewrite vset_vec by lia. eexists. split; [reflexivity|]. apply vec_ext. intros d Hd. unfold fput. destruct (Z.leb_spec i i); [|lia]. destruct (Z.leb_spec (i + 1) i); [lia|]. destruct (Z.eqb_spec d (i + 1)) as [->|N].
      - destruct (Z.leb_spec (i + 1) (i + 1)); [|lia]. rewrite <- cnt_or by (intros k Hk A B; apply Z.eqb_eq in A; apply Z.ltb_lt in B; lia). apply cnt_ext. intros k Hk. destruct (Z.eqb_spec (deg k + 1) (i + 1)), (Z.ltb_spec (deg k) i), (Z.ltb_spec (deg k) (i + 1)); auto; lia.
      - destruct (Z.leb_spec d i), (Z.leb_spec d (i + 1)); auto; lia. }
    rewrite E2. cbn [bind]. clear E2.
    destruct (for_inv (fun i (s : list Z * list Z * list Z) => exists C ord, s = (vec (n + 1) C, ord, vec n (fun k => if k <? i then rk k else 0)) /\ (forall d, 0 <= d < n -> C d = cnt (fun k => deg k <? d) n + cnt (fun k => deg k =? d) i) /\ zlen ord = n /\ forall k, 0 <= k < i -> vget ord (rk k) = Ok k)
      0 n (fun i (s : list Z * list Z * list Z) => let '(cnt, ord, idx) := s in
        let* row := vget g i in let* c := vget cnt (zlen row) in let* cnt := vset cnt (zlen row) (c + 1) in let* idx := vset idx i c in let* ord := vset ord c i in Ok (cnt, ord, idx))
      (vec (n + 1) (fun d => if d <=? n then cnt (fun k => deg k <? d) n else cnt (fun k => deg k + 1 =? d) n), vrep n 0, vrep n 0)) as (s & E3 & C & ord & -> & HC & Lo & Ho); auto.
    { eexists. exists (vrep n 0). split; [rewrite vrep_vec by lia; f_equal; apply vec_ext; intros k Hk; destruct (Z.ltb_spec k 0); [lia|reflexivity]|]. split; [intros d Hd; cbn beta; destruct (Z.leb_spec d n); [rewrite cnt_0; lia|lia]|]. split; [now apply zlen_vrep|]. intros; lia. }
    { intros i s Hi (C & ord & -> & HC & Lo & Ho). pose proof (deg_range i Hi) as Hd. pose proof (rank_range n deg i Hi) as Hr. rewrite row_get by auto. cbn [bind]. fold (deg i). rewrite vget_vec by lia. cbn [bind]. rewrite vset_vec by lia. cbn [bind]. rewrite vset_vec by lia. cbn [bind].
      assert (Er : C (deg i) = rk i) by (rewrite HC by lia; symmetry; now apply rank_split). rewrite Er. rewrite vset_ok by lia. cbn [bind]. eexists. split; [reflexivity|]. exists (fput C (deg i) (rk i + 1)), (zupd ord (rk i) i). split; [f_equal; apply vec_ext; intros k Hk|split; [|split; [now rewrite zlen_zupd|]]].
      - unfold fput. destruct (Z.eqb_spec k i) as [->|N]; [destruct (Z.ltb_spec i (i + 1)); [reflexivity|lia]|]. destruct (Z.ltb_spec k i), (Z.ltb_spec k (i + 1)); auto; lia.
      - intros d Hd'. rewrite cnt_S by lia. unfold fput. rewrite (Z.eqb_sym (deg i) d). destruct (Z.eqb_spec d (deg i)) as [->|N]; [rewrite <- Er, HC by lia; lia|rewrite HC by lia; lia].
      - intros k Hk. destruct (Z.eq_dec k i) as [->|N]; [apply vget_zupd_same; lia|]. rewrite vget_zupd_diff; [apply Ho; lia|apply (rank_range n deg i Hi)|]. intros E. apply N. apply (rank_inj n deg); auto; lia. }
    rewrite E3. cbn [bind]. exists ord. split; [|split; auto]. do 2 f_equal. apply vec_ext. intros k Hk. destruct (Z.ltb_spec k n); [reflexivity|lia].
  Qed.
  Definition kept (i : Z) : list Z := filter (fun j => negb (rk j <? rk i)) (row i).
  Lemma kept_In i j : 0 <= i < n -> In j (kept i) <-> edge g i j /\ rk i < rk j.
  Proof.
    intros Hi. unfold kept. rewrite filter_In, row_edge by auto. rewrite negb_true_iff, Z.ltb_ge. split; [intros (E & L); split; auto|intros (E & L); split; auto; lia].
    apply row_edge in E; auto. destruct (row_range i j Hi E) as (Hj & N). destruct (Z.eq_dec (rk i) (rk j)) as [X|X]; [|lia]. exfalso. apply N. now apply (rank_inj n deg).
  Qed.
  Lemma keep_ok i : 0 <= i < n -> tri_keep (vec n rk) i (row i) = Ok (kept i).
  Proof.
    intros Hi. unfold tri_keep, kept. rewrite filter_flat. apply (for_each_emit (row i) _ (fun j => if negb (rk j <? rk i) then [j] else [])). intros j out I. apply row_range in I as (Hj & _); auto. rewrite !vget_vec by auto. cbn [bind]. destruct (rk j <? rk i); cbn [negb]; [now rewrite app_nil_r|reflexivity].
  Qed.
  Lemma kept_ok : for_ 0 n (fun i g => let* row := vget g i in let* row := tri_keep (vec n rk) i row in vset g i row) g = Ok (vec n kept).
  Proof.
    pose proof (zlen_nonneg g) as Zn. destruct (for_inv (fun i h => h = vec n (fun k => if k <? i then kept k else row k)) 0 n (fun i g => let* row := vget g i in let* row := tri_keep (vec n rk) i row in vset g i row) g) as (h & E & ->); auto.
    - rewrite g_vec at 1. apply vec_ext. intros i Hi. destruct (Z.ltb_spec i 0); [lia|reflexivity].
    - intros i h Hi ->. rewrite vget_vec by auto. cbn [bind]. destruct (Z.ltb_spec i i); [lia|]. rewrite keep_ok by auto. cbn [bind]. rewrite vset_vec by auto. eexists. split; [reflexivity|]. apply vec_ext. intros k Hk. unfold fput. destruct (Z.eqb_spec k i) as [->|N]; [destruct (Z.ltb_spec i (i + 1)); [reflexivity|lia]|]. destruct (Z.ltb_spec k i), (Z.ltb_spec k (i + 1)); auto; lia.
    - rewrite E. f_equal. apply vec_ext. intros k Hk. destruct (Z.ltb_spec k n); [reflexivity|lia].
  Qed.
  Definition calls (i : Z) : list (Z * Z * Z) := flat_map (fun j => map (fun k => (i, j, k)) (filter (mem (kept i)) (kept j))) (kept i).
  Lemma kept_range i j : 0 <= i < n -> In j (kept i) -> 0 <= j < n.
  Proof. intros Hi I. apply filter_In in I as (I & _). now apply (row_range i j). Qed.
  Lemma mark_ok i : 0 <= i < n -> for_each (kept i) (fun j ex => vset ex j true) (vec n (fun _ => false)) = Ok (vec n (mem (kept i))).
  Proof.
    intros Hi. destruct (for_each_inv (fun dn ex => ex = vec n (mem dn)) (kept i) (fun j ex => vset ex j true) (vec n (fun _ => false))) as (ex & E & ->); [apply vec_ext; reflexivity| |exact E].
    intros dn x td ex El ->. rewrite vset_vec by (apply (kept_range i); auto; rewrite El; apply in_elt). eexists. split; [reflexivity|]. apply vec_ext. intros k Hk. rewrite mem_snoc. unfold fput. destruct (k =? x); [now rewrite orb_true_r|now rewrite orb_false_r].
  Qed.
  Lemma clear_ok i : 0 <= i < n -> for_each (kept i) (fun j ex => vset ex j false) (vec n (mem (kept i))) = Ok (vec n (fun _ => false)).
  Proof.
    intros Hi. destruct (for_each_inv (fun dn ex => ex = vec n (fun k => mem (kept i) k && negb (mem dn k))) (kept i) (fun j ex => vset ex j false) (vec n (mem (kept i)))) as (ex & E & ->).
    - apply vec_ext. intros k Hk. cbn. now rewrite andb_true_r.
    - intros dn x td ex El ->. rewrite vset_vec by (apply (kept_range i); auto; rewrite El; apply in_elt). eexists. split; [reflexivity|]. apply vec_ext. intros k Hk. rewrite mem_snoc. unfold fput. destruct (k =? x); [now rewrite orb_true_r, andb_false_r|now rewrite orb_false_r].
    - rewrite E. f_equal. apply vec_ext. intros k Hk. apply andb_negb_r.
  Qed.
  Lemma run_ok : exists ord, enumerate_triangles g = Ok (flat_map calls ord) /\ NoDup ord /\ forall i, In i ord <-> 0 <= i < n.
  Proof.
    destruct order_ok as (ord & Eo & Lo & Ho). exists ord. assert (Rord : forall x, In x ord -> 0 <= x < n).
    { (* the positions rk 0 .. rk (n-1) fill the whole of 0 .. n-1 *)
      intros x I. apply In_vget in I as (p & Hp & Ep). assert (X : In p (map rk (zrange n))).
      { apply (NoDup_length_incl (l := map rk (zrange n)) (l' := zrange n)); [|rewrite map_length; lia|intros q Iq; apply in_map_iff in Iq as (k & <- & Ik); apply In_zrange in Ik; apply In_zrange, rank_range; auto|apply In_zrange; lia].
        apply map_NoDup; [apply NoDup_zrange|]. intros a b Ia Ib. apply In_zrange in Ia, Ib. now apply rank_inj. }
      apply in_map_iff in X as (k & <- & Ik). apply In_zrange in Ik. rewrite Ho in Ep by auto. injection Ep as <-. exact Ik. }
    assert (Oin : forall i, In i ord <-> 0 <= i < n) by (intros i; split; [apply Rord|intros H; eapply vget_In; now apply Ho]).
    split; [|split; auto].
    - unfold enumerate_triangles. cbv zeta. rewrite Eo. cbn [bind]. rewrite kept_ok. cbn [bind]. rewrite vrep_vec by apply zlen_nonneg.
      match goal with |- context [for_each ord ?f ?s0] => assert (X : forall l out, (forall x, In x l -> 0 <= x < n) -> for_each l f (vec n (fun _ => false), out) = Ok (vec n (fun _ => false), out ++ flat_map calls l)) end.
      { induction l as [|i l IH]; intros out Hl; cbn [for_each flat_map]; [now rewrite app_nil_r|]. assert (Hi : 0 <= i < n) by (apply Hl; now left). rewrite vget_vec by auto. cbn [bind]. rewrite mark_ok by auto. cbn [bind].
        rewrite (for_each_emit (kept i) _ (fun j => map (fun k => (i, j, k)) (filter (mem (kept i)) (kept j)))).
        - cbn [bind]. rewrite clear_ok by auto. cbn [bind]. rewrite IH by (intros; apply Hl; now right). now rewrite app_assoc.
        - intros j o Ij. pose proof (kept_range i j Hi Ij) as Hj. rewrite vget_vec by auto. cbn [bind].
          rewrite (for_each_emit (kept j) _ (fun k => if mem (kept i) k then [(i, j, k)] else [])).
          + f_equal. f_equal. clear. induction (kept j) as [|k l IH]; [reflexivity|]. cbn [flat_map filter]. destruct (mem (kept i) k); cbn [map app]; congruence.
          + intros k o' Ik. rewrite vget_vec by (apply (kept_range j); auto). cbn [bind]. destruct (mem (kept i) k); [reflexivity|now rewrite app_nil_r]. }
      rewrite X by auto. reflexivity.
    - apply (NoDup_incl_NoDup (l := zrange n)); [apply NoDup_zrange| |]. 
      + pose proof (zlen_zrange n (zlen_nonneg g)) as Zz. unfold zlen in *. lia.
      + intros x I. apply Oin. now apply In_zrange.
  Qed.
  Lemma calls_In i a b c : 0 <= i < n -> In (a, b, c) (calls i) <-> a = i /\ triangle g a b c /\ rk a < rk b < rk c.
  Proof.
    intros Hi. unfold calls. rewrite in_flat_map. split.
    - intros (j & Ij & I). apply in_map_iff in I as (k & E & Ik). injection E as <- <- <-. pose proof (kept_range i j Hi Ij) as Hj. apply filter_In in Ik as (Ik & M). apply mem_In in M. apply kept_In in Ij as (E1 & L1); auto. apply kept_In in Ik as (E2 & L2); auto. apply kept_In in M as (E3 & L3); auto. split; auto. split; [split; auto|lia].
    - intros (-> & (E1 & E2 & E3) & L). pose proof (proj1 S i b E1) as Hb. exists b. split; [apply kept_In; auto; split; auto; lia|]. apply in_map_iff. exists c. split; auto. apply filter_In. split; [apply kept_In; auto; split; auto; lia|]. apply mem_In, kept_In; auto. split; auto; lia.
  Qed.
  Lemma kept_nodup i : 0 <= i < n -> NoDup (kept i).
  Proof. intros Hi. unfold kept. apply NoDup_filter. apply (proj2 (proj2 (proj2 S)) i). now apply row_get. Qed.
  Lemma calls_nodup i : 0 <= i < n -> NoDup (calls i).
  Proof.
    intros Hi. unfold calls. apply flat_map_NoDup; [|now apply kept_nodup|].
    - intros j Ij. apply map_NoDup; [|intros x y _ _ E; congruence]. apply NoDup_filter, kept_nodup. now apply (kept_range i).
    - intros j k w _ _ A B. apply in_map_iff in A as (x & <- & _). apply in_map_iff in B as (y & E & _). congruence.
  Qed.
  Lemma triangles_ok : exists out, enumerate_triangles g = Ok out /\ NoDup out /\ (forall a b c, In (a, b, c) out -> triangle g a b c) /\
    forall a b c, triangle g a b c -> exists t, In t out /\ same3 t a b c /\ forall t', In t' out -> same3 t' a b c -> t' = t.
  Proof.
    destruct run_ok as (ord & E & Nd & Io). exists (flat_map calls ord). split; auto.
    assert (In_out : forall a b c, In (a, b, c) (flat_map calls ord) <-> triangle g a b c /\ rk a < rk b < rk c).
    { intros a b c. rewrite in_flat_map. split.
      - intros (i & Ii & I). apply Io in Ii. apply calls_In in I as (-> & T & L); auto.
      - intros (T & L). destruct T as (E1 & E2 & E3). assert (Ha : 0 <= a < n) by (destruct E1 as (adj & G & _); eapply vget_range; eauto). exists a. split; [now apply Io|]. apply calls_In; auto. split; auto. split; [split|]; auto. }
    split; [|split].
    - apply flat_map_NoDup; auto; [intros i Ii; apply calls_nodup; now apply Io|]. intros i j ((a & b) & c) Ii Ij A B. apply Io in Ii, Ij. apply calls_In in A as (-> & _); auto. apply calls_In in B as (-> & _); auto.
    - intros a b c I. now apply In_out.
    - intros a b c (E1 & E2 & E3).
      assert (U : forall x y z, triangle g x y z -> rk x < rk y < rk z -> same3 (x, y, z) a b c -> exists t, In t (flat_map calls ord) /\ same3 t a b c /\ forall t', In t' (flat_map calls ord) -> same3 t' a b c -> t' = t).
      { intros x y z T L Sm. exists (x, y, z). split; [now apply In_out|]. split; auto. intros ((x' & y') & z') I' S'. apply In_out in I' as (T' & L'). unfold same3 in Sm, S'.
        destruct Sm as [Sm|[Sm|[Sm|[Sm|[Sm|Sm]]]]]; injection Sm as -> -> ->; destruct S' as [Q|[Q|[Q|[Q|[Q|Q]]]]]; injection Q as -> -> ->; auto; lia. }
      assert (Ha : 0 <= a < n) by (destruct E1 as (adj & G & _); eapply vget_range; eauto). pose proof (proj1 S _ _ E1) as Hb. pose proof (proj1 S _ _ E2) as Hc. destruct S as (_ & Un & Ns & _).
      assert (N : forall x y, 0 <= x < n -> 0 <= y < n -> edge g x y -> rk x <> rk y) by (intros x y Hx Hy Ex X; apply (rank_inj n deg) in X; auto; subst y; now apply (Ns x)).
      pose proof (N a b Ha Hb E1). pose proof (N b c Hb Hc E2). pose proof (N a c Ha Hc E3). pose proof (Un _ _ E1). pose proof (Un _ _ E2). pose proof (Un _ _ E3).
      destruct (Z.lt_ge_cases (rk a) (rk b)), (Z.lt_ge_cases (rk b) (rk c)), (Z.lt_ge_cases (rk a) (rk c)); try lia;
        [apply (U a b c)|apply (U a c b)|apply (U c a b)|apply (U b a c)|apply (U b c a)|apply (U c b a)]; first [lia | unfold triangle; tauto | unfold same3; tauto].
  Qed.
End Tri.
