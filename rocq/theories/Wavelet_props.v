(* C27: WaveletMatrix.  [width] is the number of bits in which T's shifts are computed,
   [bit_num] the template parameter; [slice l r a] is a[l .. r-1]. *)
From Verif Require Import Base Seq Wavelet_model Wavelet_spec Wavelet_proof Wavelet_proof2 Wavelet_proof3.

(* C27.  For every vector of bit_num-bit values, with bit_num below the width of T, building
   succeeds, access returns each element and rank(val, i) counts the occurrences of val among
   the first i elements. *)
Theorem wavelet_access_rank :
  forall (width bit_num : Z) (a : list Z),
    0 < bit_num < width -> (forall v, In v a -> 0 <= v < 2 ^ bit_num) ->
    exists w, wm_make bit_num a = Ok w /\
      (forall i v, vget a i = Ok v -> wm_access bit_num w i = Ok v) /\
      (forall val i, 0 <= val < 2 ^ bit_num -> 0 <= i <= zlen a ->
         wm_rank width bit_num w val i = Ok (count_if (Z.eqb val) (slice 0 i a))).
Proof.
  exact (fun width bit_num a Hb Ha =>
    match build_ok bit_num (Z.lt_le_incl _ _ (proj1 Hb)) a with
    | ex_intro _ w (conj E G) => ex_intro _ w (conj E (conj
        (fun i v Ev => access_correct width bit_num Hb a Ha w G i v Ev)
        (fun val i Hv Hi => rank_correct width bit_num Hb a Ha w G val i Hv Hi)))
    end).
Qed.
Print Assumptions wavelet_access_rank.

(* C27.  Order statistics, counts and searches on every range; x ^ v is compared, and v itself
   is what the searches return. *)
Theorem wavelet_range_queries :
  forall (width bit_num : Z) (a : list Z) (w : wavelet) (l r x : Z),
    0 < bit_num < width -> (forall v, In v a -> 0 <= v < 2 ^ bit_num) -> wm_make bit_num a = Ok w ->
    0 <= l <= r -> r <= zlen a -> 0 <= x < 2 ^ bit_num ->
    let s := slice l r a in
    let xs := map (Z.lxor x) s in
    (forall k d, 0 <= k < r - l ->
       exists v, range_xor_kth_smallest width bit_num w l r k x d = Ok v /\ In v s /\ kth_smallest xs k (Z.lxor x v)) /\
    (forall k d, 0 <= k < r - l ->
       exists v, range_xor_kth_largest width bit_num w l r k x d = Ok v /\ In v s /\ kth_largest xs k (Z.lxor x v)) /\
    (forall k d, ~ 0 <= k < r - l ->
       range_xor_kth_smallest width bit_num w l r k x d = Ok d /\ range_xor_kth_largest width bit_num w l r k x d = Ok d) /\
    (forall upper, 0 <= upper ->
       range_xor_freq width bit_num w l r x upper = Ok (count_if (fun v => Z.lxor x v <? upper) s)) /\
    (forall lower upper, 0 <= lower -> 0 <= upper ->
       range_xor_freq2 width bit_num w l r x lower upper
       = Ok (count_if (fun v => (lower <=? Z.lxor x v) && (Z.lxor x v <? upper)) s)) /\
    (forall c d, 0 <= c -> found s x (fun z => c <= z) least d (range_xor_min_geq width bit_num w l r x c d)) /\
    (forall c d, 0 <= c <= 2 ^ bit_num - 1 -> found s x (fun z => c < z) least d (range_xor_min_gt width bit_num w l r x c d)) /\
    (forall c d, 0 <= c -> found s x (fun z => z < c) greatest d (range_xor_max_lt width bit_num w l r x c d)) /\
    (forall c d, 0 <= c <= 2 ^ bit_num - 1 -> found s x (fun z => z <= c) greatest d (range_xor_max_leq width bit_num w l r x c d)) /\
    (l < r -> exists v, range_xor_min width bit_num w l r x = Ok v /\ In v s /\ least xs (fun _ => True) (Z.lxor x v)) /\
    (l < r -> exists v, range_xor_max width bit_num w l r x = Ok v /\ In v s /\ greatest xs (fun _ => True) (Z.lxor x v)).
Proof. exact wavelet_range_all. Qed.
Print Assumptions wavelet_range_queries.

(* C27.  The queries without x answer for the values themselves. *)
Theorem wavelet_plain_queries :
  forall (width bit_num : Z) (a : list Z) (w : wavelet) (l r : Z),
    0 < bit_num < width -> (forall v, In v a -> 0 <= v < 2 ^ bit_num) -> wm_make bit_num a = Ok w ->
    0 <= l <= r -> r <= zlen a ->
    let s := slice l r a in
    (forall k d, 0 <= k < r - l -> exists v, range_kth_smallest width bit_num w l r k d = Ok v /\ kth_smallest s k v) /\
    (forall k d, 0 <= k < r - l -> exists v, range_kth_largest width bit_num w l r k d = Ok v /\ kth_largest s k v) /\
    (forall upper, 0 <= upper -> range_freq width bit_num w l r upper = Ok (count_if (fun v => v <? upper) s)) /\
    (forall lower upper, 0 <= lower -> 0 <= upper ->
       range_freq2 width bit_num w l r lower upper = Ok (count_if (fun v => (lower <=? v) && (v <? upper)) s)) /\
    (forall c d, 0 <= c -> exists o, range_min_geq width bit_num w l r c d = Ok o /\
       (least s (fun z => c <= z) o \/ o = d /\ forall v, In v s -> v < c)) /\
    (forall c d, 0 <= c -> exists o, range_max_lt width bit_num w l r c d = Ok o /\
       (greatest s (fun z => z < c) o \/ o = d /\ forall v, In v s -> c <= v)) /\
    (forall c d, 0 <= c <= 2 ^ bit_num - 1 -> exists o, range_min_gt width bit_num w l r c d = Ok o /\
       (least s (fun z => c < z) o \/ o = d /\ forall v, In v s -> v <= c)) /\
    (forall c d, 0 <= c <= 2 ^ bit_num - 1 -> exists o, range_max_leq width bit_num w l r c d = Ok o /\
       (greatest s (fun z => z <= c) o \/ o = d /\ forall v, In v s -> c < v)) /\
    (l < r -> exists v, range_min width bit_num w l r = Ok v /\ least s (fun _ => True) v) /\
    (l < r -> exists v, range_max width bit_num w l r = Ok v /\ greatest s (fun _ => True) v).
Proof. exact wavelet_plain_all. Qed.
Print Assumptions wavelet_plain_queries.

Example wavelet_example :
  exists w, wm_make 4 [5; 12; 0; 7; 5; 15; 3] = Ok w /\
    wm_access 4 w 3 = Ok 7 /\ wm_rank 32 4 w 5 6 = Ok 2 /\
    range_kth_smallest 32 4 w 1 6 1 99 = Ok 5 /\ range_kth_largest 32 4 w 1 6 1 99 = Ok 12 /\
    range_freq2 32 4 w 0 7 3 8 = Ok 4 /\ range_min_geq 32 4 w 0 7 8 99 = Ok 12 /\
    range_max_lt 32 4 w 2 5 5 99 = Ok 0 /\ range_max_leq 32 4 w 2 5 5 99 = Ok 5 /\ range_min_gt 32 4 w 0 5 12 99 = Ok 99 /\
    range_min 32 4 w 3 7 = Ok 3 /\ range_max 32 4 w 0 7 = Ok 15 /\ range_xor_kth_smallest 32 4 w 0 7 0 6 99 = Ok 7.
Proof. eexists. split; [vm_compute; reflexivity|]. repeat split; vm_compute; reflexivity. Qed.

(* C27, first failing case: range_xor_kth_smallest is documented to return the k-th smallest
   x ^ v, but for no x other than 0, and no range and k, is its result that value. *)
Theorem wavelet_xor_kth_refuted :
  forall (width bit_num : Z) (a : list Z) (w : wavelet) (l r x k d : Z),
    0 < bit_num < width -> (forall v, In v a -> 0 <= v < 2 ^ bit_num) -> wm_make bit_num a = Ok w ->
    0 <= l <= r -> r <= zlen a -> 0 <= x < 2 ^ bit_num -> x <> 0 -> 0 <= k < r - l ->
    exists v, range_xor_kth_smallest width bit_num w l r k x d = Ok v /\ ~ kth_smallest (map (Z.lxor x) (slice l r a)) k v.
Proof. exact (fun width bit_num a w l r x k d Hb Ha Hw Hlr Hr Hx => xor_kth_wrong width bit_num Hb a Ha w Hw l r x Hlr Hr Hx k d). Qed.
Print Assumptions wavelet_xor_kth_refuted.

(* C27, second failing case: with the default template argument bit_num is the full width of T,
   and then rank, and every k-th and frequency query that gets past its range tests, shifts by
   the width of T, which is undefined behaviour. *)
Theorem wavelet_full_width_refuted :
  forall (width bit_num : Z) (w : wavelet),
    width <= bit_num ->
    (forall val i, wm_rank width bit_num w val i = UB) /\
    (forall l r k d, 0 <= k < r - l -> range_kth_smallest width bit_num w l r k d = UB) /\
    (forall l r upper, l < r -> upper <= 2 ^ bit_num - 1 -> range_freq width bit_num w l r upper = UB).
Proof. exact full_width. Qed.
Print Assumptions wavelet_full_width_refuted.
