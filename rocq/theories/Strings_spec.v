(* Palindromes, borders, periods and occurrences in a list; [slice l r s] (Seq.v) is s[l .. r-1]. *)
From Verif Require Import Base Seq.
From Coq Require Import Sorted.

Section Spec.
  Context {T : Type}.
  Variable s : list T.
  Definition palindrome (w : list T) : Prop := rev w = w.
  (* the longest palindrome s[i-h .. i+h], of length len = 2h+1 *)
  Definition longest_odd (i len : Z) : Prop :=
    exists h, len = 2 * h + 1 /\ 0 <= h /\ 0 <= i - h /\ i + h < zlen s /\ palindrome (slice (i - h) (i + h + 1) s) /\
      forall h', h < h' -> 0 <= i - h' -> i + h' < zlen s -> ~ palindrome (slice (i - h') (i + h' + 1) s).
  (* the longest palindrome s[i-h .. i+h-1], of length len = 2h *)
  Definition longest_even (i len : Z) : Prop :=
    exists h, len = 2 * h /\ 0 <= h /\ 0 <= i - h /\ i + h <= zlen s /\ palindrome (slice (i - h) (i + h) s) /\
      forall h', h < h' -> 0 <= i - h' -> i + h' <= zlen s -> ~ palindrome (slice (i - h') (i + h') s).

  (* a border of s[0 .. i-1] of length k < i *)
  Definition border (i k : Z) : Prop := 0 <= k < i /\ slice 0 k s = slice (i - k) i s.
  Definition longest_border (i k : Z) : Prop := border i k /\ forall k', border i k' -> k' <= k.
  (* p is a period: s[d] = s[d+p] whenever both exist *)
  Definition period (p : Z) : Prop := 0 < p <= zlen s /\ forall d x y, vget s d = Ok x -> vget s (d + p) = Ok y -> x = y.
  (* the list of all elements satisfying P, in increasing order *)
  Definition lists (P : Z -> Prop) (l : list Z) : Prop := StronglySorted Z.lt l /\ forall p, In p l <-> P p.
  Definition occurrence (t : list T) (i : Z) : Prop := 0 <= i /\ i + zlen s <= zlen t /\ slice i (i + zlen s) t = s.
End Spec.
