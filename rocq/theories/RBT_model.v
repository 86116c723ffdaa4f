(* Red-black trees: library/datastructure/bbst/red_black_tree_base.hpp with the four node classes of
   red_black_tree.hpp, red_black_segment_tree.hpp, red_black_lazy_segment_tree.hpp and
   red_black_reversible_lazy_segment_tree.hpp.

   One model for the four classes, that of the reversible lazy one.  The lazy one is the same code
   without _rev (no flag is ever set); the one with op alone is the same code with operators that
   form a one-element type; the plain one moreover does not keep products (op returns one fixed
   value, the _val of an inner node is never read).
   A tree is owned by whoever holds its root, the nodes are not shared: trees are values here and a
   call takes its arguments away.  The node pool is assumed not to run out; freed nodes are never
   looked at again.  RedBlackTree<T>::set is not modelled: it does not compile (it passes a lambda
   without parameters to update_value).  The persistent variants are in PRBT_model.v. *)
From Verif Require Import Base Seq.

Inductive color := RED | BLACK.
Definition is_red (c : color) : bool := match c with RED => true | BLACK => false end.
Definition is_black (c : color) : bool := negb (is_red c).
(* a bool used as an int *)
Definition b2z (b : bool) : Z := if b then 1 else 0.

Section RBT.
  Context {T F : Type}.
  Variables (op : T -> T -> T) (e : T) (mapping : F -> T -> Z -> T) (composition : F -> F -> F) (id : F).
  Variable feqb : F -> F -> bool. (* operator== of F *)
  (* red_black_tree_base.hpp:200-203, red_black_reversible_lazy_segment_tree.hpp:78-79.  A leaf has
     _siz = 1 and _lev = 0; its _laz and _rev only ever reach its null children and are left out *)
  Inductive tree : Type :=
    | Leaf (c : color) (v : T)
    | Node (c : color) (l r : tree) (v : T) (siz lev : Z) (laz : F) (rv : bool).
  Definition otree : Type := option tree. (* tree_type, a pointer *)
  Definition col (t : tree) : color := match t with Leaf c _ => c | Node c _ _ _ _ _ _ _ => c end.
  Definition val (t : tree) : T := match t with Leaf _ v => v | Node _ _ _ v _ _ _ _ => v end.
  Definition siz (t : tree) : Z := match t with Leaf _ _ => 1 | Node _ _ _ _ s _ _ _ => s end.
  Definition lev (t : tree) : Z := match t with Leaf _ _ => 0 | Node _ _ _ _ _ h _ _ => h end.
  Definition set_col (c : color) (t : tree) : tree :=
    match t with Leaf _ v => Leaf c v | Node _ l r v s h z b => Node c l r v s h z b end.
  (* color(t->_ch[1]) and color(t->_ch[0]), red_black_tree_base.hpp:211 *)
  Definition rcol (t : tree) : color := match t with Leaf _ _ => BLACK | Node _ _ r _ _ _ _ _ => col r end.
  Definition lcol (t : tree) : color := match t with Leaf _ _ => BLACK | Node _ l _ _ _ _ _ _ => col l end.
  (* red_black_tree_base.hpp:33, red_black_segment_tree.hpp:32 *)
  Definition size (t : otree) : Z := match t with None => 0 | Some t => siz t end.
  Definition value (t : otree) : T := match t with None => e | Some t => val t end.
  (* update on a node with the given colour, children and flags: red_black_tree_base.hpp:219-223,
     red_black_reversible_lazy_segment_tree.hpp:86-90.  It is never called on a leaf *)
  Definition update (c : color) (l r : tree) (z : F) (b : bool) : tree :=
    Node c l r (op (val l) (val r)) (siz l + siz r) (lev l + b2z (is_black (col l))) z b.
  (* red_black_tree_base.hpp:206-207, 235-241 *)
  Definition create_leaf (v : T) : tree := Leaf BLACK v.
  Definition create_branch (l r : tree) : tree := update RED l r id false.
  (* red_black_reversible_lazy_segment_tree.hpp:36-42, not on null *)
  Definition apply_to (f : F) (t : tree) : tree :=
    match t with
    | Leaf c v => Leaf c (mapping f v 1)
    | Node c l r v s h z b => Node c l r (mapping f v s) s h (composition f z) b
    end.
  (* red_black_reversible_lazy_segment_tree.hpp:48-54, not on null *)
  Definition reverse_of (t : tree) : tree :=
    match t with
    | Leaf c v => Leaf c v
    | Node c l r v s h z b => Node c r l v s h z (negb b)
    end.
  (* red_black_reversible_lazy_segment_tree.hpp:91-104 *)
  Definition push (t : tree) : tree :=
    match t with
    | Leaf c v => Leaf c v
    | Node c l r v s h z b =>
        let '(l, r, z) := (if feqb z id then (l, r, z) else (apply_to z l, apply_to z r, id)) in
        let '(l, r, b) := (if b then (reverse_of l, reverse_of r, false) else (l, r, b)) in
        Node c l r v s h z b
    end.
  (* red_black_tree_base.hpp:228-233, index 1 and index 0.  A leaf where a child is needed: null *)
  Definition rotate1 (t : tree) : res tree :=
    match push t with
    | Leaf _ _ => UB
    | Node c l r _ _ _ z b =>
        match push r with
        | Leaf _ _ => UB
        | Node c' l' r' _ _ _ z' b' => Ok (update c' (update c l l' z b) r' z' b')
        end
    end.
  Definition rotate0 (t : tree) : res tree :=
    match push t with
    | Leaf _ _ => UB
    | Node c l r _ _ _ z b =>
        match push l with
        | Leaf _ _ => UB
        | Node c' l' r' _ _ _ z' b' => Ok (update c' l' (update c r' r z b) z' b')
        end
    end.
  (* red_black_tree_base.hpp:36-65 on two non-null trees.  Fuel: one call per level *)
  Definition forced (force : bool) (t : tree) : tree := if force then set_col BLACK t else t.
  Fixpoint merge_ (fuel : nat) (force : bool) (l r : tree) : res tree :=
    match fuel with
    | O => OutOfFuel
    | S fuel =>
        if lev r <? lev l then
          match push l with
          | Leaf _ _ => UB
          | Node cl a b v s h z rv =>
              let* c := merge_ fuel false b r in
              if is_black cl && is_red (col c) && is_red (rcol c) then
                let a' := set_col BLACK a in
                let c' := set_col cl c in
                if is_black (col a) then rotate1 (Node (col c) a' c' v s h z rv)
                else Ok (forced force (update (col c) a' c' z rv))
              else Ok (forced force (update cl a c z rv))
          end
        else if lev l <? lev r then
          match push r with
          | Leaf _ _ => UB
          | Node cr a b v s h z rv =>
              let* c := merge_ fuel false l a in
              if is_black cr && is_red (col c) && is_red (lcol c) then
                let b' := set_col BLACK b in
                let c' := set_col cr c in
                if is_black (col b) then rotate0 (Node (col c) c' b' v s h z rv)
                else Ok (forced force (update (col c) c' b' z rv))
              else Ok (forced force (update cr c b z rv))
          end
        else Ok (forced force (create_branch l r))
    end.
  Fixpoint depth (t : tree) : nat :=
    match t with Leaf _ _ => 1%nat | Node _ l r _ _ _ _ _ => S (Nat.max (depth l) (depth r)) end.
  Definition merge (l r : otree) : res otree :=
    match l, r with
    | None, _ => Ok r
    | _, None => Ok l
    | Some l, Some r => let* t := merge_ (depth l + depth r) true l r in Ok (Some t)
    end.
  (* red_black_tree_base.hpp:67-92.  Fuel: one call per level *)
  Definition blacken (t : tree) : tree := if is_red (col t) then set_col BLACK t else t.
  Fixpoint split_ (fuel : nat) (t : otree) (k : Z) : res (otree * otree) :=
    match t with
    | None => Ok (None, None)
    | Some t =>
        match fuel with
        | O => OutOfFuel
        | S fuel =>
            let t := push t in
            if k =? 0 then Ok (None, Some t) else
            if k =? siz t then Ok (Some t, None) else
            let '(l, r) := (match t with Leaf _ _ => (None, None) | Node _ l r _ _ _ _ _ => (Some (blacken l), Some (blacken r)) end) in
            let szl := size l in
            if k <? szl then
              let* (l, m) := split_ fuel l k in let* mr := merge m r in Ok (l, mr)
            else if szl <? k then
              let* (m, r) := split_ fuel r (k - szl) in let* lm := merge l m in Ok (lm, r)
            else Ok (l, r)
        end
    end.
  Definition odepth (t : otree) : nat := match t with None => 0%nat | Some t => depth t end.
  Definition split (t : otree) (k : Z) : res (otree * otree) := split_ (odepth t) t k.
  (* red_black_tree_base.hpp:94-98 *)
  Definition split_range (t : otree) (l r : Z) : res (otree * otree * otree) :=
    let* (tlm, tr) := split t r in let* (tl, tm) := split tlm l in Ok (tl, tm, tr).
  (* red_black_tree_base.hpp:100-105 *)
  Definition insert (t : otree) (k : Z) (v : T) : res otree :=
    let* (tl, tr) := split t k in let* tl := merge tl (Some (create_leaf v)) in merge tl tr.
  Definition push_front (t : otree) (v : T) : res otree := insert t 0 v.
  Definition push_back (t : otree) (v : T) : res otree := insert t (size t) v.
  (* red_black_tree_base.hpp:107-114 *)
  Definition erase (t : otree) (k : Z) : res (otree * T) :=
    let* x := split_range t k (k + 1) in
    match x with
    | (tl, Some tm, tr) => let* t := merge tl tr in Ok (t, val tm)
    | _ => UB
    end.
  Definition pop_front (t : otree) : res (otree * T) := erase t 0.
  Definition pop_back (t : otree) : res (otree * T) := erase t (size t - 1).
  (* top->_val = x *)
  Definition set_val (x : T) (t : tree) : tree :=
    match t with Leaf c _ => Leaf c x | Node c l r _ s h z b => Node c l r x s h z b end.
  (* red_black_tree_base.hpp:116-121 *)
  Definition update_value (t : otree) (k : Z) (f : T -> T) : res otree :=
    let* x := split_range t k (k + 1) in
    match x with
    | (tl, Some tm, tr) => let* tl := merge tl (Some (set_val (f (val tm)) tm)) in merge tl tr
    | _ => UB
    end.
  (* red_black_tree_base.hpp:125-129 *)
  Definition get (t : otree) (k : Z) : res (otree * T) :=
    let* x := split_range t k (k + 1) in
    match x with
    | (tl, Some tm, tr) => let* tl := merge tl (Some tm) in let* t := merge tl tr in Ok (t, val tm)
    | _ => UB
    end.
  (* red_black_tree_base.hpp:131-141.  Fuel: the interval shrinks *)
  Fixpoint build_ (fuel : nat) (a : list T) (l r : Z) : res otree :=
    match fuel with
    | O => OutOfFuel
    | S fuel =>
        if r - l =? 1 then let* x := vget a l in Ok (Some (create_leaf x)) else
        let m := Z.shiftr (l + r) 1 in
        let* tl := build_ fuel a l m in let* tr := build_ fuel a m r in merge tl tr
    end.
  Definition build (a : list T) : res otree :=
    match a with [] => Ok None | _ => build_ (length a) a 0 (zlen a) end.
  (* red_black_segment_tree.hpp:20-27 *)
  Definition prod (t : otree) (l r : Z) : res (otree * T) :=
    let* (tl, tm, tr) := split_range t l r in
    let res := value tm in
    let* tl := merge tl tm in let* t := merge tl tr in Ok (t, res).
  Definition prod_all (t : otree) : T := value t.
  (* red_black_reversible_lazy_segment_tree.hpp:32-54 *)
  Definition apply_all (t : otree) (f : F) : otree := option_map (apply_to f) t.
  Definition apply (t : otree) (l r : Z) (f : F) : res otree :=
    let* (tl, tm, tr) := split_range t l r in
    let* tl := merge tl (apply_all tm f) in merge tl tr.
  Definition reverse_all (t : otree) : otree := option_map reverse_of t.
  Definition reverse (t : otree) (l r : Z) : res otree :=
    let* (tl, tm, tr) := split_range t l r in
    let* tl := merge tl (reverse_all tm) in merge tl tr.
  (* red_black_reversible_lazy_segment_tree.hpp:56-70 *)
  Fixpoint dump_ (t : tree) (z : F) (rv : bool) : list T :=
    match t with
    | Leaf _ v => [mapping z v 1]
    | Node _ l r _ _ _ z' rv' =>
        let z := composition z z' in let nr := xorb rv rv' in
        if rv then dump_ r z nr ++ dump_ l z nr else dump_ l z nr ++ dump_ r z nr
    end.
  Definition dump (t : otree) : list T := match t with None => [] | Some t => dump_ t id false end.
  (* red_black_tree_base.hpp:184-198 *)
  Fixpoint check_ (t : tree) : res Z :=
    let* n := (match t with
      | Leaf _ _ => Ok 0
      | Node c l r _ _ _ _ _ =>
          (if is_red c then assert_ (is_black (col l)) ;;; assert_ (is_black (col r)) else Ok tt) ;;;
          let* bl := check_ l in let* br := check_ r in
          assert_ (bl =? br) ;;; Ok bl
      end) in
    Ok (n + b2z (is_black (col t))).
  Definition check_rbtree_properties (t : otree) : res unit :=
    match t with None => Ok tt | Some t => assert_ (is_black (col t)) ;;; let* _ := check_ t in Ok tt end.
End RBT.
Arguments tree T F : clear implicits.
Arguments otree T F : clear implicits.
