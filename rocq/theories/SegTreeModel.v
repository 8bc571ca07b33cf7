(** Model of [include/mtl/segment_tree.hpp] (class SegmentTree<M>).
    The monoid type [M] of the template is the triple [(A, op, e)]:
    [M()] is [e] and [a * b] is [op a b] (monoid.hpp:8-20). *)
From Verif Require Import Base.
Set Implicit Arguments.

(** segment_tree.hpp:24-25 — members [size_] and [tree_]. *)
Record segtree (A : Type) := mk_segtree { st_size : nat; st_tree : list A }.

Section SegTree.
  Variables (A : Type) (op : A -> A -> A) (e : A).

  (** segment_tree.hpp:28 — [SegmentTree(size_t size)]. *)
  Definition st_new (n : nat) : segtree A := mk_segtree n (repeat e (n * 2)).

  (** segment_tree.hpp:35, 52 — [tree_[i] = tree_[i<<1] * tree_[(i<<1)+1]]. *)
  Definition st_pull (t : list A) (i : nat) : option (list A) :=
    let* a := get t (2 * i) in
    let* b := get t (2 * i + 1) in
    set t i (op a b).

  (** segment_tree.hpp:31-36 — [SegmentTree(begin, end)]. *)
  Definition st_build (xs : list A) : option (segtree A) :=
    let n := length xs in
    if n =? 0 then Some (st_new 0)
    else
      let t0 := repeat e n ++ xs in
      let* t := for_down (n - 1) 1 (fun i t => st_pull t i) t0 in
      Some (mk_segtree n t).

  (** segment_tree.hpp:38-43 — [get] and [operator[]]. *)
  Definition st_get (s : segtree A) (i : nat) : option A := get (st_tree s) (st_size s + i).

  (** segment_tree.hpp:46-55 — [_set], used by all overloads of [set]. *)
  Definition st_set (s : segtree A) (index : nat) (x : A) : option (segtree A) :=
    let i := st_size s + index in
    let* t := set (st_tree s) i x in
    let* t' := loop (S i) (fun '(t, i) =>
      if i =? 0 then Some (inr t)
      else let* t' := st_pull t i in Some (inl (t', Nat.div2 i)))
      (t, Nat.div2 i) in
    Some (mk_segtree (st_size s) t').

  (** segment_tree.hpp:68-75 — [query(l, r)]. *)
  Definition st_query (s : segtree A) (l r : nat) : option A :=
    let t := st_tree s in
    let n := st_size s in
    loop (S (r + n)) (fun '(lhs, rhs, l, r) =>
      if l <? r then
        let* (lhs, l) :=
          (if Nat.odd l then let* x := get t l in Some (op lhs x, l + 1) else Some (lhs, l)) in
        let* (rhs, r) :=
          (if Nat.odd r then let* x := get t (r - 1) in Some (op x rhs, r - 1) else Some (rhs, r)) in
        Some (inl (lhs, rhs, Nat.div2 l, Nat.div2 r))
      else Some (inr (op lhs rhs)))
      (e, e, l + n, r + n).

  Section Search.
    Variable f : A -> bool.

    (** segment_tree.hpp:84-92 — first loop of [max_right]; the state is
        [(p, rps, l, r)], [rps] being the stack with its top first. *)
    Definition mr_climb (t : list A) :=
      fun '(p, rps, l, r) =>
        if l <? r then
          let* x := get t l in
          if f (op p x) then
            let '(p', l') := if Nat.odd l then (op p x, l + 1) else (p, l) in
            let* (rps', r') :=
              (if Nat.odd r then let* y := get t (r - 1) in Some ((r, y) :: rps, r - 1)
               else Some (rps, r)) in
            Some (inl (p', rps', Nat.div2 l', Nat.div2 r'))
          else Some (inr (p, rps, l, r))
        else Some (inr (p, rps, l, r)).

    (** segment_tree.hpp:94-103 — unwinding the stack; [inl] is the
        [break] with the new [l], [inr] the exit with an empty stack. *)
    Fixpoint mr_unwind (p : A) (rps : list (nat * A)) : (A * nat) + unit :=
      match rps with
      | [] => inr tt
      | (r, rp) :: rest =>
          if f (op p rp) then mr_unwind (op p rp) rest else inl (p, r - 1)
      end.

    (** segment_tree.hpp:105-110 — descent, with the [assert] as a guard. *)
    Definition mr_descend (n : nat) (t : list A) (p : A) (l : nat) : option nat :=
      loop (S n) (fun '(p, l) =>
        if l <? n then
          let* x0 := get t l in
          let* _ := guard (negb (f (op p x0))) in
          let* x := get t (2 * l) in
          if f (op p x) then Some (inl (op p x, 2 * l + 1)) else Some (inl (p, 2 * l))
        else Some (inr (l - n))) (p, l).

    (** segment_tree.hpp:77-111 — [max_right(begin, end, f)]. *)
    Definition st_max_right (s : segtree A) (b en : nat) : option nat :=
      if b =? en then Some en
      else
        let n := st_size s in
        let t := st_tree s in
        let* (p, rps, l, r) := loop (S (n + en)) (mr_climb t) (e, [], n + b, n + en) in
        if r <=? l then
          match mr_unwind p rps with
          | inr _ => Some en
          | inl (p, l) => mr_descend n t p l
          end
        else mr_descend n t p l.

    (** segment_tree.hpp:120-128 — first loop of [min_left]. *)
    Definition ml_climb (t : list A) :=
      fun '(p, lps, l, r) =>
        if l <? r then
          let* x := get t (r - 1) in
          if f (op x p) then
            let* (lps', l') :=
              (if Nat.odd l then let* y := get t l in Some ((l, y) :: lps, l + 1)
               else Some (lps, l)) in
            let p' := if Nat.odd r then op x p else p in
            Some (inl (p', lps', Nat.div2 l', Nat.div2 r))
          else Some (inr (p, lps, l, r))
        else Some (inr (p, lps, l, r)).

    (** segment_tree.hpp:130-139 *)
    Fixpoint ml_unwind (p : A) (lps : list (nat * A)) : (A * nat) + unit :=
      match lps with
      | [] => inr tt
      | (l, lp) :: rest =>
          if f (op lp p) then ml_unwind (op lp p) rest else inl (p, l + 1)
      end.

    (** segment_tree.hpp:141-146 *)
    Definition ml_descend (n : nat) (t : list A) (p : A) (r : nat) : option nat :=
      loop (S n) (fun '(p, r) =>
        if r <=? n then
          let* x0 := get t (r - 1) in
          let* _ := guard (negb (f (op x0 p))) in
          let* x := get t (2 * r - 1) in
          if f (op x p) then Some (inl (op x p, 2 * r - 1)) else Some (inl (p, 2 * r))
        else Some (inr (r - n))) (p, r).

    (** segment_tree.hpp:113-147 — [min_left(begin, end, f)]. *)
    Definition st_min_left (s : segtree A) (b en : nat) : option nat :=
      if en =? b then Some b
      else
        let n := st_size s in
        let t := st_tree s in
        let* (p, lps, l, r) := loop (S (n + en)) (ml_climb t) (e, [], n + b, n + en) in
        if r <=? l then
          match ml_unwind p lps with
          | inr _ => Some b
          | inl (p, r) => ml_descend n t p r
          end
        else ml_descend n t p r.
  End Search.

  (** A history of [set] calls. *)
  Definition st_sets (s : segtree A) (h : list (nat * A)) : option (segtree A) :=
    for_each h (fun '(i, x) s => st_set s i x) s.
End SegTree.
