(** Model of [include/mtl/fenwick_tree.hpp] (class FenwickTree<T>).
    The value type [T] is an arbitrary type with [zero], [plus], [minus]. *)
From Verif Require Import Base.
From Coq Require Import NArith.
Set Implicit Arguments.

(** fenwick_tree.hpp:24, 33, 39 — [i & (-i)] on [size_t] (64 bits). *)
Definition lowbit (i : nat) : nat :=
  N.to_nat (N.land (N.of_nat i) ((2^64 - N.of_nat i) mod 2^64)).

Section Fenwick.
  Variables (A : Type) (plus minus : A -> A -> A) (zero : A).

  (** fenwick_tree.hpp:13 — [FenwickTree(size)]: [tree_(size+1)]. *)
  Definition fw_new (n : nat) : list A := repeat zero (n + 1).

  (** fenwick_tree.hpp:15 — [size()]. *)
  Definition fw_size (t : list A) : nat := length t - 1.

  (** fenwick_tree.hpp:18-28 — range constructor. *)
  Definition fw_build (xs : list A) : option (list A) :=
    let* (t, _) := for_each xs (fun x '(t, i) =>
      let* a := get t i in
      let* t := set t i (plus a x) in
      let j := i + lowbit i in
      let* t := (if j <? length t then
                   let* b := get t j in
                   let* c := get t i in
                   set t j (plus b c)
                 else Some t) in
      Some (t, i + 1)) (fw_new (length xs), 1) in
    Some t.

  (** fenwick_tree.hpp:31-34 — [add(index, x)]. *)
  Definition fw_add (t : list A) (index : nat) (x : A) : option (list A) :=
    loop (S (length t)) (fun '(t, i) =>
      if i <? length t then
        let* a := get t i in
        let* t := set t i (plus a x) in
        Some (inl (t, i + lowbit i))
      else Some (inr t)) (t, index + 1).

  (** fenwick_tree.hpp:36-41 — [sum(index)], the sum of 0..index. *)
  Definition fw_sum (t : list A) (index : nat) : option A :=
    loop (S (S index)) (fun '(s, i) =>
      if 0 <? i then
        let* a := get t i in
        Some (inl (plus s a, i - lowbit i))
      else Some (inr s)) (zero, index + 1).

  (** fenwick_tree.hpp:43-51 — [range_sum(l, r)] and its alias [sum(l, r)]. *)
  Definition fw_range_sum (t : list A) (l r : nat) : option A :=
    let* sl := (if 0 <? l then fw_sum t (l - 1) else Some zero) in
    let* sr := (if 0 <? r then fw_sum t (r - 1) else Some zero) in
    Some (minus sr sl).

  (** fenwick_tree.hpp:53-65 — [lower_bound(sum)]; [63 - clz(size)] is the
      index of the highest bit of [size] (bit_manip.hpp, [clz(0) = 64], so no
      iteration on an empty tree). *)
  Definition fw_lower_bound (ltb : A -> A -> bool) (t : list A) (target : A) : option nat :=
    let bits := N.to_nat (N.size (N.of_nat (fw_size t))) in
    let* (ret, _) := for_down bits 0 (fun k '(ret, s) =>
      let j := Nat.lor ret (2 ^ k) in
      if j <? length t then
        let* a := get t j in
        if ltb (plus s a) target then Some (j, plus s a) else Some (ret, s)
      else Some (ret, s)) (0, zero) in
    Some ret.

  (** A history of [add] calls. *)
  Definition fw_adds (t : list A) (h : list (nat * A)) : option (list A) :=
    for_each h (fun '(i, x) t => fw_add t i x) t.
End Fenwick.
