(** Model of [include/mtl/unionfind.hpp] (class UnionFind).
    [par_] is a list of [Z] ([int] in the source; no value leaves
    [-n .. n-1]).  Indices are [nat].

    The evaluation order of the operands of [==] and [<] is unspecified in
    C++, and operands mutate the forest (path compression); the [bool]
    argument [o] selects the order, and the theorems hold for both. *)
From Verif Require Import Base.
Set Implicit Arguments.

(** unionfind.hpp:13 — [UnionFind(size)]. *)
Definition uf_new (n : nat) : list Z := repeat (-1)%Z n.

(** unionfind.hpp:15-19 — [root(u)] with path compression; the recursion
    depth is bounded by [fuel]. *)
Fixpoint uf_root_fuel (fuel : nat) (par : list Z) (u : nat) : option (list Z * nat) :=
  match fuel with
  | O => None
  | S fuel' =>
      let* p := get par u in
      if (p <? 0)%Z then Some (par, u)
      else
        let* (par1, r) := uf_root_fuel fuel' par (Z.to_nat p) in
        let* par2 := set par1 u (Z.of_nat r) in
        Some (par2, r)
  end.
Definition uf_root (par : list Z) (u : nat) := uf_root_fuel (S (length par)) par u.

(** Two calls whose order is unspecified. *)
Definition both {R} (o : bool) (f : list Z -> nat -> option (list Z * R)) par u v : option (list Z * R * R) :=
  if o then
    let* (par, a) := f par u in let* (par, b) := f par v in Some (par, a, b)
  else
    let* (par, b) := f par v in let* (par, a) := f par u in Some (par, a, b).

(** unionfind.hpp:21-23 — [are_union(u, v)]. *)
Definition uf_are_union (o : bool) (par : list Z) (u v : nat) : option (list Z * bool) :=
  let* (par, a, b) := both o uf_root par u v in Some (par, a =? b).

(** unionfind.hpp:25-27 — [size_of(u)]. *)
Definition uf_size_of (par : list Z) (u : nat) : option (list Z * Z) :=
  let* (par, r) := uf_root par u in
  let* s := get par r in
  Some (par, (- s)%Z).

(** unionfind.hpp:29-37 — [unite(u, v)]. In the two assignments the right
    operand is evaluated first (C++17); [o3], [o4] also allow the other order. *)
Definition uf_unite (o1 o2 o3 o4 : bool) (par : list Z) (u v : nat) : option (list Z * bool) :=
  let* (par, same) := uf_are_union o1 par u v in
  if same then Some (par, false)
  else
    let* (par, su, sv) := both o2 uf_size_of par u v in
    let (u, v) := if (su <? sv)%Z then (v, u) else (u, v) in
    (* par_[root(u)] -= size_of(v) *)
    let* (par, r, s) :=
      (if o3 then
         let* (par, s) := uf_size_of par v in let* (par, r) := uf_root par u in Some (par, r, s)
       else
         let* (par, r) := uf_root par u in let* (par, s) := uf_size_of par v in Some (par, r, s)) in
    let* x := get par r in
    let* par := set par r (x - s)%Z in
    (* par_[root(v)] = root(u) *)
    let* (par, rv, ru) := both o4 uf_root par v u in
    let* par := set par rv (Z.of_nat ru) in
    Some (par, true).

(** Calls of the public interface and their results. *)
Inductive uf_op := URoot (u : nat) | USame (o : bool) (u v : nat) | USize (u : nat)
                 | UUnite (o1 o2 o3 o4 : bool) (u v : nat).
Inductive uf_out := ORoot (r : nat) | OSame (b : bool) | OSize (s : Z) | OUnite (b : bool).

Definition uf_call (par : list Z) (c : uf_op) : option (list Z * uf_out) :=
  match c with
  | URoot u => let* (par, r) := uf_root par u in Some (par, ORoot r)
  | USame o u v => let* (par, b) := uf_are_union o par u v in Some (par, OSame b)
  | USize u => let* (par, s) := uf_size_of par u in Some (par, OSize s)
  | UUnite o1 o2 o3 o4 u v => let* (par, b) := uf_unite o1 o2 o3 o4 par u v in Some (par, OUnite b)
  end.

Fixpoint uf_run (par : list Z) (h : list uf_op) : option (list Z * list uf_out) :=
  match h with
  | [] => Some (par, [])
  | c :: h' =>
      let* (par, o) := uf_call par c in
      let* (par, os) := uf_run par h' in
      Some (par, o :: os)
  end.
