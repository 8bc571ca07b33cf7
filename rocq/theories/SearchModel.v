(** Models of include/mtl/search.hpp (bisect_int) and include/mtl/boundint.hpp. *)
From Verif Require Import Base.
Local Open Scope Z_scope.

Set Implicit Arguments.

(** A signed machine integer type of [w] bits; leaving its range in arithmetic
    is undefined. *)
Definition in_range (w : Z) (x : Z) : Prop := - 2 ^ (w - 1) <= x < 2 ^ (w - 1).
Definition mach (w x : Z) : option Z :=
  if (- 2 ^ (w - 1) <=? x) && (x <? 2 ^ (w - 1)) then Some x else None.

(** search.hpp:10-21 [bisect_int(ok, ng, f)]. [std::abs] of the most negative
    value is undefined. The second component of the result lists the arguments
    [f] was called with, in order. *)
Definition bisect_int (w : Z) (fuel : nat) (ok ng : Z) (f : Z -> bool) : option (Z * list Z) :=
  loop fuel (fun '(ok, ng, tr) =>
    let* d := mach w (ng - ok) in
    let* a := mach w (Z.abs d) in
    if 1 <? a then
      let* d := mach w (ng - ok) in
      let* h := mach w (Z.quot d 2) in
      let* c := mach w (ok + h) in
      if f c then Some (inl (c, ng, tr ++ [c])) else Some (inl (ok, c, tr ++ [c]))
    else Some (inr (ok, tr))) (ok, ng, []).

(** boundint.hpp:11-16 constructor: clamps into [0, sup]. *)
Definition bi_make (sup v : Z) : Z :=
  let v := if v <? 0 then 0 else v in
  if sup <? v then sup else v.
(** boundint.hpp:32-35 [+=] *)
Definition bi_add (w sup a b : Z) : option Z :=
  let* d := mach w (sup - b) in
  if a <=? d then mach w (a + b) else Some sup.
(** boundint.hpp:36-39 [-=] *)
Definition bi_sub (w sup a b : Z) : option Z :=
  if b <=? a then mach w (a - b) else Some 0.
(** C++ [/] on [T]; dividing by zero is undefined. *)
Definition cdiv (w a b : Z) : option Z :=
  if b =? 0 then None else mach w (Z.quot a b).
(** boundint.hpp:40-43 [*=] *)
Definition bi_mul (w sup a b : Z) : option Z :=
  let* d := cdiv w sup b in
  if a <=? d then mach w (a * b) else Some sup.
(** boundint.hpp:44-47 [/=] *)
Definition bi_div (w sup a b : Z) : option Z := cdiv w a b.
(** boundint.hpp:17-22 [val] and the comparisons. *)
Definition bi_val (a : Z) : Z := a.
Definition bi_eq (a b : Z) : bool := a =? b.
Definition bi_lt (a b : Z) : bool := a <? b.
Definition bi_le (a b : Z) : bool := a <=? b.

Inductive bi_op := BAdd | BSub | BMul | BDiv.
Definition bi_apply (w sup : Z) (o : bi_op) (a b : Z) : option Z :=
  match o with
  | BAdd => bi_add w sup a b | BSub => bi_sub w sup a b
  | BMul => bi_mul w sup a b | BDiv => bi_div w sup a b
  end.
(** A running value combined with a history of operands, each built by the
    clamping constructor (boundint.hpp:48-51 build on the compound forms). *)
Definition bi_run (w sup a : Z) (h : list (bi_op * Z)) : option Z :=
  for_each h (fun '(o, v) a => bi_apply w sup o a (bi_make sup v)) a.

(** ** Specification *)
Definition clamp (sup x : Z) : Z := Z.max 0 (Z.min sup x).
Definition bi_spec (sup : Z) (o : bi_op) (a b : Z) : Z :=
  match o with
  | BAdd => clamp sup (a + b) | BSub => clamp sup (a - b)
  | BMul => clamp sup (a * b) | BDiv => clamp sup (a / b)
  end.
Definition bi_run_spec (sup a : Z) (h : list (bi_op * Z)) : Z :=
  fold_left (fun a '(o, v) => bi_spec sup o a (clamp sup v)) h a.
