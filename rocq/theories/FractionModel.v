(** Model of include/mtl/fraction.hpp.

    [long long] is 64-bit: a result outside the range is undefined behaviour ([None]).
    Of the comparisons, [cmp] stands for C++20's [<=>] and [lt], [le], [eq] for the
    operators of the other branch; the remaining ones are their mirror images.  In C++20
    [operator==(long long, FractionOrdering)] (line 56) returns an ordering instead of a
    [bool] and [x == f] does not compile as a condition; it is left out, like the floating
    point [get<T>]. *)
From Coq Require Export ZArith List.
From Coq Require Import QArith.
From Verif Require Export Base.
Export ListNotations.
Open Scope Z_scope.

(** The result of a [long long] operation *)
Definition ck (x : Z) : option Z := if (- 2 ^ 63 <=? x) && (x <? 2 ^ 63) then Some x else None.
Definition add64 (x y : Z) := ck (x + y).
Definition sub64 (x y : Z) := ck (x - y).
Definition mul64 (x y : Z) := ck (x * y).
Definition neg64 (x : Z) := ck (- x).
(** Truncating division *)
Definition div64 (x y : Z) : option Z := let* _ := guard (negb (y =? 0)) in ck (Z.quot x y).
(** std::gcd: the absolute values must be representable. *)
Definition gcd64 (x y : Z) : option Z :=
  let* _ := ck (Z.abs x) in let* _ := ck (Z.abs y) in Some (Z.gcd x y).
(** Conversion of a [long long] to [int] *)
Definition to_int (x : Z) : Z := (x + 2 ^ 31) mod 2 ^ 32 - 2 ^ 31.

Record frac := Frac { fnum : Z; fden : Z }.

(** fraction.hpp:15-23 *)
Definition f_make (u v : Z) : option frac :=
  let* _ := guard (negb (v =? 0)) in
  if u =? 0 then Some (Frac u 1)
  else if v <? 0 then
    let* u := neg64 u in
    let* v := neg64 v in
    Some (Frac u v)
  else Some (Frac u v).
(** fraction.hpp:25-31 and 120-123 *)
Definition f_reduct (f : frac) : option frac :=
  let* g := gcd64 (fnum f) (fden f) in
  let g := to_int g in
  let* u := div64 (fnum f) g in
  let* v := div64 (fden f) g in
  f_make u v.
(** fraction.hpp:40-42, FractionOrdering *)
Definition fo_make (u v : Z) : option frac :=
  let* u := if 0 <=? v then Some u else neg64 u in
  let* v := ck (Z.abs v) in
  f_make u v.

(** fraction.hpp:178-180 *)
Definition f_neg (f : frac) : option frac := let* u := neg64 (fnum f) in f_make u (fden f).
(** fraction.hpp:125-136 *)
Definition f_add (f r : frac) : option frac :=
  let* g := gcd64 (fden f) (fden r) in
  let* rvbg := div64 (fden r) g in
  let* nv := mul64 (fden f) rvbg in
  let* a := mul64 (fnum f) rvbg in
  let* vg := div64 (fden f) g in
  let* b := mul64 (fnum r) vg in
  let* nu := add64 a b in
  Some (Frac nu nv).
(** fraction.hpp:137-142 *)
Definition f_sub (f r : frac) : option frac := let* r := f_neg r in f_add f r.
(** fraction.hpp:143-153 *)
Definition f_mul (f r : frac) : option frac :=
  let* nv := mul64 (fden f) (fden r) in
  let* nu := mul64 (fnum f) (fnum r) in
  let* g := gcd64 nu nv in
  let* u := div64 nu g in
  let* v := div64 nv g in
  Some (Frac u v).
(** fraction.hpp:154-157 *)
Definition f_inv (f : frac) : option frac :=
  let* _ := guard (negb (fnum f =? 0)) in f_make (fden f) (fnum f).
(** fraction.hpp:158-163 *)
Definition f_div (f r : frac) : option frac := let* r := f_inv r in f_mul f r.
(** fraction.hpp:164-170 *)
Definition f_add_int (f : frac) (x : Z) : option frac :=
  let* y := mul64 x (fden f) in let* u := add64 (fnum f) y in f_reduct (Frac u (fden f)).
(** fraction.hpp:171-177 *)
Definition f_sub_int (f : frac) (x : Z) : option frac :=
  let* y := mul64 x (fden f) in let* u := sub64 (fnum f) y in f_reduct (Frac u (fden f)).
(** fraction.hpp:181-187 *)
Definition f_mul_int (f : frac) (x : Z) : option frac :=
  let* u := mul64 (fnum f) x in f_reduct (Frac u (fden f)).
(** fraction.hpp:188-194 *)
Definition f_div_int (f : frac) (x : Z) : option frac :=
  let* v := mul64 (fden f) x in f_reduct (Frac (fnum f) v).
(** fraction.hpp:198-200 *)
Definition f_int_sub (x : Z) (r : frac) : option frac := let* r := f_neg r in f_add_int r x.
(** fraction.hpp:204-206 *)
Definition f_int_div (x : Z) (r : frac) : option frac := let* r := f_inv r in f_mul_int r x.

(** fraction.hpp:44-52, 212-218 *)
Definition f_cmp (f r : frac) : option comparison :=
  let* lv := mul64 (fnum f) (fden r) in
  let* rv := mul64 (fden f) (fnum r) in
  Some (lv ?= rv).
(** fraction.hpp:44-46, 212-214 *)
Definition f_eq (f r : frac) : option bool :=
  let* a := mul64 (fnum f) (fden r) in let* b := mul64 (fden f) (fnum r) in Some (a =? b).
(** fraction.hpp:63-68 *)
Definition f_lt (f r : frac) : option bool :=
  let* a := mul64 (fnum f) (fden r) in let* b := mul64 (fden f) (fnum r) in Some (a <? b).
Definition f_le (f r : frac) : option bool :=
  let* a := mul64 (fnum f) (fden r) in let* b := mul64 (fden f) (fnum r) in Some (a <=? b).
(** fraction.hpp:53-55, 75-86 *)
Definition f_cmp_int (f : frac) (x : Z) : option comparison :=
  let* b := mul64 (fden f) x in Some (fnum f ?= b).

(** * Specification *)
(** The number a fraction stands for *)
Definition value (f : frac) : Q := Qmake (fnum f) (Z.to_pos (fden f)).
(** A fraction as it is stored: positive denominator, [long long] components. *)
Definition good (f : frac) : Prop := (- 2 ^ 63 <= fnum f < 2 ^ 63)%Z /\ (0 < fden f < 2 ^ 63)%Z.
