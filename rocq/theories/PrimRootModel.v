(** Model of the compile-time primitive root search of include/mtl/modular.hpp
    (lines 291-343). [int] values are integers, machine arithmetic is checked:
    [mach w x] is [None] when [x] does not fit a signed type of [w] bits. *)
From Verif Require Import Base SearchModel BitModel.
Local Open Scope Z_scope.

Set Implicit Arguments.

(** modular.hpp:291-304 [mod_pow_constexpr]; [p] is an [int], so 32 rounds
    suffice. [t] and [u] are [long long]; the result is narrowed to [int]. *)
Definition mod_pow (x p m : Z) : option Z :=
  let* t := loop 33 (fun '(t, u, p) =>
    if p =? 0 then Some (inr t)
    else
      let* t := (if Z.odd p then let* t := mach 64 (t * u) in Some (Z.rem t m) else Some t) in
      let* u := mach 64 (u * u) in
      Some (inl (t, Z.rem u m, Z.shiftr p 1))) (1, x, p) in
  mach 32 t.

(** modular.hpp:324-325 the inner [while]: all factors [d] are removed from [x]. *)
Definition strip (d x : Z) : option Z :=
  loop 32 (fun x =>
    if Z.rem x d =? 0 then Some (inl (Z.quot x d)) else Some (inr x)) x.

(** [divs[cnt++] = d] on an [std::array<int, 20>]; the list is [divs[0..cnt)]. *)
Definition push_div (divs : list Z) (d : Z) : option (list Z) :=
  let* _ := guard (length divs <? 20)%nat in Some (divs ++ [d]).

(** modular.hpp:314-328 the prime divisors of [m-1]. *)
Definition prime_divs (m : Z) : option (list Z) :=
  let* x := mach 32 (m - 1) in
  let* (x, divs) :=
    (if Z.rem x 2 =? 0 then
       let* divs := push_div [] 2 in Some (Z.shiftr x (ctz (u64 x)), divs)
     else Some (x, [])) in
  let* (x, divs) := loop (Z.to_nat (Z.sqrt x + 2)) (fun '(d, x, divs) =>
    let* dd := mach 32 (d * d) in
    if dd <=? x then
      let* (x, divs) :=
        (if Z.rem x d =? 0 then
           let* divs := push_div divs d in
           let* x := strip d x in Some (x, divs)
         else Some (x, divs)) in
      Some (inl (d + 2, x, divs))
    else Some (inr (x, divs))) (3, x, divs) in
  if 1 <? x then push_div divs x else Some divs.

(** modular.hpp:330-336 the test of a candidate: [true] when no divisor [d] has
    [g^((m-1)/d) = 1]; the loop stops at the first failure. *)
Fixpoint root_test (m g : Z) (divs : list Z) : option bool :=
  match divs with
  | [] => Some true
  | d :: t =>
      let* v := mod_pow g (Z.quot (m - 1) d) m in
      if v =? 1 then Some false else root_test m g t
  end.

(** modular.hpp:306-340 [primitive_root_constexpr] *)
Definition primitive_root (m : Z) : option Z :=
  if m =? 2 then Some 1
  else if m =? 167772161 then Some 3
  else if m =? 469762049 then Some 3
  else if m =? 754974721 then Some 11
  else if m =? 880803841 then Some 26
  else if m =? 998244353 then Some 3
  else
    let* divs := prime_divs m in
    loop (Z.to_nat (m + 1)) (fun g =>
      if g <? m then
        let* ok := root_test m g divs in
        if ok then Some (inr g) else Some (inl (g + 1))
      else Some (inr (-1))) 2.

(** ** Specification *)
(** [g] generates the multiplicative group of Z/m: its powers with exponents
    below [m-1] are pairwise different and reach every nonzero residue. *)
Definition generator (m g : Z) : Prop :=
  (forall i j, 0 <= i < m - 1 -> 0 <= j < m - 1 -> g ^ i mod m = g ^ j mod m -> i = j) /\
  (forall a, 0 < a < m -> exists i, 0 <= i < m - 1 /\ g ^ i mod m = a).
