(** Model of include/mtl/modular.hpp: Modular, DynamicModular, ModularUtil. A
    value is its [val_], an [unsigned int] in [0, 2^32). [m] is mod(). *)
From Verif Require Import Base SearchModel BitModel.
Local Open Scope Z_scope.

Set Implicit Arguments.

Definition u32 (x : Z) : Z := x mod 2 ^ 32.

Section Mod.
Variable m : Z.

(** modular.hpp:12-17, 25-29 constructor from a signed integral: C++ [%]
    truncates towards zero. *)
Definition m_signed (v : Z) : Z :=
  let x := Z.rem v m in
  let x := if x <? 0 then x + m else x in
  u32 x.
(** modular.hpp:20-24 constructor from an unsigned integral *)
Definition m_unsigned (v : Z) : Z := u32 (v mod m).
(** modular.hpp:32-36 [+=] *)
Definition m_add (a b : Z) : Z :=
  let v := u32 (a + b) in
  if m <=? v then u32 (v - m) else v.
(** modular.hpp:37 unary [-] *)
Definition m_neg (a : Z) : Z := m_unsigned (u32 (m - a)).
(** modular.hpp:38-42 [-=] *)
Definition m_sub (a b : Z) : Z :=
  let v := u32 (a + u32 (m - b)) in
  if m <=? v then u32 (v - m) else v.
(** modular.hpp:43-48 [*=]; the product is a [long long]. *)
Definition m_mul (a b : Z) : option Z :=
  let* v := mach 64 (a * b) in
  let v := if m <=? v then v mod m else v in
  Some (u32 v).
(** modular.hpp:49-60 [pow]; [p] is a [long long], so 64 rounds suffice. *)
Definition m_pow (a p : Z) : option Z :=
  let* _ := guard (0 <=? p) in
  loop 65 (fun '(t, u, p) =>
    if p =? 0 then Some (inr t)
    else
      let* t := (if Z.odd p then m_mul t u else Some t) in
      let* u := m_mul u u in
      Some (inl (t, u, Z.shiftr p 1))) (m_signed 1, a, p).
(** modular.hpp:64 [inv] *)
Definition m_inv (a : Z) : option Z := m_pow a (u32 (m - 2)).
(** modular.hpp:65 [/=] *)
Definition m_div (a b : Z) : option Z := let* i := m_inv b in m_mul a i.
(** modular.hpp:70-73 increment and decrement *)
Definition m_inc (a : Z) : Z := m_add a (m_signed 1).
Definition m_dec (a : Z) : Z := m_sub a (m_signed 1).
(** modular.hpp:75-76 [==] *)
Definition m_eq (a b : Z) : bool := a =? b.
(** modular.hpp:130-132 [operator>>] stores the number read unchanged. *)
Definition m_read (v : Z) : Z := u32 v.

(** modular.hpp:78-80 [Modular::is_square] *)
Definition m_is_square (a : Z) : option bool :=
  let* x := m_pow a (u32 (m - 1) / 2) in Some (m_eq x (m_signed 1)).
(** modular.hpp:224-226 [DynamicModular::is_square] *)
Definition d_is_square (a : Z) : option bool :=
  if a =? 0 then Some true else m_is_square a.

(** modular.hpp:97-99 (and 245-247): the first non-square from 2 on. *)
Definition find_nonsquare (fuel : nat) (issq : Z -> option bool) : option Z :=
  loop fuel (fun d =>
    let* b := issq d in
    if b then Some (inl (m_add d (m_signed 1))) else Some (inr d)) (m_signed 2).

(** modular.hpp:88-118 (and 236-266): the three cases of [sqrt]. *)
Definition sqrt_body (fuel : nat) (issq : Z -> option bool) (x : Z) : option Z :=
  let e := m mod 8 in
  if (e =? 3) || (e =? 7) then m_pow x (u32 (m + 1) / 4)
  else if e =? 5 then
    let* y := m_pow x (u32 (m + 3) / 8) in
    let* yy := m_mul y y in
    if negb (m_eq yy x) then
      let* z := m_pow (m_signed 2) (u32 (m - 1) / 4) in m_mul y z
    else Some y
  else
    let* d := find_nonsquare fuel issq in
    let t := u32 (m - 1) in
    let s := ctz t in
    let t := Z.shiftr t s in
    let* a := m_pow x t in
    let* D := m_pow d t in
    let* (k, dt, du) := for_up (Z.to_nat s) 0 (fun i '(k, dt, du) =>
      let* y := m_mul a dt in
      let* z := m_pow y (Z.shiftl 1 (s - 1 - Z.of_nat i)) in
      let* (k, dt) :=
        (if m_eq z (m_signed (-1)) then
           let* dt := m_mul dt du in Some (Z.lor k (Z.shiftl 1 (Z.of_nat i)), dt)
         else Some (k, dt)) in
      let* du := m_mul du du in
      Some (k, dt, du)) (0, m_signed 1, D) in
    let* r := m_pow x ((t + 1) / 2) in
    let* q := m_pow D (k / 2) in
    m_mul r q.

(** modular.hpp:85-119 [Modular::sqrt]: the inner [None] is the exception. *)
Definition m_sqrt (fuel : nat) (x : Z) : option (option Z) :=
  let* b := m_is_square x in
  if negb b then Some None
  else let* r := sqrt_body fuel m_is_square x in Some (Some r).
(** modular.hpp:231-267 [DynamicModular::sqrt] *)
Definition d_sqrt (fuel : nat) (x : Z) : option (option Z) :=
  let* b := d_is_square x in
  if negb b then Some None
  else if x <? 2 then Some (Some (m_unsigned x))
  else let* r := sqrt_body fuel d_is_square x in Some (Some r).

(** modular.hpp:283-300 [ModularUtil]: the growing table of inverses. *)
Definition util_init : list Z := [m_signed 0; m_signed 1].
Definition util_set_inv (tb : list Z) (n : nat) : option (list Z) :=
  let k := length tb in
  if (n <? k)%nat then Some tb
  else
    for_up (n + 1 - k) k (fun i tb =>
      let* v := get tb (Z.to_nat (Z.rem m (Z.of_nat i))) in
      let* w := m_mul (m_neg v) (m_signed (Z.quot m (Z.of_nat i))) in
      set tb i w) (tb ++ repeat 0 (n + 1 - k)).
Definition util_inv (tb : list Z) (i : nat) : option (Z * list Z) :=
  let* tb := util_set_inv tb i in
  let* v := get tb i in Some (v, tb).
Definition util_run (h : list nat) : option (list Z * list Z) :=
  for_each h (fun i '(out, tb) =>
    let* (v, tb) := util_inv tb i in Some (out ++ [v], tb)) ([], util_init).

(** ** Ring expressions over the class *)
Inductive m_expr :=
| EInt (v : Z) | EUInt (v : Z) | EAdd (a b : m_expr) | ESub (a b : m_expr) | EMul (a b : m_expr)
| ENeg (a : m_expr) | EInc (a : m_expr) | EDec (a : m_expr) | EPow (a : m_expr) (k : Z).
Fixpoint m_eval (e : m_expr) : option Z :=
  match e with
  | EInt v => Some (m_signed v)
  | EUInt v => Some (m_unsigned v)
  | EAdd a b => let* x := m_eval a in let* y := m_eval b in Some (m_add x y)
  | ESub a b => let* x := m_eval a in let* y := m_eval b in Some (m_sub x y)
  | EMul a b => let* x := m_eval a in let* y := m_eval b in m_mul x y
  | ENeg a => let* x := m_eval a in Some (m_neg x)
  | EInc a => let* x := m_eval a in Some (m_inc x)
  | EDec a => let* x := m_eval a in Some (m_dec x)
  | EPow a k => let* x := m_eval a in m_pow x k
  end.
End Mod.

(** ** Specification: the same expression over the integers *)
Fixpoint z_eval (e : m_expr) : Z :=
  match e with
  | EInt v => v | EUInt v => v
  | EAdd a b => z_eval a + z_eval b
  | ESub a b => z_eval a - z_eval b
  | EMul a b => z_eval a * z_eval b
  | ENeg a => - z_eval a
  | EInc a => z_eval a + 1
  | EDec a => z_eval a - 1
  | EPow a k => z_eval a ^ k
  end.
(** Constants and exponents fit their C++ types. *)
Fixpoint m_typed (e : m_expr) : Prop :=
  match e with
  | EInt v => in_range 64 v
  | EUInt v => 0 <= v < 2 ^ 64
  | EAdd a b | ESub a b | EMul a b => m_typed a /\ m_typed b
  | ENeg a | EInc a | EDec a => m_typed a
  | EPow a k => m_typed a /\ 0 <= k < 2 ^ 63
  end.
