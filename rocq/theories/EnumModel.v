(** Model of include/mtl/enumerate.hpp over the Modular class ([m] = mod()). *)
From Verif Require Import Base SearchModel ModularModel.
Local Open Scope Z_scope.

Set Implicit Arguments.

(** enumerate.hpp:11-12 [max_n_], [fact_], [ifact_] *)
Record enum := mk_enum { en_max : Z; en_fact : list Z; en_ifact : list Z }.

(** [v[i]] with an [int] index: a negative one is out of range. *)
Definition getz (l : list Z) (i : Z) : option Z :=
  if i <? 0 then None else get l (Z.to_nat i).
(** [v.resize(n)]; the default-constructed Modular is 0. *)
Definition resize (l : list Z) (n : nat) : list Z := firstn n l ++ repeat 0 (n - length l).

Section Enum.
Variable m : Z.

(** enumerate.hpp:46-62 [_set_max_n] *)
Definition set_max_n (s : enum) (n : Z) : option enum :=
  if n <=? en_max s then Some s
  else
    let* d := mach 32 (en_max s * 2) in
    let nxt := Z.max d n in
    let* sz := mach 32 (nxt + 1) in
    let k := Z.to_nat (en_max s) in
    let cnt := (Z.to_nat nxt - k)%nat in
    let* fact := for_up cnt (k + 1) (fun i f =>
      let* a := get f (i - 1) in
      let* v := m_mul m a (m_signed m (Z.of_nat i)) in
      set f i v) (resize (en_fact s) (Z.to_nat sz)) in
    let* last := getz fact nxt in
    let* v := m_div m (m_signed m 1) last in
    let* ifact := set (resize (en_ifact s) (Z.to_nat sz)) (Z.to_nat nxt) v in
    let* ifact := for_down (cnt - 1) (k + 1) (fun i f =>
      let* a := get f (i + 1) in
      let* v := m_mul m a (m_signed m (Z.of_nat i + 1)) in
      set f i v) ifact in
    Some (mk_enum nxt fact ifact).

(** enumerate.hpp:17 [Enumerate()] *)
Definition enum_default : enum :=
  mk_enum 1 [m_signed m 1; m_signed m 1] [m_signed m 1; m_signed m 1].
(** enumerate.hpp:18-21 [Enumerate(n)]: the new elements are 0, then indices 0
    and 1 are set. *)
Definition enum_make (n : Z) : option enum :=
  let* sz := mach 32 (n + 1) in
  let k := Z.to_nat (Z.max 2 sz) in
  let tb := m_signed m 1 :: m_signed m 1 :: repeat 0 (k - 2) in
  set_max_n (mk_enum 1 tb tb) n.

(** enumerate.hpp:33-37 [fact] *)
Definition e_fact (p : Z) (s : enum) : option (Z * enum) :=
  let* s := (if en_max s <? p then set_max_n s p else Some s) in
  let* v := getz (en_fact s) p in Some (v, s).
(** enumerate.hpp:38-42 [ifact] *)
Definition e_ifact (p : Z) (s : enum) : option (Z * enum) :=
  let* s := (if en_max s <? p then set_max_n s p else Some s) in
  let* v := getz (en_ifact s) p in Some (v, s).

(** The operands of [*] may be evaluated in either order: [b] tells which. *)
Definition mul_of (b : bool) (f g : enum -> option (Z * enum)) (s : enum) : option (Z * enum) :=
  if b then
    let* (x, s) := f s in let* (y, s) := g s in let* v := m_mul m x y in Some (v, s)
  else
    let* (y, s) := g s in let* (x, s) := f s in let* v := m_mul m x y in Some (v, s).

(** enumerate.hpp:23-26 [cmb] *)
Definition e_cmb (b1 b2 : bool) (p q : Z) (s : enum) : option (Z * enum) :=
  if p <? q then Some (m_signed m 0, s)
  else
    let* d := mach 32 (p - q) in
    mul_of b1 (mul_of b2 (e_fact p) (e_ifact q)) (e_ifact d) s.
(** enumerate.hpp:28-31 [prm] *)
Definition e_prm (b : bool) (p q : Z) (s : enum) : option (Z * enum) :=
  if p <? q then Some (m_signed m 0, s)
  else
    let* d := mach 32 (p - q) in
    mul_of b (e_fact p) (e_ifact d) s.

Inductive e_op := EFact (p : Z) | EIfact (p : Z) | ECmb (b1 b2 : bool) (p q : Z) | EPrm (b : bool) (p q : Z).
Definition e_step (o : e_op) : enum -> option (Z * enum) :=
  match o with
  | EFact p => e_fact p | EIfact p => e_ifact p
  | ECmb b1 b2 p q => e_cmb b1 b2 p q | EPrm b p q => e_prm b p q
  end.
Definition e_make (n : option Z) : option enum :=
  match n with None => Some enum_default | Some n => enum_make n end.
Definition e_run (n : option Z) (h : list e_op) : option (list Z * enum) :=
  let* s := e_make n in
  for_each h (fun o '(out, s) => let* (v, s) := e_step o s in Some (out ++ [v], s)) ([], s).
End Enum.

(** ** Specification *)
(** The number of [q]-subsets of a [p]-set, by Pascal's rule. *)
Fixpoint choose (p q : nat) : Z :=
  match q, p with
  | O, _ => 1
  | S _, O => 0
  | S q', S p' => choose p' q' + choose p' q
  end.
(** [p (p-1) ... (p-q+1)], the number of injections. *)
Fixpoint falling (p q : nat) : Z :=
  match q, p with
  | O, _ => 1
  | S _, O => 0
  | S q', S p' => Z.of_nat p * falling p' q'
  end.
Fixpoint zfact (n : nat) : Z := match n with O => 1 | S k => Z.of_nat n * zfact k end.

(** What a call must return. *)
Definition e_spec (m : Z) (o : e_op) (v : Z) : Prop :=
  0 <= v < m /\
  match o with
  | EFact p => v = zfact (Z.to_nat p) mod m
  | EIfact p => (v * zfact (Z.to_nat p)) mod m = 1 mod m
  | ECmb _ _ p q => v = if p <? q then 0 else choose (Z.to_nat p) (Z.to_nat q) mod m
  | EPrm _ p q => v = if p <? q then 0 else falling (Z.to_nat p) (Z.to_nat q) mod m
  end.
(** The arguments for which this is promised: non-negative, and small enough for
    the doubling table to stay below the modulus. *)
Definition e_small (m : Z) (n : option Z) (p : Z) : Prop :=
  0 <= p < m /\ (p <= match n with Some n => Z.max 1 n | None => 1 end \/ 2 * p - 2 < m).
Definition e_pre (m : Z) (n : option Z) (o : e_op) : Prop :=
  match o with
  | EFact p | EIfact p => e_small m n p
  | ECmb _ _ p q | EPrm _ p q => p < q \/ (0 <= q /\ e_small m n p)
  end.
