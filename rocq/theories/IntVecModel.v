(** Model of include/mtl/succinct/int_vector.hpp (IntVector<ElementSize>).
    Words are integers below 2^64; shifting by 64 or more is undefined. [size_t]
    arithmetic does not overflow. *)
From Verif Require Export Base.
Local Open Scope Z_scope.

Set Implicit Arguments.

Definition word := 2 ^ 64.
Definition shl (x : Z) (l : nat) : option Z := let* _ := guard (l <? 64)%nat in Some (Z.shiftl x (Z.of_nat l) mod word).
Definition shr (x : Z) (l : nat) : option Z := let* _ := guard (l <? 64)%nat in Some (Z.shiftr x (Z.of_nat l)).
(** [~x] of a [uint64_t] *)
Definition wnot (x : Z) : Z := word - 1 - x.
(** [value_type(-1)] *)
Definition ones : Z := word - 1.

Record intvec := IV { iv_size : nat; iv_arr : list Z }.

Section IntVec.
(** ElementSize *)
Variable es : nat.

(** int_vector.hpp:20-22 *)
Definition needs_size (n : nat) : nat := ((n * es + 64 - 1) / 64)%nat.
(** int_vector.hpp:19 *)
Definition iv_new (n : nat) : intvec := IV n (repeat 0 (needs_size n)).
(** int_vector.hpp:28-31; [std::vector::resize] value-initialises new words. *)
Definition iv_resize (s : intvec) (n : nat) : intvec :=
  let m := needs_size n in
  IV n (firstn m (iv_arr s) ++ repeat 0 (m - length (iv_arr s))).
(** int_vector.hpp:33-42 *)
Definition iv_set (s : intvec) (i : nat) (v : Z) : option intvec :=
  let j := (i * es)%nat in
  let k := (j / 64)%nat in
  let l := (j mod 64)%nat in
  let* w := get (iv_arr s) k in
  let* m := shl ones l in
  let* x := shl v l in
  let* arr := set (iv_arr s) k (Z.lor (Z.land w (wnot m)) x) in
  if (64 <? l + es)%nat then
    let* w := get arr (k + 1) in
    let* m := shl ones (l + es - 64) in
    let* x := shr v (64 - l) in
    let* arr := set arr (k + 1) (Z.lor (Z.land w m) x) in
    Some (IV (iv_size s) arr)
  else Some (IV (iv_size s) arr).
(** int_vector.hpp:43-47 *)
Definition iv_push_back (s : intvec) (v : Z) : option intvec :=
  let i := iv_size s in
  iv_set (iv_resize s (iv_size s + 1)) i v.
(** int_vector.hpp:48-57 *)
Definition iv_get (s : intvec) (i : nat) : option Z :=
  let j := (i * es)%nat in
  let k := (j / 64)%nat in
  let l := (j mod 64)%nat in
  let* w := get (iv_arr s) k in
  let* res := shr w l in
  if (64 <? l + es)%nat then
    let* w := get (iv_arr s) (k + 1) in
    let* m := shl ones (l + es - 64) in
    let* y := shl (Z.land w (wnot m)) (64 - l) in
    Some (Z.lor res y)
  else Some res.
(** int_vector.hpp:59 *)
Definition iv_back (s : intvec) : option Z :=
  let* _ := guard (0 <? iv_size s)%nat in iv_get s (iv_size s - 1).

Inductive iv_op := Set_ (i : nat) (v : Z) | Push (v : Z).
Definition iv_apply (o : iv_op) (s : intvec) : option intvec :=
  match o with Set_ i v => iv_set s i v | Push v => iv_push_back s v end.
Definition iv_run (h : list iv_op) (s : intvec) : option intvec := for_each h iv_apply s.
End IntVec.

(** * Specification *)
(** The vector of integers that a history produces *)
Definition vals_apply (o : iv_op) (l : list Z) : list Z :=
  match o with Set_ i v => lset l i v | Push v => l ++ [v] end.
Definition vals (h : list iv_op) (l : list Z) : list Z := fold_left (fun l o => vals_apply o l) h l.
(** Values fit in an element and indices are inside the vector. *)
Fixpoint iv_legal (es : nat) (n : nat) (h : list iv_op) : Prop :=
  match h with
  | [] => True
  | Set_ i v :: h => (i < n)%nat /\ 0 <= v < 2 ^ Z.of_nat es /\ iv_legal es n h
  | Push v :: h => 0 <= v < 2 ^ Z.of_nat es /\ iv_legal es (S n) h
  end.
