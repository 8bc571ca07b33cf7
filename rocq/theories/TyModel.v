(** Model of include/mtl/succinct/ty.hpp: [TY], a sequence kept as block heads and differences to them.
    A value type is its width [W], and whether it is signed; [dmax] is the largest [DiffType].
    Sizes and indices are naturals. *)
From Verif Require Import Base.
Set Implicit Arguments.

Section TY.
Variables (W : nat) (sg : bool) (dmax : Z).
(** The least and greatest value of [T], and a conversion to it. *)
Definition t_lo : Z := (if sg then - 2 ^ (Z.of_nat W - 1) else 0)%Z.
Definition t_hi : Z := (if sg then 2 ^ (Z.of_nat W - 1) - 1 else 2 ^ Z.of_nat W - 1)%Z.
Definition to_t (x : Z) : Z := ((x - t_lo) mod 2 ^ Z.of_nat W + t_lo)%Z.
(** ty.hpp:19, 49, 58: [max_diff] is [unsigned], compared after a cast to [value_type]. *)
Definition ty_max : Z := to_t (dmax mod 2 ^ 32).
(** ty.hpp:21-22 *)
Record ty := Ty { t_head : list Z; t_diff : list Z }.
(** ty.hpp:25 *)
Definition ty_new : ty := Ty [] [].
(** ty.hpp:34-36 *)
Definition ty_size (t : ty) : nat := length (t_head t) + length (t_diff t).
(** ty.hpp:42-62: [push_back] and [emplace_back], with both assertions; the difference is
    computed in [T] (signed overflow is undefined; types narrower than [int] fail the assertion). *)
Definition ty_push (t : ty) (v : Z) : option ty :=
  if (ty_size t mod W =? 0) then Some (Ty (t_head t ++ [v]) (t_diff t))
  else
    let* h := get (t_head t) (length (t_head t) - 1) in
    let* _ := guard (h <=? v)%Z in
    let* _ := guard (v - h <=? t_hi)%Z in
    let* _ := guard (v - h <=? ty_max)%Z in
    Some (Ty (t_head t) (t_diff t ++ [v - h]%Z)).
(** ty.hpp:66-72 *)
Definition ty_get (t : ty) (i : nat) : option Z :=
  let* h := get (t_head t) (i / W) in
  if (i mod W =? 0) then Some h
  else
    let* d := get (t_diff t) (i / W * (W - 1) + i mod W - 1) in
    Some (h + d)%Z.
(** ty.hpp:74-75; [size() - 1] wraps for an empty sequence. *)
Definition ty_front (t : ty) : option Z := ty_get t 0.
Definition ty_back (t : ty) : option Z :=
  let* _ := guard (0 <? ty_size t) in ty_get t (ty_size t - 1).
Definition ty_pushes (l : list Z) (t : ty) : option ty := for_each l (fun v t => ty_push t v) t.
(** [std::is_sorted] *)
Fixpoint is_sorted (l : list Z) : bool :=
  match l with a :: ((b :: _) as t) => (a <=? b)%Z && is_sorted t | _ => true end.
(** ty.hpp:26-33 *)
Definition ty_range (l : list Z) : option ty :=
  let* _ := guard (is_sorted l) in ty_pushes l ty_new.
End TY.
