(** Specification of the dual tables: the operators covering a position, in
    the order of the calls. *)
From Verif Require Import Base.
Set Implicit Arguments.

Definition covering {A} (i : nat) (h : list (nat * nat * A)) : list A :=
  map snd (filter (fun '(l, r, _) => (l <=? i) && (i <? r)) h).
