(** Specification of union-find: the equivalence closure of the united pairs. *)
From Verif Require Import Base UnionFindModel.
From Coq Require Import Relations.

Definition conn (pairs : list (nat * nat)) : nat -> nat -> Prop :=
  clos_refl_sym_trans nat (fun a b => In (a, b) pairs).

(** Arguments of a call are elements. *)
Definition uf_valid (n : nat) (c : uf_op) : Prop :=
  match c with
  | URoot u | USize u => u < n
  | USame _ u v => u < n /\ v < n
  | UUnite _ _ _ _ u v => u < n /\ v < n
  end.

(** What one call must return when [pairs] have been united so far. *)
Definition uf_answer (n : nat) (pairs : list (nat * nat)) (c : uf_op) (o : uf_out) : Prop :=
  match c, o with
  | URoot u, ORoot r => r < n /\ conn pairs u r
  | USame _ u v, OSame b => b = true <-> conn pairs u v
  | USize u, OSize s => exists l, NoDup l /\ (forall v, In v l <-> v < n /\ conn pairs u v) /\ s = Z.of_nat (length l)
  | UUnite _ _ _ _ u v, OUnite b => b = true <-> ~ conn pairs u v
  | _, _ => False
  end.

Definition uf_pairs (pairs : list (nat * nat)) (c : uf_op) : list (nat * nat) :=
  match c with UUnite _ _ _ _ u v => (u, v) :: pairs | _ => pairs end.

(** Every call of the history is answered correctly at its moment. *)
Fixpoint uf_answers (n : nat) (pairs : list (nat * nat)) (h : list uf_op) (os : list uf_out) : Prop :=
  match h, os with
  | [], [] => True
  | c :: h', o :: os' => uf_answer n pairs c o /\ uf_answers n (uf_pairs pairs c) h' os'
  | _, _ => False
  end.
