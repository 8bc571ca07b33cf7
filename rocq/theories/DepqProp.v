From Coq Require Import Permutation.
From Verif Require Import Base Order DepqModel DepqProof.

(** C26.  A double-ended priority queue built from a range whose length is not
    3 modulo 4 (in particular an empty one) answers every sequence of
    operations as a multiset does. *)
Theorem C26_depq : forall (T : Type) (ltb : T -> T -> bool), weak_order ltb ->
  forall (xs : list T) (ops : list (op T)),
    length xs mod 4 <> 3 -> legal (length xs) ops ->
    exists a rs a', dq_range ltb xs = Some a /\ run ltb a ops = Some (rs, a') /\ spec_run ltb xs ops rs.
Proof.
  intros T ltb W xs ops M Lg. destruct (range_ok T ltb W xs M) as (a & E & P & V).
  destruct (run_ok T ltb W ops a xs V P Lg) as (rs & a' & E2 & S). eauto 8.
Qed.

(** The range constructor is wrong for other lengths: from {5, 4, 1} it builds
    a queue whose minimum is 4. *)
Theorem C26_range_refuted : ~ forall (xs : list nat) (ops : list (op nat)),
    legal (length xs) ops ->
    exists a rs a', dq_range Nat.ltb xs = Some a /\ run Nat.ltb a ops = Some (rs, a') /\ spec_run Nat.ltb xs ops rs.
Proof.
  intros H. destruct (H [5; 4; 1] [Min nat]) as (a & rs & a' & E1 & E2 & Sp).
  - cbn. lia.
  - vm_compute in E1. injection E1 as <-. vm_compute in E2. injection E2 as <- <-.
    inversion Sp as [|? ? ? ? ? ? S1]; subst. inversion S1 as [| | |? ? [_ L]| | | |]; subst.
    specialize (L 1 ltac:(cbn; auto)). discriminate.
Qed.

Example C26_example :
  (let* a := dq_range Nat.ltb [3; 9; 2; 7; 5] in
   let* (rs, _) := run Nat.ltb a [Min nat; Max nat; Push 1; Push 8; PopMax nat; Max nat; PopMin nat; Min nat; PopMin nat; Min nat; Size nat] in
   Some rs) =
  Some [OVal 2; OVal 9; ONone nat; ONone nat; ONone nat; OVal 8; ONone nat; OVal 2; ONone nat; OVal 3; ONum nat 4].
Proof. reflexivity. Qed.

Print Assumptions C26_depq.
Print Assumptions C26_range_refuted.
