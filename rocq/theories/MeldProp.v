(** C25: MeldableHeap. *)
From Coq Require Import Permutation.
From Verif Require Import Base BaseLemmas Order MeldModel MeldProof.

(** For every strict weak order, every outcome of rand(), and every program over
    any number of heaps that does not touch a heap melded away (except to clear
    it) nor take the top of an empty one: the program runs, and its outputs are
    those of multisets: top is a greatest element, pop removes one. *)
Theorem C25_meldable_heap : forall T (ltb : T -> T -> bool), weak_order ltb ->
  forall coin ops, legal [] ops ->
  exists rs st bs, run ltb coin (start T) ops = Some (rs, st) /\ spec_run ltb [] ops rs bs.
Proof.
  intros T ltb W coin ops L. apply (run_ok T ltb W coin ops (start T) [] (fun _ => Lf T)); auto.
  constructor; cbn; auto; intros; try lia. destruct i; discriminate.
Qed.

(** [meld] does not clear its argument, which keeps its root: the same element
    can then be popped from both heaps. *)
Theorem C25_meld_alias_refuted : forall coin,
  exists st, run Nat.ltb coin (start nat)
    [New _; New _; Push 0 1; Push 1 2; Meld _ 0 1; Size _ 1; Pop _ 1; Pop _ 0]
  = Some ([ONone _; ONone _; ONone _; ONone _; ONone _; ONum _ 1; OVal 2; OVal 2], st).
Proof. intros coin. destruct (coin 0) eqn:E0; eexists; cbv; rewrite E0; cbv; reflexivity. Qed.

Example C25_example :
  let ops := [Range [3; 1; 4; 1; 5]; New _; Push 1 9; Push 1 2; Meld _ 0 1; Pop _ 0; Top _ 0; Pop _ 0; Size _ 0;
              Clear _ 1; Push 1 7; Pop _ 1; Empty _ 1] in
  legal [] ops /\
  exists st, run Nat.ltb (fun k => Nat.odd (k / 3)) (start nat) ops
  = Some ([ONone _; ONone _; ONone _; ONone _; ONone _; OVal 9; OVal 5; OVal 5; ONum _ 5; ONone _; ONone _; OVal 7; OBool _ true], st).
Proof. split; [exact Logic.I|]. eexists. vm_compute. reflexivity. Qed.

Print Assumptions C25_meldable_heap.
Print Assumptions C25_meld_alias_refuted.
