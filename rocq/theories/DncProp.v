(** C22: SegmentTreeDivideAndConquer. *)
From Coq Require Import Permutation.
From Verif Require Import Base BaseLemmas DncModel DncProof.

(** For every time span and set of intervals (within the span): the events of
    the traversal replay on a stack without ever undoing more than was applied;
    at the end nothing is applied; the callback runs once for each time, in
    increasing order; and at that moment the applied updates are exactly those
    whose interval contains the time, each once. *)
Theorem C22_divide_and_conquer : forall X time (h : list (nat * nat * X)),
  Forall (fun '(l, r, _) => l < r -> r <= time) h ->
  exists ev out, dn_run time h = Some ev /\ replay ev [] = Some (out, []) /\
    map fst out = seq 0 time /\
    Forall (fun '(t, st) => Permutation (concat st) (active h t)) out.
Proof. intros X time h F. now apply run_ok. Qed.

Example C22_example :
  exists ev, dn_run 5 [(0, 3, 10); (2, 5, 20); (1, 4, 30); (0, 5, 40); (3, 3, 50)] = Some ev /\
  replay ev [] = Some ([(0, [[]; [10]; [40]; []]); (1, [[30]; [10]; [40]; []]);
    (2, [[10]; [20; 30]; [40]; []]); (3, [[]; [20; 30]; [40]; []]); (4, [[20; 40]; []; []; []])], []).
Proof. eexists. split; [vm_compute; reflexivity|]. vm_compute. reflexivity. Qed.

Print Assumptions C22_divide_and_conquer.
