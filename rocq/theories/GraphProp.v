From Verif Require Import Base BaseLemmas SearchModel GraphModel GraphProof.

(** C29.  Exact distances: the entry of [v] is the length of a shortest walk, or
    [INF] exactly when there is no walk, provided [INF] is at least the number of
    vertices and fits the distance type. *)
Theorem C29_bfs : forall (w : Z) (n : nat) (es : list edge) (s : nat) (INF : Z),
  edges_ok n es -> s < n -> (Z.of_nat n <= INF < 2 ^ (w - 1))%Z ->
  exists G dist, build n es = Some G /\ bfs w G s INF = Some dist /\ length dist = n /\
    forall v, v < n -> exists d, nth_error dist v = Some d /\
      ((exists k, d = Z.of_nat k /\ walk (arcs es) k s v /\ forall k', walk (arcs es) k' s v -> k <= k') \/
       (d = INF /\ forall k, ~ walk (arcs es) k s v)).
Proof.
  intros w n es s INF Ok Hs HI. destruct (build_ok n es Ok) as (G & E & R).
  destruct (bfs_ok w G n (arcs es) s INF R Hs HI) as (dist & Eb & L & H). exists G, dist. split; [auto|]. split; [auto|]. split; [auto|].
  intros v Hv. exists (dget INF dist v). split; [unfold dget; apply nth_error_nth'; lia|]. exact (H v Hv).
Qed.

Definition demo_edges : list edge := [Dir 0 1; Dir 0 2; Dir 1 3; Dir 2 3; Dir 3 4; Dir 0 1; Both 4 5].
Example C29_example : match build 7 demo_edges with Some G => bfs 32 G 0 100 | None => None end = Some [0; 1; 1; 2; 3; 4; 100]%Z.
Proof. reflexivity. Qed.
(** With an [INF] not above the distances reachable vertices are lost. *)
Example C29_small_inf : match build 4 [Dir 0 1; Dir 1 2; Dir 2 3] with Some G => bfs 32 G 0 2 | None => None end = Some [0; 1; 2; 2]%Z.
Proof. reflexivity. Qed.

(** C30.  The sort succeeds iff the graph has no directed cycle, and then gives a
    topological order of all vertices. *)
Theorem C30_topological_sort : forall (n : nat) (es : list edge), edges_ok n es ->
  exists G b order, build n es = Some G /\ topological_sort G = Some (b, order) /\
    (b = true <-> acyclic (arcs es)) /\ (b = true -> topological n (arcs es) order).
Proof.
  intros n es Ok. destruct (build_ok n es Ok) as (G & E & R). destruct (topo_ok G n (arcs es) R) as (order & Et & H1 & H2).
  exists G, (length order =? n), order. split; [auto|]. split; [auto|]. rewrite Nat.eqb_eq. split; [auto|]. intros L. apply H2, H1, L.
Qed.

Example C30_example : match build 6 [Dir 5 0; Dir 5 2; Dir 4 0; Dir 4 1; Dir 2 3; Dir 3 1; Dir 5 2] with Some G => topological_sort G | None => None end
  = Some (true, [4; 5; 0; 2; 3; 1]).
Proof. reflexivity. Qed.
Example C30_cycle_example : match build 4 [Dir 0 1; Dir 1 2; Dir 2 1; Dir 2 3] with Some G => topological_sort G | None => None end
  = Some (false, [0]).
Proof. reflexivity. Qed.

Print Assumptions C29_bfs.
Print Assumptions C30_topological_sort.
