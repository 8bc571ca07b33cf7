(** Model of include/mtl/scc.hpp ([SccGraph]) on top of the model of struct Graph. *)
From Verif Require Export Base GraphModel.
From Coq Require Export Permutation.
Set Implicit Arguments.

(** scc.hpp:5-8 *)
Record sccg := Sccg { sc_n : nat; sc_g : graph; sc_ig : graph }.
Definition scc_new (n : nat) : sccg := Sccg n (gr_make n) (gr_make n).
(** scc.hpp:10-13 *)
Definition scc_add (s : sccg) (a b : nat) : option sccg :=
  let* g := add_edge_dir (sc_g s) a b in
  let* ig := add_edge_dir (sc_ig s) b a in
  Some (Sccg (sc_n s) g ig).
Definition scc_build (n : nat) (es : list (nat * nat)) : option sccg :=
  for_each es (fun '(a, b) s => scc_add s a b) (scc_new n).

(** scc.hpp:19-25 [dfs] and 30-36 [rdfs]: the same function, on [g.g] with the stack [st] (its top
    first) and on [ig.g] with the vector [c] (its last element first). *)
Fixpoint scc_dfs (fuel : nat) (G : graph) (s : nat) (st : list bool * list nat) : option (list bool * list nat) :=
  match fuel with
  | O => None
  | S fuel =>
      let '(vis, out) := st in
      let* b := get vis s in
      if (b : bool) then Some (vis, out)
      else
        let* vis := set vis s true in
        let* adj := get (gr_g G) s in
        let* (vis, out) := for_each adj (fun t st => scc_dfs fuel G t st) (vis, out) in
        Some (vis, s :: out)
  end.
(** scc.hpp:37-43: the loop over the stack *)
Definition scc_collect (fuel : nat) (ig : graph) (st : list nat) (vis : list bool) : option (list bool * list (list nat)) :=
  for_each st (fun u '(vis, ret) =>
    let* b := get vis u in
    if (b : bool) then Some (vis, ret)
    else
      let* (vis, c) := scc_dfs fuel ig u (vis, []) in
      Some (vis, ret ++ [rev c])) (vis, []).
(** scc.hpp:15-44 *)
Definition scc (s : sccg) : option (list (list nat)) :=
  let n := sc_n s in
  let* (_, st) := for_up n 0 (fun i st => scc_dfs (n + 1) (sc_g s) i st) (repeat false n, []) in
  let* (_, ret) := scc_collect (n + 1) (sc_ig s) st (repeat false n) in
  Some ret.

(** ** Specification *)
(** [v] can be reached from [u]. *)
Inductive conn (A : list (nat * nat)) : nat -> nat -> Prop :=
| conn_refl u : conn A u u
| conn_step u v t : In (u, v) A -> conn A v t -> conn A u t.
(** The strongly connected components of the graph with vertices [0..n) and the arcs [A], each arc
    leading to the same or a later component. *)
Definition is_scc (n : nat) (A : list (nat * nat)) (cs : list (list nat)) : Prop :=
  Permutation (concat cs) (seq 0 n) /\
  (forall c, In c cs -> c <> []) /\
  (forall i c u v, nth_error cs i = Some c -> In u c -> v < n -> (In v c <-> conn A u v /\ conn A v u)) /\
  (forall i j ci cj u v, nth_error cs i = Some ci -> nth_error cs j = Some cj -> In u ci -> In v cj -> In (u, v) A -> i <= j).
