(** Model of struct Graph in include/mtl/graph.hpp. Vertices are [nat]; an index
    outside [0, n) is undefined behaviour. *)
From Verif Require Import Base SearchModel.

Set Implicit Arguments.

(** graph.hpp:5-11 *)
Record graph := mk_graph { gr_n : nat; gr_g : list (list nat); gr_in : list nat }.
Definition gr_make (n : nat) : graph := mk_graph n (repeat [] n) (repeat 0 n).
(** graph.hpp:13-16 *)
Definition add_edge_dir (G : graph) (a b : nat) : option graph :=
  let* l := get (gr_g G) a in
  let* g := set (gr_g G) a (l ++ [b]) in
  let* c := get (gr_in G) b in
  let* i := set (gr_in G) b (c + 1) in
  Some (mk_graph (gr_n G) g i).
(** graph.hpp:17-20 *)
Definition add_edge (G : graph) (a b : nat) : option graph :=
  let* G := add_edge_dir G a b in add_edge_dir G b a.

Inductive edge := Dir (a b : nat) | Both (a b : nat).
Definition add (G : graph) (e : edge) : option graph :=
  match e with Dir a b => add_edge_dir G a b | Both a b => add_edge G a b end.
Definition build (n : nat) (es : list edge) : option graph :=
  for_each es (fun e G => add G e) (gr_make n).

(** graph.hpp:27-44 [bfs] with a signed [w]-bit distance type *)
Definition bfs (w : Z) (G : graph) (s : nat) (INF : Z) : option (list Z) :=
  let* dist := set (repeat INF (gr_n G)) s 0%Z in
  loop (gr_n G + 1) (fun '(q, dist) =>
    match q with
    | [] => Some (inr dist)
    | c :: q =>
        let* d := get dist c in
        let* adj := get (gr_g G) c in
        let* (q, dist) := for_each adj (fun t '(q, dist) =>
          let* dt := get dist t in
          let* d1 := mach w (d + 1) in
          if (dt <=? d1)%Z then Some (q, dist)
          else let* dist := set dist t d1 in Some (q ++ [t], dist)) (q, dist) in
        Some (inl (q, dist))
    end) ([s], dist).

(** graph.hpp:51-58 the recursive lambda of [topological_sort] *)
Fixpoint topo_dfs (fuel : nat) (G : graph) (s : nat) (st : list nat * list nat) : option (list nat * list nat) :=
  match fuel with
  | O => None
  | S fuel =>
      let '(order, cnt) := st in
      let order := order ++ [s] in
      let* adj := get (gr_g G) s in
      for_each adj (fun t '(order, cnt) =>
        let* c := get cnt t in
        let* cnt := set cnt t (c + 1) in
        let* k := get (gr_in G) t in
        if c + 1 =? k then topo_dfs fuel G t (order, cnt) else Some (order, cnt)) (order, cnt)
  end.
(** graph.hpp:46-64 [topological_sort]: the result and the order *)
Definition topological_sort (G : graph) : option (bool * list nat) :=
  let* (order, cnt) := for_up (gr_n G) 0 (fun i st =>
    let* k := get (gr_in G) i in
    if k =? 0 then topo_dfs (gr_n G + 1) G i st else Some st) ([], repeat 0 (gr_n G)) in
  Some (length order =? gr_n G, order).

(** ** Specification *)
(** The arcs of a list of edges. *)
Definition arcs (es : list edge) : list (nat * nat) :=
  flat_map (fun e => match e with Dir a b => [(a, b)] | Both a b => [(a, b); (b, a)] end) es.
Definition edges_ok (n : nat) (es : list edge) : Prop :=
  forall a b, In (a, b) (arcs es) -> a < n /\ b < n.
(** A walk of [k] arcs. *)
Inductive walk (A : list (nat * nat)) : nat -> nat -> nat -> Prop :=
| walk_nil u : walk A 0 u u
| walk_snoc k u v t : walk A k u v -> In (v, t) A -> walk A (S k) u t.
Definition acyclic (A : list (nat * nat)) : Prop := forall v k, ~ walk A (S k) v v.
(** [a] occurs before [b]. *)
Definition before (l : list nat) (a b : nat) : Prop := exists l1 l2 l3, l = l1 ++ a :: l2 ++ b :: l3.
Definition topological (n : nat) (A : list (nat * nat)) (order : list nat) : Prop :=
  NoDup order /\ (forall v, In v order <-> v < n) /\ (forall a b, In (a, b) A -> before order a b).
