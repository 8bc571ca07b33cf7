(** Model of include/mtl/min_cost_flow.hpp: [MinCostFlowGraph], on top of the models of
    FibonacciHeap and of the residual networks of max_flow.hpp.

    [M] is [numeric_limits<int>::max()]; capacities and flows are [int]. The cost type [C] is a
    signed integer of [w] bits; [INF] is its largest value. Overflow is undefined behaviour. *)
From Verif Require Export Base SearchModel FibModel FlowModel.
Set Implicit Arguments.

(** min_cost_flow.hpp:6-12: [t], [cap], [rev] as an [arc], and the cost *)
Notation carc := (arc * Z)%type.
Notation cnet := (list (list (arc * Z))).

Section Mcf.
Variables (w M : Z).
Definition inf : Z := (2 ^ (w - 1) - 1)%Z.

(** min_cost_flow.hpp:21-22 *)
Definition mc_new (n : nat) : cnet := repeat [] n.
(** min_cost_flow.hpp:24-27. [g[b].size()] is read before the first [emplace_back],
    [g[a].size()-1] before the second. *)
Definition mc_add (g : cnet) (a b : nat) (c k : Z) : option cnet :=
  let* rb := get g b in
  let* ra := get g a in
  let* g := set g a (ra ++ [(Arc b c (length rb), k)]) in
  let* rb := get g b in
  let* ra := get g a in
  let* k := mach w (- k) in
  set g b (rb ++ [(Arc a 0 (length ra - 1), k)]).
Definition mc_build (n : nat) (es : list (edge * Z)) : option cnet :=
  for_each es (fun '((a, b, c), k) g => mc_add g a b c k) (mc_new n).

(** min_cost_flow.hpp:42-51, the arcs of [u], whose distance is [d] *)
Definition mc_relax (g : cnet) (h : list Z) (u : nat) (d : Z) (st : fh Z * list Z * list nat * list nat) :
    option (fh Z * list Z * list nat * list nat) :=
  let* row := get g u in
  for_up (length row) 0 (fun i '(qs, dist, pv, pe) =>
    let* (e, k) := get row i in
    if (cap e =? 0)%Z then Some (qs, dist, pv, pe)
    else
      let* hu := get h u in
      let* ht := get h (to e) in
      let* x := mach w (d + k) in
      let* x := mach w (x + hu) in
      let* x := mach w (x - ht) in
      let* dt := get dist (to e) in
      if (dt <=? x)%Z then Some (qs, dist, pv, pe)
      else
        let* dist := set dist (to e) x in
        let* qs := fh_push Z.gtb qs (to e) x in
        let* pv := set pv (to e) u in
        let* pe := set pe (to e) i in
        Some (qs, dist, pv, pe)) st.
(** min_cost_flow.hpp:35-52. If no arc has a negative reduced cost, every round but the last
    takes another vertex from the heap: [n + 1] rounds are enough. *)
Definition mc_search (g : cnet) (h : list Z) (s : nat) (qs : fh Z) (pv pe : list nat) :
    option (fh Z * list Z * list nat * list nat) :=
  let n := length g in
  let* dist := set (repeat inf n) s 0%Z in
  let* qs := fh_push Z.gtb qs s 0%Z in
  loop (n + 1) (fun '(qs, dist, pv, pe) =>
    if fh_size qs =? 0 then Some (inr (qs, dist, pv, pe))
    else
      let* (u, d) := fh_top qs in
      let* qs := fh_pop Z.gtb qs in
      let* st := mc_relax g h u d (qs, dist, pv, pe) in
      Some (inl st)) (qs, dist, pv, pe).
(** min_cost_flow.hpp:55-56 *)
Definition mc_pot (n : nat) (h dist : list Z) : option (list Z) :=
  for_up n 0 (fun i h =>
    let* d := get dist i in
    if (d =? inf)%Z then Some h
    else
      let* x := get h i in
      let* x := mach w (x + d) in
      set h i x) h.
(** min_cost_flow.hpp:57-63: the bottleneck and the cost of the path; a path has at most [n]
    vertices *)
Definition mc_path (g : cnet) (s t : nat) (pv pe : list nat) (d : Z) : option (Z * Z) :=
  loop (S (length g)) (fun '(i, d, cs) =>
    if i =? s then Some (inr (d, cs))
    else
      let* u := get pv i in
      let* j := get pe i in
      let* (e, k) := get2 g u j in
      let* cs := mach w (cs + k) in
      Some (inl (u, Z.min d (cap e), cs))) (t, d, 0%Z).
(** min_cost_flow.hpp:67-69 *)
Definition mc_push (g : cnet) (i u j : nat) (d : Z) : option cnet :=
  let* (e, k) := get2 g u j in
  let* c := ll M (cap e - d) in
  let* g := set2 g u j (Arc (to e) c (rv e), k) in
  let* (r, k) := get2 g i (rv e) in
  let* c := ll M (cap r + d) in
  set2 g i (rv e) (Arc (to r) c (rv r), k).
(** min_cost_flow.hpp:66-70 *)
Definition mc_augment (g : cnet) (s t : nat) (pv pe : list nat) (d : Z) : option cnet :=
  loop (S (length g)) (fun '(i, g) =>
    if i =? s then Some (inr g)
    else
      let* u := get pv i in
      let* j := get pe i in
      let* g := mc_push g i u j d in
      Some (inl (u, g))) (t, g).
(** min_cost_flow.hpp:29-73 on a fresh object, [prevv] and [preve] zero (21-22). Every round but
    the last adds at least one unit, so the sum of all capacities bounds the rounds. The cast
    [(C) d] of an [int] keeps the value for [32 <= w]. *)
Definition mc_flow (g : cnet) (s t : nat) (limit : Z) : option (Z * Z * cnet) :=
  let n := length g in
  let* qs := fh_new 0%Z n in
  loop (S (Z.to_nat (total (map (map fst) g)))) (fun '(f, res, g, h, qs, pv, pe) =>
    if (limit <=? f)%Z then Some (inr (f, res, g))
    else
      let* (qs, dist, pv, pe) := mc_search g h s qs pv pe in
      let* dt := get dist t in
      if (dt =? inf)%Z then Some (inr (f, res, g))
      else
        let* h := mc_pot n h dist in
        let* d := ll M (limit - f) in
        let* (d, cs) := mc_path g s t pv pe d in
        let* f := ll M (f + d) in
        let* x := mach w (d * cs) in
        let* res := mach w (res + x) in
        let* g := mc_augment g s t pv pe d in
        Some (inl (f, res, g, h, qs, pv, pe))) (0%Z, 0%Z, g, repeat 0%Z n, qs, repeat 0 n, repeat 0 n).
End Mcf.

(** ** Specification *)
(** The cost of sending [xs] over the edges: amount times cost per unit. *)
Definition flow_cost (es : list (edge * Z)) (xs : list Z) : Z := zsum (fun '((_, k), x) => (x * k)%Z) (combine es xs).
(** Ends below [n], capacities that fit an [int], costs in [0, K]. *)
Definition cedges_ok (M K : Z) (n : nat) (es : list (edge * Z)) : Prop :=
  forall a b c k, In ((a, b, c), k) es -> a < n /\ b < n /\ (0 <= c <= M)%Z /\ (0 <= k <= K)%Z.
(** The cost of saturating every edge. *)
Definition cost_bound (es : list (edge * Z)) : Z := zsum (fun '((_, _, c), k) => (c * k)%Z) es.
(** [xs] is a flow of value [r], and no flow of this value is cheaper. *)
Definition cheapest (es : list (edge * Z)) (s t : nat) (xs : list Z) (r : Z) : Prop :=
  is_flow (map fst es) s t xs r /\ forall ys, is_flow (map fst es) s t ys r -> (flow_cost es xs <= flow_cost es ys)%Z.
