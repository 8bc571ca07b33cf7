(** Model of struct Network in include/mtl/graph.hpp and of include/mtl/dijkstra.hpp, on top of the
    model of FibonacciHeap. Vertices are [nat]; the distance type [T] is a signed integer of [w]
    bits, whose overflow is undefined behaviour. *)
From Verif Require Export Base SearchModel FibModel.
Set Implicit Arguments.

(** Conversion to a 32-bit [int] *)
Definition to_int (x : Z) : Z := ((x + 2 ^ 31) mod 2 ^ 32 - 2 ^ 31)%Z.

(** graph.hpp:86-96; a [Path] is the pair of its target and its weight *)
Record network := Nw { nw_n : nat; nw_g : list (list (nat * Z)); nw_in : list nat }.
Definition nw_new (n : nat) : network := Nw n (repeat [] n) (repeat 0 n).
(** graph.hpp:98-101; the weight is stored in an [int] (89-92) *)
Definition nw_add_dir (G : network) (a b : nat) (c : Z) : option network :=
  let* r := get (nw_g G) a in
  let* g := set (nw_g G) a (r ++ [(b, to_int c)]) in
  let* k := get (nw_in G) b in
  let* i := set (nw_in G) b (k + 1) in
  Some (Nw (nw_n G) g i).
(** graph.hpp:102-105 *)
Definition nw_add (G : network) (a b : nat) (c : Z) : option network :=
  let* G := nw_add_dir G a b c in nw_add_dir G b a c.

Inductive nedge := NDir (a b : nat) (c : Z) | NBoth (a b : nat) (c : Z).
Definition nw_build (n : nat) (es : list nedge) : option network :=
  for_each es (fun e G => match e with NDir a b c => nw_add_dir G a b c | NBoth a b c => nw_add G a b c end) (nw_new n).

(** dijkstra.hpp:5-22. [std::greater<>] puts the least distance on top. Every round but the last
    takes one vertex from the heap: for weights that are not negative [n + 1] rounds are enough. *)
Definition dijkstra (w : Z) (G : network) (s : nat) (INF : Z) : option (list Z) :=
  let* dist := set (repeat INF (nw_n G)) s 0%Z in
  let* qs := fh_new 0%Z (nw_n G) in
  let* qs := fh_update Z.gtb qs s 0%Z in
  loop (nw_n G + 1) (fun '(qs, dist) =>
    if fh_size qs =? 0 then Some (inr dist)
    else
      let* (v, d) := fh_top qs in
      let* qs := fh_pop Z.gtb qs in
      let* dv := get dist v in
      let* _ := guard (dv =? d)%Z in
      let* row := get (nw_g G) v in
      let* (qs, dist) := for_each row (fun '(t, c) '(qs, dist) =>
        let* x := mach w (d + c) in
        let* dt := get dist t in
        if (dt <=? x)%Z then Some (qs, dist)
        else
          let* dist := set dist t x in
          let* qs := fh_update Z.gtb qs t x in
          Some (qs, dist)) (qs, dist) in
      Some (inl (qs, dist))) (qs, dist).

(** ** Specification *)
(** The arcs (from, to, weight) of a list of edges. *)
Definition narcs (es : list nedge) : list (nat * nat * Z) :=
  flat_map (fun e => match e with NDir a b c => [(a, b, c)] | NBoth a b c => [(a, b, c); (b, a, c)] end) es.
(** A walk and the sum of its weights. *)
Inductive wwalk (A : list (nat * nat * Z)) : nat -> nat -> Z -> Prop :=
| ww_nil u : wwalk A u u 0
| ww_snoc u v t c x : wwalk A u v c -> In (v, t, x) A -> wwalk A u t (c + x).
Definition shortest (A : list (nat * nat * Z)) (u v : nat) (d : Z) : Prop :=
  wwalk A u v d /\ forall c, wwalk A u v c -> (d <= c)%Z.
(** Vertices below [n], weights that are not negative and fit an [int]. *)
Definition nedges_ok (n : nat) (A : list (nat * nat * Z)) : Prop :=
  forall a b c, In (a, b, c) A -> a < n /\ b < n /\ (0 <= c < 2 ^ 31)%Z.
(** Every vertex that can be reached is at a distance less than [INF], and a distance followed by
    one arc is representable. *)
Definition dist_ok (w : Z) (A : list (nat * nat * Z)) (s : nat) (INF : Z) : Prop :=
  (0 < INF < 2 ^ (w - 1))%Z /\
  (forall v c, wwalk A s v c -> exists d, wwalk A s v d /\ (d < INF)%Z) /\
  (forall v d t c, shortest A s v d -> In (v, t, c) A -> (d + c < 2 ^ (w - 1))%Z).
