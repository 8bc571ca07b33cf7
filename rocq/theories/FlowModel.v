(** Model of include/mtl/max_flow.hpp: [FordFulkerson], [Dinic], [Matching], [PSP].

    [M] is [numeric_limits<long long>::max()]; a [long long] outside [-M-1, M] is undefined
    behaviour. Vertices are [nat]; [dist] has [None] for [numeric_limits<int>::max()]
    (so fewer than 2^31 - 1 vertices). *)
From Verif Require Export Base.
Set Implicit Arguments.

(** max_flow.hpp:14-20 [FlowPath] *)
Record arc := Arc { to : nat; cap : Z; rv : nat }.
Notation net := (list (list arc)).

Section Flow.
Variable M : Z.
Definition ll (x : Z) : option Z := if ((- M - 1 <=? x) && (x <=? M))%Z then Some x else None.

(** max_flow.hpp:25, 70 *)
Definition fl_new (n : nat) : net := repeat [] n.
(** max_flow.hpp:27-30 and 72-75. [g[b].size()] is read before the first [emplace_back],
    [g[a].size()-1] before the second. *)
Definition fl_add (g : net) (a b : nat) (f : Z) : option net :=
  let* rb := get g b in
  let* ra := get g a in
  let* g := set g a (ra ++ [Arc b f (length rb)]) in
  let* rb := get g b in
  let* ra := get g a in
  set g b (rb ++ [Arc a 0 (length ra - 1)]).
Definition fl_build (n : nat) (es : list (nat * nat * Z)) : option net :=
  for_each es (fun '(a, b, c) g => fl_add g a b c) (fl_new n).

(** max_flow.hpp:42-43 and 87-88: [e.cap -= flow; g[e.t][e.rev].cap += flow], [e] the [i]-th
    arc of [u] *)
Definition fl_push (g : net) (u i : nat) (flow : Z) : option net :=
  let* e := get2 g u i in
  let* c := ll (cap e - flow) in
  let* g := set2 g u i (Arc (to e) c (rv e)) in
  let* r := get2 g (to e) (rv e) in
  let* c := ll (cap r + flow) in
  set2 g (to e) (rv e) (Arc (to r) c (rv r)).

(** max_flow.hpp:31-48, [FordFulkerson::dfs] *)
Fixpoint ff_dfs (fuel : nat) (t u : nat) (f : Z) (vis : list bool) (g : net) : option (Z * list bool * net) :=
  match fuel with
  | O => None
  | S fuel =>
      let* b := get vis u in
      if b then Some (0%Z, vis, g)
      else
        let* vis := set vis u true in
        if u =? t then Some (f, vis, g)
        else
          let* row := get g u in
          loop (S (length row)) (fun '(i, vis, g) =>
            let* row := get g u in
            if length row <=? i then Some (inr (0%Z, vis, g))
            else
              let* e := get row i in
              if (cap e =? 0)%Z then Some (inl (S i, vis, g))
              else
                let* (flow, vis, g) := ff_dfs fuel t (to e) (Z.min f (cap e)) vis g in
                if (flow =? 0)%Z then Some (inl (S i, vis, g))
                else let* g := fl_push g u i flow in Some (inr (flow, vis, g))) (0, vis, g)
  end.
Definition total (g : net) : Z := fold_right Z.add 0%Z (map (fun row => fold_right Z.add 0%Z (map cap row)) g).
(** max_flow.hpp:49-62, [FordFulkerson::flow]. Every round but the last adds at least one
    unit, so the sum of all capacities bounds the rounds. *)
Definition ff_flow (g : net) (s t : nat) (fup : Z) : option (Z * net) :=
  loop (S (Z.to_nat (total g))) (fun '(flow, fup, g) =>
    if (fup <=? 0)%Z then Some (inr (flow, g))
    else
      let vis := repeat false (length g) in
      let* (f, _, g) := ff_dfs (S (length g)) t s M vis g in
      if (0 <? f)%Z then
        let* flow := ll (flow + f) in
        let* fup := ll (fup - f) in
        Some (inl (flow, fup, g))
      else Some (inr (flow, g))) (0%Z, fup, g).

(** max_flow.hpp:103-116, the breadth-first search of [Dinic::flow]; the arcs are copied
    ([auto e]) and the graph does not change *)
Definition dn_bfs (g : net) (s t : nat) : option (list (option nat)) :=
  let* dist := set (repeat None (length g)) s (Some 0) in
  loop (S (length g)) (fun '(q, dist) =>
    match q with
    | [] => Some (inr dist)
    | u :: q =>
        let* row := get g u in
        let* (q, dist) := for_each row (fun e '(q, dist) =>
          if (cap e =? 0)%Z then Some (q, dist)
          else
            let* du := get dist u in
            let* du := du in
            let* de := get dist (to e) in
            if (match de with Some x => x <=? du + 1 | None => false end) then Some (q, dist)
            else
              let* dist := set dist (to e) (Some (du + 1)) in
              Some (if to e =? t then q else q ++ [to e], dist)) (q, dist) in
        Some (inl (q, dist))
    end) ([s], dist).
(** [dist[v] != dist[u]+1] is false; [dist[u]] is finite *)
Definition level (dist : list (option nat)) (u v : nat) : option bool :=
  let* du := get dist u in
  let* du := du in
  let* dv := get dist v in
  Some (match dv with Some x => x =? du + 1 | None => false end).
(** max_flow.hpp:76-93, [Dinic::dfs]; [nxt[u]] is an index into [g[u]] *)
Fixpoint dn_dfs (fuel : nat) (dist : list (option nat)) (t u : nat) (f : Z) (nxt : list nat) (g : net) : option (Z * list nat * net) :=
  match fuel with
  | O => None
  | S fuel =>
      if u =? t then Some (f, nxt, g)
      else
        let* row := get g u in
        loop (S (length row)) (fun '(fsum, nxt, g) =>
          let* it := get nxt u in
          let* row := get g u in
          if (it =? length row) || negb (fsum <? f)%Z then Some (inr (fsum, nxt, g))
          else
            let* e := get row it in
            let* adm := (if (cap e =? 0)%Z then Some false else level dist u (to e)) in
            let* (fsum, nxt, g) :=
              (if adm then
                 let* (flow, nxt, g) := dn_dfs fuel dist t (to e) (Z.min (f - fsum) (cap e)) nxt g in
                 if (flow =? 0)%Z then Some (fsum, nxt, g)
                 else let* g := fl_push g u it flow in Some ((fsum + flow)%Z, nxt, g)
               else Some (fsum, nxt, g)) in
            let* it := get nxt u in
            let* nxt := set nxt u (S it) in
            Some (inl (fsum, nxt, g))) (0%Z, nxt, g)
  end.
Definition dist_max (dist : list (option nat)) : nat := list_max (map (fun d => match d with Some x => x | None => 0 end) dist).
(** max_flow.hpp:94-126, [Dinic::flow] *)
Definition dn_flow (g : net) (s t : nat) (fup : Z) : option (Z * net) :=
  loop (S (Z.to_nat (total g))) (fun '(flow, fup, g) =>
    if (fup =? 0)%Z then Some (inr (flow, g))
    else
      let nxt := repeat 0 (length g) in
      let* dist := dn_bfs g s t in
      let* (f, _, g) := dn_dfs (S (dist_max dist)) dist t s M nxt g in
      if (0 <? f)%Z then
        let* flow := ll (flow + f) in
        let* fup := ll (fup - f) in
        Some (inl (flow, fup, g))
      else Some (inr (flow, g))) (0%Z, fup, g).

(** max_flow.hpp:134-146, [Matching]: constructor, the edges added, [flow()] *)
Definition mt_edges (n m : nat) (ps : list (nat * nat)) : list (nat * nat * Z) :=
  map (fun i => (n + m, i, 1%Z)) (seq 0 n) ++ map (fun i => (i + n, n + m + 1, 1%Z)) (seq 0 m) ++ map (fun '(a, b) => (a, b + n, 1%Z)) ps.
Definition mt_flow (n m : nat) (ps : list (nat * nat)) : option (Z * net) :=
  let* g := fl_build (n + m + 2) (mt_edges n m ps) in
  dn_flow g (n + m) (n + m + 1) M.
(** max_flow.hpp:147-157 [matches] *)
Definition mt_matches (n m : nat) (g : net) : option (list (nat * nat)) :=
  for_up n 0 (fun i ret =>
    let* row := get g i in
    Some (ret ++ map (fun e => (i, to e - n)) (filter (fun e => (n <=? to e) && (to e <? n + m) && (cap e =? 0)%Z) row))) [].

(** max_flow.hpp:162-175 [PSP]: [add_profit], [add_loss] *)
Inductive psp_op := Profit (a : nat) (p : Z) | Loss (a b : nat) (l : Z).
Definition psp_add (n : nat) (op : psp_op) (st : net * Z) : option (net * Z) :=
  let '(g, psum) := st in
  match op with
  | Profit a p =>
      let* psum := (if (0 <? p)%Z then ll (psum + p) else Some psum) in
      let* g := (if (0 <? p)%Z then fl_add g a (n + 1) p else if (p <? 0)%Z then fl_add g n a (- p) else Some g) in
      Some (g, psum)
  | Loss a b l => let* g := fl_add g a b l in Some (g, psum)
  end.
(** max_flow.hpp:176-179 [solve] *)
Definition psp_solve (n : nat) (ops : list psp_op) : option (Z * net) :=
  let* (g, psum) := for_each ops (psp_add n) (fl_new (n + 2), 0%Z) in
  let* (p, g) := dn_flow g n (n + 1) M in
  let* r := ll (psum - p) in
  Some (r, g).
(** max_flow.hpp:180-188 [selections] *)
Definition psp_selections (n : nat) (g : net) : option (list bool) :=
  let* row := get g (n + 1) in
  for_each row (fun e sel =>
    let* r := get2 g (to e) (rv e) in
    if (0 <? cap r)%Z then set sel (to e) false else Some sel) (repeat true n).
End Flow.

(** * Specification *)
Definition zsum {A} (f : A -> Z) (l : list A) : Z := fold_right Z.add 0%Z (map f l).
Definition ind (b : bool) : Z := if b then 1%Z else 0%Z.
(** Edges with capacities; a flow gives an amount to each edge. *)
Notation edge := (nat * nat * Z)%type.
(** What leaves [v] minus what enters [v]; [fl] lists (edge, amount). *)
Definition net_out (fl : list (edge * Z)) (v : nat) : Z :=
  zsum (fun '((a, b, _), x) => (x * (ind (a =? v)%nat - ind (b =? v)%nat))%Z) fl.
Record is_flow (es : list edge) (s t : nat) (xs : list Z) (r : Z) : Prop := {
  fl_len : length xs = length es;
  fl_cap : forall i a b c x, get es i = Some (a, b, c) -> get xs i = Some x -> (0 <= x <= c)%Z;
  fl_cons : forall v, v <> s -> v <> t -> net_out (combine es xs) v = 0%Z;
  fl_val : net_out (combine es xs) s = r }.
Definition cut_cap (es : list edge) (S : nat -> bool) : Z :=
  zsum (fun '(a, b, c) => if S a && negb (S b) then c else 0%Z) es.
Definition is_cut (s t : nat) (S : nat -> bool) : Prop := S s = true /\ S t = false.
(** [r] is the largest value of a flow. *)
Definition max_flow (es : list edge) (s t : nat) (r : Z) : Prop :=
  (exists xs, is_flow es s t xs r) /\ forall xs r', is_flow es s t xs r' -> (r' <= r)%Z.
(** The place of the [i]-th edge in the adjacency list of its tail: each earlier edge
    occupies one place at its tail and one at its head. *)
Definition deg (es : list edge) (v : nat) : nat :=
  list_sum (map (fun '(a, b, _) => (if a =? v then 1 else 0) + (if b =? v then 1 else 0)) es).
(** The residual network [g] shows the flow [xs]. *)
Definition shows (g : net) (es : list edge) (xs : list Z) : Prop :=
  forall i a b c x, get es i = Some (a, b, c) -> get xs i = Some x ->
    exists e, get2 g a (deg (firstn i es) a) = Some e /\ to e = b /\ cap e = (c - x)%Z.
Definition edges_ok (M : Z) (n : nat) (es : list edge) : Prop :=
  forall a b c, In (a, b, c) es -> a < n /\ b < n /\ (0 <= c <= M)%Z.
(** Pairs from [ps], no two of which share an end *)
Definition matching (ps L : list (nat * nat)) : Prop := incl L ps /\ NoDup (map fst L) /\ NoDup (map snd L).
(** Value of a selection: the profits of the selected items, minus [l] for each [Loss a b l]
    with [b] selected and [a] not. *)
Definition psp_value (ops : list psp_op) (sel : nat -> bool) : Z :=
  zsum (fun op => match op with
    | Profit a p => if sel a then p else 0%Z
    | Loss a b l => if negb (sel a) && sel b then (- l)%Z else 0%Z
    end) ops.
Definition psp_ok (M : Z) (n : nat) (op : psp_op) : Prop :=
  match op with Profit a p => a < n /\ (- M <= p <= M)%Z | Loss a b l => a < n /\ b < n /\ (0 <= l <= M)%Z end.
