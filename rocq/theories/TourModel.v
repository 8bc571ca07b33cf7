(** Model of [Graph::euler_tour] in include/mtl/graph.hpp. The graph is that of [GraphModel];
    indices into the tour do not overflow an [int]. *)
From Verif Require GraphModel.
From Verif Require Export Base HldModel.
Set Implicit Arguments.

(** The members [tour], [L], [R] (graph.hpp:9) *)
Record tours := Tours { t_tour : list nat; t_L : list nat; t_R : list nat }.
(** [std::vector::resize] *)
Definition resize (n : nat) (l : list nat) : list nat := firstn n l ++ repeat 0 (n - length l).
(** graph.hpp:70-82, the recursive lambda; [-1] as parent is [None] *)
Fixpoint tour_dfs (fuel : nat) (g : list (list nat)) (s : nat) (p : option nat) (k : nat) (x : tours) : option (nat * tours) :=
  match fuel with
  | O => None
  | S fuel =>
      let tour := t_tour x ++ [s] in
      let* L := set (t_L x) s k in
      let* R := set (t_R x) s k in
      let k := k + 1 in
      let* row := get g s in
      for_each row (fun t '(k, x) =>
        if oeq (Some t) p then Some (k, x)
        else
          let* (k, x) := tour_dfs fuel g t (Some s) k x in
          let tour := t_tour x ++ [s] in
          let* R := set (t_R x) s k in
          Some (k + 1, Tours tour (t_L x) R)) (k, Tours tour L R)
  end.
(** graph.hpp:66-84 [euler_tour]; [x] holds what an earlier call has left *)
Definition euler_tour (G : GraphModel.graph) (x : tours) (root : nat) : option tours :=
  let* (_, x) := tour_dfs (GraphModel.gr_n G + 1) (GraphModel.gr_g G) root None 0
    (Tours [] (resize (GraphModel.gr_n G) (t_L x)) (resize (GraphModel.gr_n G) (t_R x))) in
  Some x.

(** ** Specification *)
Definition first_at (l : list nat) (i x : nat) : Prop := get l i = Some x /\ forall j, get l j = Some x -> i <= j.
Definition last_at (l : list nat) (i x : nat) : Prop := get l i = Some x /\ forall j, get l j = Some x -> j <= i.
(** The tour walks along edges from the root and back, [L] and [R] hold the first and the last
    position of every vertex; the positions between those two are exactly the positions of the
    descendants; between any two positions their least common ancestor is met, and only
    descendants of it. *)
Definition is_tour (n : nat) (t : tree) (es : list (nat * nat)) (x : tours) : Prop :=
  length (t_tour x) = 2 * n - 1 /\ length (t_L x) = n /\ length (t_R x) = n /\
  walk es (root t) (t_tour x) (root t) /\
  (forall v, v < n -> exists l r, get (t_L x) v = Some l /\ first_at (t_tour x) l v /\ get (t_R x) v = Some r /\ last_at (t_tour x) r v /\
     forall u i, get (t_tour x) i = Some u -> (l <= i <= r <-> anc t v u)) /\
  (forall i j a b w, i <= j -> get (t_tour x) i = Some a -> get (t_tour x) j = Some b -> is_lca t a b w ->
     (exists k, i <= k <= j /\ get (t_tour x) k = Some w) /\ (forall k u, i <= k <= j -> get (t_tour x) k = Some u -> anc t w u)).
