(** Model of include/mtl/segment_tree_2d.hpp (class SegmentTree2D<M>) on top of the model
    of SegmentTree.  [int] indices do not overflow ([2 n] is the size of an allocated
    vector). *)
From Verif Require Export Base SegTreeModel.
Set Implicit Arguments.

(** segment_tree_2d.hpp:13-14 *)
Record segtree2d (A : Type) := mk_segtree2d { s2_n : nat; s2_m : nat; s2_tb : list (segtree A) }.

Section Seg2d.
  Variables (A : Type) (op : A -> A -> A) (e : A).

  (** segment_tree_2d.hpp:16 *)
  Definition s2_new (n m : nat) : segtree2d A := mk_segtree2d n m (repeat (st_new e m) (n * 2)).

  (** segment_tree_2d.hpp:20, 23: [tb_[x].set(j, val)] *)
  Definition s2_row_set (tb : list (segtree A)) (x j : nat) (v : A) : option (list (segtree A)) :=
    let* row := get tb x in
    let* row := st_set op row j v in
    set tb x row.

  (** segment_tree_2d.hpp:17-26 *)
  Definition s2_set (s : segtree2d A) (i j : nat) (v : A) : option (segtree2d A) :=
    let* _ := guard ((i <? s2_n s) && (j <? s2_m s)) in
    let x := s2_n s + i in
    let* tb := s2_row_set (s2_tb s) x j v in
    let* tb := loop (S x) (fun '(tb, x) =>
      if x =? 0 then Some (inr tb)
      else
        let* lrow := get tb (2 * x) in
        let* a := st_get lrow j in
        let* rrow := get tb (2 * x + 1) in
        let* b := st_get rrow j in
        let* tb := s2_row_set tb x j (op a b) in
        Some (inl (tb, Nat.div2 x))) (tb, Nat.div2 x) in
    Some (mk_segtree2d (s2_n s) (s2_m s) tb).

  (** segment_tree_2d.hpp:27-36 *)
  Definition s2_query (s : segtree2d A) (rl cl rr cr : nat) : option A :=
    let* _ := guard ((rl <=? s2_n s) && (rr <=? s2_n s)) in
    let* _ := guard ((cl <=? s2_m s) && (cr <=? s2_m s)) in
    let tb := s2_tb s in
    let n := s2_n s in
    loop (S (rr + n)) (fun '(lhs, rhs, l, r) =>
      if l <? r then
        let* (lhs, l) :=
          (if Nat.odd l then let* row := get tb l in let* x := st_query op e row cl cr in Some (op lhs x, l + 1) else Some (lhs, l)) in
        let* (rhs, r) :=
          (if Nat.odd r then let* row := get tb (r - 1) in let* x := st_query op e row cl cr in Some (op x rhs, r - 1) else Some (rhs, r)) in
        Some (inl (lhs, rhs, Nat.div2 l, Nat.div2 r))
      else Some (inr (op lhs rhs)))
      (e, e, rl + n, rr + n).

  Definition s2_sets (s : segtree2d A) (h : list (nat * nat * A)) : option (segtree2d A) :=
    for_each h (fun '(i, j, v) s => s2_set s i j v) s.
End Seg2d.

(** * Specification *)
(** Assignment to an entry of a grid, and histories of assignments *)
Definition grid_set {A} (g : list (list A)) (i j : nat) (v : A) : list (list A) :=
  match get g i with Some row => lset g i (lset row j v) | None => g end.
Definition grid_sets {A} (g : list (list A)) (h : list (nat * nat * A)) : list (list A) :=
  fold_left (fun g '(i, j, v) => grid_set g i j v) h g.
(** The entries of the rectangle, row by row *)
Definition rect {A} (g : list (list A)) (rl cl rr cr : nat) : list A :=
  flat_map (slice cl cr) (slice rl rr g).
