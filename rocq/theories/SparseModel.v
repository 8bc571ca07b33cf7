(** Models of [include/mtl/sparse_table.hpp], [disjoint_sparse_table.hpp],
    [dual_sparse_table.hpp] and [dual_disjoint_sparse_table.hpp]. *)
From Verif Require Import Base.
Set Implicit Arguments.

(** [std::copy(begin, end, row.begin())] into a row at least that long. *)
Definition copy_into {A} (xs row : list A) : list A := xs ++ skipn (length xs) row.

Section Sparse.
  Variables (A : Type) (op : A -> A -> A).
  (** [T()]: the value a [std::vector<T>(n)] is filled with. *)
  Variable dflt : A.

  (** sparse_table.hpp:16-31 — constructor. On an empty range [63-clz(0)] is
      [-1] and [table_] would have [2^64] rows ([log_n_+1] wraps to 0 and
      [table_[0]] is out of range): an error. *)
  Definition sp_build (xs : list A) : option (list (list A)) :=
    let n := length xs in
    let* lg := msb n in
    let t0 := copy_into xs (repeat dflt n) :: repeat (repeat dflt n) lg in
    for_up lg 1 (fun k t =>
      let width := 2 ^ k in
      for_up (n + 1 - width) 0 (fun i t =>
        let* a := get2 t (k - 1) i in
        let* b := get2 t (k - 1) (i + width / 2) in
        set2 t k i (op a b)) t) t0.

  (** sparse_table.hpp:33-36 — [query(l, r)]. *)
  Definition sp_query (t : list (list A)) (l r : nat) : option A :=
    let* p := msb (r - l) in
    let* a := get2 t p l in
    let* b := get2 t p (r - 2 ^ p) in
    Some (op a b).

  (** disjoint_sparse_table.hpp:13-30 — constructor. On an empty range the
      shift [1ull << 64] is undefined. *)
  Definition dj_build (xs : list A) : option (list (list A)) :=
    let* _ := guard (negb (length xs =? 0)) in
    let lg := bitlen (length xs - 1) in
    let n := 2 ^ lg in
    let t0 := copy_into xs (repeat dflt n) :: repeat (repeat dflt n) (Nat.max lg 1 - 1) in
    for_up (lg - 1) 1 (fun i t =>
      let d := 2 ^ i in
      for_up (n / (d * 2)) 0 (fun jj t =>
        let j := jj * (d * 2) in
        let* x := get2 t 0 (j + d - 1) in
        let* t := set2 t i (j + d - 1) x in
        (* for (k = j+d-2; k >= j; k--) *)
        let* t := for_down (d - 1) j (fun k t =>
          let* a := get2 t 0 k in
          let* b := get2 t i (k + 1) in
          set2 t i k (op a b)) t in
        let* y := get2 t 0 (j + d) in
        let* t := set2 t i (j + d) y in
        (* for (k = j+d+1; k < j+d*2; k++) *)
        for_up (d - 1) (j + d + 1) (fun k t =>
          let* a := get2 t i (k - 1) in
          let* b := get2 t 0 k in
          set2 t i k (op a b)) t) t) t0.

  (** disjoint_sparse_table.hpp:32-36 — [query(l, r)]. *)
  Definition dj_query (t : list (list A)) (l r : nat) : option A :=
    if l + 1 =? r then get2 t 0 l
    else
      let* p := msb (Nat.lxor (r - 1) l) in
      let* a := get2 t p l in
      let* b := get2 t p (r - 1) in
      Some (op a b).
End Sparse.

Section Dual.
  Variables (A : Type) (op : A -> A -> A) (e : A).

  (** [tb[i][j] = op(tb[i][j], a)]. *)
  Definition upd2 (t : list (list A)) (i j : nat) (a : A) : option (list (list A)) :=
    let* x := get2 t i j in set2 t i j (op x a).

  (** dual_sparse_table.hpp:12-20 — constructors (the members are
      [size_, log_n_, table_]; size 0 gives [log_n_ = -1], an error). *)
  Definition ds_new (n : nat) : option (list (list A)) :=
    let* lg := msb n in Some (repeat (repeat e n) (lg + 1)).
  Definition ds_init (xs : list A) : option (list (list A)) :=
    let* t := ds_new (length xs) in
    let* row := get t 0 in
    set t 0 (copy_into xs row).

  (** dual_sparse_table.hpp:26-31 — [apply(l, r, a)]. *)
  Definition ds_apply (t : list (list A)) (l r : nat) (a : A) : option (list (list A)) :=
    if r <=? l then Some t
    else
      let* d := msb (r - l) in
      let* t := upd2 t d l a in
      upd2 t d (r - 2 ^ d) a.

  (** dual_sparse_table.hpp:37-45 — [build()] for a table of size [n]. *)
  Definition ds_build (n : nat) (t : list (list A)) : option (list (list A)) :=
    let* lg := msb n in
    for_down lg 0 (fun k t =>
      let width := 2 ^ k in
      for_up (n - width) 0 (fun i t =>
        let* x := get2 t (k + 1) i in
        let* t := upd2 t k i x in
        let* x := get2 t (k + 1) i in
        upd2 t k (i + width) x) t) t.

  (** dual_sparse_table.hpp:47-49 — [get(i)]. *)
  Definition ds_get (t : list (list A)) (i : nat) : option A := get2 t 0 i.

  (** dual_disjoint_sparse_table.hpp:13-21 — constructors. *)
  Definition dd_new (n : nat) : option (list (list A)) :=
    let* _ := guard (negb (n =? 0)) in
    let lg := bitlen (n - 1) in
    Some (repeat (repeat e (2 ^ lg)) (Nat.max lg 1)).
  Definition dd_init (xs : list A) : option (list (list A)) :=
    let* t := dd_new (length xs) in
    let* row := get t 0 in
    set t 0 (copy_into xs row).

  (** dual_disjoint_sparse_table.hpp:23-32 — [apply(l, r, a)]. *)
  Definition dd_apply (t : list (list A)) (l r : nat) (a : A) : option (list (list A)) :=
    if r <=? l then Some t
    else if r - l =? 1 then upd2 t 0 l a
    else
      let* d := msb (Nat.lxor (r - 1) l) in
      let* t := upd2 t d l a in
      upd2 t d (r - 1) a.

  (** dual_disjoint_sparse_table.hpp:34-50 — [build()], [lg] is [log_n_]. *)
  Definition dd_build (lg : nat) (t : list (list A)) : option (list (list A)) :=
    let n := 2 ^ lg in
    for_up (lg - 1) 1 (fun i t =>
      let d := 2 ^ i in
      for_up (n / (d * 2)) 0 (fun jj t =>
        let j := jj * (d * 2) in
        let* (t, _) := for_up d j (fun k '(t, ml) =>
          let* x := get2 t i k in
          let ml := op ml x in
          let* t := upd2 t 0 k ml in
          Some (t, ml)) (t, e) in
        let* (t, _) := for_down d (j + d) (fun k '(t, mr) =>
          let* x := get2 t i k in
          let mr := op mr x in
          let* t := upd2 t 0 k mr in
          Some (t, mr)) (t, e) in
        Some t) t) t.

  (** dual_disjoint_sparse_table.hpp:52-54 — [get(i)]. *)
  Definition dd_get (t : list (list A)) (i : nat) : option A := get2 t 0 i.

  (** A sequence of [apply] calls. *)
  Definition ds_applies (t : list (list A)) (h : list (nat * nat * A)) :=
    for_each h (fun '(l, r, a) t => ds_apply t l r a) t.
  Definition dd_applies (t : list (list A)) (h : list (nat * nat * A)) :=
    for_each h (fun '(l, r, a) t => dd_apply t l r a) t.
End Dual.
