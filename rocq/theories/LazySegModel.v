(** Models of [include/mtl/lazy_segment_tree.hpp] (SegmentTreebase<M,A>) and
    [include/mtl/dual_segment_tree.hpp] (DualSegmentTree<M>). *)
From Verif Require Import Base FenwickModel.
Set Implicit Arguments.

(** lazy_segment_tree.hpp:122-133 = dual_segment_tree.hpp:83-95 — [_set_ids];
    [l], [r] already shifted by [size_].  [lowbit x] is [x & (-x)]. *)
Definition set_ids (l r : nat) : option (list nat) :=
  let lth := l / lowbit l / 2 in
  let rth := r / lowbit r / 2 in
  let* (ids, l) := loop (S r) (fun '(ids, l, r) =>
    if l <? r then
      let ids := if r <=? rth then ids ++ [r] else ids in
      let ids := if l <=? lth then ids ++ [l] else ids in
      Some (inl (ids, l / 2, r / 2))
    else Some (inr (ids, l))) ([], l, r) in
  loop (S l) (fun '(ids, l) =>
    if 0 <? l then Some (inl (ids ++ [l], l / 2)) else Some (inr ids)) (ids, l).

(** The bottom-up walk [for (_l, _r; _l < _r; _l >>= 1, _r >>= 1)
    { if (_l & 1) fl(_l++); if (_r & 1) fr(--_r); }] over the nodes that
    cover the leaves [l..r): lazy_segment_tree.hpp:61-66, 95-106 and
    dual_segment_tree.hpp:54-63. *)
Definition walk {S} (fl fr : nat -> S -> option S) (l r : nat) (s : S) : option S :=
  loop (Datatypes.S r) (fun '(s, l, r) =>
    if l <? r then
      let* (s, l) := (if Nat.odd l then let* s := fl l s in Some (s, l + 1) else Some (s, l)) in
      let* (s, r) := (if Nat.odd r then let* s := fr (r - 1) s in Some (s, r - 1) else Some (s, r)) in
      Some (inl (s, l / 2, r / 2))
    else Some (inr s)) (s, l, r).

Section Lazy.
  (** [M * M], [M()], [A *= A] (first argument acts first), [A()], [A::act]. *)
  Variables (M A : Type) (op : M -> M -> M) (e : M) (comp : A -> A -> A) (aid : A) (act : A -> M -> M).
  Notation node := (M * A)%type.
  Record lztree := mk_lz { lz_size : nat; lz_tree : list node }.

  (** lazy_segment_tree.hpp:35-39 — [SegmentTreebase(size)]; for [size = 0]
      the shift by 64 is undefined. *)
  Definition lz_new (n : nat) : option lztree :=
    let* _ := guard (negb (n =? 0)) in
    let size := 2 ^ bitlen (n - 1) in
    Some (mk_lz size (repeat (e, aid) (size * 2))).

  (** lazy_segment_tree.hpp:70, 86 — [tree_[i].first = left.first * right.first]. *)
  Definition lz_pull (t : list node) (i : nat) : option (list node) :=
    let* (a, _) := get t (2 * i) in
    let* (b, _) := get t (2 * i + 1) in
    let* (_, s) := get t i in
    set t i (op a b, s).

  (** lazy_segment_tree.hpp:41-51 — range constructor. *)
  Definition lz_build (xs : list M) : option lztree :=
    let* T := lz_new (length xs) in
    let size := lz_size T in
    let* (t, _) := for_each xs (fun x '(t, i) =>
      let* (_, s) := get t (size + i) in
      let* t := set t (size + i) (x, s) in Some (t, i + 1)) (lz_tree T, 0) in
    let* t := for_down (size - 1) 1 (fun i t => lz_pull t i) t in
    Some (mk_lz size t).

  (** lazy_segment_tree.hpp:135-143 — [_propagate(id)]; [e] is a reference to
      [tree_[id].second], re-read at each use. *)
  Definition lz_propagate (size : nat) (t : list node) (id : nat) : option (list node) :=
    let* (m, a) := get t id in
    let* t := set t id (act a m, a) in
    let* t := (if id <? size then
        let* (m, a) := get t (2 * id) in
        let* (_, x) := get t id in
        let* t := set t (2 * id) (m, comp a x) in
        let* (m, a) := get t (2 * id + 1) in
        let* (_, x) := get t id in
        set t (2 * id + 1) (m, comp a x)
      else Some t) in
    let* (m, _) := get t id in
    set t id (m, aid).

  (** lazy_segment_tree.hpp:145-150 — [_lazy_propagation(l, r)]; returns also
      the member [ids_] it leaves behind. *)
  Definition lz_lazy (T : lztree) (l r : nat) : option (list node * list nat) :=
    if l =? r then Some (lz_tree T, [])
    else
      let* ids := set_ids (l + lz_size T) (r + lz_size T) in
      let* t := for_each (rev ids) (fun id t => lz_propagate (lz_size T) t id) (lz_tree T) in
      Some (t, ids).

  (** [tree_[x].second *= f]. *)
  Definition lz_mul (f : A) (x : nat) (t : list node) : option (list node) :=
    let* (m, a) := get t x in set t x (m, comp a f).

  (** lazy_segment_tree.hpp:53-76 — [range_update(l, r, f)] and [update]. *)
  Definition lz_update (T : lztree) (l r : nat) (f : A) : option lztree :=
    let size := lz_size T in
    if l =? r then Some T
    else
      let* (t, ids) := lz_lazy T l r in
      let* t := walk (lz_mul f) (lz_mul f) (l + size) (r + size) t in
      let* t := for_each ids (fun id t =>
        let* t := lz_propagate size t (2 * id) in
        let* t := lz_propagate size t (2 * id + 1) in
        lz_pull t id) t in
      Some (mk_lz size t).

  (** lazy_segment_tree.hpp:79-89 — [set(i, x)]. *)
  Definition lz_set (T : lztree) (i : nat) (x : M) : option lztree :=
    let size := lz_size T in
    let* (t, _) := lz_lazy T i (i + 1) in
    let u := i + size in
    let* (_, a) := get t u in
    let* t := set t u (x, a) in
    let* t := loop (S u) (fun '(t, u) =>
      if 0 <? u then let* t := lz_pull t u in Some (inl (t, u / 2))
      else Some (inr t)) (t, u / 2) in
    Some (mk_lz size t).

  (** lazy_segment_tree.hpp:91-112 — [query(l, r)] (and [prod]). The member
      [ids_] is only scratch space. *)
  Definition lz_query (T : lztree) (l r : nat) : option (lztree * M) :=
    let size := lz_size T in
    let* (t, _) := lz_lazy T l r in
    let fl x '(t, lhs, rhs) :=
      let* t := lz_propagate size t x in
      let* (m, _) := get t x in Some (t, op lhs m, rhs) in
    let fr x '(t, lhs, rhs) :=
      let* t := lz_propagate size t x in
      let* (m, _) := get t x in Some (t, lhs, op m rhs) in
    let* (t, lhs, rhs) := walk fl fr (l + size) (r + size) (t, e, e) in
    Some (mk_lz size t, op lhs rhs).

  (** lazy_segment_tree.hpp:114-119 — [get(index)]. *)
  Definition lz_get (T : lztree) (i : nat) : option (lztree * M) :=
    let size := lz_size T in
    let* (t, _) := lz_lazy T i (i + 1) in
    let* t := lz_propagate size t (i + size) in
    let* (m, _) := get t (i + size) in
    Some (mk_lz size t, m).

  (** Histories of calls and what they return. *)
  Inductive lz_op := LUpdate (l r : nat) (f : A) | LQuery (l r : nat) | LGet (i : nat) | LSet (i : nat) (x : M).
  Fixpoint lz_run (T : lztree) (h : list lz_op) : option (lztree * list M) :=
    match h with
    | [] => Some (T, [])
    | LUpdate l r f :: h => let* T := lz_update T l r f in lz_run T h
    | LQuery l r :: h =>
        let* (T, v) := lz_query T l r in
        let* (T, vs) := lz_run T h in Some (T, v :: vs)
    | LGet i :: h =>
        let* (T, v) := lz_get T i in
        let* (T, vs) := lz_run T h in Some (T, v :: vs)
    | LSet i x :: h => let* T := lz_set T i x in lz_run T h
    end.
End Lazy.

Section Dual.
  (** [M *= M] (in that order) and [M()]. *)
  Variables (M : Type) (op : M -> M -> M) (e : M).
  Record dualtree := mk_dual { du_size : nat; du_tree : list M }.

  (** dual_segment_tree.hpp:35-48 — constructors. *)
  Definition du_new (n : nat) : dualtree := mk_dual n (repeat e (n * 2)).
  Definition du_build (xs : list M) : dualtree :=
    mk_dual (length xs) (repeat e (length xs) ++ xs).

  (** [tree_[x] *= f]. *)
  Definition du_mul (f : M) (x : nat) (t : list M) : option (list M) :=
    let* a := get t x in set t x (op a f).

  (** dual_segment_tree.hpp:97-103 — [_propagate(id)]. *)
  Definition du_propagate (size : nat) (t : list M) (id : nat) : option (list M) :=
    if size <=? id then Some t
    else
      let* x := get t id in
      let* t := set t id e in
      let* t := du_mul x (2 * id) t in
      du_mul x (2 * id + 1) t.

  (** dual_segment_tree.hpp:105-110 — [_lazy_propagation(l, r)]. *)
  Definition du_lazy (T : dualtree) (l r : nat) : option (list M) :=
    if l =? r then Some (du_tree T)
    else
      let* ids := set_ids (l + du_size T) (r + du_size T) in
      for_each (rev ids) (fun id t => du_propagate (du_size T) t id) (du_tree T).

  (** dual_segment_tree.hpp:50-68 — [update(l, r, f)]; [update(i, f)] is
      [update(i, i+1, f)]. *)
  Definition du_update (T : dualtree) (l r : nat) (f : M) : option dualtree :=
    if l =? r then Some T
    else
      let* t := du_lazy T l r in
      let* t := walk (du_mul f) (du_mul f) (l + du_size T) (r + du_size T) t in
      Some (mk_dual (du_size T) t).

  (** dual_segment_tree.hpp:70-74 — [set(index, x)]. *)
  Definition du_set (T : dualtree) (i : nat) (x : M) : option dualtree :=
    let* t := du_lazy T i (i + 1) in
    let* t := set t (du_size T + i) x in
    Some (mk_dual (du_size T) t).

  (** dual_segment_tree.hpp:76-80 — [get(index)]. *)
  Definition du_get (T : dualtree) (i : nat) : option (dualtree * M) :=
    let* t := du_lazy T i (i + 1) in
    let* v := get t (du_size T + i) in
    Some (mk_dual (du_size T) t, v).

  (** Histories of calls; only [get] returns a value. *)
  Inductive du_op := DUpdate (l r : nat) (f : M) | DGet (i : nat) | DSet (i : nat) (x : M).
  Fixpoint du_run (T : dualtree) (h : list du_op) : option (dualtree * list M) :=
    match h with
    | [] => Some (T, [])
    | DUpdate l r f :: h => let* T := du_update T l r f in du_run T h
    | DSet i x :: h => let* T := du_set T i x in du_run T h
    | DGet i :: h =>
        let* (T, v) := du_get T i in
        let* (T, vs) := du_run T h in Some (T, v :: vs)
    end.
End Dual.
