(** Model of include/mtl/range_minimum_query.hpp: [Rmq], a range minimum query structure that
    reduces the queries to lowest common ancestors in the Cartesian tree of the sequence, and
    these to range minimum queries on the excess of a sequence of parentheses.

    On top of the models of [SparseTable] (SparseModel.v), [Bitmap] (BmapModel.v) and
    [BitVector] (BvModel.v).  Values are compared with [ltb]; [a > b] is [ltb b a].  A null
    index is [None].  The reserve of the node vector and the assignments of built objects
    (moves) are not modelled.  [size_t] differences are checked: a wrap-around is [None]. *)
From Coq Require Import ZArith.
From Verif Require Import Base SparseModel BitModel BmapModel BvModel.

(** ** Minima of the excess of a word *)

(** range_minimum_query.hpp:29-38, the body for one mask; [(argmin, min_s)] *)
Definition rmq_entry (mask : nat) : Z * Z :=
  let '(argmin, min_s, _) := fold_left (fun '(argmin, min_s, sum) i =>
    let sum := if Z.testbit (Z.of_nat mask) (Z.of_nat i) then (sum + 1)%Z else (sum - 1)%Z in
    if (sum <? min_s)%Z then (Z.of_nat i, sum, sum) else (argmin, min_s, sum)) (seq 0 8) (0, 9, 0)%Z in
  (argmin, min_s).
(** range_minimum_query.hpp:23-46 *)
Definition rmq_tb : list (Z * Z) := map rmq_entry (seq 0 256).
(** range_minimum_query.hpp:61-86 *)
Definition rmq64 (mask : Z) : option (nat * Z) :=
  let pos_e8 := u64 (popcnt_e8 mask * 2) in
  let cpos_e8 := u64 (pos_e8 * 0x0101010101010100) in
  let cneg_e8 := u64 (8 * 0x0706050403020100) in
  let e_e8 := u64 (u64 (64 * 0x0101010101010101 + cpos_e8) - cneg_e8) in
  let* (argmin, min_s) := for_up 8 0 (fun b '(argmin, min_s) =>
    let bi := Z.of_nat (8 * b) in
    let submask := Z.land (Z.shiftr mask bi) 255 in
    let estart := (Z.land (Z.shiftr e_e8 bi) 255 - 64)%Z in
    let* (idx, val) := get rmq_tb (Z.to_nat submask) in
    let s := (val + estart)%Z in
    Some (if (s <? min_s)%Z then ((idx + bi)%Z, s) else (argmin, min_s))) (0, 65)%Z in
  Some (Z.to_nat argmin, min_s).

(** ** The Cartesian tree *)

(** range_minimum_query.hpp:92-94 *)
Record node := Node { n_p : option nat; n_l : option nat; n_r : option nat }.
(** range_minimum_query.hpp:95-96 *)
Record decalt := Decalt { d_root : option nat; d_nodes : list node }.

Section Tree.
Variable T : Type.
Variable ltb : T -> T -> bool.
(** range_minimum_query.hpp:113-115 *)
Definition climb (a : list T) (nodes : list node) (v u : nat) : option (option nat) :=
  loop (v + 1) (fun u : option nat =>
    match u with
    | None => Some (inr None)
    | Some u =>
        let* x := get a u in
        let* y := get a v in
        if ltb y x then let* d := get nodes u in Some (inl (n_p d)) else Some (inr (Some u))
    end) (Some u).
(** [nodes_[u].p = v] *)
Definition set_p (nodes : list node) (u : nat) (v : nat) : option (list node) :=
  let* d := get nodes u in set nodes u (Node (Some v) (n_l d) (n_r d)).
(** [nodes_[u].r = v] *)
Definition set_r (nodes : list node) (u : nat) (v : nat) : option (list node) :=
  let* d := get nodes u in set nodes u (Node (n_p d) (n_l d) (Some v)).
(** range_minimum_query.hpp:103-127, the body for one element; [a] is the whole sequence, of
    which only the elements up to [v] are read *)
Definition decalt_step (a : list T) (v : nat) (t : decalt) : option decalt :=
  let nodes := d_nodes t in
  if length nodes =? 0 then Some (Decalt (Some 0) [Node None None None])
  else
    let* u := climb a nodes v (length nodes - 1) in
    match u with
    | None =>
        let nodes := nodes ++ [Node None (d_root t) None] in
        let* r := d_root t in
        let* nodes := set_p nodes r v in
        Some (Decalt (Some v) nodes)
    | Some u =>
        let* d := get nodes u in
        let ur := n_r d in
        let nodes := nodes ++ [Node (Some u) ur None] in
        let* nodes := match ur with Some ur => set_p nodes ur v | None => Some nodes end in
        let* nodes := set_r nodes u v in
        Some (Decalt (d_root t) nodes)
    end.
(** range_minimum_query.hpp:98-128 *)
Definition decalt_build (a : list T) : option decalt :=
  for_up (length a) 0 (decalt_step a) (Decalt None []).
End Tree.

(** range_minimum_query.hpp:149-154: the path to the right *)
Definition right_path (nodes : list node) (v : option nat) : option (list nat) :=
  loop (length nodes + 1) (fun '(c, v) =>
    match v with
    | None => Some (inr c)
    | Some v => let* d := get nodes v in Some (inl (c ++ [v], n_r d))
    end) ([], v).
(** range_minimum_query.hpp:136-165 with the callbacks of 260-274: a [1] when a node is
    entered, a [0] when it is left; an entry of the stack is [(left_child, is_inorder)], the
    node itself is not used by the callbacks. *)
Definition parens (t : decalt) (b : bmap) : option bmap :=
  loop (2 * (length (d_nodes t) + 1) + 1) (fun '(st, b, i) =>
    match st with
    | [] => Some (inr b)
    | (lc, true) :: st =>
        let* c := right_path (d_nodes t) lc in
        let* st := for_each (rev c) (fun v st =>
          let* d := get (d_nodes t) v in
          Some ((n_l d, true) :: (None, false) :: st)) st in
        let* b := bm_put b i true in
        Some (inl (st, b, i + 1))
    | (_, false) :: st =>
        let* b := bm_put b i false in
        Some (inl (st, b, i + 1))
    end) ([(d_root t, true); (None, false)], b, 0).

(** ** The structure *)

(** range_minimum_query.hpp:176-249: [RSparse] keeps a sparse table of pairs (the
    specialisation for height 0, and up to eight elements), [RTree] is an [LcaToRmq], [RNone]
    an object that was only default-constructed. *)
Inductive rmqs (T : Type) : Type :=
  | RNone
  | RSparse (t : list (list (T * nat)))
  | RTree (b : bmap) (d : bv) (a : rmqs nat).
Arguments RNone {T}. Arguments RSparse {T} t. Arguments RTree {T} b d a.

(** [operator<] of [std::pair] and [std::min] (172-175): [(r < l) ? r : l] *)
Definition pair_lt {T} (ltb : T -> T -> bool) (p q : T * nat) : bool :=
  ltb (fst p) (fst q) || (negb (ltb (fst q) (fst p)) && (snd p <? snd q)).
Definition fn_min {T} (ltb : T -> T -> bool) (l r : T * nat) : T * nat := if pair_lt ltb r l then r else l.

(** range_minimum_query.hpp:310-321, the body for one block; [width] is always 64 here because
    of the condition of the loop.  The new element and the new sum are not negative. *)
Definition block_step (b : bmap) (st : list nat * Z * nat * nat) : option (list nat * Z * nat * nat + list nat) :=
  let '(a, block_sum, ei, bi) := st in
  if ei + 64 <? bsz b then
    let width := Nat.min 64 (bsz b - ei) in
    let* mask := bm_range_get b ei (ei + width) in
    let mask := if width <? 64 then Z.lor mask (shl (one_at (64 - width) - 1) width) else mask in
    let* (_, m) := rmq64 mask in
    let* _ := guard (0 <=? m + block_sum)%Z in
    let* a := set a bi (Z.to_nat (m + block_sum)) in
    let block_sum := (block_sum + popcnt mask * 2 - 64)%Z in
    let* _ := guard (0 <=? block_sum)%Z in
    Some (inl (a, block_sum, ei + 64, bi + 1))
  else Some (inr a).
(** range_minimum_query.hpp:304-324 without the recursion *)
Definition blocks (b : bmap) : option (list nat) :=
  let num_blocks := (bsz b + 63) / 64 in
  loop (num_blocks + 1) (block_step b) (repeat 0 num_blocks, 0%Z, 0, 0).

(** range_minimum_query.hpp:184-202 and 227-235; [h] is [RecursionHeight], [dflt] is [T()]. *)
Definition sparse_build {T} (ltb : T -> T -> bool) (dflt : T) (a : list T) : option (rmqs T) :=
  let* t := sp_build (fn_min ltb) (dflt, 0) (combine a (seq 0 (length a))) in Some (RSparse t).
Fixpoint rmq_build (h : nat) {T} (ltb : T -> T -> bool) (dflt : T) (a : list T) : option (rmqs T) :=
  match h with
  | O => sparse_build ltb dflt a
  | S h =>
      if length a <=? 8 then sparse_build ltb dflt a
      else
        let* t := decalt_build T ltb a in
        let* b := bm_resize (Bm [] 0) (2 * (length (d_nodes t) + 1)) false in
        let* b := parens t b in
        let* d := bv_build 64 (bm_vec b) in
        let num_blocks := (bsz b + 63) / 64 in
        if 3 <=? num_blocks then
          let* l := blocks b in
          let* r := rmq_build h Nat.ltb 0 (slice 1 (num_blocks - 1) l) in
          Some (RTree b d r)
        else Some (RTree b d RNone)
  end.

(** range_minimum_query.hpp:326-328 *)
Definition get_e (b : bmap) (d : bv) (i : nat) : option nat :=
  let* r := rank1 64 (bm_vec b) d (i + 1) in
  let* _ := guard (i + 1 <=? r * 2) in
  Some (r * 2 - (i + 1)).
(** range_minimum_query.hpp:344-351, 357-360 (no padding, a whole block) and 368-375: the minimum from [l] to [r - 1] *)
Definition part_min (b : bmap) (d : bv) (l r : nat) : option (nat * nat) :=
  let* mask := bm_range_get b l r in
  let dist := r - l in
  let rem := 64 - dist in
  let mask := if rem =? 0 then mask else Z.lor mask (shl (one_at rem - 1) dist) in
  let* (k, _) := rmq64 mask in
  let idx := k + l in
  let* e := get_e b d idx in
  Some (idx, e).
(** range_minimum_query.hpp:330-392; [inner] is [rmq_a_.rmq] *)
Definition lca (b : bmap) (d : bv) (inner : nat -> nat -> option nat) (x y : nat) : option nat :=
  if x =? y then Some x
  else
    let* xx := select 64 (bm_vec b) d false x in
    let* yy := select 64 (bm_vec b) d false y in
    let '(xx, yy) := if yy <? xx then (yy, xx) else (xx, yy) in
    let i := xx / 64 in
    let j := yy / 64 in
    let* (m, min_e) := part_min b d xx (Nat.min (yy + 1) ((i + 1) * 64)) in
    let* (m, min_e) := if i + 2 <=? j then
      let* k := inner i (j - 1) in
      let k := k + 1 in
      let* (idx, e) := part_min b d (k * 64) ((k + 1) * 64) in
      Some (if e <? min_e then (idx, e) else (m, min_e))
    else Some (m, min_e) in
    let* (m, min_e) := if i <? j then
      let* (idx, e) := part_min b d (j * 64) (yy + 1) in
      Some (if e <? min_e then (idx, e) else (m, min_e))
    else Some (m, min_e) in
    if m =? xx then Some x else rank0 64 (bm_vec b) d m.
(** range_minimum_query.hpp:203-212 and 236-238; without the check of 204-206 (height 0) an
    empty range is undefined in the sparse table *)
Fixpoint rmq_query {T} (ltb : T -> T -> bool) (s : rmqs T) (l r : nat) {struct s} : option nat :=
  let* _ := guard (l <? r) in
  match s with
  | RNone => None
  | RSparse t => let* p := sp_query (fn_min ltb) t l r in Some (snd p)
  | RTree b d a => lca b d (rmq_query Nat.ltb a) l (r - 1)
  end.

(** ** Specification *)
(** [k] is the first position of a minimum of [a] between [l] and [r - 1]. *)
Definition first_min {T} (ltb : T -> T -> bool) (a : list T) (l r k : nat) : Prop :=
  l <= k < r /\ exists x, get a k = Some x /\
  (forall i y, l <= i < k -> get a i = Some y -> ltb x y = true) /\
  (forall i y, k <= i < r -> get a i = Some y -> ltb y x = false).
(** The excess of the ones over the zeros in the bits of [l] up to position [i]. *)
Definition exc (l : list bool) (i : nat) : Z := (2 * Z.of_nat (cnt true (firstn (S i) l)) - Z.of_nat (S i))%Z.
(** [m] is the first position of the minimum of [f] between [x] and [y - 1]. *)
Definition leftmin (f : nat -> Z) (x y m : nat) : Prop :=
  x <= m < y /\ (forall i, x <= i < m -> (f m < f i)%Z) /\ (forall i, m <= i < y -> (f m <= f i)%Z).

(** Binary trees over positions, and their positions from left to right. *)
Inductive tree := Leaf | Nd (l : tree) (v : nat) (r : tree).
Fixpoint inord (t : tree) : list nat := match t with Leaf => [] | Nd l v r => inord l ++ v :: inord r end.
(** The links of [nodes] below [o] form the tree [t]; the parent link of its root is [p]. *)
Fixpoint linked (nodes : list node) (p o : option nat) (t : tree) : Prop :=
  match t with
  | Leaf => o = None
  | Nd l v r => o = Some v /\ exists d, get nodes v = Some d /\ n_p d = p /\
      linked nodes (Some v) (n_l d) l /\ linked nodes (Some v) (n_r d) r
  end.
(** Every node is smaller than those to its left and not larger than those to its right. *)
Fixpoint heap {T} (ltb : T -> T -> bool) (f : nat -> T) (t : tree) : Prop :=
  match t with
  | Leaf => True
  | Nd l v r => (forall x, In x (inord l) -> ltb (f v) (f x) = true) /\
      (forall x, In x (inord r) -> ltb (f x) (f v) = false) /\ heap ltb f l /\ heap ltb f r
  end.
(** The parentheses of a tree: a [0] at every node, between those of its left and its right
    subtree, and the matching [1] in front. *)
Fixpoint pbits (t : tree) : list bool := match t with Leaf => [] | Nd l v r => true :: pbits l ++ false :: pbits r end.
