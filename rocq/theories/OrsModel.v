(** Model of include/mtl/ordinal_range_search.hpp: [ORS<T, void, Bitmap>] and [ORS<T, W, Bitmap>]
    with integers as weights (the default bitmap [RRR<>] is not modelled). Coordinates are naturals; the sets of
    binary_set.hpp take them as [uint32_t]. [T] holds every value of [wm.h] bits. Not modelled:
    [weight_add] (ordinal_range_search.hpp:197-212). *)
From Verif Require Import Base StdAlgo BitModel BmapModel BvModel BsetModel WmModel.
Set Implicit Arguments.

(** ordinal_range_search.hpp:32-35, after [build] *)
Record ors := Ors { oX : mset; oY : bset; oW : wm }.
(** ordinal_range_search.hpp:24-27 *)
Notation point := (nat * nat)%type.
(** ordinal_range_search.hpp:70-73 *)
Definition point_lt (l r : point) : bool := if fst l =? fst r then snd l <? snd r else fst l <? fst r.
(** A coordinate passed as [uint32_t]. *)
Definition coord (x : nat) : nat := w32 (Z.of_nat x).
(** A [size_t] stored in an [int]. *)
Definition as_int (v : nat) : option Z := let* _ := guard (Z.of_nat v <? 2 ^ 31)%Z in Some (Z.of_nat v).
(** ordinal_range_search.hpp:41-43, 53-55 *)
Definition lower_x (X : mset) (x : nat) : option nat := ms_rank X (coord x).
Definition lower_y (Y : bset) (y : nat) : option nat := bs_rank Y (coord y).
(** ordinal_range_search.hpp:75-82 and 85-89 (95-99): the two sets and the ranks of the [y]; [ps] is
    sorted. *)
Definition ors_index (ps : list point) : option (mset * bset * list Z) :=
  let* (X, Y) := for_each ps (fun '(x, y) '(X, Y) =>
    let* Y := bs_insert Y (coord y) in Some (ms_insert X (coord x), Y)) (ms_new, bs_new) in
  let* X := ms_build X in
  let* Y := bs_build Y in
  let* ys := for_up (length ps) 0 (fun i ys =>
    let* (_, y) := get ps i in
    let* r := lower_y Y y in
    let* v := as_int r in
    set ys i v) (repeat 0%Z (length ps)) in
  Some (X, Y, ys).
(** ordinal_range_search.hpp:60-62, 67-92; [ps] are the points given to [add]. *)
Definition ors_build (ps : list point) : option ors :=
  let* (X, Y, ys) := ors_index (std_sort point_lt ps) in
  let* m := wm_build None ys in
  Some (Ors X Y m).

(** ordinal_range_search.hpp:116-123: [SW[j--] = o.back(); o.pop_back()]; the stack has its back in
    front, and [j] is one more than in the code. *)
Definition ors_fill (o : list (Z * Z)) (j : nat) (sw : list (Z * Z)) : option (nat * list (Z * Z)) :=
  for_each o (fun x '(j, sw) => let* j := usub j 1 in let* sw := set sw j x in Some (j, sw)) (j, sw).
(** ordinal_range_search.hpp:107-124: one level; [calls] are the arguments of the calls of [add]. *)
Definition ors_level (n h k : nat) (st : list (Z * Z) * list (nat * Z)) : option (list (Z * Z) * list (nat * Z)) :=
  let (sw, calls) := st in
  let* (z, o, calls) := for_up n 0 (fun i '(z, o, calls) =>
    let* q := get sw i in
    let calls := calls ++ [(n * (h - 1 - k) + i, snd q)] in
    if vbit (fst q) k then Some (z, q :: o, calls) else Some (q :: z, o, calls)) ([], [], calls) in
  let* (j, sw) := ors_fill o n sw in
  let* (j, sw) := ors_fill z j sw in
  Some (sw, calls).
(** ordinal_range_search.hpp:93-128: [build] for points with weights. The comparison of [std::sort]
    does not look at the weights: [ss] is the list in the order that it has chosen. The result
    holds the argument of [resize] and the arguments of the calls of [add]. *)
Definition ors_wbuild (ss : list (point * Z)) : option (ors * nat * list (nat * Z)) :=
  let* (X, Y, ys) := ors_index (map fst ss) in
  let* m := wm_build None ys in
  let* (sw, calls) := for_down (wh m) 0 (ors_level (wn m) (wh m)) (combine ys (map snd ss), []) in
  let* calls := for_up (wn m) 0 (fun i calls => let* q := get sw i in Some (calls ++ [(wn m * wh m + i, snd q)])) calls in
  Some (Ors X Y m, wn m * (wh m + 1), calls).
(** ordinal_range_search.hpp:132-143; [i] and [j] become [size_t] again. *)
Definition compress_idx (o : ors) (xl xh yl yh : nat) : option (nat * nat * Z * Z) :=
  let* i := lower_x (oX o) xl in
  let* j := lower_x (oX o) xh in
  let* a := lower_y (oY o) yl in
  let* b := lower_y (oY o) yh in
  let* _ := as_int i in
  let* _ := as_int j in
  let* a := as_int a in
  let* b := as_int b in
  Some (i, j, a, b).
(** ordinal_range_search.hpp:183-191 *)
Definition ors_freq (o : ors) (xl xh yl yh : nat) : option nat :=
  let* (i, j, a, b) := compress_idx o xl xh yl yh in
  range_freq (oW o) i j a b.

(** ordinal_range_search.hpp:145-180; [s1] is [shift + 1], a shift by a negative number is undefined. The
    callbacks change a state. [fuel] bounds the number of turns of the loop. *)
Definition ors_step {A} (m : wm) (a b : Z) (internal leaf : nat -> nat -> Z -> A -> option A)
    (st : A * list (nat * nat * Z)) : option ((A * list (nat * nat * Z)) + A) :=
  let (s, qs) := st in
  match qs with
  | [] => Some (inr s)
  | (l, r, c) :: qs =>
    let* _ := guard (0 <? wn m) in
    let level := l / wn m in
    let* s1 := usub (wh m) level in
    let* o := one_ull s1 in
    let clo := c in
    let chi := Z.lor c (o - 1) in
    if ((chi <? a) || (b <=? clo))%Z then Some (inl (s, qs))
    else if ((a <=? clo) && (chi <? b))%Z then let* s := internal l r c s in Some (inl (s, qs))
    else if level =? wh m then let* s := leaf l r c s in Some (inl (s, qs))
    else
      let* (nl, nr) := child_tie m level l r false in
      let qs := qs ++ [(nl, nr, c)] in
      let* (nl, nr) := child_tie m level l r true in
      let* o := one_ull (s1 - 1) in
      Some (inl (s, qs ++ [(nl, nr, Z.lor c o)]))
  end.
Definition ors_traverse {A} (fuel : nat) (o : ors) (xl xh yl yh : nat) (internal leaf : nat -> nat -> Z -> A -> option A) (s : A) : option A :=
  let* (i, j, a, b) := compress_idx o xl xh yl yh in
  loop fuel (ors_step (oW o) a b internal leaf) (s, [(i, j, 0%Z)]).
(** ordinal_range_search.hpp:226-242 with [plus_op] and [plus_identity]; [f] is [range_sum]. *)
Definition ors_sum (fuel : nat) (o : ors) (xl xh yl yh : nat) (f : nat -> nat -> Z) : option Z :=
  ors_traverse fuel o xl xh yl yh (fun l r _ ret => Some (ret + f l r)%Z) (fun _ _ _ ret => Some ret) 0%Z.
(** ordinal_range_search.hpp:252-259 *)
Definition ors_leaf (o : ors) (l r : nat) (c : Z) (ret : list (nat * nat)) : option (list (nat * nat)) :=
  for_up (r - l) l (fun idx ret =>
    let* jdx := for_up (wh (oW o)) 0 (fun k j => parent (oW o) (wh (oW o) - 1 - k) j (vbit c k)) idx in
    let* x := ms_get (oX o) jdx in
    let* y := bs_get (oY o) (Z.to_nat c) in
    Some (ret ++ [(x, y)])) ret.
(** ordinal_range_search.hpp:244-261 *)
Definition ors_enumerate (fuel : nat) (o : ors) (xl xh yl yh : nat) : option (list (nat * nat)) :=
  ors_traverse fuel o xl xh yl yh (fun _ _ _ ret => Some ret) (ors_leaf o) [].

(** ** Specification *)
(** The point lies in [xl, xh) x [yl, yh). *)
Definition inside (xl xh yl yh : nat) (p : point) : bool :=
  (xl <=? fst p) && (fst p <? xh) && ((yl <=? snd p) && (snd p <? yh)).
(** The user's array after [resize(size)] and the calls of [add]. *)
Definition apply_adds (size : nat) (calls : list (nat * Z)) : option (list Z) :=
  for_each calls (fun '(i, w) A => let* v := get A i in set A i (v + w)%Z) (repeat 0%Z size).
Definition zsum (l : list Z) : Z := fold_right Z.add 0%Z l.
