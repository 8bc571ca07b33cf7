(** Model of include/mtl/succinct/wavelet_matrix.hpp over a [Bitmap] (BitmapType = Bitmap), except
    [intersect], which cannot be instantiated ([qs.emplace({...}, 0)]). Sizes and indices are
    naturals; a [size_t] difference that would wrap is [None]. Values are integers; [T] holds every
    value of [h] bits. [std::queue] is a list, [std::priority_queue] a list whose greatest tuple is
    taken out. Copies and moves only repoint [rs_b] and are not modelled. *)
From Verif Require Import Base BitModel BmapModel BvModel.
Set Implicit Arguments.

(** wavelet_matrix.hpp:16-21 *)
Record wm := Wm { wn : nat; wh : nat; wB : bmap; wrs : bv; wRO : list nat; wZ : list nat }.

(** [a - b] of [size_t]. *)
Definition usub (a b : nat) : option nat := let* _ := guard (b <=? a) in Some (a - b).
(** [x >> k & 1] *)
Definition vbit (x : Z) (k : nat) : bool := Z.testbit x (Z.of_nat k).
(** [1ull << k]; the shift is undefined from 64 on. *)
Definition one_ull (k : nat) : option Z := let* _ := guard (k <? 64) in Some (Z.shiftl 1 (Z.of_nat k)).
(** [*bit = b] through an iterator of the bitmap (bitmap.hpp:158-164, 205-207). *)
Definition it_put (m : bmap) (i : biter) (b : bool) : option bmap :=
  let (p, c) := i in
  let* _ := guard ((0 <=? p) && (c <? 64))%Z in
  bm_word m (Z.to_nat p) (fun w => if b then Z.lor w (one_at (Z.to_nat c)) else Z.land w (not64 (one_at (Z.to_nat c)))).
(** wavelet_matrix.hpp:54-62: [S[--j] = o.back(); o.pop_back()]; the stack has its back in front. *)
Definition wm_empty (o : list Z) (j : nat) (xs : list Z) : option (nat * list Z) :=
  for_each o (fun x '(j, xs) => let* j := usub j 1 in let* xs := set xs j x in Some (j, xs)) (j, xs).
(** wavelet_matrix.hpp:44-64: one level. *)
Definition wm_level (n h k : nat) (st : bmap * biter * list Z * list nat) : option (bmap * biter * list Z * list nat) :=
  let '(m, it, xs, Zs) := st in
  let* (m, it, z, o) := for_up n 0 (fun i '(m, it, z, o) =>
    let* x := get xs i in
    let b := vbit x k in
    let* m := it_put m it b in
    let it := it_incr it in
    if negb b then Some (m, it, x :: z, o) else Some (m, it, z, x :: o)) (m, it, [], []) in
  let* Zs := set Zs k (n * (h - 1 - k + 1) + length z) in
  let* (j, xs) := wm_empty o n xs in
  let* (j, xs) := wm_empty z j xs in
  let* _ := guard (j =? 0) in
  Some (m, it, xs, Zs).
Definition rk (m : wm) (i : nat) : option nat := rank1 64 (bm_vec (wB m)) (wrs m) i.
(** wavelet_matrix.hpp:27: the height from the greatest value ([Height == 0]), else [H] of [T]. *)
Definition wm_height (H : option nat) (xs : list Z) : option nat :=
  match H with
  | Some h => Some h
  | None => let* c := clz (fold_left Z.max xs 0%Z) in Some (max 1 (64 - Z.to_nat c))
  end.
(** wavelet_matrix.hpp:24-69 *)
Definition wm_build (H : option nat) (xs : list Z) : option wm :=
  let n := length xs in
  let* h := wm_height H xs in
  if n =? 0 then Some (Wm n h (Bm [] 0) (Bv [] [] []) (repeat 0 (h + 1)) (repeat 0 h))
  else
    let* _ := guard (forallb (fun x => 0 <=? x)%Z xs) in
    let* (m, it, xs, Zs) := for_down h 0 (wm_level n h) (bm_new (n * h) false, it_begin, xs, repeat 0 h) in
    let* d := bv_build 64 (bm_vec m) in
    let* RO := for_up (h + 1) 0 (fun i RO => let* r := rank1 64 (bm_vec m) d (n * i) in set RO i r) (repeat 0 (h + 1)) in
    Some (Wm n h m d RO Zs).

(** wavelet_matrix.hpp:111-113 *)
Definition child0 (m : wm) (level i : nat) : option nat :=
  let* a := get (wRO m) level in let* r := rk m i in usub (i + wn m + a) r.
(** wavelet_matrix.hpp:114-116 *)
Definition child1 (m : wm) (level i : nat) : option nat :=
  let* r := rk m i in let* a := get (wRO m) (level + 1) in usub (wn m * (level + 2) + r) a.
(** wavelet_matrix.hpp:117-119 *)
Definition child (m : wm) (level i : nat) (b : bool) : option nat := if b then child1 m level i else child0 m level i.
(** wavelet_matrix.hpp:120-128 *)
Definition child_tie (m : wm) (level l r : nat) (b : bool) : option (nat * nat) :=
  let* l := child m level l b in let* r := child m level r b in Some (l, r).
(** wavelet_matrix.hpp:130-138 *)
Definition parent (m : wm) (level i : nat) (b : bool) : option nat :=
  if b then
    let* k := usub (wh m) (1 + level) in let* z := get (wZ m) k in let* a := get (wRO m) level in
    let* x := usub i z in select 64 (bm_vec (wB m)) (wrs m) true (x + a)
  else
    let* a := get (wRO m) level in let* x := usub i (wn m) in let* x := usub x a in
    select 64 (bm_vec (wB m)) (wrs m) false x.

(** wavelet_matrix.hpp:140-152 *)
Definition wm_get (m : wm) (i : nat) : option Z :=
  let h := wh m in
  let* (c, j) := for_down (h - 1) 1 (fun k '(c, j) =>
    let* b := bm_get (wB m) j in
    let* j := child m (h - 1 - k) j b in
    if b then let* o := one_ull k in Some (Z.lor c o, j) else Some (c, j)) (0%Z, i) in
  let* b := bm_get (wB m) j in
  Some (if b then Z.lor c 1 else c).
(** wavelet_matrix.hpp:154-159 *)
Definition range_rank (m : wm) (c : Z) (l r : nat) : option nat :=
  let* (l, r) := for_down (wh m) 0 (fun k '(l, r) =>
    if l <? r then child_tie m (wh m - 1 - k) l r (vbit c k) else Some (l, r)) (l, r) in
  usub r l.
(** wavelet_matrix.hpp:160-162 *)
Definition wm_rank (m : wm) (c : Z) (i : nat) : option nat := range_rank m c 0 i.
(** wavelet_matrix.hpp:163-178; after the break nothing changes. *)
Definition rank_3way (m : wm) (c : Z) (l r : nat) : option (nat * nat * nat) :=
  let* (l, r, lt, gt) := for_down (wh m) 0 (fun k '(l, r, lt, gt) =>
    let* pr := usub r l in
    if pr =? 0 then Some (l, r, lt, gt)
    else
      let* (l, r) := child_tie m (wh m - 1 - k) l r (vbit c k) in
      let* d := usub r l in
      let* e := usub pr d in
      if vbit c k then Some (l, r, lt + e, gt) else Some (l, r, lt, gt + e)) (l, r, 0, 0) in
  let* eq := usub r l in
  Some (lt, eq, gt).

(** wavelet_matrix.hpp:180-211; [s1] is [shift + 1], which is 0 below the last level. *)
Definition range_freq (m : wm) (l r : nat) (x y : Z) : option nat :=
  if l =? r then Some 0
  else
    loop ((r - l) * (wh m + 1) + 2) (fun '(freq, qs) =>
      match qs with
      | [] => Some (inr freq)
      | (l, r, c) :: qs =>
        let* _ := guard ((l <? r) && (0 <? wn m)) in
        let level := l / wn m in
        let* s1 := usub (wh m) level in
        let* o := one_ull s1 in
        let clo := c in
        let chi := Z.lor c (o - 1) in
        if ((chi <? x) || (y <=? clo))%Z then Some (inl (freq, qs))
        else if ((x <=? clo) && (chi <? y))%Z then Some (inl (freq + (r - l), qs))
        else
          let* _ := guard (level <? wh m) in
          let* (nl, nr) := child_tie m level l r false in
          let qs := if nl <? nr then qs ++ [(nl, nr, c)] else qs in
          let* (nl, nr) := child_tie m level l r true in
          let* o := one_ull (s1 - 1) in
          let qs := if nl <? nr then qs ++ [(nl, nr, Z.lor c o)] else qs in
          Some (inl (freq, qs))
      end) (0, [(l, r, 0%Z)]).

(** wavelet_matrix.hpp:213-227 *)
Definition range_select (m : wm) (c : Z) (l r i : nat) : option nat :=
  let h := wh m in
  let* d := usub r l in
  if d <=? i then Some (wn m)
  else
    let* lr := for_down h 0 (fun k lr =>
      match lr with
      | None => Some None
      | Some (l, r) =>
        let* (l, r) := child_tie m (h - 1 - k) l r (vbit c k) in
        let* d := usub r l in
        Some (if d <=? i then None else Some (l, r))
      end) (Some (l, r)) in
    match lr with
    | None => Some (wn m)
    | Some (l, r) =>
      for_up h 0 (fun k j =>
        let* j := parent m (h - 1 - k) j (vbit c k) in
        let* b := bm_get (wB m) j in
        let* _ := guard (Bool.eqb (vbit c k) b) in
        Some j) (l + i)
    end.
(** wavelet_matrix.hpp:228-230 *)
Definition wm_select (m : wm) (c : Z) (i : nat) : option nat := range_select m c 0 (wn m) i.

(** wavelet_matrix.hpp:237-238, 248-249 *)
Definition zeros_in (m : wm) (l r : nat) : option nat :=
  let* a := rk m r in let* b := rk m l in let* os := usub a b in let* d := usub r l in usub d os.
(** wavelet_matrix.hpp:232-254 *)
Definition quantile (m : wm) (l r k : nat) : option Z :=
  let h := wh m in
  let* d := usub r l in
  let* _ := guard (k <? d) in
  let* (c, k, l, r) := for_down (h - 1) 1 (fun d '(c, k, l, r) =>
    let* zs := zeros_in m l r in
    let* (c, k, l, r) :=
      if k <? zs then let* (l, r) := child_tie m (h - 1 - d) l r false in Some (c, k, l, r)
      else
        let* o := one_ull d in
        let* (l, r) := child_tie m (h - 1 - d) l r true in Some (Z.lor c o, k - zs, l, r) in
    let* _ := guard (l <? r) in
    Some (c, k, l, r)) (0%Z, k, l, r) in
  let* zs := zeros_in m l r in
  Some (if zs <=? k then Z.lor c 1 else c).

(** [std::tuple<size_t, size_t, T>], compared lexicographically. *)
Definition item := (nat * nat * Z)%type.
Definition item_lt (a b : item) : bool :=
  let '(a1, a2, a3) := a in let '(b1, b2, b3) := b in
  (a1 <? b1) || ((a1 =? b1) && ((a2 <? b2) || ((a2 =? b2) && (a3 <? b3)%Z))).
(** [top()] and [pop()]: the greatest tuple and the others. *)
Fixpoint pq_pop (a : item) (q : list item) : item * list item :=
  match q with
  | [] => (a, [])
  | b :: q => if item_lt a b then let (t, q) := pq_pop b q in (t, a :: q) else let (t, q) := pq_pop a q in (t, b :: q)
  end.
(** wavelet_matrix.hpp:256-281 *)
Definition top_k (m : wm) (l r k : nat) : option (list (Z * nat)) :=
  let* d := usub r l in
  loop (d * (wh m + 1) + 3) (fun '(ret, qs) =>
    match qs with
    | [] => Some (inr ret)
    | a :: qs =>
      let '((range, s, c), qs) := pq_pop a qs in
      let* _ := guard (0 <? wn m) in
      let level := s / wn m in
      if level =? wh m then
        let ret := ret ++ [(c, range)] in
        if length ret =? k then Some (inr ret) else Some (inl (ret, qs))
      else
        let* qs := for_each [false; true] (fun b qs =>
          let* (nl, nr) := child_tie m level s (s + range) b in
          if negb (nl =? nr) then
            let* range := usub nr nl in
            let* sh := usub (wh m) (1 + level) in
            Some (qs ++ [(range, nl, Z.lor c (Z.shiftl (if b then 1 else 0) (Z.of_nat sh)))])
          else Some qs) qs in
        Some (inl (ret, qs))
    end) ([], [(d, l, 0%Z)]).
(** wavelet_matrix.hpp:282-289; [U] does not overflow. *)
Definition wm_sum (m : wm) (l r : nat) : option Z :=
  let* d := usub r l in
  let* t := top_k m l r d in
  Some (fold_left (fun s p => s + fst p * Z.of_nat (snd p))%Z t 0%Z).

(** wavelet_matrix.hpp:291-326; [vr] is [VALUE_RANGE]; [y - 1] of an unsigned 0 is undefined here. *)
Definition range_list_k (asc vr : bool) (m : wm) (l r k : nat) (x y : Z) : option (list (Z * nat)) :=
  let* d := usub r l in
  loop (d * (wh m + 1) + 3) (fun '(ret, qs) =>
    match qs with
    | [] => Some (inr ret)
    | (range, s, c) :: qs =>
      let* _ := guard (0 <? wn m) in
      let level := s / wn m in
      if level =? wh m then
        let* _ := guard (negb vr || ((x <=? c) && (c <? y)))%Z in
        let ret := ret ++ [(c, range)] in
        if length ret =? k then Some (inr ret) else Some (inl (ret, qs))
      else
        let* shift := usub (wh m) (1 + level) in
        let* qs := for_each (if asc then [false; true] else [true; false]) (fun (b : bool) qs =>
          let nc := Z.lor (Z.shiftl c 1) (if b then 1 else 0) in
          let* skip := if vr then
                         let* _ := guard (0 <? y)%Z in
                         Some ((nc <? Z.shiftr x (Z.of_nat shift)) || (Z.shiftr (y - 1) (Z.of_nat shift) <? nc))%Z
                       else Some false in
          if skip then Some qs
          else
            let* (nl, nr) := child_tie m level s (s + range) b in
            if negb (nl =? nr) then let* range := usub nr nl in Some (qs ++ [(range, nl, nc)]) else Some qs) qs in
        Some (inl (ret, qs))
    end) ([], [(d, l, 0%Z)]).
(** wavelet_matrix.hpp:328-332 *)
Definition range_list (m : wm) (l r : nat) (x y : Z) : option (list (Z * nat)) :=
  let* d := usub r l in range_list_k true true m l r d x y.
(** wavelet_matrix.hpp:334-338 *)
Definition range_max_k (m : wm) (l r k : nat) : option (list (Z * nat)) := range_list_k false false m l r k 0 0.
(** wavelet_matrix.hpp:339-343 *)
Definition range_min_k (m : wm) (l r k : nat) : option (list (Z * nat)) := range_list_k true false m l r k 0 0.

(** ** Specification: counting in a list *)
(** How often [p] holds. *)
Definition howmany {A} (p : A -> bool) (l : list A) : nat := length (filter p l).
(** The position of the [i]th element equal to [c] of [S] at or behind [l]; none gives [n]. *)
Fixpoint nth_occ (c : Z) (i : nat) (xs : list Z) : option nat :=
  match xs with
  | [] => None
  | x :: xs => if (x =? c)%Z then match i with O => Some 0 | Datatypes.S i => option_map Datatypes.S (nth_occ c i xs) end
              else option_map Datatypes.S (nth_occ c i xs)
  end.
