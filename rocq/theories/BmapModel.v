(** Model of include/mtl/succinct/bitmap.hpp: [Bitmap], a vector of bits kept in 64-bit words.
    Sizes and indices are naturals ([size_t] does not wrap); words are integers in [0, 2^64). *)
From Verif Require Import Base BitModel.
Set Implicit Arguments.

(** bitmap.hpp:14-15 *)
Record bmap := Bm { arr : list Z; bsz : nat }.
(** bitmap.hpp:16-18 *)
Definition req (n : nat) : nat := (n + 63) / 64.
(** bitmap.hpp:19-21 *)
Definition wfill (b : bool) : Z := (if b then 0xFFFFFFFFFFFFFFFF else 0)%Z.
(** [1ull << r] *)
Definition one_at (r : nat) : Z := u64 (Z.shiftl 1 (Z.of_nat r)).
(** bitmap.hpp:22-23 *)
Definition bm_new (n : nat) (b : bool) : bmap := Bm (repeat (wfill b) (req n)) n.
(** bitmap.hpp:40-51; [arr.back()] of an empty vector is undefined. *)
Definition bm_push (m : bmap) (b : bool) : option bmap :=
  let r := bsz m mod 64 in
  if r =? 0 then Some (Bm (arr m ++ [if b then 1 else 0]%Z) (bsz m + 1))
  else
    let* w := get (arr m) (length (arr m) - 1) in
    let* a := set (arr m) (length (arr m) - 1)
      (if b then Z.lor w (one_at r) else Z.land w (not64 (one_at r))) in
    Some (Bm a (bsz m + 1)).
(** bitmap.hpp:25-35 *)
Definition bm_of (l : list bool) : option bmap := for_each l (fun b m => bm_push m b) (Bm [] 0).
(** bitmap.hpp:52-54; below 0 the size would wrap. *)
Definition bm_pop (m : bmap) : option bmap :=
  let* _ := guard (0 <? bsz m) in Some (Bm (arr m) (bsz m - 1)).
(** [std::vector::resize(k, v)] *)
Definition vresize {A} (l : list A) (k : nat) (v : A) : list A := firstn k l ++ repeat v (k - length l).
(** bitmap.hpp:55-70 *)
Definition bm_resize (m : bmap) (n : nat) (b : bool) : option bmap :=
  let o := bsz m in
  if n <? o then Some (Bm (arr m) n)
  else
    let a := vresize (arr m) (req n) (wfill b) in
    let r := o mod 64 in
    if r =? 0 then Some (Bm a n)
    else
      let mask := (one_at r - 1)%Z in
      let* w := get a (o / 64) in
      let* a := set a (o / 64) (if b then Z.lor w (not64 mask) else Z.land w mask) in
      Some (Bm a n).
(** bitmap.hpp:71-74 *)
Definition bm_assign (m : bmap) (n : nat) (b : bool) : bmap := Bm (repeat (wfill b) (req n)) n.
(** bitmap.hpp:86-94, 128-130: a reference read as a bool. *)
Definition bm_get (m : bmap) (i : nat) : option bool :=
  let* w := get (arr m) (i / 64) in Some (negb (Z.land w (one_at (i mod 64)) =? 0)%Z).
Definition bm_word (m : bmap) (i : nat) (f : Z -> Z) : option bmap :=
  let* w := get (arr m) i in let* a := set (arr m) i (f w) in Some (Bm a (bsz m)).
(** bitmap.hpp:89-91, 158-164: [m[i] = b] *)
Definition bm_put (m : bmap) (i : nat) (b : bool) : option bmap :=
  bm_word m (i / 64) (fun w => if b then Z.lor w (one_at (i mod 64)) else Z.land w (not64 (one_at (i mod 64)))).
(** bitmap.hpp:165-169: [m[i] |= b] *)
Definition bm_or (m : bmap) (i : nat) (b : bool) : option bmap :=
  if b then bm_word m (i / 64) (fun w => Z.lor w (one_at (i mod 64))) else Some m.
(** bitmap.hpp:170-174: [m[i] &= b] *)
Definition bm_and (m : bmap) (i : nat) (b : bool) : option bmap :=
  if b then Some m else bm_word m (i / 64) (fun w => Z.land w (not64 (one_at (i mod 64)))).
(** bitmap.hpp:98-102 *)
Definition bm_set (m : bmap) (i : nat) (b : bool) : option bmap :=
  let* m := if bsz m <=? i then bm_resize m (i + 1) false else Some m in
  bm_put m i b.
(** bitmap.hpp:282, 294 *)
Definition bm_mask (w : nat) : Z := (if (w <? 64)%nat then one_at w - 1 else 0xFFFFFFFFFFFFFFFF)%Z.
Definition shl (x : Z) (r : nat) : Z := u64 (Z.shiftl x (Z.of_nat r)).
Definition shr (x : Z) (r : nat) : Z := Z.shiftr x (Z.of_nat r).
(** bitmap.hpp:278-288 *)
Definition bm_range_set (m : bmap) (b e : nat) (x : Z) : option bmap :=
  if e <=? b then Some m
  else
    let r := b mod 64 in
    let w := e - b in
    let mask := bm_mask w in
    let* _ := guard (x <=? mask)%Z in
    let* m := bm_word m (b / 64) (fun v => Z.lor (Z.land v (not64 (shl mask r))) (shl x r)) in
    if 64 <? w + r then
      bm_word m (b / 64 + 1) (fun v => Z.lor (Z.land v (not64 (shr mask (64 - r)))) (shr x (64 - r)))
    else Some m.
(** bitmap.hpp:289-299 *)
Definition bm_range_get (m : bmap) (b e : nat) : option Z :=
  if e <=? b then Some 0%Z
  else
    let* _ := guard (e - b <=? 64) in
    let r := b mod 64 in
    let w := e - b in
    let mask := bm_mask w in
    let* v := get (arr m) (b / 64) in
    let x := shr v r in
    let* x := if 64 <? w + r then let* v := get (arr m) (b / 64 + 1) in Some (Z.lor x (shl v (64 - r)))
              else Some x in
    Some (Z.land x mask).

(** ** Iterators: a word index and an [unsigned] bit index (bitmap.hpp:190-276). *)
Definition biter := (Z * Z)%type.
(** bitmap.hpp:110, 113 *)
Definition it_begin : biter := (0, 0)%Z.
Definition it_end (m : bmap) : biter := (Z.of_nat (bsz m / 64), Z.of_nat (bsz m mod 64)).
(** bitmap.hpp:202-204; a shift by 64 or more is undefined. *)
Definition it_deref (m : bmap) (i : biter) : option bool :=
  let (p, c) := i in
  let* _ := guard ((0 <=? p) && (c <? 64))%Z in
  let* w := get (arr m) (Z.to_nat p) in Some (negb (Z.land w (one_at (Z.to_nat c)) =? 0)%Z).
(** bitmap.hpp:213-221 *)
Definition it_incr (i : biter) : biter :=
  let (p, c) := i in if (c mod 64 <? 63)%Z then (p, c + 1)%Z else (p + 1, 0)%Z.
(** bitmap.hpp:227-235 *)
Definition it_decr (i : biter) : biter :=
  let (p, c) := i in if (0 <? c mod 64)%Z then (p, c - 1)%Z else (p - 1, 63)%Z.
(** bitmap.hpp:244-251: [+=] with a non-negative argument. *)
Definition it_fwd (i : biter) (d : Z) : biter :=
  let (p, c) := i in
  let r := (d mod 64)%Z in
  (if c + r <? 64 then (p + d / 64, c + r) else (p + (d / 64 + 1), c + r - 64))%Z.
(** bitmap.hpp:260-268: [-=] with a non-negative argument; the result is stored in an [unsigned]. *)
Definition it_back (i : biter) (d : Z) : biter :=
  let (p, c) := i in
  let r := (d mod 64)%Z in
  (if r <=? c then (p - d / 64, c - r) else (p - (d / 64 + 1), (c + 64 - r - 64) mod 2 ^ 32))%Z.
(** bitmap.hpp:241-243, 257-259 *)
Definition it_plus (i : biter) (d : Z) : biter := if (d <? 0)%Z then it_back i (- d) else it_fwd i d.
Definition it_minus (i : biter) (d : Z) : biter := if (d <? 0)%Z then it_fwd i (- d) else it_back i d.
Definition it_eqb (i j : biter) : bool := ((fst i =? fst j) && (snd i =? snd j))%Z.
(** [for (bool b : m)] *)
Definition bm_iterate (m : bmap) : option (list bool) :=
  loop (bsz m + 1) (fun '(i, out) =>
    if it_eqb i (it_end m) then Some (inr out)
    else let* b := it_deref m i in Some (inl (it_incr i, out ++ [b]))) (it_begin, []).

(** ** Histories *)
Inductive bcmd := BPush (b : bool) | BResize (n : nat) (b : bool) | BAssign (n : nat) (b : bool)
  | BPut (i : nat) (b : bool) | BOr (i : nat) (b : bool) | BAnd (i : nat) (b : bool) | BSet (i : nat) (b : bool)
  | BRange (b e : nat) (x : Z) | BPop | BShrink (n : nat).
Definition bm_do (m : bmap) (c : bcmd) : option bmap :=
  match c with
  | BPush b => bm_push m b
  | BResize n b => bm_resize m n b
  | BAssign n b => Some (bm_assign m n b)
  | BPut i b => bm_put m i b
  | BOr i b => bm_or m i b
  | BAnd i b => bm_and m i b
  | BSet i b => bm_set m i b
  | BRange b e x => bm_range_set m b e x
  | BPop => bm_pop m
  | BShrink n => bm_resize m n false
  end.
Definition bm_run (cs : list bcmd) (m : bmap) : option bmap := for_each cs (fun c m => bm_do m c) m.

(** ** Specification: the commands on a list of bits; the vector gets shorter only within its last
    word ([pop_back] and [resize] keep the words that become unused). *)
Inductive bstep (l : list bool) : bcmd -> list bool -> Prop :=
  | bs_push b : bstep l (BPush b) (l ++ [b])
  | bs_resize n b : length l <= n -> bstep l (BResize n b) (l ++ repeat b (n - length l))
  | bs_assign n b : bstep l (BAssign n b) (repeat b n)
  | bs_put i b : i < length l -> bstep l (BPut i b) (lset l i b)
  | bs_or i b c : get l i = Some c -> bstep l (BOr i b) (lset l i (c || b))
  | bs_and i b c : get l i = Some c -> bstep l (BAnd i b) (lset l i (c && b))
  | bs_set i b : i < length l -> bstep l (BSet i b) (lset l i b)
  | bs_set_new i b : length l <= i -> bstep l (BSet i b) (l ++ repeat false (i - length l) ++ [b])
  | bs_range b e x : b <= e <= length l -> e - b <= 64 -> (0 <= x < 2 ^ Z.of_nat (e - b))%Z ->
      bstep l (BRange b e x) (firstn b l ++ bits (e - b) x ++ skipn e l)
  | bs_pop l' b : l = l' ++ [b] -> length l' mod 64 <> 0 -> bstep l BPop l'
  | bs_shrink n : n <= length l -> req n = req (length l) -> bstep l (BShrink n) (firstn n l).
Inductive bsteps : list bool -> list bcmd -> list bool -> Prop :=
  | bs_nil l : bsteps l [] l
  | bs_cons l c l' cs l'' : bstep l c l' -> bsteps l' cs l'' -> bsteps l (c :: cs) l''.
(** The number whose binary digits, least significant first, are [l]. *)
Fixpoint bin (l : list bool) : Z := match l with [] => 0 | b :: t => (if b then 1 else 0) + 2 * bin t end%Z.
