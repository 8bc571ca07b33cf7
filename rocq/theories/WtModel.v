(** Model of include/mtl/succinct/wavelet_tree.hpp, except [range_freq] (lines 228-256), which
    cannot be instantiated ([qs.emplace] of five values into a 3-tuple, [qs.empty(0)]). Sizes and
    indices are naturals; a [size_t] difference that would wrap is [None]. Values are integers; [T]
    holds every value of the list. [std::queue] is a list with its front first. Positions fit in the
    [int]s of [ls]. *)
From Verif Require Import Base BitModel BmapModel BvModel WmModel.
Set Implicit Arguments.

(** wavelet_tree.hpp:14-15: [B] is a [Bitmap] with its directory. *)
Record wt := Wt { tn : nat; th : nat; tB : bmap; trs : bv }.

(** wavelet_tree.hpp:32-33, 63-64: bit [k] of every value, through the iterator. *)
Definition wt_write (n k : nat) (xs : list Z) (st : bmap * biter) : option (bmap * biter) :=
  for_up n 0 (fun i '(m, it) =>
    let* x := get xs i in
    let* m := it_put m it (vbit x k) in
    Some (m, it_incr it)) st.
(** wavelet_tree.hpp:38-42 *)
Definition wt_collect (k l r : nat) (xs : list Z) : option (list Z * list Z) :=
  for_up (r - l) l (fun i '(sz, so) =>
    let* x := get xs i in
    if negb (vbit x k) then Some (sz ++ [x], so) else Some (sz, so ++ [x])) ([], []).
(** wavelet_tree.hpp:46-53: [S[i++] = q.front(); q.pop()] *)
Definition wt_drain (q : list Z) (st : nat * list Z) : option (nat * list Z) :=
  for_each q (fun x '(i, xs) => let* xs := set xs i x in Some (i + 1, xs)) st.
(** wavelet_tree.hpp:37-60: one node; the queues are empty before and after. *)
Definition wt_node (k : nat) (D : list nat) (d : nat) (st : list nat * list Z) : option (list nat * list Z) :=
  let (nd, xs) := st in
  let* l := get D d in
  let* r := get D (d + 1) in
  let* (sz, so) := wt_collect k l r xs in
  let zs := length sz in
  let* (i, xs) := wt_drain sz (l, xs) in
  let* (i, xs) := wt_drain so (i, xs) in
  let* _ := guard (i =? r) in
  let nd := if negb (zs =? 0) then nd ++ [l + zs] else nd in
  let nd := if l + zs <? r then nd ++ [r] else nd in
  Some (nd, xs).
(** wavelet_tree.hpp:31-62: one level. *)
Definition wt_level (n k : nat) (st : bmap * biter * list Z * list nat) : option (bmap * biter * list Z * list nat) :=
  let '(m, it, xs, D) := st in
  let* (m, it) := wt_write n k xs (m, it) in
  let* (nd, xs) := for_up (length D - 1) 0 (wt_node k D) ([0], xs) in
  Some (m, it, xs, nd).
(** wavelet_tree.hpp:17-66; the greatest element of an empty range is undefined. *)
Definition wt_build (xs : list Z) : option wt :=
  let n := length xs in
  let* _ := guard (0 <? n) in
  let* _ := guard (forallb (fun x => 0 <=? x)%Z xs) in
  let* c := clz (fold_left Z.max xs 0%Z) in
  let h := 64 - Z.to_nat c in
  let* (m, it, xs, D) := for_down (h - 1) 1 (wt_level n) (bm_new (h * n) false, it_begin, xs, [0; n]) in
  let* (m, it) := wt_write n 0 xs (m, it) in
  let* d := bv_build 64 (bm_vec m) in
  Some (Wt n h m d).

(** [B.rank(i)] *)
Definition trk (w : wt) (i : nat) : option nat := rank1 64 (bm_vec (tB w)) (trs w) i.
(** [B.select<b>(i)] *)
Definition tsel (w : wt) (b : bool) (i : nat) : option nat := select 64 (bm_vec (tB w)) (trs w) b i.

(** wavelet_tree.hpp:68-73, and the private [child_tie] (218-224) with the same result *)
Definition wt_child (w : wt) (b : bool) (l r : nat) : option (nat * nat) :=
  let* rr := trk w r in
  let* rl := trk w l in
  let* os := usub rr rl in
  let* d := usub r l in
  let* zs := usub d os in
  Some (if negb b then (l + tn w, l + zs + tn w) else (l + zs + tn w, r + tn w)).

(** wavelet_tree.hpp:80-83, 104-105, 124-125, 144-145: [rl], [rj], [rr] and [zs]. *)
Definition wt_ranks (w : wt) (l r j : nat) : option (nat * nat * nat) :=
  let* rl := trk w l in
  let* rj := trk w (l + j) in
  let* rr := trk w r in
  let* d := usub r l in
  let* os := usub rr rl in
  let* zs := usub d os in
  Some (rl, rj, zs).
(** [(l+j - rj) - (l - rl)] *)
Definition wt_zeros (l j rl rj : nat) : option nat :=
  let* a := usub (l + j) rj in let* b := usub l rl in usub a b.
(** wavelet_tree.hpp:75-98 *)
Definition wt_get (w : wt) (i : nat) : option Z :=
  let n := tn w in
  let* (l, r, ret, j) := for_down (th w - 1) 1 (fun k '(l, r, ret, j) =>
    let* (rl, rj, zs) := wt_ranks w l r j in
    let* b := bm_get (tB w) (l + j) in
    if (b : bool) then
      let* o := one_ull k in
      let* j := usub rj rl in
      Some (l + (n + zs), r + n, Z.lor ret o, j)
    else
      let* j := wt_zeros l j rl rj in
      Some (l + n, l + n + zs, ret, j)) (0, n, 0%Z, i) in
  let* b := bm_get (tB w) (l + j) in
  Some (if (b : bool) then Z.lor ret 1 else ret).
(** wavelet_tree.hpp:100-117 *)
Definition wt_rank (w : wt) (c : Z) (i : nat) : option nat :=
  let n := tn w in
  let* (l, r, j) := for_down (th w) 0 (fun k '(l, r, j) =>
    let* (rl, rj, zs) := wt_ranks w l r j in
    if vbit c k then
      let* j := usub rj rl in
      Some (l + (n + zs), r + n, j)
    else
      let* j := wt_zeros l j rl rj in
      Some (l + n, l + n + zs, j)) (0, n, i) in
  Some j.
(** wavelet_tree.hpp:119-138 *)
Definition wt_rank_lower (w : wt) (c : Z) (i : nat) : option nat :=
  let n := tn w in
  let* (l, r, j, ret) := for_down (th w) 0 (fun k '(l, r, j, ret) =>
    let* (rl, rj, zs) := wt_ranks w l r j in
    if vbit c k then
      let* z := wt_zeros l j rl rj in
      let* j := usub rj rl in
      Some (l + (n + zs), r + n, j, ret + z)
    else
      let* j := wt_zeros l j rl rj in
      Some (l + n, l + n + zs, j, ret)) (0, n, i, 0) in
  Some ret.
(** wavelet_tree.hpp:140-159 *)
Definition wt_rank_3way (w : wt) (c : Z) (i : nat) : option (nat * nat * nat) :=
  let n := tn w in
  let* (l, r, j, lt, gt) := for_down (th w) 0 (fun k '(l, r, j, lt, gt) =>
    let* (rl, rj, zs) := wt_ranks w l r j in
    if vbit c k then
      let* z := wt_zeros l j rl rj in
      let* j := usub rj rl in
      Some (l + (n + zs), r + n, j, lt + z, gt)
    else
      let* o := usub rj rl in
      let* j := wt_zeros l j rl rj in
      Some (l + n, l + n + zs, j, lt, gt + o)) (0, n, i, 0, 0) in
  Some (lt, j, gt).
(** wavelet_tree.hpp:161-190; [ls0] is what the array [ls] held before, [H] entries. *)
Definition wt_select (w : wt) (ls0 : list nat) (c : Z) (i : nat) : option nat :=
  let n := tn w in
  let* (l, r, ls) := for_down (th w) 0 (fun k '(l, r, ls) =>
    let* ls := set ls k l in
    let* rl := trk w l in
    let* rr := trk w r in
    let* d := usub r l in
    let* os := usub rr rl in
    let* zs := usub d os in
    if vbit c k then Some (l + (n + zs), r + n, ls) else Some (l + n, l + n + zs, ls)) (0, n, ls0) in
  let* d := usub r l in
  if d <=? i then Some n
  else
    for_up (th w) 0 (fun k j =>
      let* a := get ls k in
      let* rl := trk w a in
      if vbit c k then
        let* p := tsel w true (j + rl) in usub p a
      else
        let* z := usub a rl in
        let* p := tsel w false (j + z) in usub p a) i.

(** wavelet_tree.hpp:193-209; the depth of the recursion is at most [h] + 1. *)
Fixpoint wt_enum (fuel : nat) (w : wt) (l r a b : nat) (c : Z) (enm : list (Z * nat)) : option (list (Z * nat)) :=
  match fuel with
  | O => None
  | Datatypes.S fuel =>
    let n := tn w in
    let* d := usub b a in
    if d =? 0 then Some enm
    else if n * th w <=? l then Some (enm ++ [(c, d)])
    else
      let* rl := trk w l in
      let* rr := trk w r in
      let* xa := trk w (l + a) in
      let* ra := usub xa rl in
      let* xb := trk w (l + b) in
      let* rb := usub xb rl in
      let* z1 := usub r rr in
      let* z2 := usub l rl in
      let* zs := usub z1 z2 in
      let* a0 := usub a ra in
      let* b0 := usub b rb in
      let* enm := wt_enum fuel w (l + n) (l + n + zs) a0 b0 c enm in
      let* k := usub (th w) (1 + l / n) in
      let* o := one_ull k in
      wt_enum fuel w (l + n + zs) (r + n) ra rb (Z.lor c o) enm
  end.
(** wavelet_tree.hpp:211-215 *)
Definition wt_enumerate (w : wt) (l r : nat) : option (list (Z * nat)) := wt_enum (th w + 1) w 0 (tn w) l r 0%Z [].

(** ** Specification (with [howmany] and [nth_occ] of WmModel.v): nodes by the upper bits *)
(** The upper bits of [x] from bit [k] on. *)
Definition upper (k : nat) (x : Z) : Z := (x / 2 ^ Z.of_nat k)%Z.
(** A walk down from the root. *)
Fixpoint wt_walk (w : wt) (bs : list bool) (l r : nat) : option (nat * nat) :=
  match bs with
  | [] => Some (l, r)
  | b :: bs => let* (l, r) := wt_child w b l r in wt_walk w bs l r
  end.
(** The number the bits of a path spell. *)
Definition spell (bs : list bool) : Z := fold_left (fun a (b : bool) => 2 * a + (if b then 1 else 0))%Z bs 0%Z.
