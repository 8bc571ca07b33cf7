(** Model of include/mtl/bitmap.hpp: [Bitmap], a bit vector that can be changed, with the number of ones
    of every word in a Fenwick tree (fenwick_tree.hpp). Positions and sizes are naturals; the [int]s do not wrap
    below [2^31] bits, which the theorems assume. *)
From Verif Require Import Base BitModel BmapModel BvModel FenwickModel.
Set Implicit Arguments.

(** bitmap.hpp:15-16 (the table is the same in every object) *)
Record fbm := Fbm { f_rsq : list Z; f_bv : list Z }.
(** bitmap.hpp:18-20 *)
Definition fword_size (sz : nat) : nat := (sz + 64 - 1) / 64.
(** bitmap.hpp:22-33: a row of the table; [None] is a cell that is never written. *)
Definition ftb_row (i : Z) : option (list (option Z)) :=
  let* (c, x, row) := for_up 8 0 (fun j '(c, x, row) =>
    if Z.odd x then let* row := set row (c + 1) (Some (Z.of_nat j)) in Some (c + 1, Z.shiftr x 1, row)
    else Some (c, Z.shiftr x 1, row)) (0, i, repeat None 9) in
  Some row.
Definition ftb (B k : Z) : option Z :=
  let* _ := guard (0 <=? k)%Z in
  let* row := ftb_row B in
  let* cell := get row (Z.to_nat k) in
  cell.
(** bitmap.hpp:36-40 *)
Definition fbm_new (n : nat) (b : bool) : fbm := Fbm (fw_new 0%Z (fword_size n)) (repeat (wfill b) (fword_size n)).
(** bitmap.hpp:53-55 *)
Definition fbm_get (s : fbm) (i : nat) : option bool :=
  let* w := get (f_bv s) (i / 64) in Some (negb (Z.land (Z.shiftr w (Z.of_nat (i mod 64))) 1 =? 0)%Z).
(** bitmap.hpp:56-61 *)
Definition fbm_set (s : fbm) (i : nat) (b : bool) : option fbm :=
  let q := i / 64 in
  let r := i mod 64 in
  let* o := fbm_get s i in
  let* t := fw_add Z.add (f_rsq s) q (Z.b2z b - Z.b2z o)%Z in
  let* w := get (f_bv s) q in
  let* bv := set (f_bv s) q (if b then Z.lor w (one_at r) else Z.land w (not64 (one_at r))) in
  Some (Fbm t bv).
(** bitmap.hpp:41-51 *)
Definition fbm_of (l : list bool) : option fbm :=
  let* (s, i) := for_each l (fun b '(s, i) => let* s := fbm_set s i b in Some (s, i + 1)) (fbm_new (length l) false, 0) in
  Some s.
(** [b > 0 ? rsq.sum(b-1) : 0] in bitmap.hpp:67 and 74 *)
Definition fbefore (s : fbm) (b : nat) : option Z :=
  if 0 <? b then fw_sum Z.add 0%Z (f_rsq s) (b - 1) else Some 0%Z.
(** bitmap.hpp:64-69 *)
Definition fbm_rank (s : fbm) (i : nat) : option Z :=
  if i =? 0 then Some 0%Z
  else
    let* c := fbefore s (i / 64) in
    let* w := get (f_bv s) (i / 64) in
    Some (c + popcnt (Z.land w (one_at (i mod 64) - 1)))%Z.
(** bitmap.hpp:75-89: the [m]th one of the word [w], [m] from 1. *)
Definition fword_sel (w m : Z) : option Z :=
  let x := u64 (popcnt_e8 w * 0x0101010101010100) in
  let* b := loop 4 (fun '(b, d) =>
    if (1 <? d)%Z then
      let c := (b + d / 2)%Z in
      let* v := byte_at x c in
      Some (inl (if (v <? m)%Z then c else b, (d / 2)%Z))
    else Some (inr b)) (0, 8)%Z in
  let* v := byte_at x b in
  let* B := byte_at w b in
  let* t := ftb B (m - v) in
  Some (8 * b + t)%Z.
(** bitmap.hpp:71-90 *)
Definition fbm_select (s : fbm) (n : nat) : option Z :=
  let n := n + 1 in
  let* q := fw_lower_bound Z.add 0%Z Z.ltb (f_rsq s) (Z.of_nat n) in
  let* c := fbefore s q in
  let m := (Z.of_nat n - c)%Z in
  let* w := get (f_bv s) q in
  let* p := fword_sel w m in
  Some (64 * Z.of_nat q + p)%Z.
(** A history of calls of [set]. *)
Definition fbm_sets (s : fbm) (h : list (nat * bool)) : option fbm :=
  for_each h (fun '(i, b) s => fbm_set s i b) s.

(** ** Specification: the bits as a list; [cnt] and [kth] of BvModel.v. *)
Definition bits_after (l : list bool) (h : list (nat * bool)) : list bool :=
  fold_left (fun l '(i, b) => lset l i b) h l.
