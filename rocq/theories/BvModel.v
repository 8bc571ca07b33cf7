(** Model of include/mtl/succinct/select.hpp ([select64]) and include/mtl/succinct/bv.hpp ([BV]), the
    rank and select directory over a bit vector given by its words; and of the calls
    include/mtl/succinct/bit_vector.hpp makes to them. Sizes and indices are naturals ([size_t] does
    not wrap), words are integers in [0, 2^64). *)
From Verif Require Import Base BitModel BmapModel.
Set Implicit Arguments.
Local Open Scope Z_scope.

(** select.hpp:11-20: row [i] of the table. *)
Definition sel_row (i : Z) : option (list Z) :=
  let* (c, x, row) := for_up 8 0 (fun j '(c, x, row) =>
    if Z.odd x then let* row := set row (c + 1)%nat (Z.of_nat j) in Some ((c + 1)%nat, Z.shiftr x 1, row)
    else Some (c, Z.shiftr x 1, row)) (0%nat, i, repeat 8 9) in
  Some row.
(** select.hpp:22-24 *)
Definition sel_tb (byte ith : Z) : option Z := let* row := sel_row byte in get row (Z.to_nat ith).
(** Byte [b] of the word [x] through a [uint8_t*] (little endian). *)
Definition byte_at (x b : Z) : option Z :=
  let* _ := guard ((0 <=? b) && (b <? 8)) in Some (Z.shiftr x (8 * b) mod 2 ^ 8).
(** select.hpp:26-60; [ith] and the result are [uint8_t]. *)
Definition select64 (B : bool) (ith bitmap : Z) : option Z :=
  let* _ := guard (ith <? 64) in
  let o := ith + 1 in
  let w := if B then bitmap else not64 bitmap in
  let bs := u64 (popcnt_e8 w * 0x0101010101010100) in
  let x := u64 (o * 0x0101010101010101) in
  let bmx := u64 (Z.lor bs 0x8080808080808080 - x) in
  let y := Z.shiftr (u64 (Z.land bmx 0x8080808080808080 * 0x02040810204081)) 56 in
  let b := (ctz8 y - 1) mod 2 ^ 8 in
  let* v := byte_at bs b in
  let r := o - v in
  let* byte := byte_at w b in
  let* _ := guard (negb (r =? 0) && (r <=? popcnt byte)) in
  let* t := sel_tb byte (r mod 2 ^ 8) in
  Some ((b * 8 + t) mod 2 ^ 8).

(** What [BV] asks of the bit vector: [size()], [word_size()], [get_word()]. *)
Record bvec := Bvec { vsize : nat; vwords : list Z }.
(** bv.hpp:32; [bm_] is passed as an argument. *)
Record bv := Bv { v_r : list Z; v_s : list nat; v_zs : list nat }.

Section BV.
(** bv.hpp:28-30: [WordSize]. *)
Variable W : nat.
Definition LB : nat := (W * 8)%nat.

(** bv.hpp:42-71 *)
Definition bv_block (v : bvec) (l : nat) (r : list Z) : option (Z * list Z) :=
  for_up 8 0 (fun s '(sum_l, r) =>
    let* sum_l := if (l * 8 + s <? length (vwords v))%nat
                  then let* w := get (vwords v) (l * 8 + s)%nat in Some (sum_l + popcnt w) else Some sum_l in
    if (s <? 7)%nat then
      let* x := get r (l * 2 + 1)%nat in
      let* r := set r (l * 2 + 1)%nat (Z.lor x (u64 (Z.shiftl sum_l (Z.of_nat ((7 - (s + 1)) * 9))))) in
      Some (sum_l, r)
    else Some (sum_l, r)) (0, r).
Definition bv_build (v : bvec) : option bv :=
  let num_l := ((vsize v + LB - 1) / LB)%nat in
  let L := Z.of_nat LB in
  let* (sum, r, s, zs) := for_up num_l 0 (fun l '(sum, r, s, zs) =>
    let psum := sum in
    let* (sum_l, r) := bv_block v l r in
    let sum := sum + sum_l in
    let* r := set r ((l + 1) * 2)%nat sum in
    let s := if negb (psum / L =? sum / L) then s ++ [l] else s in
    let zs := if negb ((L * Z.of_nat l - psum) / L =? (L * Z.of_nat (l + 1) - sum) / L) then zs ++ [l] else zs in
    Some (sum, r, s, zs)) (0, repeat 0 ((num_l + 1) * 2), [0%nat], [0%nat]) in
  Some (Bv r (s ++ [num_l]) (zs ++ [num_l])).
(** bv.hpp:73-77 *)
Definition get_l (b : bv) (B : bool) (l : nat) : option Z :=
  let* x := get (v_r b) (l * 2)%nat in Some (if B then x else Z.of_nat (l * LB) - x).
(** bv.hpp:78-80 *)
Definition s_off (s : nat) : Z := Z.of_nat ((7 - s) * 9).
(** bv.hpp:81-85 *)
Definition get_s (b : bv) (B : bool) (l s : nat) : option Z :=
  let* x := get (v_r b) (l * 2 + 1)%nat in
  let x := Z.shiftr x (s_off s) mod 2 ^ 9 in
  Some (if B then x else Z.of_nat (s * W) - x).
(** bv.hpp:86-88; the width is below 64 or 64. *)
Definition bv_mask (w : nat) : Z := if (w =? 64)%nat then 0xFFFFFFFFFFFFFFFF else u64 (Z.shiftl 1 (Z.of_nat w)) - 1.
(** bv.hpp:89-99 *)
Definition rank1 (v : bvec) (b : bv) (i : nat) : option nat :=
  let l := (i / LB)%nat in
  let s := (i mod LB / W)%nat in
  let q := (i / W)%nat in
  let r := (i mod W)%nat in
  if (vsize v <=? i)%nat then
    let* x := get (v_r b) (length (v_r b) - 2)%nat in Some (Z.to_nat x)
  else
    let* w := get (vwords v) q in
    let w := Z.land w (bv_mask r) in
    let* x := get_l b true l in
    let* y := get_s b true l s in
    Some (Z.to_nat (x + y + popcnt w)).
(** bv.hpp:100-109 *)
Definition rank0 (v : bvec) (b : bv) (i : nat) : option nat :=
  let* x := rank1 v b i in let* _ := guard (x <=? i)%nat in Some (i - x)%nat.
Definition rank (v : bvec) (b : bv) (B : bool) (i : nat) : option nat := if B then rank1 v b i else rank0 v b i.
(** bv.hpp:111-119 *)
Definition l_block_cap : Z :=
  fold_left (fun m i => Z.lor m (u64 (Z.shiftl (Z.of_nat (i * W)) (s_off i)))) (seq 0 8) 0.
(** bv.hpp:150-165: the small block of a large one; [a] packs seven 9-bit counts. *)
Definition find_s (m a : Z) : option Z :=
  let x := u64 ((m - 1) * 0x0040201008040201) in
  let xda := u64 (x - a) in
  let sm := 0x4020100804020100 in
  let ok := Z.land (Z.lor (not64 x) a) sm in
  let ng := Z.land (Z.land (not64 x) a) sm in
  let y := Z.lor (Z.land (Z.lxor (Z.lxor x a) xda) ok) ng in
  let y := Z.shiftr (u64 (y * 0x0001010101010101)) (64 - 1 - 7) in
  let* c := clz8 (y mod 2 ^ 8) in
  let id := c - 1 in
  let* _ := guard (0 <=? id) in
  let* clo := clz (u64 (Z.shiftl (Z.lor (u64 (Z.shiftl (not64 xda) 1)) 1) (9 * id))) in
  Some (id + (if clo =? 0 then 0 else (clo - 1) / 9)).
(** bv.hpp:121-172 *)
Definition select (v : bvec) (b : bv) (B : bool) (ith : nat) : option nat :=
  let n := (ith + 1)%nat in
  let* rk := rank v b B (vsize v) in
  if (rk <? n)%nat then Some (vsize v)
  else
    let idx := if B then v_s b else v_zs b in
    let* l := get idx (n / LB)%nat in
    let* r := get idx (n / LB + 1)%nat in
    let* l := loop (length (v_r b) + 2) (fun '(l, r) =>
      if (l + 1 <? r)%nat then
        let c := (l + (r - l) / 2)%nat in
        let* x := get_l b B c in
        Some (inl (if x <? Z.of_nat n then (c, r) else (l, c)))
      else Some (inr l)) (l, (r + 1)%nat) in
    let* x := get_l b B l in
    let m := Z.of_nat n - x in
    let* a := get (v_r b) (l * 2 + 1)%nat in
    let a := if B then a else u64 (l_block_cap - a) in
    let* s := find_s m a in
    let s := Z.to_nat s in
    let* x := get_s b B l s in
    let o := m - x in
    let* w := get (vwords v) (l * 8 + s)%nat in
    let* p := select64 B (o - 1) w in
    Some (l * LB + s * W + Z.to_nat p)%nat.
End BV.

(** bit_vector.hpp:59-83: [BitVector], a [Bitmap] and a [BV<Bitmap, 64>] over it. *)
Definition bm_vec (m : bmap) : bvec := Bvec (bsz m) (arr m).

(** ** Specification: rank and select of a list of bits *)
(** The number of [B]s. *)
Fixpoint cnt (B : bool) (l : list bool) : nat :=
  match l with [] => 0 | b :: t => if Bool.eqb b B then S (cnt B t) else cnt B t end.
(** The position of the [k]th (from 0) [B]; the length if there are fewer. *)
Fixpoint kth (B : bool) (k : nat) (l : list bool) : nat :=
  match l with
  | [] => 0
  | b :: t => if Bool.eqb b B then match k with O => 0 | S k => S (kth B k t) end else S (kth B k t)
  end%nat.
