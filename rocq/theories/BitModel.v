(** Model of include/mtl/bit_manip.hpp, the code path without C++20's <bit>.
    A [uint64_t] is an integer in [0, 2^64); arithmetic wraps explicitly. *)
From Verif Require Import Base.
Local Open Scope Z_scope.

Set Implicit Arguments.

Definition u64 (x : Z) : Z := x mod 2 ^ 64.
(** [~x] on 64 bits. *)
Definition not64 (x : Z) : Z := 2 ^ 64 - 1 - x.

(** bit_manip.hpp:14-19 *)
Definition popcnt_e8 (x : Z) : Z :=
  let x := u64 (Z.land x 0x5555555555555555 + Z.land (Z.shiftr x 1) 0x5555555555555555) in
  let x := u64 (Z.land x 0x3333333333333333 + Z.land (Z.shiftr x 2) 0x3333333333333333) in
  let x := u64 (Z.land x 0x0F0F0F0F0F0F0F0F + Z.land (Z.shiftr x 4) 0x0F0F0F0F0F0F0F0F) in
  x.
(** bit_manip.hpp:21-27 *)
Definition popcnt (x : Z) : Z := Z.shiftr (u64 (popcnt_e8 x * 0x0101010101010101)) 56.
(** bit_manip.hpp:33-39 *)
Definition ctz (x : Z) : Z := popcnt (u64 (Z.land x (u64 (- x)) - 1)).
(** bit_manip.hpp:45-51 *)
Definition cto (x : Z) : Z := ctz (not64 x).
(** bit_manip.hpp:56-58; [x] is promoted to [int], the argument of [popcnt_e8]
    is converted to 64 bits. *)
Definition ctz8 (x : Z) : Z := if x =? 0 then 8 else popcnt_e8 (u64 (Z.land x (- x) - 1)).
(** bit_manip.hpp:60-70 *)
Definition summary (x : Z) : Z :=
  let hmask := 0x8080808080808080 in
  let lmask := 0x7F7F7F7F7F7F7F7F in
  let a := Z.land x hmask in
  let b := Z.land x lmask in
  let b := u64 (hmask - b) in
  let b := not64 b in
  let c := Z.land (Z.lor a b) hmask in
  let c := u64 (c * 0x0002040810204081) in
  (Z.shiftr c 56) mod 2 ^ 8.
(** bit_manip.hpp:72-75; a shift by 64 or more is undefined. *)
Definition bextr (x start len : Z) : option Z :=
  let mask := if len <? 64 then u64 (Z.shiftl 1 len) - 1 else 0xFFFFFFFFFFFFFFFF in
  if start <? 64 then Some (Z.land (Z.shiftr x start) mask) else None.
(** bit_manip.hpp:77-86 *)
Definition log2p1 (x : Z) : Z :=
  if negb (Z.land x 0x80 =? 0) then 8
  else
    let p := u64 (x * 0x0101010101010101) in
    let p := u64 (p - 0x8040201008040201) in
    let p := Z.land (not64 p) 0x8080808080808080 in
    let p := u64 (Z.shiftr p 7 * 0x0101010101010101) in
    Z.shiftr p 56.
(** bit_manip.hpp:88-91; the assertion is a precondition. *)
Definition mssb8 (x : Z) : option Z := if x =? 0 then None else Some (log2p1 x - 1).
(** bit_manip.hpp:93-96 *)
Definition lssb8 (x : Z) : option Z :=
  if x =? 0 then None else Some (popcnt_e8 (u64 (Z.land x (- x) - 1))).
(** bit_manip.hpp:98-108; [bextr] returns 64 bits, narrowed to [uint8_t] by the
    call of [mssb8]. *)
Definition clz (x : Z) : option Z :=
  if x =? 0 then Some 64
  else
    let* i := mssb8 (summary x) in
    let* y := bextr x (8 * i) 8 in
    let* j := mssb8 (y mod 2 ^ 8) in
    Some (63 - (8 * i + j)).
(** bit_manip.hpp:114-120 *)
Definition clo (x : Z) : option Z := clz (not64 x).
(** bit_manip.hpp:126-128 *)
Definition clz8 (x : Z) : option Z :=
  if x =? 0 then Some 8 else let* i := mssb8 x in Some (7 - i).
(** One line of [bit_reverse]. *)
Definition rev_stage (s m1 m2 x : Z) : Z :=
  Z.lor (u64 (Z.shiftl (Z.land x m1) s)) (Z.shiftr (Z.land x m2) s).
(** bit_manip.hpp:129-137 *)
Definition bit_reverse (x : Z) : Z :=
  let x := rev_stage 32 0x00000000FFFFFFFF 0xFFFFFFFF00000000 x in
  let x := rev_stage 16 0x0000FFFF0000FFFF 0xFFFF0000FFFF0000 x in
  let x := rev_stage 8 0x00FF00FF00FF00FF 0xFF00FF00FF00FF00 x in
  let x := rev_stage 4 0x0F0F0F0F0F0F0F0F 0xF0F0F0F0F0F0F0F0 x in
  let x := rev_stage 2 0x3333333333333333 0xCCCCCCCCCCCCCCCC x in
  let x := rev_stage 1 0x5555555555555555 0xAAAAAAAAAAAAAAAA x in
  x.
(** bit_manip.hpp:140-146 *)
Definition has_single_bit (x : Z) : bool := negb (x =? 0) && (Z.land x (u64 (x - 1)) =? 0).
(** bit_manip.hpp:149-155 *)
Definition bit_width (x : Z) : option Z := let* c := clz x in Some (64 - c).
(** bit_manip.hpp:158-165; a shift by 64 is undefined. *)
Definition shl1 (k : Z) : option Z := if k <? 64 then Some (u64 (Z.shiftl 1 k)) else None.
Definition bit_ceil (x : Z) : option Z :=
  if x =? 0 then Some 1 else let* w := bit_width (u64 (x - 1)) in shl1 w.
(** bit_manip.hpp:168-175 *)
Definition bit_floor (x : Z) : option Z :=
  if x =? 0 then Some 0 else let* w := bit_width x in shl1 (w - 1).

(** ** Specification: bit strings *)
(** The bits of [x], least significant first. *)
Definition bits (n : nat) (x : Z) : list bool := map (fun i => Z.testbit x (Z.of_nat i)) (seq 0 n).
Fixpoint ones_count (l : list bool) : Z :=
  match l with [] => 0 | b :: t => (if b then 1 else 0) + ones_count t end.
(** The length of the leading run of [v]. *)
Fixpoint run (v : bool) (l : list bool) : Z :=
  match l with [] => 0 | b :: t => if Bool.eqb b v then 1 + run v t else 0 end.
Definition word64 (x : Z) : Prop := 0 <= x < 2 ^ 64.
Definition byte (x : Z) : Prop := 0 <= x < 2 ^ 8.
