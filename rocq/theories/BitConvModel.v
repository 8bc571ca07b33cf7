(** Model of include/mtl/bitwise_convolution.hpp and include/mtl/subset_convolution.hpp.

    The coefficient type is arbitrary, with its operations as parameters.  The index
    arithmetic is done in [nat]: all the indices are below [2^n], which the code needs
    to be an [int] ([1<<n]).  An access outside a vector is [None].

    [64-bm::clz(x)] is [bitlen x]; [bm::popcnt] is [popcount] below. *)
From Coq Require Export List Arith Bool ZArith.
From Verif Require Export Base.
Export ListNotations.
Set Implicit Arguments.

Section Sweep.
Variable St : Type.
(** The loop shared by SubsetZetaImpl (bitwise_convolution.hpp:26-37), SubsetMobiusImpl
    (87-98), HadamardTransformImpl (184-198), SubsetRankedZeta (subset_convolution.hpp:35-48)
    and SubsetRankedMobius (76-88); [step w t] is the body for the pair [(t-w, t)]. *)
Variable step : nat -> nat -> St -> option St.

Definition sweep_levels (n mask : nat) (s : St) : option St :=
  loop (n + 1) (fun '(m, w, s) =>
    if Nat.odd m then
      let* s := for_up w (mask + 1 - w) (fun t s => step w t s) s in
      Some (inl (Nat.div2 m, 2 * w, s))
    else Some (inr s)) (mask, 1, s).

Definition sweep (n : nat) (s : St) : option St :=
  loop (2 ^ n + 1) (fun '(mask, s) =>
    if mask <? 2 ^ n then
      let* s := sweep_levels n mask s in
      Some (inl (mask + 2, s))
    else Some (inr s)) (1, s).
End Sweep.

Section Bitwise.
Variable T : Type.
Variables (zero : T) (add sub mul : T -> T -> T).

(** bitwise_convolution.hpp:32 *)
Definition zeta_step (w t : nat) (A : list T) : option (list T) :=
  let* b := get A t in
  let* a := get A (t - w) in
  set A t (add b a).
(** bitwise_convolution.hpp:93 *)
Definition mobius_step (w t : nat) (A : list T) : option (list T) :=
  let* b := get A t in
  let* a := get A (t - w) in
  set A t (sub b a).
(** bitwise_convolution.hpp:190-193 *)
Definition hadamard_step (w t : nat) (A : list T) : option (list T) :=
  let* a := get A (t - w) in
  let* b := get A t in
  let* A := set A (t - w) (add a b) in
  set A t (sub a b).

(** bitwise_convolution.hpp:54-59, SubsetZetaInline *)
Definition zeta_inline (A : list T) : option (list T) :=
  match A with
  | [] => Some A
  | _ => sweep zeta_step (bitlen (length A - 1)) A
  end.
(** bitwise_convolution.hpp:122-127, SubsetMobiusInline *)
Definition mobius_inline (A : list T) : option (list T) :=
  match A with
  | [] => Some A
  | _ => sweep mobius_step (bitlen (length A - 1)) A
  end.
(** std::copy of [2^n] elements from [A] into a new vector: bitwise_convolution.hpp:105-106
    and 205-206 *)
Definition copy_pow2 (n : nat) (A : list T) : option (list T) :=
  let* _ := guard (2 ^ n <=? length A) in Some (firstn (2 ^ n) A).
(** bitwise_convolution.hpp:103-118, SubsetMobius *)
Definition mobius (A : list T) : option (list T) :=
  match A with
  | [] => Some []
  | _ => let n := bitlen (length A - 1) in
         let* zA := copy_pow2 n A in
         sweep mobius_step n zA
  end.

(** bitwise_convolution.hpp:146-148 and 225-227 *)
Definition pointwise (A B : list T) : option (list T) :=
  for_up (length A) 0 (fun i A =>
    let* a := get A i in
    let* b := get B i in
    set A i (mul a b)) A.

(** bitwise_convolution.hpp:140-150, BitwiseOrConvolutionInline; the result is the new
    value of [A] ([B] is left transformed). *)
Definition or_inline (A B : list T) : option (list T) :=
  let* zA := zeta_inline A in
  let* zB := zeta_inline B in
  let* zA := pointwise zA zB in
  mobius_inline zA.

(** std::copy of [A] to the front of a vector of [2^n] zeros. *)
Definition padded (n : nat) (A : list T) : option (list T) :=
  let* _ := guard (length A <=? 2 ^ n) in
  Some (A ++ repeat zero (2 ^ n - length A)).
(** bitwise_convolution.hpp:152-163.  With two empty vectors [n] is 64 and [1<<n] is
    undefined. *)
Definition and_convolution (A B : list T) : option (list T) :=
  let* _ := guard (0 <? max (length A) (length B)) in
  let n := bitlen (max (length A) (length B) - 1) in
  let* rA := padded n A in
  let* rB := padded n B in
  let* rA := or_inline (rev rA) (rev rB) in
  Some (rev rA).

(** bitwise_convolution.hpp:203-218, HadamardTransform *)
Definition hadamard (A : list T) : option (list T) :=
  match A with
  | [] => Some []
  | _ => let n := bitlen (length A - 1) in
         let* hA := copy_pow2 n A in
         sweep hadamard_step n hA
  end.

(** bitwise_convolution.hpp:220-241; [scale n] is the division chosen at compile time
    (230-239).  With an empty [A], [n] is 64 and [1ull<<n] is undefined. *)
Definition xor_convolution (scale : nat -> T -> T) (A B : list T) : option (list T) :=
  let* _ := guard (0 <? length A) in
  let n := bitlen (length A - 1) in
  let* hA := hadamard A in
  let* hB := hadamard B in
  let* hA := pointwise hA hB in
  let* AB := sweep hadamard_step n hA in
  Some (map (scale n) AB).

(** bitwise_convolution.hpp:231-232, for a type with [pow] and [inv] *)
Definition scale_inv (pow : T -> nat -> T) (inv : T -> T) (two : T) (n : nat) (a : T) : T :=
  mul a (inv (pow two n)).
(** bitwise_convolution.hpp:236-238, for the remaining types *)
Definition scale_div (div : T -> T -> T) (two : T) (n : nat) (a : T) : T :=
  div a (Nat.iter n (fun p => mul p two) two).
End Bitwise.

(** bitwise_convolution.hpp:234, for an integral type.  The value is not wrapped: this is
    the code as long as no intermediate value overflows. *)
Definition scale_shift (n : nat) (a : Z) : Z := Z.shiftr a (Z.of_nat n).

(** The number of set bits. *)
Definition popcount (x : nat) : nat := length (filter (Nat.testbit x) (seq 0 (bitlen x))).

Section Subset.
Variable T : Type.
Variables (zero : T) (add sub mul : T -> T -> T).
(** The template parameter [LIM]; a row is a [std::array<T, LIM+1>]. *)
Variable LIM : nat.

(** subset_convolution.hpp:42-43 and 82-83 *)
Definition ranked_step (op : T -> T -> T) (w t : nat) (Z : list (list T)) : option (list (list T)) :=
  for_up (LIM + 1) 0 (fun d Z =>
    let* b := get2 Z t d in
    let* a := get2 Z (t - w) d in
    set2 Z t d (op b a)) Z.

(** subset_convolution.hpp:19-22 *)
Definition ranked_init (A : list T) (Z : list (list T)) : option (list (list T)) :=
  for_up (length A) 0 (fun i Z =>
    let* a := get A i in
    let* Z := set Z i (repeat zero (LIM + 1)) in
    set2 Z i (popcount i) a) Z.

(** subset_convolution.hpp:13-56, SubsetRankedZeta *)
Definition ranked_zeta (n : nat) (A : list T) : option (list (list T)) :=
  let Z := repeat (repeat zero (LIM + 1)) (2 ^ n) in
  let* _ := guard (n <=? LIM) in
  let* Z := ranked_init A Z in
  sweep (ranked_step add) n Z.

(** subset_convolution.hpp:58-94, SubsetRankedMobius, the outputs in order *)
Definition ranked_mobius (n : nat) (Z : list (list T)) : option (list T) :=
  let* _ := guard (n <=? LIM) in
  let* _ := guard (length Z =? 2 ^ n) in
  let* Z := sweep (ranked_step sub) n Z in
  for_up (2 ^ n) 0 (fun i out =>
    let* x := get2 Z i (popcount i) in
    Some (out ++ [x])) [].

(** subset_convolution.hpp:102-135, SubsetPointwiseConvolution.  The output is written
    over [zA], as in every call (144-145); with [same] the second operand is [zA]
    itself (168) and is read from the updated array. *)
Definition ranked_pointwise (same : bool) (n : nat) (zA zB : list (list T)) : option (list (list T)) :=
  let* _ := guard (n <=? LIM) in
  let* _ := guard (length zA =? 2 ^ n) in
  let* _ := guard (length zB =? 2 ^ n) in
  let* (zA, _) := for_up (2 ^ n) 0 (fun i '(zA, tmp) =>
    let rd k := get2 (if same then zA else zB) i k in
    let* tmp := for_up (n + 1) 0 (fun d tmp => set tmp d zero) tmp in
    let* tmp := for_up (n + 1) 0 (fun j tmp =>
      let* a := get2 zA i j in
      for_up (n - j + 1) 0 (fun k tmp =>
        let* x := get tmp (j + k) in
        let* b := rd k in
        set tmp (j + k) (add x (mul a b))) tmp) tmp in
    let* zA := for_up (n + 1) 0 (fun d zA =>
      let* x := get tmp d in
      set2 zA i d x) zA in
    Some (zA, tmp)) (zA, repeat zero (LIM + 1)) in
  Some zA.

(** subset_convolution.hpp:137-162, SubsetConvolution.  With two empty vectors [n] is 64
    and [1<<n] is undefined. *)
Definition subset_convolution (A B : list T) : option (list T) :=
  let* _ := guard (0 <? max (length A) (length B)) in
  let n := bitlen (max (length A) (length B) - 1) in
  let* zA := ranked_zeta n A in
  let* zB := ranked_zeta n B in
  let* zA := ranked_pointwise false n zA zB in
  ranked_mobius n zA.

(** subset_convolution.hpp:164-176, SubsetConvolutionSquare *)
Definition subset_convolution_square (A : list T) : option (list T) :=
  let* _ := guard (0 <? length A) in
  let n := bitlen (length A - 1) in
  let* zA := ranked_zeta n A in
  let* zA := ranked_pointwise true n zA zA in
  ranked_mobius n zA.
End Subset.

(** * Specification *)

(** [t] is a subset of [s]. *)
Definition subset (t s : nat) : bool := Nat.land t s =? t.
(** The parity of [|s & t|], as a sign. *)
Definition odd_common (s t : nat) : bool := Nat.odd (popcount (Nat.land s t)).

Section Spec.
Variable T : Type.
Variables (zero : T) (add sub mul : T -> T -> T).
Definition total {X} (l : list X) (f : X -> T) : T := fold_right (fun x acc => add (f x) acc) zero l.

Definition subset_sum (A : list T) (s : nat) : T :=
  total (filter (fun t => subset t s) (seq 0 (length A))) (fun t => nth t A zero).
(** The sum of [A_i B_j] over the pairs of indices with [op i j = k]. *)
Definition conv (op : nat -> nat -> nat) (A B : list T) (k : nat) : T :=
  total (filter (fun p => op (fst p) (snd p) =? k) (list_prod (seq 0 (length A)) (seq 0 (length B))))
    (fun p => mul (nth (fst p) A zero) (nth (snd p) B zero)).
Definition hadamard_sum (A : list T) (s : nat) : T :=
  total (seq 0 (length A)) (fun t => if odd_common s t then sub zero (nth t A zero) else nth t A zero).
(** The sum of [A_t B_(s\t)] over the subsets [t] of [s]. *)
Definition subset_conv (A B : list T) (s : nat) : T :=
  total (filter (fun t => subset t s) (seq 0 (s + 1))) (fun t => mul (nth t A zero) (nth (Nat.ldiff s t) B zero)).
(** [2^n a] *)
Definition times_pow2 (n : nat) (a : T) : T := Nat.iter n (fun x => add x x) a.
End Spec.
