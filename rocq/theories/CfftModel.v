(** Model of include/mtl/convolution.hpp:25-62: [convolution_fft] of a type that [Fft] takes, the complex
    numbers, over an arbitrary ring as in [FftModel]; rounding is not modelled. [same] is [operator==] on
    vectors, [re] is [.real()] turned back into a value, [conv] is the call of [convolution]. *)
From Verif Require Import Base NttModel FftModel.
Set Implicit Arguments.

Section C.
Variable A : Type.
Variables (add sub mul : A -> A -> A).
Variable zero : A.
Variables (tw tw' : nat -> nat -> A).
Variable divn : A -> A.
Variable re : A -> A.
Variable same : list A -> list A -> bool.
Variable conv : list A -> list A -> option (list A).
(** convolution.hpp:35-36, 37-38 *)
Definition cf_row (n d : nat) (f : list A) (c : A) (h : list A) : option (list A) :=
  for_up n 0 (fun i h =>
    let* a := get f i in
    let* x := get h (i + d) in
    set h (i + d) (add x (mul a c))) h.
(** convolution.hpp:50-51, 54-55 *)
Definition cf_mul (n : nat) (g f : list A) : option (list A) :=
  for_up n 0 (fun i f =>
    let* x := get f i in
    let* y := get g i in
    set f i (mul x y)) f.
(** The same with [g] the vector itself. *)
Definition cf_sqr (n : nat) (f : list A) : option (list A) :=
  for_up n 0 (fun i f => let* x := get f i in set f i (mul x x)) f.
(** convolution.hpp:59-60 *)
Definition cf_real (len : nat) (f : list A) : option (list A) :=
  for_up len 0 (fun i res => let* x := get f i in set res i (re x)) (repeat zero len).
(** convolution.hpp:25-62. The vectors are not empty, as the callers at 117-135 make sure; [n+m-3] wraps
    to a large number for [n+m = 2]; [1 << ...] is an [int]. *)
Definition cfft (f g : list A) : option (list A) :=
  let n := length f in
  let m := length g in
  let* _ := guard ((1 <=? n) && (1 <=? m)) in
  let len := n + m - 1 in
  let* _ := guard (ceil_pow2 len <=? 30) in
  let l := 2 ^ ceil_pow2 len in
  if (3 <=? n + m) && (n + m - 3 <? l / 2) then
    let* fb := get f (n - 1) in
    let* gb := get g (m - 1) in
    let f := firstn (n - 1) f in
    let g := firstn (m - 1) g in
    let h := repeat zero (n + m - 1) in
    let* h := set h (n + m - 2) (mul fb gb) in
    let* h := cf_row n (m - 1) f gb h in
    let* h := cf_row m (n - 1) g fb h in
    let* fg := conv f g in
    for_up (n + m - 3) 0 (fun i h =>
      let* a := get fg i in
      let* x := get h i in
      set h i (add x a)) h
  else
    let* N := fft_n len in
    let f := fft_resize zero N f in
    let g := fft_resize zero N g in
    let same := same f g in
    let* f := fft_impl add sub mul tw N f in
    let* f :=
      (if same then cf_sqr N f
       else
         let* g := fft_impl add sub mul tw N g in
         cf_mul N g f) in
    let* f := fft_impl add sub mul tw' N f in
    let f := map divn f in
    cf_real len f.
End C.
