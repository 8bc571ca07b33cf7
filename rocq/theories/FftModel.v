(** Model of include/mtl/fft.hpp: [Fft]. The complex numbers are an arbitrary ring: [tw m i] stands for
    the factor [{cos(theta0*i), -sin(theta0*i)}] of the stage [m] (its sign depends on the direction) and
    [divn] for the division by [n_]; the rounding of [double] is not modelled. *)
From Verif Require Import Base.
Set Implicit Arguments.

(** fft.hpp:13-17 *)
Definition fft_n (size : nat) : option nat :=
  loop (S size) (fun n => if n <? size then Some (inl (n * 2)) else Some (inr n)) 1.
(** fft.hpp:48: [for (k = n_ >> 1; k > (i ^= k); k >>= 1);] *)
Definition rev_next (n i : nat) : option nat :=
  loop (S n) (fun '(i, k) => let i := Nat.lxor i k in
    if i <? k then Some (inl (i, k / 2)) else Some (inr i)) (i, n / 2).
Section Fft.
Variable A : Type.
Variables (add sub mul : A -> A -> A).
Variable zero : A.
(** fft.hpp:47-50 *)
Definition bitrev (n : nat) (f : list A) : option (list A) :=
  let* (i, f) := for_up (n - 1 - 1) 1 (fun j '(i, f) =>
    let* i := rev_next n i in
    if i <? j then
      let* x := get f i in
      let* y := get f j in
      let* f := set f i y in
      let* f := set f j x in
      Some (i, f)
    else Some (i, f)) (0, f) in
  Some f.
Variable tw : nat -> nat -> A.
(** fft.hpp:56-61 *)
Definition butterfly (m p i : nat) (f : list A) : option (list A) :=
  let* a := get f (p + 0) in
  let* b := get f (p + m) in
  let b := mul b (tw m i) in
  let* f := set f (p + 0) (add a b) in
  set f (p + m) (sub a b).
(** fft.hpp:54-63; [n] is a multiple of [2 * m]. *)
Definition fft_stage (n m : nat) (f : list A) : option (list A) :=
  for_up (n / (2 * m)) 0 (fun q f => for_up m 0 (fun i f => butterfly m (q * (2 * m) + i) i f) f) f.
(** fft.hpp:44-65 *)
Definition fft_impl (n : nat) (f : list A) : option (list A) :=
  let* f := bitrev n f in
  loop (S n) (fun '(m, f) => if m <? n then let* f := fft_stage n m f in Some (inl (m * 2, f)) else Some (inr f)) (1, f).
(** [ff.resize(n_, 0)] *)
Definition fft_resize (n : nat) (f : list A) : list A := firstn n f ++ repeat zero (n - length f).
(** fft.hpp:25-30 *)
Definition fft (n : nat) (f : list A) : option (list A) := fft_impl n (fft_resize n f).
(** fft.hpp:36-41, 70-75; [tw] is that of the other direction. *)
Definition ifft (divn : A -> A) (n : nat) (f : list A) : option (list A) :=
  let* f := fft_impl n (fft_resize n f) in Some (map divn f).
End Fft.

(** ** Specification *)
Section Spec.
Variable A : Type.
Variables (zero one : A) (add mul : A -> A -> A).
Fixpoint pw (z : A) (e : nat) : A := match e with O => one | S e => mul z (pw z e) end.
(** [g 0 + ... + g (n - 1)] *)
Fixpoint total (n : nat) (g : nat -> A) : A := match n with O => zero | S n => add (total n g) (g n) end.
End Spec.
