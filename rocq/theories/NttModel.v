(** Model of include/mtl/ntt.hpp. A [Modular<mod>] is its residue (ModularModel);
    vectors are lists. Sizes and indices are natural numbers. The [long long]
    products of the butterflies are checked ([mach 64]); their sums and
    differences involve at most three values below 2^32 and are not. *)
From Verif Require Import Base SearchModel BitModel ModularModel PrimRootModel.
Local Open Scope Z_scope.

Set Implicit Arguments.

(** ntt.hpp:9-11 [math::ceil_pow2] *)
Definition ceil_pow2 (x : nat) : nat := if (x =? 0)%nat then 0%nat else bitlen (x - 1).

(** [std::vector::resize(n, 0)] *)
Definition vresize (f : list Z) (n : nat) : list Z := firstn n f ++ repeat 0 (n - length f).

(** [std::swap(f[i], f[j])] *)
Definition vswap (f : list Z) (i j : nat) : option (list Z) :=
  let* a := get f i in
  let* b := get f j in
  let* f := set f i b in
  set f j a.

(** ntt.hpp:52 the inner loop [for (k = n >> 1; k > (i ^= k); k >>= 1);] *)
Definition rev_next (fuel k i : nat) : option nat :=
  loop fuel (fun '(k, i) =>
    let i := Nat.lxor i k in
    if (i <? k)%nat then Some (inl ((k / 2)%nat, i)) else Some (inr i)) (k, i).

(** ntt.hpp:47-55 [_iterative_bit_reverse]; the loop runs [j] from 1 to [n-2]. *)
Definition bit_reverse (f : list Z) : option (list Z) :=
  let log_n := ceil_pow2 (length f) in
  let n := (2 ^ log_n)%nat in
  let* (_, f) := for_up (n - 2) 1 (fun j '(i, f) =>
    let* i := rev_next (S (S log_n)) (n / 2) i in
    let* f := (if (i <? j)%nat then vswap f i j else Some f) in
    Some (i, f)) (0%nat, f) in
  Some f.

Section Ntt.
Variable p : Z.

(** ntt.hpp:31-33 [ntt_info::log_n] *)
Definition info_log_n : nat := Z.to_nat (ctz (u64 (p - 1))).

(** ntt.hpp:34-44 [ntt_info::coeff] *)
Definition coeff (forward : bool) : option (list Z) :=
  let* g := primitive_root p in
  let* r := m_pow p (m_signed p g) (Z.shiftr (p - 1) (Z.of_nat info_log_n)) in
  let* iw := (if forward then m_inv p r else Some r) in
  let* (c, _) := for_down info_log_n 0 (fun i '(c, iw) =>
    let* c := set c i iw in
    let* iw := m_mul p iw iw in
    Some (c, iw)) (repeat 0 info_log_n, iw) in
  Some c.

(** ntt.hpp:74-84 the radix-2 level of the forward transform. The step of
    [chunk] is [2*m], which divides [n]: chunk number [c] starts at [c*2*m]. *)
Definition fwd2 (n m : nat) (w0 : Z) (f : list Z) : option (list Z) :=
  for_up (n / (2 * m)) 0 (fun c f =>
    let chunk := (c * (2 * m))%nat in
    let* (_, f) := for_up m 0 (fun i '(w, f) =>
      let q := (chunk + i)%nat in
      let* a := get f q in
      let* b := get f (q + m)%nat in
      let* f := set f q (m_add p a b) in
      let* v := m_mul p (m_sub p a b) w in
      let* f := set f (q + m)%nat v in
      let* w := m_mul p w w0 in
      Some (w, f)) (m_signed p 1, f) in
    Some f) f.

(** ntt.hpp:86-105 the radix-4 level of the forward transform. *)
Definition fwd4 (n m : nat) (w0 w1 wh : Z) (f : list Z) : option (list Z) :=
  for_up (n / (2 * m)) 0 (fun ch f =>
    let chunk := (ch * (2 * m))%nat in
    let* (_, _, f) := for_up (m / 2) 0 (fun i '(w, x, f) =>
      let q := (chunk + i)%nat in
      let ia := (q + 0 * m / 2)%nat in
      let ib := (q + 1 * m / 2)%nat in
      let ic := (q + 2 * m / 2)%nat in
      let id := (q + 3 * m / 2)%nat in
      let* a := get f ia in
      let* b := get f ib in
      let* c := get f ic in
      let* d := get f id in
      let s := a + c in
      let t := b + d in
      let* u := mach 64 ((a - c + p) * w) in
      let u := Z.rem u p in
      let* v := mach 64 ((b - d + p) * w) in
      let* v := mach 64 (Z.rem v p * wh) in
      let v := Z.rem v p in
      let* f := set f ia (m_signed p (s + t)) in
      let* y := mach 64 ((s - t) * x) in
      let* f := set f ib (m_signed p y) in
      let* f := set f ic (m_signed p (u + v)) in
      let* y := mach 64 ((u - v) * x) in
      let* f := set f id (m_signed p y) in
      let* w := m_mul p w w0 in
      let* x := m_mul p x w1 in
      Some (w, x, f)) (m_signed p 1, m_signed p 1, f) in
    Some f) f.

(** ntt.hpp:70-107 the levels of the forward transform; the counter [k] is
    [log_m + 1]. *)
Definition fwd_levels (log_n : nat) (cf f : list Z) : option (list Z) :=
  let n := (2 ^ log_n)%nat in
  loop (S log_n) (fun '(k, f) =>
    if (k =? 0)%nat then Some (inr f)
    else
      let log_m := (k - 1)%nat in
      let m := (2 ^ log_m)%nat in
      let* w0 := get cf log_m in
      let* f :=
        (if (log_m =? 0)%nat then fwd2 n m w0 f
         else
           let* w1 := get cf (log_m - 1) in
           let* wh := m_pow p w0 (Z.of_nat (m / 2)) in
           fwd4 n m w0 w1 wh f) in
      Some (inl ((k - 2)%nat, f))) (log_n, f).

(** ntt.hpp:111-117 the radix-2 level of the inverse transform. *)
Definition inv2 (n : nat) (f : list Z) : option (list Z) :=
  for_up (n / 2) 0 (fun c f =>
    let q := (c * 2)%nat in
    let* a := get f q in
    let* b := get f (q + 1)%nat in
    let* f := set f q (m_add p a b) in
    set f (q + 1)%nat (m_sub p a b)) f.

(** ntt.hpp:126-144 the radix-4 level of the inverse transform. *)
Definition inv4 (n m : nat) (w0 w1 wh : Z) (f : list Z) : option (list Z) :=
  for_up (n / (2 * m)) 0 (fun ch f =>
    let chunk := (ch * (2 * m))%nat in
    let* (_, _, f) := for_up (m / 2) 0 (fun i '(w, x, f) =>
      let q := (chunk + i)%nat in
      let ia := (q + 0 * m / 2)%nat in
      let ib := (q + 1 * m / 2)%nat in
      let ic := (q + 2 * m / 2)%nat in
      let id := (q + 3 * m / 2)%nat in
      let* a := get f ia in
      let* b := get f ib in
      let* b := mach 64 (b * w) in
      let b := Z.rem b p in
      let* c := get f ic in
      let* d := get f id in
      let* d := mach 64 (d * w) in
      let d := Z.rem d p in
      let s := a + b in
      let t := a - b + p in
      let* u := mach 64 ((c + d) * x) in
      let u := Z.rem u p in
      let* v := mach 64 ((c - d + p) * x) in
      let* v := mach 64 (Z.rem v p * wh) in
      let v := Z.rem v p in
      let* f := set f ia (m_signed p (s + u)) in
      let* f := set f ib (m_signed p (t + v)) in
      let* f := set f ic (m_signed p (s - u)) in
      let* f := set f id (m_signed p (t - v)) in
      let* w := m_mul p w w0 in
      let* x := m_mul p x w1 in
      Some (w, x, f)) (m_signed p 1, m_signed p 1, f) in
    Some f) f.

(** ntt.hpp:109-145 the levels of the inverse transform. *)
Definition inv_levels (log_n : nat) (cf f : list Z) : option (list Z) :=
  let n := (2 ^ log_n)%nat in
  let* (k0, f) :=
    (if (log_n mod 2 =? 1)%nat then let* f := inv2 n f in Some (1%nat, f) else Some (0%nat, f)) in
  loop (S log_n) (fun '(log_m, f) =>
    if (log_m <? log_n)%nat then
      let m := (2 ^ (log_m + 1))%nat in
      let* w0 := get cf log_m in
      let* w1 := get cf (log_m + 1)%nat in
      let* wh := m_pow p w1 (Z.of_nat (m / 2)) in
      let* f := inv4 n m w0 w1 wh f in
      Some (inl ((log_m + 2)%nat, f))
    else Some (inr f)) (k0, f).

(** ntt.hpp:149-152 *)
Definition scale (n : nat) (f : list Z) : option (list Z) :=
  let* inv := m_inv p (m_signed p (Z.of_nat n)) in
  for_up n 0 (fun i f =>
    let* a := get f i in
    let* v := m_mul p a inv in
    set f i v) f.

(** ntt.hpp:57-153 [_fft_impl] *)
Definition fft_impl (forward bitrev : bool) (f : list Z) : option (list Z) :=
  let log_n := ceil_pow2 (length f) in
  let* _ := guard (log_n <=? info_log_n)%nat in
  let n := (2 ^ log_n)%nat in
  let f := vresize f n in
  let* f := (if negb forward && bitrev then bit_reverse f else Some f) in
  let* cf := coeff forward in
  let* f := (if forward then fwd_levels log_n cf f else inv_levels log_n cf f) in
  let* f := (if forward && bitrev then bit_reverse f else Some f) in
  if forward then Some f else scale n f.

(** ntt.hpp:154-209 the entry points; the by-value versions return the vector. *)
Definition ntt (f : list Z) : option (list Z) := fft_impl true true f.
Definition intt (f : list Z) : option (list Z) := fft_impl false true f.
Definition ntt_convolution (f : list Z) : option (list Z) := fft_impl true false f.
Definition intt_convolution (f : list Z) : option (list Z) := fft_impl false false f.
End Ntt.

(** ** Specification *)
(** [sum_{i < n} f i] *)
Fixpoint zsum (n : nat) (f : nat -> Z) : Z :=
  match n with O => 0 | S n => zsum n f + f n end.
(** The discrete Fourier transform of [f_0, ..., f_{n-1}] at [w^k]: missing
    entries are zero. *)
Definition dft (n : nat) (w : Z) (f : list Z) (k : nat) : Z :=
  zsum n (fun j => nth j f 0 * w ^ Z.of_nat (j * k)).
(** The reversal of the [t] low binary digits of [c]. *)
Fixpoint brev (t c : nat) : nat :=
  match t with O => O | S t => (brev t (c / 2) + 2 ^ t * (c mod 2))%nat end.
(** [f] is a vector of [Modular<p>] values. *)
Definition residues (p : Z) (f : list Z) : Prop := Forall (fun a => 0 <= a < p) f.
