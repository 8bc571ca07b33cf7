(** Model of include/mtl/convolution.hpp for [Modular<p>] and [int]: the generic
    floating point [convolution_fft] (lines 25-62) is not modelled. A
    [Modular<p>] is its residue, a size is a natural number. *)
From Verif Require Import Base SearchModel BitModel ModularModel NttModel.
Local Open Scope Z_scope.

Set Implicit Arguments.

(** convolution.hpp:5 *)
Definition NAIVE_THRESHOLD : nat := 60.

(** convolution.hpp:7-23 [convolution_naive]; [step f i g j h] is
    [h[i+j] += f[i] * g[j]] for the value type. *)
Definition naive (step : nat -> nat -> list Z -> option (list Z)) (n m : nat) : option (list Z) :=
  if (n =? 0)%nat || (m =? 0)%nat then Some []
  else
    let h := repeat 0 (n + m - 1) in
    if (n <? m)%nat then for_up m 0 (fun j h => for_up n 0 (fun i h => step i j h) h) h
    else for_up n 0 (fun i h => for_up m 0 (fun j h => step i j h) h) h.

Definition step_mod (p : Z) (f g : list Z) (i j : nat) (h : list Z) : option (list Z) :=
  let* a := get f i in
  let* b := get g j in
  let* v := m_mul p a b in
  let* c := get h (i + j)%nat in
  set h (i + j)%nat (m_add p c v).
Definition step_int (f g : list Z) (i j : nat) (h : list Z) : option (list Z) :=
  let* a := get f i in
  let* b := get g j in
  let* v := mach 32 (a * b) in
  let* c := get h (i + j)%nat in
  let* v := mach 32 (c + v) in
  set h (i + j)%nat v.
Definition naive_mod (p : Z) (f g : list Z) : option (list Z) := naive (step_mod p f g) (length f) (length g).
Definition naive_int (f g : list Z) : option (list Z) := naive (step_int f g) (length f) (length g).

(** [v.back()]; undefined on an empty vector *)
Definition back (f : list Z) : option Z := let* _ := guard (0 <? length f)%nat in get f (length f - 1)%nat.

(** [f[i] *= g[i]] for all [i < l] *)
Definition mul_all (p : Z) (l : nat) (f g : list Z) : option (list Z) :=
  for_up l 0 (fun i f =>
    let* a := get f i in
    let* b := get g i in
    let* v := m_mul p a b in
    set f i v) f.

(** [f[i] *= f[i]] for all [i < l] *)
Definition sq_all (p : Z) (l : nat) (f : list Z) : option (list Z) :=
  for_up l 0 (fun i f =>
    let* a := get f i in
    let* v := m_mul p a a in
    set f i v) f.

(** [for (i = 0; i < n; i++) h[i + d] += f[i] * c] *)
Definition add_mul (p : Z) (n : nat) (f : list Z) (c : Z) (d : nat) (h : list Z) : option (list Z) :=
  for_up n 0 (fun i h =>
    let* a := get f i in
    let* v := m_mul p a c in
    let* x := get h (i + d)%nat in
    set h (i + d)%nat (m_add p x v)) h.

(** [for (i = 0; i < e.size(); i++) h[i + d] += e[i]], at most [n] entries *)
Definition add_all (p : Z) (n : nat) (e : list Z) (d : nat) (h : list Z) : option (list Z) :=
  for_up n 0 (fun i h =>
    let* a := get e i in
    let* x := get h (i + d)%nat in
    set h (i + d)%nat (m_add p x a)) h.

(** convolution.hpp:64-96 [convolution_ntt], with lines 117-135 [convolution]
    for the recursive call. The sizes are [size_t]: for [n+m = 0] the shift is
    undefined, for [n+m <= 2] the difference [n+m-3] wraps to a large number.
    [1 << ceil_pow2(..)] is an [int]. *)
Fixpoint conv_ntt (fuel : nat) (p : Z) (f g : list Z) : option (list Z) :=
  match fuel with
  | O => None
  | S fuel =>
      let n := length f in
      let m := length g in
      let* _ := guard (negb (n + m =? 0)%nat) in
      let* _ := guard (ceil_pow2 (n + m - 1) <=? 30)%nat in
      let l := (2 ^ ceil_pow2 (n + m - 1))%nat in
      if (3 <=? n + m)%nat && (n + m - 3 <? l / 2)%nat then
        let* fb := back f in
        let* gb := back g in
        let f := firstn (n - 1) f in
        let g := firstn (m - 1) g in
        let h := repeat 0 (n + m - 1) in
        let* v := m_mul p fb gb in
        let* h := set h (n + m - 2)%nat v in
        let* h := add_mul p (n - 1) f gb (m - 1) h in
        let* h := add_mul p (m - 1) g fb (n - 1) h in
        let* fg :=
          (if (length f =? 0)%nat || (length g =? 0)%nat then Some []
           else if (Nat.min (length f) (length g) <=? NAIVE_THRESHOLD)%nat then naive_mod p f g
           else conv_ntt fuel p f g) in
        add_all p (length fg) fg 0 h
      else
        let f := vresize f l in
        let g := vresize g l in
        let same := forallb (fun '(a, b) => a =? b) (combine f g) in
        let* f' := ntt_convolution p f in
        let* f' :=
          (if same then sq_all p l f'
           else
             let* g' := ntt_convolution p g in
             mul_all p l f' g') in
        intt_convolution p f'
  end.

(** convolution.hpp:117-135 [convolution], both overloads, with lines 98-101 *)
Definition convolution (p : Z) (f g : list Z) : option (list Z) :=
  let n := length f in
  let m := length g in
  if (n =? 0)%nat || (m =? 0)%nat then Some []
  else if (Nat.min n m <=? NAIVE_THRESHOLD)%nat then naive_mod p f g
  else conv_ntt (n + m) p f g.

Definition P998 : Z := 998244353.

(** convolution.hpp:103-115 [convolution_fft] for [int] *)
Definition conv_fft_int (a b : list Z) : option (list Z) :=
  let n := length a in
  let m := length b in
  let f := map (m_signed P998) a in
  let g := map (m_signed P998) b in
  let* h := conv_ntt (n + m) P998 f g in
  let* _ := guard (n + m - 1 <=? length h)%nat in
  Some (firstn (n + m - 1) h).
(** convolution.hpp:117-135 [convolution] for [int] *)
Definition convolution_int (a b : list Z) : option (list Z) :=
  let n := length a in
  let m := length b in
  if (n =? 0)%nat || (m =? 0)%nat then Some []
  else if (Nat.min n m <=? NAIVE_THRESHOLD)%nat then naive_int a b
  else conv_fft_int a b.

(** ** Three primes, convolution.hpp:137-169 *)
Definition G0 : Z := 754974721.
Definition G1 : Z := 167772161.
Definition G2 : Z := 469762049.

(** convolution.hpp:160-165 the lambda [garner]; [mod] is the modulus of the
    result; [i1] and [i2] are the constants of lines 157-158. *)
Definition garner (md i1 i2 r0 r1 r2 : Z) : option Z :=
  let* y := mach 64 (i1 * (r1 + G1 - r0)) in
  let* v1 := mach 32 (Z.rem y G1) in
  let* z := m_mul G2 (m_signed G2 G0) (m_signed G2 v1) in
  let* v2 := m_mul G2 (m_sub G2 (m_sub G2 (m_signed G2 r2) (m_signed G2 r0)) z) (m_signed G2 i2) in
  let* a := mach 64 (G0 * v1) in
  let* a := mach 64 (r0 + a) in
  let* b := mach 64 (Z.rem (G0 * G1) md * v2) in
  let* c := mach 64 (a + b) in
  Some (m_signed md c).

(** convolution.hpp:137-169 [convolution_garner] *)
Definition conv_garner (md : Z) (f g : list Z) : option (list Z) :=
  let n := length f in
  let m := length g in
  if (n =? 0)%nat || (m =? 0)%nat then Some []
  else
    let* c0 := conv_ntt (n + m) G0 (map (m_signed G0) f) (map (m_signed G0) g) in
    let* c1 := conv_ntt (n + m) G1 (map (m_signed G1) f) (map (m_signed G1) g) in
    let* c2 := conv_ntt (n + m) G2 (map (m_signed G2) f) (map (m_signed G2) g) in
    let* i1 := m_inv G1 (m_signed G1 G0) in
    let* i2 := m_inv G2 (m_signed G2 (G0 * G1)) in
    for_up (length c0) 0 (fun i c =>
      let* r0 := get c0 i in
      let* r1 := get c1 i in
      let* r2 := get c2 i in
      let* v := garner md i1 i2 r0 r1 r2 in
      set c i v) (repeat 0 (length c0)).

(** ** Long vectors, convolution.hpp:171-210 [convolution_large] *)
(** lines 188-191: entry [i] goes to place [i & mask] of block [i >> l]. *)
Definition split_blocks (l k : nat) (f : list Z) : option (list (list Z)) :=
  for_up (length f) 0 (fun i c =>
    let* a := get f i in
    let* b := get c (i / 2 ^ l)%nat in
    let* b := set b (i mod 2 ^ l)%nat a in
    set c (i / 2 ^ l)%nat b) (repeat (repeat 0 (2 * 2 ^ l)) k).

(** lines 192-193 *)
Definition ntt_blocks (p : Z) (c : list (list Z)) : option (list (list Z)) :=
  for_up (length c) 0 (fun i c =>
    let* b := get c i in
    let* b := ntt_convolution p b in
    set c i b) c.

(** lines 201-202 *)
Definition fma_all (p : Z) (n : nat) (c d e : list Z) : option (list Z) :=
  for_up n 0 (fun x e =>
    let* a := get c x in
    let* b := get d x in
    let* v := m_mul p a b in
    let* y := get e x in
    set e x (m_add p y v)) e.

(** lines 197-207: one round of the outer loop; [B] is [1 << l] *)
Definition large_one (p : Z) (B n m cs ds : nat) (c d : list (list Z)) (i : nat) (res : list Z) : option (list Z) :=
  let e := repeat 0 (2 * B) in
  let lo := (i + 1 - ds)%nat in
  let* e := for_up (Nat.min cs (i + 1) - lo) lo (fun j e =>
    let k := (i - j)%nat in
    let* _ := guard ((j <=? i) && (k <? ds))%nat in
    let* cj := get c j in
    let* dk := get d k in
    fma_all p (2 * B) cj dk e) e in
  let* e := intt_convolution p e in
  let len := Nat.min (2 * B) (n + m - 1 - i * B) in
  add_all p len e (i * B) res.

(** lines 181-209: the part with blocks of [2^l] entries *)
Definition large_blocks (p : Z) (l : nat) (f g : list Z) : option (list Z) :=
  let n := length f in
  let m := length g in
  let B := (2 ^ l)%nat in
  let cs := ((n - 1) / B + 1)%nat in
  let ds := ((m - 1) / B + 1)%nat in
  let* c := split_blocks l cs f in
  let* d := split_blocks l ds g in
  let* c := ntt_blocks p c in
  let* d := ntt_blocks p d in
  for_up (cs + ds - 1) 0 (large_one p B n m cs ds c d) (repeat 0 (n + m - 1)).

Definition conv_large (p : Z) (f g : list Z) : option (list Z) :=
  let n := length f in
  let m := length g in
  if (n =? 0)%nat || (m =? 0)%nat then Some []
  else
    let h := info_log_n p in
    if (n + m - 1 <? 2 ^ h)%nat then convolution p f g
    else
      let* _ := guard (1 <=? h)%nat in
      let* _ := guard (Z.of_nat (n + m) <? 2 ^ 31) in
      large_blocks p (h - 1) f g.

(** ** Specification *)
(** The coefficient of [x^k] in the product of the polynomials. *)
Definition conv (f g : list Z) (k : nat) : Z := zsum (S k) (fun i => nth i f 0 * nth (k - i) g 0).
