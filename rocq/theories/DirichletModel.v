(** Model of include/mtl/dirichlet.hpp: the sieve, the list of primes and the two
    convolutions. [w] is the width of [int]. *)
From Verif Require Import Base.

Set Implicit Arguments.

(** A non-negative [int] that fits [w] bits. *)
Definition fits (w : Z) (x : nat) : option nat := if (Z.of_nat x <? 2 ^ (w - 1))%Z then Some x else None.

(** dirichlet.hpp:6-21 [EratosthenesSieve] *)
Definition sieve (w : Z) (n : nat) : option (list nat) :=
  let* n1 := fits w (n + 1) in
  let p := repeat 0 n1 in
  if n =? 0 then Some p
  else
    let* p := set p 1 1 in
    for_up (n - 1) 2 (fun i p =>
      let* x := get p i in
      if x =? 0 then
        let* p := set p i i in
        let* j := fits w (i * 2) in
        loop (n + 1) (fun '(j, p) =>
          if j <=? n then
            let* y := get p j in
            let* p := (if y =? 0 then set p j i else Some p) in
            let* j := fits w (j + i) in
            Some (inl (j, p))
          else Some (inr p)) (j, p)
      else Some p) p.

(** dirichlet.hpp:23-32 [Primes] *)
Definition primes (w : Z) (n : nat) : option (list nat) :=
  let* era := sieve w n in
  for_up (n - 1) 2 (fun i ps =>
    let* x := get era i in
    Some (if x =? i then ps ++ [i] else ps)) [].

Section Conv.
Variable T : Type.
Variables (zero : T) (add mul : T -> T -> T).

(** dirichlet.hpp:38-48 [DirichletConvolution]; for an empty [a] the bound is -1 *)
Definition dirichlet (a b : list T) : option (list T) :=
  match length a with
  | 0 => Some []
  | S n =>
      for_up n 1 (fun i c =>
        let m := n / i in
        for_up m 1 (fun j c =>
          let* x := get a i in
          let* y := get b j in
          let* z := get c (i * j) in
          set c (i * j) (add z (mul x y))) c) (repeat zero (n + 1))
  end.

(** [c.resize(k)] *)
Definition resize (k : nat) (c : list T) : list T := firstn k c ++ repeat zero (k - length c).
(** dirichlet.hpp:60-80 [DirichletMultinomialConvolution]; for an empty [a] the
    sieve writes outside its table *)
Definition dirichlet_mult (w : Z) (a b : list T) : option (list T) :=
  match length a with
  | 0 => None
  | S n =>
      let* ps := primes w n in
      for_each ps (fun p c =>
        let m := n / p in
        for_down m 1 (fun i c =>
          let u := p * i in
          loop (n + 1) (fun '(q, j, c) =>
            let* x := get a q in
            let* y := get c j in
            let* z := get c u in
            let* c := set c u (add z (mul x y)) in
            if negb (j mod p =? 0) then Some (inr c)
            else Some (inl (q * p, j / p, c))) (p, i, c)) c) (resize (n + 1) b)
  end.

(** ** Specification *)
(** The divisors of [k], increasing. *)
Definition divisors (k : nat) : list nat := filter (fun i => k mod i =? 0) (seq 1 k).
(** The sum of [a i * b j] over [i * j = k], by increasing [i]. *)
Definition dsum (a b : list T) (k : nat) : T :=
  fold_left (fun acc i => add acc (mul (nth i a zero) (nth (k / i) b zero))) (divisors k) zero.
(** A multiplicative sequence. *)
Definition multiplicative (one : T) (a : list T) : Prop :=
  (1 < length a -> nth 1 a zero = one) /\
  forall x y, 0 < x -> 0 < y -> Nat.gcd x y = 1 -> x * y < length a -> nth (x * y) a zero = mul (nth x a zero) (nth y a zero).
End Conv.

Definition is_prime (p : nat) : Prop := 2 <= p /\ forall d, Nat.divide d p -> d = 1 \/ d = p.
(** [p] is the smallest prime factor of [k]. *)
Definition smallest_prime_factor (k p : nat) : Prop :=
  is_prime p /\ Nat.divide p k /\ forall q, is_prime q -> Nat.divide q k -> p <= q.
(** The primes up to [n], increasing. *)
Definition primes_upto (n : nat) (ps : list nat) : Prop :=
  (forall p, In p ps <-> is_prime p /\ p <= n) /\
  (forall l1 x y l2, ps = l1 ++ x :: y :: l2 -> x < y).
