(** Model of include/mtl/arbitrary_mod_binomial.hpp: [is_coprime] and [ArbitraryModBinomial]. The [int]
    values are integers; the products that are taken in [int] are checked for overflow. *)
From Verif Require Import Base.
Set Implicit Arguments.

(** arbitrary_mod_binomial.hpp:9-19, for arguments that are not negative *)
Definition is_coprime (a b : nat) : option bool :=
  loop (S (S b)) (fun '(c, d) =>
    if d =? 0 then Some (inr (c =? 1))
    else let '(c, d) := (d, c) in Some (inl (c, d mod c))) (a, b).

Local Open Scope Z_scope.
(** An index of type [int] *)
Definition iget {A} (l : list A) (i : Z) : option A := let* _ := guard (0 <=? i) in get l (Z.to_nat i).
Definition iset {A} (l : list A) (i : Z) (x : A) : option (list A) := let* _ := guard (0 <=? i) in set l (Z.to_nat i) x.
(** [std::vector<T> v(size)] *)
Definition ivec {A} (size : Z) (x : A) : option (list A) := let* _ := guard (0 <=? size) in Some (repeat x (Z.to_nat size)).
Definition imul (a b : Z) : option Z := let* _ := guard ((- 2 ^ 31 <=? a * b) && (a * b <? 2 ^ 31)) in Some (a * b).
Definition irem (a b : Z) : option Z := let* _ := guard (negb (b =? 0)) in Some (Z.rem a b).
Definition iquot (a b : Z) : option Z := let* _ := guard (negb (b =? 0)) in Some (Z.quot a b).

(** arbitrary_mod_binomial.hpp:31-38; [st_] and [enabled_] *)
Record amb := Amb { b_on : bool; b_n : Z; b_mod : Z; b_st : list Z }.
(** arbitrary_mod_binomial.hpp:48-49, 52-53: [for (j = from; j <= n; j += i) a[j] = x] *)
Definition stride {A} (n i from : Z) (x : A) (a : list A) : option (list A) :=
  loop (S (Z.to_nat n)) (fun '(j, a) =>
    if j <=? n then let* a := iset a j x in Some (inl (j + i, a)) else Some (inr a)) (from, a).
(** arbitrary_mod_binomial.hpp:42-54: [P], [d] and [k] *)
Definition amb_sieve (n md : Z) : option (list Z * list Z * Z) :=
  let* isn := ivec (n + 1) false in
  let* d := ivec (n + 1) 0 in
  let* (isn, P, d, k) := for_up (Z.to_nat (n - 1)) 2 (fun i '(isn, P, d, k) =>
    let i := Z.of_nat i in
    let* b := iget isn i in
    if b : bool then Some (isn, P, d, k)
    else
      let* isn := stride n i (i + i) true isn in
      let* r := irem md i in
      if negb (r =? 0) then Some (isn, P, d, k)
      else
        let k := k + 1 in
        let* P := iset P k i in
        let* d := stride n i i k d in
        Some (isn, P, d, k)) (isn, repeat 0 10, d, 0) in
  Some (P, d, k).
(** arbitrary_mod_binomial.hpp:103-113; an [int] has 32 bits *)
Definition amb_inv (md x : Z) : option Z :=
  loop 33 (fun '(t, u, p) =>
    if p =? 0 then Some (inr t)
    else
      let* t := (if Z.odd p then let* y := imul t u in irem y md else Some t) in
      let* y := imul u u in
      let* u := irem y md in
      Some (inl (t, u, Z.shiftr p 1))) (1, x, md - 2).
(** arbitrary_mod_binomial.hpp:56-59 *)
Definition amb_invs (md mid : Z) : option (list Z) :=
  let* inv := ivec (mid + 1) 0 in
  let* v := amb_inv md mid in
  let* inv := iset inv mid v in
  for_up (Z.to_nat (mid - 1)) 1 (fun r inv =>
    let i := mid - Z.of_nat r in
    let* y := iget inv (i + 1) in
    let* y := irem (y * (i + 1)) md in
    iset inv i y) inv.
(** arbitrary_mod_binomial.hpp:60-71: [w] and [ptb] *)
Definition amb_ptb (n md k : Z) (P : list Z) : option (Z * list Z) :=
  let h := k + 1 in
  let* p1 := iget P 1 in
  let* q := iquot n (p1 - 1) in
  let w := q + 1 in
  let* ptb := ivec (h * w) 0 in
  let* ptb := for_up 9 1 (fun i ptb =>
    let i := Z.of_nat i in
    let* p := iget P i in
    let* q := iquot n (p - 1) in
    let t := q + 1 in
    let* ptb := iset ptb (i * w) 1 in
    let* (v, ptb) := for_up (Z.to_nat (t - 1)) 1 (fun j '(v, ptb) =>
      let* y := imul v p in
      let* v := irem y md in
      let* ptb := iset ptb (i * w + Z.of_nat j) v in
      Some (v, ptb)) (1, ptb) in
    Some ptb) ptb in
  Some (w, ptb).
(** arbitrary_mod_binomial.hpp:75-85: the result and [q] *)
Definition make_st (P d : list Z) (k : Z) : option (Z * list Z) :=
  if k =? 0 then Some (1, repeat 0 10)
  else loop 33 (fun '(x, q) =>
    let* c := iget d x in
    if c =? 0 then Some (inr (x, q))
    else
      let* y := iget q c in
      let* q := iset q c (y + 1) in
      let* p := iget P c in
      let* x := iquot x p in
      Some (inl (x, q))) (k, repeat 0 10).
(** arbitrary_mod_binomial.hpp:92-93, 96-97 with [f] the addition or the subtraction *)
Definition amb_acc (f : Z -> Z -> Z) (t nt : list Z) : option (list Z) :=
  for_up 9 1 (fun i t =>
    let* a := get t i in
    let* b := get nt i in
    set t i (f a b)) t.
(** arbitrary_mod_binomial.hpp:90-100: [s], [t] and [st_] *)
Definition amb_step (n md w : Z) (P d inv ptb : list Z) (k : nat) (q : Z * list Z * list Z) : option (Z * list Z * list Z) :=
  let '(s, t, st) := q in
  let* (ns, nt) := make_st P d (n - Z.of_nat k + 1) in
  let* s := irem (s * ns) md in
  let* t := amb_acc Z.add t nt in
  let* (ns, nt) := make_st P d (Z.of_nat k) in
  let* v := iget inv ns in
  let* s := irem (s * v) md in
  let* t := amb_acc Z.sub t nt in
  let* st := set st k s in
  let* st := for_up 9 1 (fun i st =>
    let* x := get st k in
    let* e := get t i in
    let* y := iget ptb (Z.of_nat i * w + e) in
    let* x := irem (x * y) md in
    set st k x) st in
  Some (s, t, st).
(** arbitrary_mod_binomial.hpp:39-102, for [n] and the modulus not negative *)
Definition amb_new (n md : nat) : option amb :=
  let* on := is_coprime n md in
  let zn := Z.of_nat n in
  let zm := Z.of_nat md in
  let mid := ((n + 1) / 2)%nat in
  let st := repeat 0 mid in
  if negb on then Some (Amb on zn zm st)
  else
    let* (P, d, k) := amb_sieve zn zm in
    let* inv := amb_invs zm (Z.of_nat mid) in
    let* (w, ptb) := amb_ptb zn zm k P in
    let* st := set st 0 1 in
    let* (s, t, st) := for_up mid 1 (amb_step zn zm w P d inv ptb) (1, repeat 0 10, st) in
    Some (Amb on zn zm st).
(** arbitrary_mod_binomial.hpp:114-119; the call of itself is made once: [2 * (n - m) <= n] then. *)
Definition amb_at (b : amb) (m : Z) : option Z :=
  let* _ := guard (b_on b) in
  if m * 2 >? b_n b then let m := b_n b - m in iget (b_st b) m else iget (b_st b) m.
