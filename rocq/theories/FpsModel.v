(** Model of include/mtl/fps.hpp, fps/exp.hpp, fps/pow.hpp and of the parts of
    sparse_fps.hpp that compile, for [Modular<p>]. A series is the vector of its
    residues; sizes and degrees are natural numbers ([int] and [size_t] sizes do
    not wrap). The default argument [n = -1] of the C++ functions is kept, so [n]
    is an integer. The table of inverses of [ModularUtil] is static; a function
    that uses it takes the table [tb] found at its start. *)
From Verif Require Import Base SearchModel BitModel ModularModel NttModel ConvModel.
Local Open Scope Z_scope.

Set Implicit Arguments.

(** A loop over a list with a test that ends it ([break]) *)
Fixpoint for_until {A S} (l : list A) (stop : A -> bool) (body : A -> S -> option S) (s : S) : option S :=
  match l with
  | [] => Some s
  | x :: t => if stop x then Some s else let* s := body x s in for_until t stop body s
  end.

(** fps.hpp:24-29 [normalize] *)
Definition fps_normalize (f : list Z) : option (list Z) :=
  let* n := loop (S (length f)) (fun n =>
    if (n =? 0)%nat then Some (inr n)
    else
      let* v := get f (n - 1)%nat in
      Some (if v =? 0 then inl (n - 1)%nat else inr n)) (length f) in
  Some (vresize f n).
(** fps.hpp:30-33 [inline_pre] *)
Definition fps_ipre (f : list Z) (m : nat) : list Z := vresize f m.
(** fps.hpp:35-40 [pre] *)
Definition fps_pre (f : list Z) (m : nat) : list Z :=
  if (m <=? length f)%nat then firstn m f else fps_ipre f m.
(** [i < f.size() ? f[i] : 0] *)
Definition fps_at (p : Z) (f : list Z) (i : nat) : option Z :=
  if (i <? length f)%nat then get f i else Some (m_signed p 0).
(** fps.hpp:41-48 [==] *)
Definition fps_eq (p : Z) (f g : list Z) : option bool :=
  let n := Nat.max (length f) (length g) in
  loop (S n) (fun i =>
    if (i <? n)%nat then
      let* l := fps_at p f i in
      let* r := fps_at p g i in
      Some (if m_eq l r then inl (S i) else inr false)
    else Some (inr true)) 0%nat.
(** fps.hpp:52-57 [+= x] *)
Definition fps_add_c (p : Z) (f : list Z) (x : Z) : option (list Z) :=
  let f := (if (length f =? 0)%nat then vresize f 1 else f) in
  let* v := get f 0%nat in
  set f 0%nat (m_add p v x).
(** fps.hpp:58 [-= x] *)
Definition fps_sub_c (p : Z) (f : list Z) (x : Z) : option (list Z) := fps_add_c p f (m_neg p x).
(** fps.hpp:59-62 [*= x] *)
Definition fps_mul_c (p : Z) (f : list Z) (x : Z) : option (list Z) :=
  for_up (length f) 0 (fun i f =>
    let* v := get f i in
    let* v := m_mul p v x in
    set f i v) f.
(** fps.hpp:63 [/= x] *)
Definition fps_div_c (p : Z) (f : list Z) (x : Z) : option (list Z) :=
  let* i := m_inv p x in fps_mul_c p f i.
(** fps.hpp:68-72 unary [-] *)
Definition fps_neg (p : Z) (f : list Z) : option (list Z) :=
  for_up (length f) 0 (fun i f =>
    let* v := get f i in
    set f i (m_neg p v)) f.
(** fps.hpp:74 [x - y] *)
Definition fps_c_sub (p : Z) (x : Z) (f : list Z) : option (list Z) :=
  let* g := fps_neg p f in fps_add_c p g x.
(** fps.hpp:77-83 [+=] and 84-90 [-=]; [op] is the operation of the residues. *)
Definition fps_zip (op : Z -> Z -> Z) (f r : list Z) : option (list Z) :=
  let f := (if (length f <? length r)%nat then vresize f (length r) else f) in
  for_up (length r) 0 (fun i f =>
    let* a := get f i in
    let* b := get r i in
    set f i (op a b)) f.
Definition fps_add (p : Z) (f r : list Z) : option (list Z) := fps_zip (m_add p) f r.
Definition fps_sub (p : Z) (f r : list Z) : option (list Z) := fps_zip (m_sub p) f r.
(** fps.hpp:91-97 [dot] *)
Definition fps_dot (p : Z) (f r : list Z) : option (list Z) :=
  let f := (if (length r <? length f)%nat then vresize f (length r) else f) in
  for_up (length f) 0 (fun i f =>
    let* a := get f i in
    let* b := get r i in
    let* v := m_mul p a b in
    set f i v) f.
(** fps.hpp:98-102 [count_terms] *)
Definition fps_count (f : list Z) (n : Z) : nat :=
  let n := (if n =? -1 then length f else Z.to_nat n) in
  length (filter (fun x => negb (x =? 0)) (firstn (Nat.min n (length f)) f)).
(** fps.hpp:104-116 [term_ties] *)
Definition fps_ties (f : list Z) (front back : nat) : option (list (nat * Z)) :=
  for_up (back - front) front (fun i ret =>
    let* v := get f i in
    Some (if v =? 0 then ret else ret ++ [(i, v)])) [].
(** fps.hpp:119-121 [_mul_set_dense]: the operands are distinct objects. *)
Definition fps_mul_dense (p : Z) (f r : list Z) : option (list Z) :=
  conv_ntt (length f + length r) p f r.
(** fps.hpp:126-134 [_mul_set_sparse] *)
Definition fps_mul_sparse (p : Z) (f r : list Z) : option (list Z) :=
  let* ri := fps_ties r 0 (length r) in
  match ri with
  | [] => Some []
  | _ =>
      let d := fst (last ri (0%nat, 0)) in
      for_up (length f) 0 (fun i ret =>
        let* a := get f i in
        if a =? 0 then Some ret
        else for_each ri (fun '(j, b) ret =>
          let* v := m_mul p a b in
          let* c := get ret (i + j)%nat in
          set ret (i + j)%nat (m_add p c v)) ret) (repeat 0 (length f + d))
  end.
(** fps.hpp:135-148 [*=] *)
Definition fps_mul (p : Z) (f r : list Z) : option (list Z) :=
  if (fps_count r (-1) <? 100)%nat then fps_mul_sparse p f r else fps_mul_dense p f r.

(** [if (n == -1) n = (int) size(); ] with [-1 <= n] *)
Definition fps_deg (f : list Z) (n : Z) : option nat :=
  let* _ := guard (-1 <=? n) in
  Some (if n =? -1 then length f else Z.to_nat n).

(** [assert(!empty() and f[0] == c)] with [b = true], [!= c] with [b = false] *)
Definition fps_assert0 (b : bool) (f : list Z) (c : Z) : option unit :=
  let* v := get f 0%nat in guard (Bool.eqb (v =? c) b).

(** [for (i = lo; i < hi; i++) g[i] = -t[i]] *)
Definition fps_set_neg (p : Z) (lo hi : nat) (t g : list Z) : option (list Z) :=
  for_up (hi - lo) lo (fun i g =>
    let* v := get t i in
    set g i (m_neg p v)) g.

(** fps.hpp:167-168 *)
Definition fps_load (f : list Z) (m nm : nat) (fm : list Z) : option (list Z) :=
  for_up (Nat.min nm (length f) - m) m (fun i fm =>
    let* v := get f i in set fm i v) fm.

(** fps.hpp:164-176: one round of the loop of [inv_dense] *)
Definition inv_round (p : Z) (f : list Z) (n : nat) (m : nat) (g fm : list Z) : option (list Z * list Z) :=
  let nm := Nat.min (m * 2) n in
  let fm := vresize fm nm in
  let* fm := fps_load f m nm fm in
  let* t := fps_mul p g g in
  let* t := fps_mul p t fm in
  let t := fps_ipre t nm in
  let g := vresize g nm in
  let* g := fps_set_neg p m nm t g in
  Some (g, fm).
(** fps.hpp:149-179 [inv_dense] *)
Definition fps_inv_dense (p : Z) (f : list Z) (n : Z) : option (list Z) :=
  let* _ := fps_assert0 false f 0 in
  let* n := fps_deg f n in
  if (n =? 0)%nat then Some []
  else
    let* f0 := get f 0%nat in
    let* g0 := m_inv p f0 in
    loop (S n) (fun '(m, g, fm) =>
      if (m <? n)%nat then
        let* (g, fm) := inv_round p f n m g fm in
        Some (inl (m * 2, g, fm)%nat)
      else Some (inr g)) (1%nat, [g0], [f0]).

(** ** SparseFps: pairs of a degree and a coefficient *)
(** sparse_fps.hpp:36-43 constructor from a series *)
Definition sp_of (f : list Z) (n : nat) : option (list (nat * Z)) :=
  for_up (Nat.min n (length f)) 0 (fun i ret =>
    let* v := get f i in
    Some (if v =? 0 then ret else ret ++ [(i, v)])) [].
(** sparse_fps.hpp:44-46 [deg] *)
Definition sp_deg (s : list (nat * Z)) : nat :=
  match s with [] => 0%nat | _ => (fst (last s (0%nat, 0%Z)) + 1)%nat end.
(** sparse_fps.hpp:67-74 [to_fps] *)
Definition sp_to_fps (s : list (nat * Z)) : option (list Z) :=
  match s with
  | [] => Some []
  | _ => for_each s (fun '(d, v) res => set res d v) (repeat 0 (sp_deg s))
  end.
(** sparse_fps.hpp:161-173 product with a series *)
Definition sp_mul (p : Z) (s : list (nat * Z)) (r : list Z) : option (list Z) :=
  match s, r with
  | [], _ => Some []
  | _, [] => Some []
  | _, _ =>
      for_each s (fun '(d, v) res =>
        for_up (length r) 0 (fun i res =>
          let* a := get r i in
          let* v := m_mul p v a in
          let* c := get res (i + d)%nat in
          set res (i + d)%nat (m_add p c v)) res) (repeat 0 (sp_deg s - 1 + length r))
  end.
(** sparse_fps.hpp:273-280 product with a number *)
Definition sp_mul_c (p : Z) (s : list (nat * Z)) (x : Z) : option (list (nat * Z)) :=
  let* _ := guard (negb (x =? 0)) in
  for_up (length s) 0 (fun i s =>
    let* (d, v) := get s i in
    let* v := m_mul p v x in
    set s i (d, v)) s.
(** sparse_fps.hpp:174-193 [inv] *)
Definition sp_inv (p : Z) (s : list (nat * Z)) (n : nat) : option (list Z) :=
  let* (d0, c0) := get s 0%nat in
  let* _ := guard ((d0 =? 0)%nat && negb (c0 =? 0)) in
  if (n =? 0)%nat then Some []
  else
    let* ifz := m_inv p c0 in
    let* g := set (repeat 0 n) 0%nat ifz in
    for_up (n - 1) 1 (fun i g =>
      let* x := for_until (skipn 1 s) (fun '(d, _) => (i <? d)%nat) (fun '(d, c) x =>
        let* a := get g (i - d)%nat in
        let* v := m_mul p c a in
        Some (m_add p x v)) (m_signed p 0) in
      let* v := m_mul p (m_neg p x) ifz in
      set g i v) g.
(** sparse_fps.hpp:205-218 [div_one] *)
Definition sp_div_one (p : Z) (f : list Z) (s : list (nat * Z)) : option (list Z) :=
  let* e := fps_eq p f [] in
  let* _ := guard (negb e) in
  let* (_, c0) := get s 0%nat in
  let* _ := guard (c0 =? m_signed p 1) in
  let n := (length f + sp_deg s - 1)%nat in
  let* _ := guard (length f <=? n)%nat in
  let ret := f ++ repeat 0 (n - length f) in
  for_up (n - 1) 1 (fun i ret =>
    for_until (skipn 1 s) (fun '(d, _) => (i <? d)%nat) (fun '(d, c) ret =>
      let* a := get ret (i - d)%nat in
      let* v := m_mul p a (m_neg p c) in
      let* x := get ret i in
      set ret i (m_add p x v)) ret) ret.
(** sparse_fps.hpp:194-203 [/] *)
Definition sp_div (p : Z) (f : list Z) (s : list (nat * Z)) : option (list Z) :=
  let* e := fps_eq p f [] in
  if e then Some []
  else
    let* (d0, c0) := get s 0%nat in
    let* _ := guard ((d0 =? 0)%nat && negb (c0 =? 0)) in
    if c0 =? m_signed p 1 then sp_div_one p f s
    else
      let* ic := m_inv p c0 in
      let* s := sp_mul_c p s ic in
      let* r := sp_div_one p f s in
      fps_mul_c p r ic.

(** fps.hpp:376-382 [inv_sparse] *)
Definition fps_inv_sparse (p : Z) (f : list Z) (n : Z) : option (list Z) :=
  let* _ := fps_assert0 false f 0 in
  let* n := fps_deg f n in
  if (n =? 0)%nat then Some []
  else let* s := sp_of f n in sp_inv p s n.
(** fps.hpp:181-184 [inv] *)
Definition fps_inv (p : Z) (f : list Z) (n : Z) : option (list Z) :=
  let* k := fps_deg f n in
  if (fps_count f (Z.of_nat k) <? 100)%nat then fps_inv_sparse p f (Z.of_nat k) else fps_inv_dense p f (Z.of_nat k).
(** fps.hpp:185-187 [/=] *)
Definition fps_div (p : Z) (f r : list Z) : option (list Z) :=
  let* i := fps_inv p r (-1) in fps_mul p f i.
(** fps.hpp:349-361 [%=] *)
Definition fps_mod (p : Z) (f r : list Z) : option (list Z) :=
  let* f := fps_normalize f in
  let* q := fps_div p f r in
  let* t := fps_mul p q r in
  fps_sub p f t.

(** fps.hpp:189-193 [<<] *)
Definition fps_shl (f : list Z) (m : nat) : list Z := repeat 0 m ++ f.
(** fps.hpp:195-198 [>>], 207-211 [>>=] *)
Definition fps_shr (f : list Z) (m : nat) : list Z := if (length f <=? m)%nat then [] else skipn m f.
(** fps.hpp:199-206 [<<=] *)
Definition fps_shl_set (f : list Z) (m : nat) : option (list Z) :=
  let s := length f in
  let* f := for_up s 0 (fun i f =>
    let* v := get f (s - 1 - i)%nat in
    set f (m + s - 1 - i)%nat v) (vresize f (m + s)) in
  for_up m 0 (fun i f => set f i 0) f.
(** fps.hpp:212-221 [diff] *)
Definition fps_diff (p : Z) (f : list Z) : option (list Z) :=
  if (length f =? 0)%nat then Some f
  else
    let* f := for_up (length f - 1) 1 (fun i f =>
      let* v := get f i in
      let* v := m_mul p v (m_unsigned p (Z.of_nat i)) in
      set f (i - 1)%nat v) f in
    Some (firstn (length f - 1) f).
(** fps.hpp:222-234 [inte] *)
Definition fps_inte (p : Z) (tb f : list Z) : option (list Z) :=
  if (length f =? 0)%nat then Some f
  else
    let f := f ++ [m_signed p 0] in
    let* tb := util_set_inv p tb (length f) in
    let* (f, _) := for_down (length f - 1) 1 (fun i '(f, tb) =>
      let* v := get f (i - 1)%nat in
      let* (w, tb) := util_inv p tb i in
      let* v := m_mul p v w in
      let* f := set f i v in
      Some (f, tb)) (f, tb) in
    set f 0%nat (m_signed p 0).

(** [(q).inline_pre(n-1).inline_inte().inline_pre(n)]; a negative size throws. *)
Definition log_tail (p : Z) (tb q : list Z) (n : nat) : option (list Z) :=
  let* _ := guard (1 <=? n)%nat in
  let* r := fps_inte p tb (fps_ipre q (n - 1)) in
  Some (fps_ipre r n).
(** fps.hpp:235-240 [log_dense] *)
Definition fps_log_dense (p : Z) (tb f : list Z) (n : Z) : option (list Z) :=
  let* _ := fps_assert0 true f (m_signed p 1) in
  let* n := fps_deg f n in
  let* d := fps_diff p f in
  let* i := fps_inv_dense p f (Z.of_nat n - 1) in
  let* q := fps_mul p d i in
  log_tail p tb q n.
(** fps.hpp:241-246 [log_sparse] *)
Definition fps_log_sparse (p : Z) (tb f : list Z) (n : Z) : option (list Z) :=
  let* _ := fps_assert0 true f (m_signed p 1) in
  let* n := fps_deg f n in
  let* d := fps_diff p f in
  let* _ := guard (1 <=? n)%nat in
  let* s := sp_of f (n - 1) in
  let* q := sp_div p d s in
  log_tail p tb q n.
(** fps.hpp:251-256 [log] *)
Definition fps_log (p : Z) (tb f : list Z) (n : Z) : option (list Z) :=
  let* _ := fps_assert0 true f (m_signed p 1) in
  let* n := fps_deg f n in
  let* d := fps_diff p f in
  let* i := fps_inv p f (Z.of_nat n - 1) in
  let* q := fps_mul p d i in
  log_tail p tb q n.

(** ** Exponential, fps/exp.hpp *)
(** exp.hpp:20 [assert(empty() or f[0] == 0)] *)
Definition exp_assert (f : list Z) : option unit := guard ((length f =? 0)%nat || (nth 0 f 0 =? 0)).

(** exp.hpp:45-53: the inverse [g] of [f] from [i/2] to [i] terms *)
Definition exp_g (p : Z) (i : nat) (f g : list Z) : option (list Z) :=
  let* t := fps_mul p g g in
  let* t := fps_mul p t f in
  let t := fps_ipre t i in
  let g := fps_ipre g i in
  fps_set_neg p (i / 2) i t g.
(** exp.hpp:54-57: the derivative *)
Definition exp_q (p : Z) (h : list Z) (i : nat) (q : list Z) : option (list Z) :=
  for_up (i - i / 2) (i / 2) (fun j q =>
    let* a := fps_at p h j in
    let* v := m_mul p a (m_unsigned p (Z.of_nat j)) in
    set q (j - 1)%nat v) (vresize q (i - 1)).
(** exp.hpp:69-71 *)
Definition exp_t (p : Z) (tb h : list Z) (i c : nat) (t : list Z) : option (list Z * list Z) :=
  for_up c 0 (fun j '(t, tb) =>
    let* a := get t j in
    let* (w, tb) := util_inv p tb (i + j)%nat in
    let* a := m_mul p a w in
    let* b := fps_at p h (i + j)%nat in
    let* t := set t j (m_add p a b) in
    Some (t, tb)) (t, tb).
(** exp.hpp:59-76: from [i] to [l] terms *)
Definition exp_f (p : Z) (tb h : list Z) (n i : nat) (f g q : list Z) : option (list Z * list Z) :=
  let l := Nat.min (i * 2) n in
  let* t := fps_mul p f q in
  let t := fps_ipre t (l - 1) in
  let t := fps_shr t (i - 1) in
  let* t := fps_mul p t g in
  let t := fps_ipre t (l - i + 1) in
  let* (t, tb) := exp_t p tb h i (l - i + 1) t in
  let* t := fps_mul p t f in
  let t := fps_ipre t (l - i) in
  let f := fps_ipre f l in
  let* f := for_up (l - i) i (fun j f =>
    let* v := get t (j - i)%nat in set f j v) f in
  Some (f, tb).
(** exp.hpp:38-77: one round *)
Definition exp_round (p : Z) (tb h : list Z) (n i : nat) (f g q : list Z) : option (list Z * list Z * list Z * list Z) :=
  let* (g, q) :=
    (if (1 <? i)%nat then
       let* g := exp_g p i f g in
       let* q := exp_q p h i q in Some (g, q)
     else Some (g, q)) in
  let* (f, tb) := exp_f p tb h n i f g q in
  Some (f, g, q, tb).
(** exp.hpp:10-79 [exp_dense] *)
Definition fps_exp_dense (p : Z) (tb h : list Z) (n : Z) : option (list Z) :=
  let* _ := exp_assert h in
  let* n := fps_deg h n in
  if (n =? 0)%nat then Some []
  else
    let* tb := util_set_inv p tb n in
    loop (S n) (fun '(i, f, g, q, tb) =>
      if (i <? n)%nat then
        let* (f, g, q, tb) := exp_round p tb h n i f g q in
        Some (inl ((i * 2)%nat, f, g, q, tb))
      else Some (inr (fps_ipre f n)))
      (1%nat, [m_signed p 1], [m_signed p 1], [], tb).
(** exp.hpp:83-105 [exp_sparse_impl] *)
Definition exp_sparse_impl (p : Z) (tb : list Z) (td : list (nat * Z)) (n : nat) : option (list Z) :=
  let* ret := set (repeat 0 n) 0%nat (m_signed p 1) in
  let* tb := util_set_inv p tb (n - 1) in
  let* (ret, _) := for_up (n - 1) 1 (fun i '(ret, tb) =>
    let* pf := for_until td (fun '(d, _) => negb (d =? 0)%nat && (i - 1 <? d - 1)%nat) (fun '(d, v) pf =>
      if (d =? 0)%nat then Some pf
      else
        let* c := m_mul p v (m_unsigned p (Z.of_nat d)) in
        let* a := get ret (i - 1 - (d - 1))%nat in
        let* v := m_mul p a c in
        Some (m_add p pf v)) (m_signed p 0) in
    let* (w, tb) := util_inv p tb i in
    let* v := m_mul p pf w in
    let* ret := set ret i v in
    Some (ret, tb)) (ret, tb) in
  Some ret.
(** exp.hpp:107-114 [exp_sparse] *)
Definition fps_exp_sparse (p : Z) (tb h : list Z) (n : Z) : option (list Z) :=
  let* _ := exp_assert h in
  let* n := fps_deg h n in
  if (n =? 0)%nat then Some []
  else if (length h =? 0)%nat then Some [m_signed p 1]
  else let* s := sp_of h (Nat.min n (length h)) in exp_sparse_impl p tb s n.
(** exp.hpp:116-122 [SparseFps::exp] *)
Definition sp_exp (p : Z) (tb : list Z) (s : list (nat * Z)) (n : nat) : option (list Z) :=
  let* _ := guard (match s with [] => true | (d, v) :: _ => negb (d =? 0)%nat || (v =? 0) end) in
  if (n =? 0)%nat then Some []
  else match s with [] => Some [m_signed p 1] | _ => exp_sparse_impl p tb s n end.
(** fps.hpp:263-266 [exp] *)
Definition fps_exp (p : Z) (tb h : list Z) (n : Z) : option (list Z) :=
  let* _ := exp_assert h in
  if (fps_count h (-1) <? 100)%nat then fps_exp_sparse p tb h n else fps_exp_dense p tb h n.

(** ** Powers, fps/pow.hpp *)
(** pow.hpp:4-7 [_pow_1_dense]; the exponent is a [long long]. *)
Definition pow1_dense (p : Z) (tb f : list Z) (n : Z) : option (list Z) :=
  let* l := fps_log_dense p tb f (-1) in
  let* l := fps_mul_c p l (m_signed p n) in
  fps_exp_dense p tb l (-1).
(** pow.hpp:9-34 [pow_1_sparse_impl] *)
Definition pow1_sparse_impl (p : Z) (tb : list Z) (tf : list (nat * Z)) (n : Z) (deg : nat) : option (list Z) :=
  match tf with
  | [] => Some []
  | _ =>
      let* ret := set (repeat 0 deg) 0%nat (m_signed p 1) in
      let* tb := util_set_inv p tb (deg - 1) in
      let N := m_signed p n in
      let* (ret, _) := for_up (deg - 1) 1 (fun i '(ret, tb) =>
        let* x := for_until tf (fun '(d, _) => (i <? d)%nat) (fun '(d, v) x =>
          let j := (i - d)%nat in
          let* a := get ret j in
          let* c := m_mul p v a in
          let* u := m_mul p N (m_unsigned p (Z.of_nat d)) in
          let* y := m_mul p c (m_sub p u (m_unsigned p (Z.of_nat j))) in
          Some (m_add p x y)) (m_signed p 0) in
        let* (w, tb) := util_inv p tb i in
        let* v := m_mul p x w in
        let* ret := set ret i v in
        Some (ret, tb)) (ret, tb) in
      Some ret
  end.
(** pow.hpp:36-39 [_pow_1_sparse]; the default bound of the constructor is the modulus. *)
Definition pow1_sparse (p : Z) (tb f : list Z) (n : Z) : option (list Z) :=
  let* s := sp_of f (Nat.min (Z.to_nat p) (length f)) in
  pow1_sparse_impl p tb s n (length f).
(** fps.hpp:270-273 [_pow_1] *)
Definition pow1 (p : Z) (tb f : list Z) (n : Z) : option (list Z) :=
  let* _ := fps_assert0 true f (m_signed p 1) in
  if (fps_count f (-1) <? 100)%nat then pow1_sparse p tb f n else pow1_dense p tb f n.
(** the first index with a non-zero entry, from [k] on; the length if there is none *)
Definition fps_low (f : list Z) : option nat :=
  loop (S (length f)) (fun k =>
    if (k <? length f)%nat then
      let* v := get f k in
      Some (if v =? 0 then inl (S k) else inr k)
    else Some (inr k)) 0%nat.
(** pow.hpp:41-68 [pow] *)
Definition fps_pow (p : Z) (tb f : list Z) (n : Z) : option (list Z) :=
  if n =? 0 then Some [m_signed p 1]
  else
    let* k := fps_low f in
    if (k =? length f)%nat || negb (k =? 0)%nat && (Z.of_nat ((length f - 1) / k + 1) <=? n) then Some []
    else
      let* f0 := get f 0%nat in
      if f0 =? m_signed p 1 then pow1 p tb f n
      else
        let* c := get f k in
        let* ic := m_inv p c in
        let* g := for_up (length f - k) k (fun i g =>
          let* v := get f i in
          let* v := m_mul p v ic in
          set g (i - k)%nat v) (repeat 0 (length f - k)) in
        let* g := pow1 p tb g n in
        let* _ := guard (0 <=? n) in
        let d := (k * Z.to_nat n)%nat in
        let* cpn := m_pow p c n in
        for_up (length g) 0 (fun i res =>
          let* v := get g i in
          let* v := m_mul p v cpn in
          set res (d + i)%nat v) (repeat 0 (d + length g)).
(** fps.hpp:286-327 [_sqrt] with [_sqrt_1], [_sqrt_1_dense] or [_sqrt_1_sparse];
    the inner [None] is the exception; [fuel] is that of the square root of a number. *)
Definition fps_sqrt_with (p : Z) (fuel : nat) (root : list Z -> Z -> option (list Z)) (f : list Z) : option (option (list Z)) :=
  let* k := fps_low f in
  if (k =? length f)%nat then Some (Some [])
  else if (k mod 2 =? 1)%nat then Some None
  else
    let* ck := get f k in
    let* b := m_is_square p ck in
    if negb b then Some None
    else
      let g := fps_shr f k in
      let* g := fps_div_c p g ck in
      let* e := m_inv p (m_signed p 2) in
      let* _ := fps_assert0 true g (m_signed p 1) in
      let* g := root g e in
      let* r := m_sqrt p fuel ck in
      match r with
      | None => Some None
      | Some r =>
          let* g := fps_mul_c p g r in
          let* g := fps_shl_set g (k / 2) in
          Some (Some g)
      end.
(** fps.hpp:329-337 [sqrt], [sqrt_dense], [sqrt_sparse] *)
Definition fps_sqrt (p : Z) (fuel : nat) (tb f : list Z) := fps_sqrt_with p fuel (pow1 p tb) f.
Definition fps_sqrt_dense (p : Z) (fuel : nat) (tb f : list Z) := fps_sqrt_with p fuel (pow1_dense p tb) f.
Definition fps_sqrt_sparse (p : Z) (fuel : nat) (tb f : list Z) := fps_sqrt_with p fuel (pow1_sparse p tb) f.
(** fps.hpp:338-347 [is_square] *)
Definition fps_is_square (p : Z) (f : list Z) : option bool :=
  let* k := fps_low f in
  if (k =? length f)%nat then Some true
  else if (k mod 2 =? 1)%nat then Some false
  else let* ck := get f k in m_is_square p ck.
