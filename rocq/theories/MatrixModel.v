(** Model of include/mtl/matrix.hpp.

    [Matrix<TYPE, R, C>] is a list of [R] rows of [C] entries.  The entry type is
    arbitrary, with its operations as parameters; a division by zero is [None].
    Exponents are [nat] ([unsigned long long] in the code). *)
From Coq Require Export List Arith Bool.
From Verif Require Export Base.
Export ListNotations.
Set Implicit Arguments.

Section Matrix.
Variable T : Type.
Variables (zero one : T) (add sub mul : T -> T -> T) (opp : T -> T) (div : T -> T -> T) (eqb : T -> T -> bool).
Notation matrix := (list (list T)).

(** matrix.hpp:25 *)
Definition m_zero (R C : nat) : matrix := repeat (repeat zero C) R.

(** The double loop over all the entries. *)
Definition each_entry (R C : nat) (body : nat -> nat -> matrix -> option matrix) (m : matrix) : option matrix :=
  for_up R 0 (fun i m => for_up C 0 (fun j m => body i j m) m) m.

(** matrix.hpp:34-41 *)
Definition m_id (R C : nat) : option matrix :=
  for_up (min R C) 0 (fun i m => set2 m i i one) (m_zero R C).
(** matrix.hpp:43-51 *)
Definition m_transpose (R C : nat) (a : matrix) : option matrix :=
  each_entry R C (fun i j ret => let* x := get2 a i j in set2 ret j i x) (m_zero C R).
(** matrix.hpp:56-65 *)
Definition m_eq (R C : nat) (a b : matrix) : option bool :=
  for_up R 0 (fun i acc => for_up C 0 (fun j (acc : bool) =>
    if acc then
      let* x := get2 a i j in let* y := get2 b i j in Some (eqb x y)
    else Some false) acc) true.
(** matrix.hpp:66-76 *)
Definition m_add (R C : nat) (a b : matrix) : option matrix :=
  each_entry R C (fun i j m => let* x := get2 m i j in let* y := get2 b i j in set2 m i j (add x y)) a.
(** matrix.hpp:77-85 *)
Definition m_neg (R C : nat) (a : matrix) : option matrix :=
  each_entry R C (fun i j ret => let* x := get2 a i j in set2 ret i j (opp x)) (m_zero R C).
(** matrix.hpp:86-96 *)
Definition m_sub (R C : nat) (a b : matrix) : option matrix :=
  each_entry R C (fun i j m => let* y := get2 b i j in set2 m i j (opp y)) a.
(** matrix.hpp:97-105 *)
Definition m_scale (R C : nat) (l : T) (b : matrix) : option matrix :=
  each_entry R C (fun i j ret => let* y := get2 b i j in set2 ret i j (mul l y)) (m_zero R C).
(** matrix.hpp:106-119, the product of an [R x C] and a [C x D] matrix *)
Definition m_mul (R C D : nat) (a b : matrix) : option matrix :=
  for_up R 0 (fun i ret => for_up C 0 (fun k ret =>
    let* mik := get2 a i k in
    for_up D 0 (fun j ret =>
      let* x := get2 ret i j in
      let* y := get2 b k j in
      set2 ret i j (add x (mul mik y))) ret) ret) (m_zero R D).
(** matrix.hpp:121-136 *)
Definition m_pow (n : nat) (a : matrix) (k : nat) : option matrix :=
  let* t := m_id n n in
  loop (k + 1) (fun '(u, t, k) =>
    if k =? 0 then Some (inr t)
    else
      let* t := if Nat.odd k then m_mul n n n t u else Some t in
      let* u := m_mul n n n u u in
      Some (inl (u, t, Nat.div2 k))) (a, t, k).

(** std::swap of two rows *)
Definition swap_rows (m : matrix) (i j : nat) : option matrix :=
  let* a := get m i in
  let* b := get m j in
  let* m := set m i b in
  set m j a.
(** [value_type(1) / x] *)
Definition recip (x : T) : option T :=
  let* _ := guard (negb (eqb x zero)) in Some (div one x).

(** matrix.hpp:145-148 *)
Definition det_pivot (x : matrix) (n i : nat) : option nat :=
  loop (n + 1) (fun index =>
    if index <? n then
      let* y := get2 x index i in
      if eqb y zero then Some (inl (index + 1)) else Some (inr index)
    else Some (inr index)) i.
(** matrix.hpp:141-168 *)
Definition m_det (n : nat) (a : matrix) : option T :=
  let* r := loop (n + 1) (fun '(i, ret, x) =>
    if i <? n then
      let* index := det_pivot x n i in
      if index =? n then Some (inr (inl tt)) else
      let* (x, ret) :=
        if index =? i then Some (x, ret)
        else let* x := swap_rows x index i in Some (x, opp ret) in
      let* p := get2 x i i in
      let* ixii := recip p in
      let* x := for_up (n - (i + 1)) (i + 1) (fun j x =>
        let* xji := get2 x j i in
        let factor := mul xji ixii in
        for_up (n - (i + 1)) (i + 1) (fun k x =>
          let* xjk := get2 x j k in
          let* xik := get2 x i k in
          set2 x j k (sub xjk (mul factor xik))) x) x in
      Some (inl (i + 1, ret, x))
    else Some (inr (inr (ret, x)))) (0, one, a) in
  match r with
  | inl _ => Some zero
  | inr (ret, x) => for_up n 0 (fun i ret => let* y := get2 x i i in Some (mul ret y)) ret
  end.

(** std::vector::resize *)
Definition resize (l : list nat) (n x : nat) : list nat := firstn n l ++ repeat x (n - length l).
(** matrix.hpp:176-182 *)
Definition gauss_pivot (m : matrix) (row rank i : nat) : option nat :=
  loop (row + 1) (fun j =>
    if j <? row then
      let* y := get2 m j i in
      if negb (eqb y zero) then Some (inr j) else Some (inl (j + 1))
    else Some (inr row)) rank.
(** matrix.hpp:188-198 *)
Definition gauss_column (m : matrix) (row w rank i : nat) : option matrix :=
  let* p := get2 m rank i in
  let* ixii := recip p in
  let* m := set2 m rank i one in
  let* m := for_up (w - (i + 1)) (i + 1) (fun j m =>
    let* x := get2 m rank j in set2 m rank j (mul x ixii)) m in
  for_up row 0 (fun j m =>
    if j =? rank then Some m else
    let* factor := get2 m j i in
    let* m := set2 m j i zero in
    for_up (w - (i + 1)) (i + 1) (fun k m =>
      let* x := get2 m j k in
      let* y := get2 m rank k in
      set2 m j k (sub x (mul factor y))) m) m.
(** matrix.hpp:170-202; returns the matrix, the rank and [*principal]. *)
Definition gauss (m : matrix) (row lc rc : nat) (principal : option (list nat)) : option (matrix * nat * option (list nat)) :=
  let w := lc + rc in
  let principal := match principal with Some p => Some (resize p (row + 1) lc) | None => None end in
  loop (lc + 1) (fun '(i, m, rank, principal) =>
    if (i <? lc) && (rank <? row) then
      let* index := gauss_pivot m row rank i in
      if index =? row then Some (inl (i + 1, m, rank, principal)) else
      let* m := if index =? rank then Some m else swap_rows m index rank in
      let* principal := match principal with
        | Some p => let* p := set p rank i in Some (Some p)
        | None => Some None
        end in
      let* m := gauss_column m row w rank i in
      Some (inl (i + 1, m, rank + 1, principal))
    else Some (inr (m, rank, principal))) (0, m, 0, principal).

(** matrix.hpp:218-220; [Some true] if some right-hand side is left over. *)
Definition left_over (x : matrix) (rank row column : nat) : option bool :=
  for_up (row - rank) rank (fun i (bad : bool) =>
    if bad then Some true else
    let* y := get2 x i column in Some (negb (eqb y zero))) false.
(** matrix.hpp:203-241 for a [Matrix<value_type, R, C>] *)
Definition m_solve (R C : nat) (a b : matrix) (row column : nat) : option (nat * matrix * bool) :=
  let* x := for_up row 0 (fun i x =>
    let* x := for_up column 0 (fun j x => let* y := get2 a i j in set2 x i j y) x in
    let* y := get2 b i 0 in
    set2 x i column y) (m_zero R (C + 1)) in
  let* (x, rank, col) := gauss x row column 1 (Some []) in
  let* col := col in
  let* bad := left_over x rank row column in
  if bad : bool then Some (column - rank, m_zero (R + 1) C, false) else
  let* res := for_up rank 0 (fun i res =>
    let* c := get col i in
    let* y := get2 x i column in
    set2 res 0 c y) (m_zero (R + 1) C) in
  let* col := set col rank column in
  let* c0 := get col 0 in
  let* res := for_up c0 0 (fun t res => set2 res (t + 1) t one) res in
  let* (res, t) := for_up rank 0 (fun i '(res, t) =>
    let* ci := get col i in
    let* ci1 := get col (i + 1) in
    for_up (ci1 - (ci + 1)) (ci + 1) (fun c '(res, t) =>
      let* res := for_up (i + 1) 0 (fun j res =>
        let* cj := get col j in
        let* y := get2 x j c in
        set2 res (t + 1) cj (opp y)) res in
      let* res := set2 res (t + 1) c one in
      Some (res, t + 1)) (res, t)) (res, c0) in
  let* _ := guard (t =? column - rank) in
  Some (column - rank, res, true).

(** matrix.hpp:242-262 for a [Matrix<value_type, R, C>] *)
Definition m_inv (R C : nat) (a : matrix) (n : nat) : option (matrix * bool) :=
  let* x := for_up n 0 (fun i x =>
    let* x := for_up n 0 (fun j x => let* y := get2 a i j in set2 x i j y) x in
    set2 x i (n + i) one) (m_zero R (C * 2)) in
  let* (x, rank, _) := gauss x n n n None in
  if negb (rank =? n) then Some (m_zero R C, false) else
  let* ret := each_entry n n (fun i j ret =>
    let* y := get2 x i (n + j) in set2 ret i j y) (m_zero R C) in
  Some (ret, true).
End Matrix.

(** * Specification *)

(** The entry of a matrix, [d] outside. *)
Definition ent {T} (d : T) (m : list (list T)) (i j : nat) : T := nth j (nth i m []) d.
(** An [R x C] matrix. *)
Definition dims {T} (R C : nat) (m : list (list T)) : Prop := length m = R /\ Forall (fun r => length r = C) m.

Section Spec.
Variable T : Type.
Variables (zero one : T) (add mul : T -> T -> T) (opp : T -> T).
Definition total {X} (l : list X) (f : X -> T) : T := fold_right (fun x acc => add (f x) acc) zero l.
Definition delta (i j : nat) : T := if i =? j then one else zero.
(** The product of two matrices given by their entries, the inner dimension being [n]. *)
Definition prod_entry (n : nat) (f g : nat -> nat -> T) (i j : nat) : T :=
  total (seq 0 n) (fun k => mul (f i k) (g k j)).
Fixpoint pow_entry (n : nat) (f : nat -> nat -> T) (k : nat) : nat -> nat -> T :=
  match k with 0 => delta | S k => prod_entry n f (pow_entry n f k) end.
(** The determinant of the [n x n] matrix with these entries, by expansion along the first column. *)
Definition skip_row (i a : nat) : nat := if a <? i then a else S a.
Fixpoint laplace (n : nat) (f : nat -> nat -> T) : T :=
  match n with
  | 0 => one
  | S m => total (seq 0 (S m)) (fun i =>
      let x := mul (f i 0) (laplace m (fun a b => f (skip_row i a) (S b))) in
      if Nat.odd i then opp x else x)
  end.
(** [sum_j a_ij x_j] *)
Definition row_apply (c : nat) (f : nat -> nat -> T) (x : nat -> T) (i : nat) : T :=
  total (seq 0 c) (fun j => mul (f i j) (x j)).
(** The first [row] rows are in reduced row echelon form with respect to the columns
    [0..lc-1], [q] being the pivot columns. *)
Definition echelon (row lc : nat) (q : list nat) (f : nat -> nat -> T) : Prop :=
  length q <= row /\
  (forall r, r < length q -> nth r q 0 < lc) /\
  (forall r s, r < s < length q -> nth r q 0 < nth s q 0) /\
  (forall r, r < length q -> f r (nth r q 0) = one) /\
  (forall r j, r < length q -> j < row -> j <> r -> f j (nth r q 0) = zero) /\
  (forall r c, r < length q -> c < nth r q 0 -> f r c = zero) /\
  (forall r c, length q <= r < row -> c < lc -> f r c = zero).
(** [y] is in the kernel of the [row x w] matrix [f]. *)
Definition in_kernel (row w : nat) (f : nat -> nat -> T) (y : nat -> T) : Prop :=
  forall r, r < row -> row_apply w f y r = zero.
(** [B 0 .. B (d-1)] is a basis of the kernel of [f]. *)
Definition combination (d : nat) (B : nat -> nat -> T) (k : nat -> T) (j : nat) : T :=
  total (seq 0 d) (fun t => mul (k t) (B t j)).
Definition kernel_basis (row w : nat) (f : nat -> nat -> T) (d : nat) (B : nat -> nat -> T) : Prop :=
  (forall y, in_kernel row w f y <-> exists k, forall j, j < w -> y j = combination d B k j) /\
  (forall k, (forall j, j < w -> combination d B k j = zero) -> forall t, t < d -> k t = zero).
End Spec.
