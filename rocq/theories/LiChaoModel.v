(** Model of include/mtl/li_chao_tree.hpp for a signed [w]-bit integer type [T]
    ([w >= 32], so that no promotion happens). [mx] tells the comparator:
    std::less (greatest value wins) or std::greater (least value wins). *)
From Verif Require Import Base SearchModel.
Local Open Scope Z_scope.

Set Implicit Arguments.

Section LiChao.
Variable w : Z.
Variable mx : bool.

(** li_chao_tree.hpp:14-16 *)
Definition MINF : Z := - 2 ^ (w - 1).
Definition INF : Z := 2 ^ (w - 1) - 1.
Definition cmp (x y : Z) : bool := if mx then x <? y else y <? x.
Definition INV : Z := if cmp MINF INF then MINF else INF.

(** li_chao_tree.hpp:17-20 *)
Definition line : Type := Z * Z.
Record lct := mk_lct { lc_n : nat; lc_N : nat; lc_X : list Z; lc_seg : list line }.

(** li_chao_tree.hpp:23-25; [1 << (64 - clz(n-1))] is the least power of two that
    is at least [n]. *)
Definition lc_make (n : nat) : lct :=
  let N := (if n =? 0 then 0 else 2 ^ Nat.log2_up n)%nat in
  mk_lct n N (map Z.of_nat (seq 0 n)) (repeat (0, INV) (N * 2)).
(** li_chao_tree.hpp:26-28 *)
Definition lc_set_x (t : lct) (i : nat) (x : Z) : option lct :=
  let* X := set (lc_X t) i x in Some (mk_lct (lc_n t) (lc_N t) X (lc_seg t)).
(** li_chao_tree.hpp:29-32 *)
Definition lc_range (xs : list Z) : lct :=
  let t := lc_make (length xs) in mk_lct (lc_n t) (lc_N t) xs (lc_seg t).

(** li_chao_tree.hpp:35-37 [f]: overflow is undefined behaviour. *)
Definition lc_f (l : line) (x : Z) : option Z :=
  let* p := mach w (fst l * x) in mach w (p + snd l).

(** li_chao_tree.hpp:39-54 [_add_line] *)
Fixpoint add_line_rec (fuel : nat) (n : nat) (X : list Z) (ln : line) (u l r : nat) (seg : list line) : option (list line) :=
  match fuel with
  | O => None
  | S fuel =>
      if snd ln =? INV then Some seg
      else
        let mid := (l + (r - l) / 2)%nat in
        let* su := get seg u in
        let better (i : nat) :=
          (if (i <? n)%nat then
             let* x := get X i in
             let* a := lc_f su x in
             let* b := lc_f ln x in Some (cmp a b)
           else Some false) in
        let* el := better l in
        let* em := better mid in
        let* (ln, seg) := (if em then let* seg := set seg u ln in Some (su, seg) else Some (ln, seg)) in
        if (r - l =? 1)%nat then Some seg
        else if Bool.eqb el em then add_line_rec fuel n X ln (u * 2 + 1) mid r seg
        else add_line_rec fuel n X ln (u * 2) l mid seg
  end.
Definition put_line (t : lct) (ln : line) (u l r : nat) (seg : list line) : option (list line) :=
  add_line_rec (lc_N t + 1) (lc_n t) (lc_X t) ln u l r seg.
Definition with_seg (t : lct) (seg : list line) : lct := mk_lct (lc_n t) (lc_N t) (lc_X t) seg.

(** li_chao_tree.hpp:56-58 *)
Definition add_line (t : lct) (a b : Z) : option lct :=
  let* seg := put_line t (a, b) 1 0 (lc_N t) (lc_seg t) in Some (with_seg t seg).

(** li_chao_tree.hpp:60-79 *)
Definition add_segment_idx (t : lct) (a b : Z) (l r : nat) : option lct :=
  let* (L, R, seg) := loop (r + lc_N t + 2) (fun '(u, v, L, R, range, seg) =>
    if (u <? v)%nat then
      let* (u, L, seg) := (if Nat.odd u then
          let* seg := put_line t (a, b) u L (L + range) seg in Some ((u + 1)%nat, (L + range)%nat, seg)
        else Some (u, L, seg)) in
      let* (v, R, seg) := (if Nat.odd v then
          let R := (R - range)%nat in
          let* seg := put_line t (a, b) (v - 1) R (R + range) seg in Some ((v - 1)%nat, R, seg)
        else Some (v, R, seg)) in
      Some (inl ((u / 2)%nat, (v / 2)%nat, L, R, (range * 2)%nat, seg))
    else Some (inr (L, R, seg))) ((l + lc_N t)%nat, (r + lc_N t)%nat, l, r, 1%nat, lc_seg t) in
  let* _ := guard (L =? R)%nat in
  Some (with_seg t seg).

(** [std::lower_bound] on a sorted range, as an offset. *)
Fixpoint lower_bound (l : list Z) (x : Z) : nat :=
  match l with
  | [] => 0
  | y :: l => if y <? x then S (lower_bound l x) else 0
  end.
(** li_chao_tree.hpp:80-85 *)
Definition add_segment (t : lct) (a b xl xr : Z) : option lct :=
  let* _ := guard (xl <=? xr) in
  let i := lower_bound (lc_X t) xl in
  let j := (i + lower_bound (skipn i (lc_X t)) xr)%nat in
  add_segment_idx t a b i j.

(** li_chao_tree.hpp:87-97 *)
Definition get_idx (t : lct) (i : nat) : option Z :=
  let* x := get (lc_X t) i in
  loop (i + lc_N t + 1) (fun '(u, ret) =>
    if (0 <? u)%nat then
      let* s := get (lc_seg t) u in
      let* v := lc_f s x in
      Some (inl ((u / 2)%nat, if cmp ret v then v else ret))
    else Some (inr ret)) ((i + lc_N t)%nat, INV).
(** li_chao_tree.hpp:98-102 *)
Definition lc_get (t : lct) (x : Z) : option Z :=
  let i := lower_bound (lc_X t) x in
  let* _ := guard (i <? length (lc_X t))%nat in
  get_idx t i.

(** A construction: the indices, some changed by [set_x]; or a range. *)
Inductive init := InitN (n : nat) (sets : list (nat * Z)) | InitRange (xs : list Z).
Definition build (c : init) : option lct :=
  match c with
  | InitN n sets => for_each sets (fun '(i, x) t => lc_set_x t i x) (lc_make n)
  | InitRange xs => Some (lc_range xs)
  end.

Inductive op :=
| AddLine (a b : Z) | AddSegIdx (a b : Z) (l r : nat) | AddSeg (a b xl xr : Z)
| GetIdx (i : nat) | Get (x : Z).
(** The queries answer a value. *)
Definition step (t : lct) (o : op) : option (option Z * lct) :=
  match o with
  | AddLine a b => let* t := add_line t a b in Some (None, t)
  | AddSegIdx a b l r => let* t := add_segment_idx t a b l r in Some (None, t)
  | AddSeg a b xl xr => let* t := add_segment t a b xl xr in Some (None, t)
  | GetIdx i => let* v := get_idx t i in Some (Some v, t)
  | Get x => let* v := lc_get t x in Some (Some v, t)
  end.
Fixpoint run (t : lct) (ops : list op) : option (list (option Z)) :=
  match ops with
  | [] => Some []
  | o :: ops => let* (r, t) := step t o in let* rs := run t ops in Some (r :: rs)
  end.

(** ** Specification *)
(** The points after construction. *)
Definition points (c : init) : list Z :=
  match c with
  | InitN n sets => fold_left (fun X '(i, x) => lset X i x) sets (map Z.of_nat (seq 0 n))
  | InitRange xs => xs
  end.
Definition init_ok (c : init) : Prop :=
  match c with
  | InitN n sets => forall i x, In (i, x) sets -> (i < n)%nat
  | InitRange _ => True
  end.

(** The worst value of the type; [best] keeps the better of two values. *)
Definition worst : Z := if mx then - 2 ^ (w - 1) else 2 ^ (w - 1) - 1.
Definition best (x y : Z) : Z := if mx then Z.max x y else Z.min x y.
(** The value an operation offers at point [i], if it covers it. *)
Definition offer (X : list Z) (i : nat) (o : op) : option Z :=
  let x := nth i X 0 in
  match o with
  | AddLine a b => Some (a * x + b)
  | AddSegIdx a b l r => if ((l <=? i) && (i <? r))%nat then Some (a * x + b) else None
  | AddSeg a b xl xr => if (xl <=? x) && (x <? xr) then Some (a * x + b) else None
  | GetIdx _ | Get _ => None
  end.
Definition answer (X : list Z) (past : list op) (i : nat) : Z :=
  fold_left (fun v o => match offer X i o with Some y => best v y | None => v end) past worst.
(** [i] is the first point not below [x]. *)
Definition first_ge (X : list Z) (x : Z) (i : nat) : Prop :=
  (i < length X)%nat /\ x <= nth i X 0 /\ forall j, (j < i)%nat -> nth j X 0 < x.
Inductive spec_out (X : list Z) (past : list op) : op -> option Z -> Prop :=
| SLine a b : spec_out X past (AddLine a b) None
| SSegIdx a b l r : spec_out X past (AddSegIdx a b l r) None
| SSeg a b xl xr : spec_out X past (AddSeg a b xl xr) None
| SGetIdx i : spec_out X past (GetIdx i) (Some (answer X past i))
| SGet x i : first_ge X x i -> spec_out X past (Get x) (Some (answer X past i)).
Inductive spec_run (X : list Z) : list op -> list op -> list (option Z) -> Prop :=
| RNil past : spec_run X past [] []
| RCons past o ops r rs : spec_out X past o r -> spec_run X (past ++ [o]) ops rs ->
    spec_run X past (o :: ops) (r :: rs).

(** Preconditions: values fit and are better than the sentinel. *)
Definition fits (z : Z) : Prop := - 2 ^ (w - 1) <= z < 2 ^ (w - 1).
Definition line_ok (X : list Z) (a b : Z) (i : nat) : Prop :=
  let x := nth i X 0 in fits (a * x) /\ fits (a * x + b) /\ a * x + b <> worst.
Definition op_ok (X : list Z) (o : op) : Prop :=
  match o with
  | AddLine a b => b <> worst /\ forall i, (i < length X)%nat -> line_ok X a b i
  | AddSegIdx a b l r => (l <= r <= length X)%nat /\ b <> worst /\ forall i, (l <= i < r)%nat -> line_ok X a b i
  | AddSeg a b xl xr => xl <= xr /\ b <> worst /\
      forall i, (i < length X)%nat -> xl <= nth i X 0 < xr -> line_ok X a b i
  | GetIdx i => (i < length X)%nat
  | Get x => exists y, In y X /\ x <= y
  end.
Definition sorted (X : list Z) : Prop :=
  forall i j, (i <= j < length X)%nat -> nth i X 0 <= nth j X 0.
End LiChao.
