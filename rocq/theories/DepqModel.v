(** Model of include/mtl/double_ended_priority_queue.hpp. *)
From Coq Require Import Permutation.
From Verif Require Import Base.

Set Implicit Arguments.

Section Depq.
Variable T : Type.
Variable ltb : T -> T -> bool.  (* operator< *)

(** double_ended_priority_queue.hpp:20-24 *)
Definition index (id b : nat) : nat := 2 * id + b.
Definition parent (i : nat) : nat := index ((i / 2 - 1) / 2) (i mod 2).
Definition left (i : nat) : nat := index (i / 2 * 2 + 1) (i mod 2).
Definition right (i : nat) : nat := index (i / 2 * 2 + 2) (i mod 2).
(** [i & ~1], [i | 1], [i ^ 1] *)
Definition even_of (i : nat) : nat := i / 2 * 2.
Definition odd_of (i : nat) : nat := i / 2 * 2 + 1.
Definition sibling (i : nat) : nat := if Nat.odd i then i - 1 else i + 1.

(** [std::swap(a[i], a[j])] *)
Definition swap (a : list T) (i j : nat) : option (list T) :=
  let* x := get a i in
  let* y := get a j in
  let* a := set a i y in set a j x.

(** double_ended_priority_queue.hpp:46-59 [heap_down] with [comp] *)
Definition heap_down (comp : T -> T -> bool) (a : list T) (i : nat) : option (list T * nat) :=
  loop (length a + 1) (fun '(a, i) =>
    let k := left i in
    if k <? length a then
      let r := right i in
      let r := if Nat.odd r && (r =? length a) then r - 1 else r in
      let* k := (if r <? length a then
                   let* x := get a k in let* y := get a r in
                   Some (if comp x y then r else k)
                 else Some k) in
      let* x := get a i in
      let* y := get a k in
      if comp x y then let* a := swap a i k in Some (inl (a, k))
      else Some (inr (a, i))
    else Some (inr (a, i))) (a, i).
(** double_ended_priority_queue.hpp:60-67 *)
Definition min_heap_down (a : list T) (i : nat) := heap_down (fun x y => ltb y x) a i.
Definition max_heap_down (a : list T) (i : nat) := heap_down ltb a i.

(** double_ended_priority_queue.hpp:69-75 *)
Definition heap_leaf (a : list T) (i : nat) : option (list T * nat) :=
  if odd_of i <? length a then
    let* x := get a (even_of i) in
    let* y := get a (odd_of i) in
    if ltb x y then let* a := swap a i (sibling i) in Some (a, sibling i)
    else Some (a, i)
  else Some (a, i).

(** double_ended_priority_queue.hpp:77-84; the parent is only computed when
    [i >> 1 > root >> 1]. *)
Definition min_heap_up (a : list T) (i root : nat) : option (list T) :=
  loop (i + 1) (fun '(a, i) =>
    if root / 2 <? i / 2 then
      let p := odd_of (parent i) in
      if root <=? p then
        let* x := get a i in
        let* y := get a p in
        if ltb x y then let* a := swap a p i in Some (inl (a, p)) else Some (inr a)
      else Some (inr a)
    else Some (inr a)) (a, i).
(** double_ended_priority_queue.hpp:85-92 *)
Definition max_heap_up (a : list T) (i root : nat) : option (list T) :=
  loop (i + 1) (fun '(a, i) =>
    if root / 2 <? i / 2 then
      let p := even_of (parent i) in
      if root <=? p then
        let* x := get a i in
        let* y := get a p in
        if ltb y x then let* a := swap a p i in Some (inl (a, p)) else Some (inr a)
      else Some (inr a)
    else Some (inr a)) (a, i).

(** double_ended_priority_queue.hpp:94-100 *)
Definition heapify (a : list T) (i : nat) (limited : bool) : option (list T) :=
  let* (a, j) := (if Nat.odd i then min_heap_down a i else max_heap_down a i) in
  let* (a, k) := heap_leaf a j in
  let root := if limited then i else 0 in
  let* a := max_heap_up a k root in
  min_heap_up a k root.

(** double_ended_priority_queue.hpp:28-43 range constructor *)
Definition dq_range (xs : list T) : option (list T) :=
  let n := length xs in
  if n <=? 1 then Some xs
  else if n =? 2 then
    let* x := get xs 0 in
    let* y := get xs 1 in
    if ltb x y then swap xs 0 1 else Some xs
  else
    for_down n 0 (fun i a =>
      let* a := (if Nat.odd i then
                   let* x := get a (i - 1) in
                   let* y := get a i in
                   if ltb x y then swap a (i - 1) i else Some a
                 else Some a) in
      heapify a i true) xs.

(** double_ended_priority_queue.hpp:102-108 *)
Definition dq_push (a : list T) (x : T) : option (list T) :=
  heapify (a ++ [x]) (length a) false.
(** double_ended_priority_queue.hpp:109-115 *)
Definition dq_pop_max (a : list T) : option (list T) :=
  let* _ := guard (negb (length a =? 0)) in
  let* a := swap a 0 (length a - 1) in
  let a := removelast a in
  if 0 <? length a then heapify a 0 false else Some a.
(** double_ended_priority_queue.hpp:116-126 *)
Definition dq_pop_min (a : list T) : option (list T) :=
  let* _ := guard (negb (length a =? 0)) in
  if length a =? 1 then Some (removelast a)
  else
    let* a := swap a 1 (length a - 1) in
    let a := removelast a in
    if 1 <? length a then heapify a 1 false else Some a.
(** double_ended_priority_queue.hpp:128-135 *)
Definition dq_max (a : list T) : option T := get a 0.
Definition dq_min (a : list T) : option T := get a (if 1 <? length a then 1 else 0).
(** double_ended_priority_queue.hpp:137-139 *)
Definition dq_size (a : list T) : nat := length a.
Definition dq_empty (a : list T) : bool := dq_size a =? 0.
Definition dq_clear (a : list T) : list T := [].

Inductive op := Push (x : T) | PopMin | PopMax | Min | Max | Size | Empty | Clear.
Inductive out := ONone | OVal (x : T) | ONum (n : nat) | OBool (b : bool).
Definition step (a : list T) (o : op) : option (out * list T) :=
  match o with
  | Push x => let* a := dq_push a x in Some (ONone, a)
  | PopMin => let* a := dq_pop_min a in Some (ONone, a)
  | PopMax => let* a := dq_pop_max a in Some (ONone, a)
  | Min => let* x := dq_min a in Some (OVal x, a)
  | Max => let* x := dq_max a in Some (OVal x, a)
  | Size => Some (ONum (dq_size a), a)
  | Empty => Some (OBool (dq_empty a), a)
  | Clear => Some (ONone, dq_clear a)
  end.
Fixpoint run (a : list T) (ops : list op) : option (list out * list T) :=
  match ops with
  | [] => Some ([], a)
  | o :: ops =>
      let* (r, a) := step a o in
      let* (rs, a) := run a ops in
      Some (r :: rs, a)
  end.

(** ** Specification: a multiset *)
Definition greatest (x : T) (l : list T) : Prop := In x l /\ forall y, In y l -> ltb x y = false.
Definition least (x : T) (l : list T) : Prop := In x l /\ forall y, In y l -> ltb y x = false.
Inductive spec : list T -> op -> out -> list T -> Prop :=
| SPush l x : spec l (Push x) ONone (x :: l)
| SPopMin l x l' : least x l -> Permutation l (x :: l') -> spec l PopMin ONone l'
| SPopMax l x l' : greatest x l -> Permutation l (x :: l') -> spec l PopMax ONone l'
| SMin l x : least x l -> spec l Min (OVal x) l
| SMax l x : greatest x l -> spec l Max (OVal x) l
| SSize l : spec l Size (ONum (length l)) l
| SEmpty l : spec l Empty (OBool (length l =? 0)) l
| SClear l : spec l Clear ONone [].
Inductive spec_run : list T -> list op -> list out -> Prop :=
| RNil l : spec_run l [] []
| RCons l o r l1 ops rs : spec l o r l1 -> spec_run l1 ops rs -> spec_run l (o :: ops) (r :: rs).
(** pops and extrema only on a non-empty queue *)
Fixpoint legal (n : nat) (ops : list op) : Prop :=
  match ops with
  | [] => True
  | Push _ :: ops => legal (n + 1) ops
  | (PopMin | PopMax) :: ops => 0 < n /\ legal (n - 1) ops
  | (Min | Max) :: ops => 0 < n /\ legal n ops
  | (Size | Empty) :: ops => legal n ops
  | Clear :: ops => legal 0 ops
  end.
End Depq.
