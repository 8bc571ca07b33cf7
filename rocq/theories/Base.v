(** Common vocabulary of the models: partial computations ([option], [None] is
    undefined behaviour or exhausted fuel), arrays as lists, loops. *)
From Coq Require Export List Arith ZArith Lia Bool ZifyBool ZifyNat.
Export ListNotations.

Set Implicit Arguments.

(** ** Partial computations *)
Definition obind {A B} (m : option A) (f : A -> option B) : option B :=
  match m with Some x => f x | None => None end.

Declare Scope monad_scope.
Delimit Scope monad_scope with monad.
Notation "'let*' p := m 'in' k" := (obind m (fun p => k))
  (at level 200, p pattern, m at level 100, k at level 200) : monad_scope.
Global Open Scope monad_scope.

(** [assert]-like guard: a violated precondition is undefined behaviour. *)
Definition guard (b : bool) : option unit := if b then Some tt else None.

(** ** Arrays *)
(** [v[i]] of a [std::vector]. *)
Definition get {A} (l : list A) (i : nat) : option A := nth_error l i.

Fixpoint lset {A} (l : list A) (i : nat) (x : A) : list A :=
  match l, i with
  | [], _ => []
  | _ :: t, O => x :: t
  | y :: t, S j => y :: lset t j x
  end.

(** [v[i] = x] of a [std::vector]; writing out of range is undefined. *)
Definition set {A} (l : list A) (i : nat) (x : A) : option (list A) :=
  if i <? length l then Some (lset l i x) else None.

(** The half-open range [l..r) of a list. *)
Definition slice {A} (l r : nat) (xs : list A) : list A := firstn (r - l) (skipn l xs).

(** ** Loops *)
(** A loop whose body either continues with a new state or leaves with a
    result. [fuel] bounds the iterations; running out is [None]. *)
Fixpoint loop {S R} (fuel : nat) (body : S -> option (S + R)) (s : S) : option R :=
  match fuel with
  | O => None
  | Datatypes.S fuel' =>
      match body s with
      | None => None
      | Some (inl s') => loop fuel' body s'
      | Some (inr r) => Some r
      end
  end.

(** [for (i = lo; i < lo + n; i++) s = body(i, s)] *)
Fixpoint for_up {S} (n lo : nat) (body : nat -> S -> option S) (s : S) : option S :=
  match n with
  | O => Some s
  | Datatypes.S n' => let* s' := body lo s in for_up n' (Datatypes.S lo) body s'
  end.

(** [for (i = lo + n - 1; i >= lo; i--) s = body(i, s)] *)
Fixpoint for_down {S} (n lo : nat) (body : nat -> S -> option S) (s : S) : option S :=
  match n with
  | O => Some s
  | Datatypes.S n' => let* s' := body (lo + n') s in for_down n' lo body s'
  end.

(** [for (x : l) s = body(x, s)] *)
Fixpoint for_each {A S} (l : list A) (body : A -> S -> option S) (s : S) : option S :=
  match l with
  | [] => Some s
  | x :: t => let* s' := body x s in for_each t body s'
  end.

(** ** Algebra *)
Record monoid_laws {A} (op : A -> A -> A) (e : A) : Prop := {
  mon_assoc : forall x y z, op x (op y z) = op (op x y) z;
  mon_left  : forall x, op e x = x;
  mon_right : forall x, op x e = x
}.

(** The ordered product of a list. *)
Definition product {A} (op : A -> A -> A) (e : A) (l : list A) : A := fold_right op e l.

(** The effect of a history of point assignments on a list. *)
Definition list_updates {A} (xs : list A) (h : list (nat * A)) : list A :=
  fold_left (fun xs '(i, x) => lset xs i x) h xs.

Record agroup_laws {A} (plus minus : A -> A -> A) (zero : A) : Prop := {
  ag_assoc : forall x y z, plus x (plus y z) = plus (plus x y) z;
  ag_comm  : forall x y, plus x y = plus y x;
  ag_zero  : forall x, plus zero x = x;
  ag_minus : forall x y, minus (plus x y) x = y
}.

Definition lsum {A} (plus : A -> A -> A) (zero : A) (l : list A) : A := fold_right plus zero l.

(** The effect of a history of point additions on a list. *)
Definition list_adds {A} (plus : A -> A -> A) (xs : list A) (h : list (nat * A)) : list A :=
  fold_left (fun xs '(i, x) =>
    match get xs i with Some y => lset xs i (plus y x) | None => xs end) h xs.

(** ** Two-dimensional arrays *)
Definition get2 {A} (t : list (list A)) (i j : nat) : option A :=
  let* row := get t i in get row j.
Definition set2 {A} (t : list (list A)) (i j : nat) (x : A) : option (list (list A)) :=
  let* row := get t i in let* row' := set row j x in set t i row'.

(** [63 - bm::clz(x)] (bit_manip.hpp:101-112): the index of the highest set
    bit; on 0 the C++ value is the wrapped [-1], which every caller would use
    as an index or shift, so it is an error here. *)
Definition msb (x : nat) : option nat := if x =? 0 then None else Some (Nat.log2 x).

(** [64 - bm::clz(x)]: the number of bits of [x]. *)
Definition bitlen (x : nat) : nat := if x =? 0 then 0 else S (Nat.log2 x).

(** Fold of a semigroup over a non-empty list; [None] on the empty list. *)
Definition sfold {A} (op : A -> A -> A) (l : list A) : option A :=
  match l with [] => None | x :: t => Some (fold_left op t x) end.

Record cmonoid_laws {A} (op : A -> A -> A) (e : A) : Prop := {
  cm_assoc : forall x y z, op x (op y z) = op (op x y) z;
  cm_comm  : forall x y, op x y = op y x;
  cm_left  : forall x, op e x = x
}.
