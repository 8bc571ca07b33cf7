(** Model of include/mtl/convex_hull_trick.hpp, [ConvexHullTrickDeque].

    The coefficient type [T] is modelled by the unbounded integers: the products of
    [intersect_less] and the values of the lines are assumed to be representable.
    [rev] says which comparison [C] is: [std::less] ([false], maximum) or
    [std::greater] ([true], minimum). [w] is the width of [int]. *)
From Verif Require Export Base SearchModel.
Local Open Scope Z_scope.

Set Implicit Arguments.

(** [std::pair<T,T>]: slope and intercept *)
Notation line := (Z * Z)%type.
Definition eval (l : line) (x : Z) : Z := fst l * x + snd l.

Section CHT.
Variable rev : bool.
Variable w : Z.

Definition cmp (x y : Z) : bool := if rev then y <? x else x <? y.

(** convex_hull_trick.hpp:22-31 *)
Definition intersect_less (g h i : line) : option bool :=
  let* _ := guard (negb (fst g =? fst h) && negb (fst h =? fst i)) in
  Some ((snd h - snd g) * (fst h - fst i) <? (snd i - snd h) * (fst g - fst h)).

(** convex_hull_trick.hpp:34-36 *)
Definition cht_clear : list line := [].
(** convex_hull_trick.hpp:37-43 *)
Definition push_back (L : list line) (a b : Z) : option (list line) :=
  let* _ := guard (match L with [] => true | _ => match get L (length L - 1) with Some l => cmp (fst l) a | None => false end end) in
  let l := (a, b) in
  let* L := loop (S (length L)) (fun L =>
    if (2 <=? length L)%nat then
      let* g := get L (length L - 2) in
      let* h := get L (length L - 1) in
      let* c := intersect_less g h l in
      if negb c then Some (inl (removelast L)) else Some (inr L)
    else Some (inr L)) L in
  Some (L ++ [l]).
(** convex_hull_trick.hpp:44-50 *)
Definition push_front (L : list line) (a b : Z) : option (list line) :=
  let* _ := guard (match L with [] => true | h :: _ => cmp a (fst h) end) in
  let l := (a, b) in
  let* L := loop (S (length L)) (fun L =>
    if (2 <=? length L)%nat then
      let* g := get L 0 in
      let* h := get L 1 in
      let* c := intersect_less l g h in
      if negb c then Some (inl (tl L)) else Some (inr L)
    else Some (inr L)) L in
  Some (l :: L).

(** [L[c]] with an [int] index *)
Definition getz (L : list line) (c : Z) : option line := if c <? 0 then None else get L (Z.to_nat c).
(** search.hpp:10-21 [bisect_int] with a predicate that can fail *)
Definition bisect (fuel : nat) (ok ng : Z) (f : Z -> option bool) : option Z :=
  loop fuel (fun '(ok, ng) =>
    let* d := mach w (ng - ok) in
    let* a := mach w (Z.abs d) in
    if 1 <? a then
      let* h := mach w (Z.quot d 2) in
      let* c := mach w (ok + h) in
      let* b := f c in
      if b : bool then Some (inl (c, ng)) else Some (inl (ok, c))
    else Some (inr ok)) (ok, ng).
(** convex_hull_trick.hpp:52-61 *)
Definition cht_get (L : list line) (x : Z) : option Z :=
  let* n := mach w (Z.of_nat (length L)) in
  let* i := bisect (S (length L)) (-1) (n - 1) (fun c =>
    if c =? -1 then Some true
    else
      let* l := getz L c in
      let* r := getz L (c + 1) in
      Some (cmp (eval l x) (eval r x))) in
  let r := i + 1 in
  let* l := getz L r in
  Some (eval l x).
(** convex_hull_trick.hpp:63-71 *)
Definition get_incremental (L : list line) (x : Z) : option (list line * Z) :=
  let* l := get L 0 in
  loop (S (length L)) (fun '(L, ret) =>
    if (2 <=? length L)%nat then
      let* h := get L 1 in
      if cmp ret (eval h x) then Some (inl (tl L, eval h x)) else Some (inr (L, ret))
    else Some (inr (L, ret))) (L, eval l x).
(** convex_hull_trick.hpp:73-81 *)
Definition get_decremental (L : list line) (x : Z) : option (list line * Z) :=
  let* l := get L (length L - 1) in
  loop (S (length L)) (fun '(L, ret) =>
    if (2 <=? length L)%nat then
      let* h := get L (length L - 2) in
      if cmp ret (eval h x) then Some (inl (removelast L, eval h x)) else Some (inr (L, ret))
    else Some (inr (L, ret))) (L, eval l x).

(** Histories of calls; the outputs of the queries in order *)
Inductive cht_op := PushBack (a b : Z) | PushFront (a b : Z) | Clear | Get (x : Z) | GetInc (x : Z) | GetDec (x : Z).
Definition cht_step (o : cht_op) (L : list line) : option (list line * list Z) :=
  match o with
  | PushBack a b => let* L := push_back L a b in Some (L, [])
  | PushFront a b => let* L := push_front L a b in Some (L, [])
  | Clear => Some (cht_clear, [])
  | Get x => let* y := cht_get L x in Some (L, [y])
  | GetInc x => let* (L, y) := get_incremental L x in Some (L, [y])
  | GetDec x => let* (L, y) := get_decremental L x in Some (L, [y])
  end.
Definition cht_run (h : list cht_op) : option (list line * list Z) :=
  for_each h (fun o '(L, out) => let* (L, o) := cht_step o L in Some (L, out ++ o)) ([], []).
End CHT.

(** * Specification *)
(** [y] is the best value at [x] among the lines [A]: the maximum, or the minimum if [rev]. *)
Definition best (rev : bool) (A : list line) (x y : Z) : Prop :=
  (exists l, In l A /\ y = fst l * x + snd l) /\
  (forall l, In l A -> if rev then y <= fst l * x + snd l else fst l * x + snd l <= y).
(** What the queries of a history have to answer: [A] are the lines pushed since the last
    [clear]; [lo] and [hi] are the bounds that the incremental and decremental queries
    asked so far put on the arguments of later queries.  The history is well-formed if
    pushed slopes are beyond all the earlier ones at their end, queries are asked on at
    least one line, and their arguments respect the bounds. *)
Definition beyond (rev : bool) (a a' : Z) : Prop := if rev then a' < a else a < a'.
Definition ask (A : list line) (lo hi : option Z) (x : Z) : Prop :=
  A <> [] /\ (match lo with Some l => l <= x | None => True end) /\ (match hi with Some h => x <= h | None => True end).
Fixpoint legal (rev : bool) (A : list line) (lo hi : option Z) (h : list cht_op) : Prop :=
  match h with
  | [] => True
  | PushBack a b :: h => (forall l, In l A -> beyond rev (fst l) a) /\ legal rev ((a, b) :: A) lo hi h
  | PushFront a b :: h => (forall l, In l A -> beyond rev a (fst l)) /\ legal rev ((a, b) :: A) lo hi h
  | Clear :: h => legal rev [] None None h
  | Get x :: h => ask A lo hi x /\ legal rev A lo hi h
  | GetInc x :: h => ask A lo hi x /\ legal rev A (Some x) hi h
  | GetDec x :: h => ask A lo hi x /\ legal rev A lo (Some x) h
  end.
Fixpoint answers (rev : bool) (A : list line) (h : list cht_op) (out : list Z) : Prop :=
  match h with
  | [] => out = []
  | PushBack a b :: h | PushFront a b :: h => answers rev ((a, b) :: A) h out
  | Clear :: h => answers rev [] h out
  | Get x :: h | GetInc x :: h | GetDec x :: h => exists y t, out = y :: t /\ best rev A x y /\ answers rev A h t
  end.
