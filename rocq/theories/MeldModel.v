(** Model of include/mtl/meldable_heap.hpp. Nodes live in a memory shared by all
    heap objects; the [parent] links are written but never read by any member,
    and are left out. [rand() % 2] is an arbitrary sequence of bits. *)
From Coq Require Import Permutation.
From Verif Require Import Base.

Set Implicit Arguments.

Section Meld.
Variable T : Type.
Variable ltb : T -> T -> bool.  (* Cond *)
Variable coin : nat -> bool.    (* the k-th call of rand() returned an even number *)

(** meldable_heap.hpp:10-13 [Node] *)
Record node := mk_node { nd_x : T; nd_l : option nat; nd_r : option nat }.
(** The memory and the number of coins used. *)
Definition mem : Type := list node * nat.
(** meldable_heap.hpp:16-17 *)
Record heap := mk_heap { hp_r : option nat; hp_sz : nat }.

(** meldable_heap.hpp:19-33 [_meld] *)
Fixpoint meld_rec (fuel : nat) (m : mem) (l r : option nat) : option (mem * option nat) :=
  match fuel with
  | O => None
  | S fuel =>
      match l, r with
      | None, _ => Some (m, r)
      | _, None => Some (m, l)
      | Some a, Some b =>
          let* na := get (fst m) a in
          let* nb := get (fst m) b in
          if ltb (nd_x na) (nd_x nb) then meld_rec fuel m r l
          else if coin (snd m) then
            let* (m, c) := meld_rec fuel (fst m, snd m + 1) (nd_l na) r in
            let* na := get (fst m) a in
            let* h := set (fst m) a (mk_node (nd_x na) c (nd_r na)) in
            Some ((h, snd m), l)
          else
            let* (m, c) := meld_rec fuel (fst m, snd m + 1) (nd_r na) r in
            let* na := get (fst m) a in
            let* h := set (fst m) a (mk_node (nd_x na) (nd_l na) c) in
            Some ((h, snd m), l)
      end
  end.
(** Two calls per node at most, and one at the end. *)
Definition meld_ptr (m : mem) (l r : option nat) := meld_rec (2 * length (fst m) + 2) m l r.

(** meldable_heap.hpp:36 *)
Definition hp_empty : heap := mk_heap None 0.
(** meldable_heap.hpp:55-61 [push] *)
Definition hp_push (m : mem) (h : heap) (x : T) : option (mem * heap) :=
  let m := (fst m ++ [mk_node x None None], snd m) in
  let* (m, r) := meld_ptr m (hp_r h) (Some (length (fst m) - 1)) in
  Some (m, mk_heap r (hp_sz h + 1)).
(** meldable_heap.hpp:37-42 range constructor *)
Definition hp_range (m : mem) (xs : list T) : option (mem * heap) :=
  for_each xs (fun x '(m, h) => hp_push m h x) (m, hp_empty).
(** meldable_heap.hpp:44-48 [meld]: the argument is left as it is. *)
Definition hp_meld (m : mem) (a b : heap) : option (mem * heap) :=
  let* (m, r) := meld_ptr m (hp_r a) (hp_r b) in
  Some (m, mk_heap r (hp_sz a + hp_sz b)).
(** meldable_heap.hpp:63 [top] *)
Definition hp_top (m : mem) (h : heap) : option T :=
  let* a := hp_r h in let* n := get (fst m) a in Some (nd_x n).
(** meldable_heap.hpp:64-71 [pop] *)
Definition hp_pop (m : mem) (h : heap) : option (mem * heap * T) :=
  let* a := hp_r h in
  let* n := get (fst m) a in
  let* (m, r) := meld_ptr m (nd_l n) (nd_r n) in
  Some (m, mk_heap r (hp_sz h - 1), nd_x n).
(** meldable_heap.hpp:73-78 [size], [empty], [clear] *)
Definition hp_size (h : heap) : nat := hp_sz h.
Definition hp_isempty (h : heap) : bool := hp_size h =? 0.
Definition hp_clear (h : heap) : heap := mk_heap None 0.

(** A program over several heap objects, numbered by creation. *)
Inductive op :=
| New | Range (xs : list T) | Push (i : nat) (x : T) | Pop (i : nat) | Top (i : nat)
| Size (i : nat) | Empty (i : nat) | Clear (i : nat) | Meld (i j : nat).
Inductive out := ONone | OVal (x : T) | ONum (n : nat) | OBool (b : bool).

Definition step (st : mem * list heap) (o : op) : option (out * (mem * list heap)) :=
  let '(m, hs) := st in
  match o with
  | New => Some (ONone, (m, hs ++ [hp_empty]))
  | Range xs => let* (m, h) := hp_range m xs in Some (ONone, (m, hs ++ [h]))
  | Push i x =>
      let* h := get hs i in
      let* (m, h) := hp_push m h x in
      let* hs := set hs i h in Some (ONone, (m, hs))
  | Pop i =>
      let* h := get hs i in
      let* (m, h, x) := hp_pop m h in
      let* hs := set hs i h in Some (OVal x, (m, hs))
  | Top i => let* h := get hs i in let* x := hp_top m h in Some (OVal x, (m, hs))
  | Size i => let* h := get hs i in Some (ONum (hp_size h), (m, hs))
  | Empty i => let* h := get hs i in Some (OBool (hp_isempty h), (m, hs))
  | Clear i => let* h := get hs i in let* hs := set hs i (hp_clear h) in Some (ONone, (m, hs))
  | Meld i j =>
      let* a := get hs i in
      let* b := get hs j in
      let* (m, h) := hp_meld m a b in
      let* hs := set hs i h in Some (ONone, (m, hs))
  end.
Fixpoint run (st : mem * list heap) (ops : list op) : option (list out * (mem * list heap)) :=
  match ops with
  | [] => Some ([], st)
  | o :: ops =>
      let* (r, st) := step st o in
      let* (rs, st) := run st ops in
      Some (r :: rs, st)
  end.
Definition start : mem * list heap := (([], 0), []).

(** ** Specification *)
(** Each object is a multiset, or [None] once it has been melded into another
    (until it is cleared). The relation is also the precondition: the object
    used must be live, and non-empty for [top] and [pop]. *)
Definition bag := option (list T).
(** [x] is a greatest element of [l]. *)
Definition greatest (x : T) (l : list T) : Prop := In x l /\ forall y, In y l -> ltb x y = false.

Inductive spec : list bag -> op -> out -> list bag -> Prop :=
| SNew bs : spec bs New ONone (bs ++ [Some []])
| SRange bs xs : spec bs (Range xs) ONone (bs ++ [Some xs])
| SPush bs i x l : get bs i = Some (Some l) -> spec bs (Push i x) ONone (lset bs i (Some (x :: l)))
| SPop bs i l x l' : get bs i = Some (Some l) -> greatest x l -> Permutation l (x :: l') ->
    spec bs (Pop i) (OVal x) (lset bs i (Some l'))
| STop bs i l x : get bs i = Some (Some l) -> greatest x l -> spec bs (Top i) (OVal x) bs
| SSize bs i l : get bs i = Some (Some l) -> spec bs (Size i) (ONum (length l)) bs
| SEmpty bs i l : get bs i = Some (Some l) -> spec bs (Empty i) (OBool (length l =? 0)) bs
| SClear bs i b : get bs i = Some b -> spec bs (Clear i) ONone (lset bs i (Some []))
| SMeld bs i j l l' : i <> j -> get bs i = Some (Some l) -> get bs j = Some (Some l') ->
    spec bs (Meld i j) ONone (lset (lset bs i (Some (l ++ l'))) j None).

Inductive spec_run : list bag -> list op -> list out -> list bag -> Prop :=
| RNil bs : spec_run bs [] [] bs
| RCons bs o r bs1 ops rs bs2 : spec bs o r bs1 -> spec_run bs1 ops rs bs2 -> spec_run bs (o :: ops) (r :: rs) bs2.

(** The uses that are promised to work, independently of the outcome: operations
    on live objects, [top] and [pop] on non-empty ones. Sizes suffice. *)
Definition legal_step (ns : list (option nat)) (o : op) : option (list (option nat)) :=
  match o with
  | New => Some (ns ++ [Some 0])
  | Range xs => Some (ns ++ [Some (length xs)])
  | Push i _ => match get ns i with Some (Some n) => Some (lset ns i (Some (n + 1))) | _ => None end
  | Pop i => match get ns i with Some (Some (S n)) => Some (lset ns i (Some n)) | _ => None end
  | Top i => match get ns i with Some (Some (S n)) => Some ns | _ => None end
  | Size i | Empty i => match get ns i with Some (Some n) => Some ns | _ => None end
  | Clear i => match get ns i with Some _ => Some (lset ns i (Some 0)) | _ => None end
  | Meld i j =>
      if i =? j then None
      else match get ns i, get ns j with
           | Some (Some a), Some (Some b) => Some (lset (lset ns i (Some (a + b))) j None)
           | _, _ => None
           end
  end.
Fixpoint legal (ns : list (option nat)) (ops : list op) : Prop :=
  match ops with
  | [] => True
  | o :: ops => match legal_step ns o with Some ns => legal ns ops | None => False end
  end.
End Meld.
