(** Model of include/mtl/treap.hpp (Treap, TreapSet, TreapMultiset; lines 9-595).

    All nodes live in one memory [th]; a node is its index. shared_ptr and weak_ptr are plain
    pointers ([None] is null): nodes are never reused, so a node that the C++ program has freed
    is here a cell that nothing links to. The priority of each new node, which the code draws
    from [_pick_priority] (128), is an argument of the operation. Keys are elements of a type
    with a decidable equality and the comparison [comp_]. Asserted conditions (135-136, 140,
    171, 173, ...) are guards where the code would go wrong without them.

    Not modelled: copying (78-102), mapped values and operator[] (558-570), post-increment and
    the printing (500-545). *)
From Coq Require Import Sorting.Sorted.
From Verif Require Export PTree.
Set Implicit Arguments.

Section Treap.
Context {K : Type}.
Variable eqb : K -> K -> bool.   (* operator== on keys *)
Variable ltb : K -> K -> bool.   (* comp_, 67 *)
(* UniqueKey, 12: true for TreapSet, false for TreapMultiset *)
Variable uniq : bool.

(** struct Node, 39-60; the sentinel and the auxiliary nodes of split and absorb hold a
    default-constructed value, which is never read: [None]. *)
Record th := TH { tk : ph; tpri : list Z; tkey : list (option K) }.
Definition th_empty : th := TH (PH [] [] []) [] [].
(** std::make_shared<Node>(p, v), 45-53: all links null. *)
Definition th_new (H : th) (p : Z) (v : option K) : th * nat :=
  (TH (ph_new (tk H)) (tpri H ++ [p]) (tkey H ++ [v]), length (tkey H)).
Definition with_tk (H : th) (k : ph) : th := TH k (tpri H) (tkey H).
(** key(), 54-59 *)
Definition tkey_of (H : th) (u : nat) : option K := let* k := get (tkey H) u in k.
Definition fuel_of (H : th) : nat := S (S (length (tkey H))).

(** The members sentinel_ and size_, 62-63. [size_] is a size_t: arithmetic modulo 2^64. *)
Record tr := TR { sent : nat; tsize : Z }.
Definition szw (z : Z) : Z := (z mod 2 ^ 64)%Z.
Definition inc_size (T : tr) (d : Z) : tr := TR (sent T) (szw (tsize T + d)).

(** Treap(comp), 69-71 *)
Definition tr_new (H : th) : th * tr := let (H, s) := th_new H 0 None in (H, TR s 0).
(** _root, 125-127 *)
Definition root_of (H : th) (T : tr) : option (option nat) := get (pl (tk H)) (sent T).

(** _turn_left, 132-149 *)
Definition turn_left (k : ph) (u : nat) : option ph :=
  let* p := get (pp k) u in let* p := p in
  let* r := get (pr k) u in let* r := r in
  let* l := get (pl k) p in
  let* k := (if peq l (Some u) then set_pl k p (Some r)
             else let* q := get (pr k) p in let* _ := guard (peq q (Some u)) in set_pr k p (Some r)) in
  let* k := set_pp k r (Some p) in
  let* rl := get (pl k) r in
  let* k := set_pr k u rl in
  let* k := set_pp_opt k rl (Some u) in
  let* k := set_pl k r (Some u) in
  set_pp k u (Some r).

(** _turn_right, 150-167 *)
Definition turn_right (k : ph) (u : nat) : option ph :=
  let* p := get (pp k) u in let* p := p in
  let* l := get (pl k) u in let* l := l in
  let* q := get (pl k) p in
  let* k := (if peq q (Some u) then set_pl k p (Some l)
             else let* q := get (pr k) p in let* _ := guard (peq q (Some u)) in set_pr k p (Some l)) in
  let* k := set_pp k l (Some p) in
  let* lr := get (pr k) l in
  let* k := set_pl k u lr in
  let* k := set_pp_opt k lr (Some u) in
  let* k := set_pr k l (Some u) in
  set_pp k u (Some l).

(** _comp_priority, 129-131 *)
Definition comp_priority (H : th) (u v : nat) : option bool :=
  let* a := get (tpri H) u in let* b := get (tpri H) v in Some (a <? b)%Z.

(** _bubble_up_cond, 168-181 *)
Definition bubble_up_cond (H : th) (s : nat) (u : nat) (cond : ph -> option bool) : option th :=
  let* k := loop (fuel_of H) (fun k =>
    let* b := cond k in
    if (b : bool) then
      let* p := get (pp k) u in let* p := p in
      let* _ := guard (negb (p =? s)) in
      let* r := get (pr k) p in
      if peq r (Some u) then let* k := turn_left k p in Some (inl k)
      else let* l := get (pl k) p in let* _ := guard (peq l (Some u)) in let* k := turn_right k p in Some (inl k)
    else Some (inr k)) (tk H) in
  Some (with_tk H k).
(** _bubble_up, 182-184 *)
Definition bubble_up (H : th) (s u : nat) : option th :=
  bubble_up_cond H s u (fun k => let* p := get (pp k) u in let* p := p in comp_priority H u p).
(** _bubble_up_force, 185-189 *)
Definition bubble_up_force (H : th) (s u : nat) : option th :=
  bubble_up_cond H s u (fun k => let* p := get (pp k) u in Some (negb (peq p (Some s)))).

(** _tricle_down, 190-202 *)
Definition tricle_down (H : th) (u : nat) : option th :=
  let* k := loop (fuel_of H) (fun k =>
    let* l := get (pl k) u in
    let* r := get (pr k) u in
    match l, r with
    | None, None => Some (inr k)
    | Some _, None => let* k := turn_right k u in Some (inl k)
    | None, Some _ => let* k := turn_left k u in Some (inl k)
    | Some a, Some b =>
        let* c := comp_priority H a b in
        if (c : bool) then let* k := turn_right k u in Some (inl k) else let* k := turn_left k u in Some (inl k)
    end) (tk H) in
  Some (with_tk H k).

(** _splice, 204-215 *)
Definition splice (H : th) (u : nat) : option th :=
  let k := tk H in
  let* p := get (pp k) u in let* p := p in
  let* l := get (pl k) p in
  let* k := (if peq l (Some u) then set_pl k p None
             else let* r := get (pr k) p in let* _ := guard (peq r (Some u)) in set_pr k p None) in
  let* k := set_pp k u None in
  Some (with_tk H k).

(** _insert_node_subtree, 222-241: the descent from [u] looks for the null link where the new
    node goes; [inl] is the node with an equal key. *)
Definition ins_find (H : th) (s u : nat) (x : K) : option (nat + (nat * bool)) :=
  loop (fuel_of H) (fun u =>
    let* eq := (if uniq && negb (u =? s) then let* y := tkey_of H u in Some (eqb x y) else Some false) in
    if (eq : bool) then Some (inr (inl u)) else
    let* toleft := (if u =? s then Some true else let* y := tkey_of H u in Some (ltb x y)) in
    let* c := get (if (toleft : bool) then pl (tk H) else pr (tk H)) u in
    match c with
    | None => Some (inr (inr (u, toleft)))
    | Some c => Some (inl c)
    end) u.
Definition insert_node_subtree (H : th) (T : tr) (u nw : nat) : option (th * tr * nat * bool) :=
  let* x := tkey_of H nw in
  let* w := ins_find H (sent T) u x in
  match w with
  | inl v => Some (H, T, v, false)
  | inr (p, toleft) =>
      let* k := (if toleft then set_pl (tk H) p (Some nw) else set_pr (tk H) p (Some nw)) in
      let* k := set_pp k nw (Some p) in
      let* H := bubble_up (with_tk H k) (sent T) nw in
      Some (H, inc_size T 1, nw, true)
  end.
(** emplace and insert, 336-338 and 343-357, with _create_node (331-334) and _insert_node (242-244);
    [p] is the priority drawn. *)
Definition t_insert (H : th) (T : tr) (p : Z) (x : K) : option (th * tr * nat * bool) :=
  let (H, nw) := th_new H p (Some x) in insert_node_subtree H T (sent T) nw.
(** insert(begin, end), 358-365, and the range constructor, 72-76 *)
Definition t_insert_all (H : th) (T : tr) (xs : list (Z * K)) : option (th * tr) :=
  for_each xs (fun '(p, x) '(H, T) => let* (H, T, _, _) := t_insert H T p x in Some (H, T)) (H, T).
(** emplace_hint, 340-342, and _insert_node_hint, 245-263 *)
Definition t_insert_hint (H : th) (T : tr) (hint : nat) (p : Z) (x : K) : option (th * tr * nat) :=
  let (H, nw) := th_new H p (Some x) in
  let* q := get (pp (tk H)) hint in
  match q with
  | Some q =>
      if q =? sent T then let* (H, T, v, _) := insert_node_subtree H T hint nw in Some (H, T, v) else
      let* xp := tkey_of H q in
      if uniq && eqb xp x then Some (H, T, q) else
      let* l := get (pl (tk H)) q in
      let* r := get (pr (tk H)) q in
      if (peq l (Some hint) && ltb xp x) || (peq r (Some hint) && ltb x xp)
      then let* (H, T, v, _) := insert_node_subtree H T (sent T) nw in Some (H, T, v)
      else let* (H, T, v, _) := insert_node_subtree H T hint nw in Some (H, T, v)
  | None => let* (H, T, v, _) := insert_node_subtree H T hint nw in Some (H, T, v)
  end.

(** size, empty, clear, 266-271 *)
Definition t_size (T : tr) : Z := tsize T.
Definition t_empty (H : th) (T : tr) : option bool := let* r := root_of H T in Some (peq r None).
Definition t_clear (H : th) (T : tr) : option (th * tr) := let* k := set_pl (tk H) (sent T) None in Some (with_tk H k, TR (sent T) 0).
(** end(), 529-531: the sentinel. begin(), 522-528 *)
Definition t_end (T : tr) : nat := sent T.
Definition t_begin (H : th) (T : tr) : option nat :=
  loop (fuel_of H) (fun u => let* l := get (pl (tk H)) u in match l with Some l => Some (inl l) | None => Some (inr u) end) (sent T).

(** find, 273-284, and count, 285 *)
Definition t_find (H : th) (T : tr) (x : K) : option nat :=
  let* r := root_of H T in
  loop (fuel_of H) (fun o =>
    match o with
    | None => Some (inr (t_end T))
    | Some u =>
        let* y := tkey_of H u in
        if eqb y x then Some (inr u) else
        if ltb x y then let* l := get (pl (tk H)) u in Some (inl l) else let* r := get (pr (tk H)) u in Some (inl r)
    end) r.
Definition t_count (H : th) (T : tr) (x : K) : option nat := let* u := t_find H T x in Some (if u =? t_end T then 0 else 1).
(** lower_bound, 286-300 *)
Definition t_lower_bound (H : th) (T : tr) (x : K) : option nat :=
  let* r := root_of H T in
  loop (fuel_of H) (fun '(o, lb) =>
    match o with
    | None => Some (inr lb)
    | Some u =>
        let* y := tkey_of H u in
        if eqb y x then Some (inr u) else
        if ltb x y then let* l := get (pl (tk H)) u in Some (inl (l, u)) else let* r := get (pr (tk H)) u in Some (inl (r, lb))
    end) (r, sent T).
(** upper_bound, 301-313 *)
Definition t_upper_bound (H : th) (T : tr) (x : K) : option nat :=
  let* r := root_of H T in
  loop (fuel_of H) (fun '(o, ub) =>
    match o with
    | None => Some (inr ub)
    | Some u =>
        let* y := tkey_of H u in
        if ltb x y then let* l := get (pl (tk H)) u in Some (inl (l, u)) else let* r := get (pr (tk H)) u in Some (inl (r, ub))
    end) (r, sent T).
(** predecessor, 315-327 *)
Definition t_predecessor (H : th) (T : tr) (x : K) : option nat :=
  let* r := root_of H T in
  loop (fuel_of H) (fun '(o, pd) =>
    match o with
    | None => Some (inr pd)
    | Some u =>
        let* y := tkey_of H u in
        if negb (ltb y x) then let* l := get (pl (tk H)) u in Some (inl (l, pd)) else let* r := get (pr (tk H)) u in Some (inl (r, u))
    end) (r, sent T).

(** iterator ++, 471-488: down to the leftmost node on the right, or up past the right links *)
Definition t_next (H : th) (u : nat) : option nat :=
  let k := tk H in
  let* r := get (pr k) u in
  match r with
  | Some r => loop (fuel_of H) (fun u => let* l := get (pl k) u in match l with Some l => Some (inl l) | None => Some (inr u) end) r
  | None =>
      loop (fuel_of H) (fun u =>
        let* p := get (pp k) u in
        let* p := p in
        let* l := get (pl k) p in
        if peq l (Some u) then Some (inr p) else Some (inl p)) u
  end.
(** iterator --, 494-510: null when there is nothing before *)
Definition t_prev (H : th) (u : nat) : option (option nat) :=
  let k := tk H in
  let* l := get (pl k) u in
  match l with
  | Some l => loop (fuel_of H) (fun u => let* r := get (pr k) u in match r with Some r => Some (inl r) | None => Some (inr (Some u)) end) l
  | None =>
      loop (fuel_of H) (fun u =>
        let* p := get (pp k) u in
        match p with
        | None => Some (inr None)
        | Some p => let* r := get (pr k) p in if peq r (Some u) then Some (inr (Some p)) else Some (inl p)
        end) u
  end.

(** erase(iterator), 370-381 *)
Definition t_erase_at (H : th) (T : tr) (u : nat) : option (th * tr * nat) :=
  if u =? t_end T then Some (H, T, t_end T) else
  let* H := tricle_down H u in
  let* ret := t_next H u in
  let* H := splice H u in
  Some (H, inc_size T (-1), ret).
(** erase(x), 382-390 *)
Definition t_erase (H : th) (T : tr) (x : K) : option (th * tr * bool) :=
  let* u := t_find H T x in
  if u =? t_end T then Some (H, T, false) else let* (H, T, _) := t_erase_at H T u in Some (H, T, true).

(** numeric_limits<uint32_t>::max(), 400 *)
Definition max_priority : Z := (2 ^ 32 - 1)%Z.
(** split, 397-413, with the constructor from a node, 217-221; the second treap is the part
    before the iterator. *)
Definition t_split (H : th) (T : tr) (u : nat) : option (th * tr * tr) :=
  let (H, d) := th_new H max_priority None in
  let k := tk H in
  let* lu := get (pl k) u in
  let* k := set_pl k d lu in
  let* k := set_pp k d (Some u) in
  let* k := set_pl k u (Some d) in
  let* k := set_pp_opt k lu (Some d) in
  let* H := bubble_up_force (with_tk H k) (sent T) d in
  let k := tk H in
  let* l := get (pl k) d in
  let* r := get (pr k) d in
  let* k := set_pl k (sent T) r in
  let* k := set_pp_opt k r (Some (sent T)) in
  let* k := set_pp_opt k l None in
  let (H, L) := tr_new (with_tk H k) in
  let* k := set_pl (tk H) (sent L) l in
  let* k := set_pp_opt k l (Some (sent L)) in
  Some (with_tk H k, T, L).

(** absorb, 413-438, after its assertion; [s] is not null *)
Definition absorb_run (H : th) (T L : tr) : option (th * tr * tr * nat) :=
  let* it := t_begin H T in
  let* le := t_empty H L in
  if (le : bool) then Some (H, T, L, it) else
  let* lr := root_of H L in
  let* te := t_empty H T in
  if (te : bool) then
    let* k := set_pl (tk H) (sent T) lr in
    let* k := set_pp_opt k lr (Some (sent T)) in
    let* (H, L') := t_clear (with_tk H k) L in
    let T := TR (sent T) (tsize L) in
    let* b := t_begin H T in
    Some (H, T, L', b)
  else
  let (H, d) := th_new H 0 None in
  let k := tk H in
  let* rr := get (pl k) (sent T) in
  let* k := set_pl k d lr in
  let* k := set_pr k d rr in
  let* k := set_pp k d (Some (sent T)) in
  let* k := set_pp_opt k lr (Some d) in
  let* k := set_pp_opt k rr (Some d) in
  let* k := set_pl k (sent T) (Some d) in
  let* H := tricle_down (with_tk H k) d in
  let* H := splice H d in
  let* (H, L') := t_clear H L in
  Some (H, inc_size T (tsize L), L', it).

(** the assertion of absorb, 414: [s] or this treap is empty, or the last key of [s] is less than the
    first one here *)
Definition absorb_assert (H : th) (T L : tr) : option bool :=
  let* le := t_empty H L in
  if (le : bool) then Some true else
  let* te := t_empty H T in
  if (te : bool) then Some true else
  let* p := t_prev H (t_end L) in
  let* p := p in
  let* y := tkey_of H p in
  let* b := t_begin H T in
  let* x := tkey_of H b in
  Some (ltb y x).
(** absorb, 413-438: a failing assertion ends the program *)
Definition t_absorb (H : th) (T L : tr) : option (th * tr * tr * nat) :=
  let* ok := absorb_assert H T L in
  if (ok : bool) then absorb_run H T L else None.

(** erase(begin, end), 391-395 *)
Definition t_erase_range (H : th) (T : tr) (b e : nat) : option (th * tr * nat) :=
  let* (H, T, L) := t_split H T b in
  let* (H, T, _) := t_split H T e in
  let* (H, T, _, it) := t_absorb H T L in
  Some (H, T, it).

(** * Specification *)

(** == and comp_ are those of one total order. *)
Record order_laws : Prop := {
  ol_eq : forall x y, eqb x y = true <-> x = y;
  ol_irr : forall x, ltb x x = false;
  ol_trans : forall x y z, ltb x y = true -> ltb y z = true -> ltb x z = true;
  ol_tot : forall x y, ltb x y = false -> ltb y x = false -> x = y }.
(** Sorted; without duplicates for a set. *)
Definition ordered (xs : list K) : Prop := StronglySorted (fun a b => if uniq then ltb a b = true else ltb b a = false) xs.
(** How many keys are less than [x], and how many are not greater. *)
Definition rank_lt (x : K) (xs : list K) : nat := length (filter (fun y => ltb y x) xs).
Definition rank_le (x : K) (xs : list K) : nat := length (filter (fun y => negb (ltb x y)) xs).

(** The elements that a walk with ++ from begin() to end() visits, in order: what a user of the
    container sees of it. *)
Inductive walk (H : th) (e : nat) : nat -> list nat -> Prop :=
| walk_end : walk H e e []
| walk_step u v us : u <> e -> t_next H u = Some v -> walk H e v us -> walk H e u (u :: us).
Definition contents (H : th) (T : tr) (us : list nat) (xs : list K) : Prop :=
  exists b, t_begin H T = Some b /\ walk H (t_end T) b us /\ map (tkey_of H) us = map Some xs.


(** The memories and the treaps in them that a program can reach: treaps are created, changed
    by the operations below with the iterators that walking over them gives (and end()), and
    one absorbs another whose keys are all less, as its assertion requires. With [sp = false]
    the program does not call split and erase(begin, end). *)
Inductive reach (sp : bool) : th -> list tr -> Prop :=
| reach_start : reach sp th_empty []
| reach_new H Ts H' T : reach sp H Ts -> tr_new H = (H', T) -> reach sp H' (Ts ++ [T])
| reach_insert H Ts i T p x H' T' v b : reach sp H Ts -> get Ts i = Some T -> (0 <= p)%Z ->
    t_insert H T p x = Some (H', T', v, b) -> reach sp H' (lset Ts i T')
| reach_erase H Ts i T x H' T' b : reach sp H Ts -> get Ts i = Some T ->
    t_erase H T x = Some (H', T', b) -> reach sp H' (lset Ts i T')
| reach_erase_at H Ts i T us xs n H' T' r : reach sp H Ts -> get Ts i = Some T -> contents H T us xs ->
    n <= length us -> t_erase_at H T (nth n us (t_end T)) = Some (H', T', r) -> reach sp H' (lset Ts i T')
| reach_clear H Ts i T H' T' : reach sp H Ts -> get Ts i = Some T -> t_clear H T = Some (H', T') -> reach sp H' (lset Ts i T')
| reach_absorb H Ts i j T L us xs vs ys H' T' L' r : reach sp H Ts -> i <> j -> get Ts i = Some T -> get Ts j = Some L ->
    contents H T us xs -> contents H L vs ys -> (forall y x, In y ys -> In x xs -> ltb y x = true) ->
    t_absorb H T L = Some (H', T', L', r) -> reach sp H' (lset (lset Ts i T') j L')
| reach_split H Ts i T us xs n H' T' L : sp = true -> reach sp H Ts -> get Ts i = Some T -> contents H T us xs ->
    n <= length us -> t_split H T (nth n us (t_end T)) = Some (H', T', L) -> reach sp H' (lset Ts i T' ++ [L])
| reach_erase_range H Ts i T us xs n m H' T' r : sp = true -> reach sp H Ts -> get Ts i = Some T -> contents H T us xs ->
    n <= m <= length us -> (forall y x, In y (firstn n xs) -> In x (skipn m xs) -> ltb y x = true) -> t_erase_range H T (nth n us (t_end T)) (nth m us (t_end T)) = Some (H', T', r) -> reach sp H' (lset Ts i T').
(** An operation on treap number [i] leaves the others as they are. *)
Definition others (H H' : th) (Ts : list tr) (i : nat) : Prop :=
  forall j T us xs, j <> i -> get Ts j = Some T -> contents H T us xs -> contents H' T us xs.

End Treap.
