(** Models of [include/mtl/persistent_stack.hpp] (PersistentStack),
    [include/mtl/persistent_array.hpp] (PersistentArray) and
    [include/mtl/persistent_unionfind.hpp] (PersistentUnionfind).

    Nodes live in an explicit heap: a list indexed by address; [None] is the
    null pointer. Nothing is ever freed ([shared_ptr] keeps every reachable
    node alive). *)
From Verif Require Import Base.
Set Implicit Arguments.

Section Stack.
  Variable T : Type.
  (** persistent_stack.hpp:14-20 — [Node {v, next}]. *)
  Notation heap := (list (T * option nat)).
  (** persistent_stack.hpp:22-23 — [top_], [size_]. *)
  Record pstack := mk_ps { ps_ptr : option nat; ps_size : nat }.

  (** persistent_stack.hpp:26. *)
  Definition ps_new : pstack := mk_ps None 0.
  (** persistent_stack.hpp:29 — [top()]. *)
  Definition ps_top (h : heap) (s : pstack) : option T :=
    let* p := ps_ptr s in let* (v, _) := get h p in Some v.
  (** persistent_stack.hpp:31-35 — [_push], used by push and emplace. *)
  Definition ps_push (h : heap) (s : pstack) (v : T) : heap * pstack :=
    (h ++ [(v, ps_ptr s)], mk_ps (Some (length h)) (ps_size s + 1)).
  (** persistent_stack.hpp:51-53 — [pop()]. *)
  Definition ps_pop (h : heap) (s : pstack) : option pstack :=
    let* p := ps_ptr s in let* (_, n) := get h p in Some (mk_ps n (ps_size s - 1)).
  (** persistent_stack.hpp:54-59 — [concat(other)]. *)
  Fixpoint ps_concat_rec (fuel : nat) (h : heap) (s o : pstack) : option (heap * pstack) :=
    match fuel with
    | O => None
    | S fuel =>
        if ps_size s =? 0 then Some (h, o)
        else
          let* t := ps_pop h s in
          let* (h, c) := ps_concat_rec fuel h t o in
          let* v := ps_top h s in
          Some (ps_push h c v)
    end.
  Definition ps_concat (h : heap) (s o : pstack) : option (heap * pstack) :=
    ps_concat_rec (S (ps_size s)) h s o.
  (** persistent_stack.hpp:60-65 — [reverse()]. *)
  Definition ps_reverse (h : heap) (s : pstack) : option (heap * pstack) :=
    loop (S (ps_size s)) (fun '(h, ret, t) =>
      if ps_size t =? 0 then Some (inr (h, ret))
      else
        let* v := ps_top h t in
        let '(h, ret) := ps_push h ret v in
        let* t := ps_pop h t in
        Some (inl (h, ret, t))) (h, ps_new, s).

  (** A client holds any number of versions; each call adds one. *)
  Inductive ps_op := SNew | SPush (k : nat) (x : T) | SPop (k : nat) | SConcat (k j : nat) | SReverse (k : nat).
  Definition ps_step (st : heap * list pstack) (c : ps_op) : option (heap * list pstack) :=
    let '(h, vs) := st in
    match c with
    | SNew => Some (h, vs ++ [ps_new])
    | SPush k x => let* s := get vs k in let '(h, s) := ps_push h s x in Some (h, vs ++ [s])
    | SPop k => let* s := get vs k in let* s := ps_pop h s in Some (h, vs ++ [s])
    | SConcat k j => let* s := get vs k in let* o := get vs j in let* (h, s) := ps_concat h s o in Some (h, vs ++ [s])
    | SReverse k => let* s := get vs k in let* (h, s) := ps_reverse h s in Some (h, vs ++ [s])
    end.
  Definition ps_run (c : list ps_op) : option (heap * list pstack) :=
    for_each c (fun c st => ps_step st c) ([], []).

  (** Reading a version through the API: top and pop until [empty()]. *)
  Definition ps_drain (h : heap) (s : pstack) : option (list T) :=
    loop (S (ps_size s)) (fun '(s, out) =>
      if ps_size s =? 0 then Some (inr out)
      else let* v := ps_top h s in let* s := ps_pop h s in Some (inl (s, out ++ [v]))) (s, []).
End Stack.

(** persistent_array.hpp:12-18 — [Node {v, ch}]. *)
Notation anode T := (T * list (option nat))%type.

Section Array.
  Variables (T : Type) (M : nat).
  (** persistent_array.hpp:19-20 — [root_], [init_v_]. *)
  Record parray := mk_pa { pa_root : option nat; pa_init : T }.

  Definition pa_new (init : T) : parray := mk_pa None init.

  (** persistent_array.hpp:29-37 — [get(i)]; [i] strictly decreases. *)
  Fixpoint pa_get_rec (fuel : nat) (h : list (anode T)) (init : T) (u : option nat) (i : nat) : option T :=
    match u with
    | None => Some init
    | Some p =>
        let* (v, ch) := get h p in
        if i =? 0 then Some v
        else match fuel with
             | O => None
             | S fuel =>
                 let i := i - 1 in
                 let* u := get ch (i mod M) in
                 pa_get_rec fuel h init u (i / M)
             end
    end.
  Definition pa_get (h : list (anode T)) (a : parray) (i : nat) : option T :=
    pa_get_rec i h (pa_init a) (pa_root a) i.

  (** persistent_array.hpp:39-55 — [set_rec(u, id, v)]. The copy of [*u] is
      given its address after the recursive call instead of before it; no
      other pointer to it exists in between. *)
  Fixpoint pa_set_rec (fuel : nat) (h : list (anode T)) (init : T) (u : option nat) (id : nat) (v : T)
    : option (list (anode T) * nat) :=
    let* (v0, ch) := (match u with Some p => get h p | None => Some (init, repeat None M) end) in
    if id =? 0 then Some (h ++ [(v, ch)], length h)
    else match fuel with
         | O => None
         | S fuel =>
             let id := id - 1 in
             let* c := get ch (id mod M) in
             let* (h, c') := pa_set_rec fuel h init c (id / M) v in
             let* ch := set ch (id mod M) (Some c') in
             Some (h ++ [(v0, ch)], length h)
         end.
  (** persistent_array.hpp:57-68 — [set(i, v)]. *)
  Definition pa_set (h : list (anode T)) (a : parray) (i : nat) (v : T) : option (list (anode T) * parray) :=
    let* (h, p) := pa_set_rec i h (pa_init a) (pa_root a) i v in
    Some (h, mk_pa (Some p) (pa_init a)).

  (** Clients: any number of versions over one heap. *)
  Inductive pa_op := ANew (x : T) | ASet (k i : nat) (x : T).
  Definition pa_step (st : list (anode T) * list parray) (c : pa_op) : option (list (anode T) * list parray) :=
    let '(h, vs) := st in
    match c with
    | ANew x => Some (h, vs ++ [pa_new x])
    | ASet k i x => let* a := get vs k in let* (h, a) := pa_set h a i x in Some (h, vs ++ [a])
    end.
  Definition pa_run (c : list pa_op) : option (list (anode T) * list parray) :=
    for_each c (fun c st => pa_step st c) ([], []).
End Array.

Section UF.
  (** persistent_array.hpp:6 — [Degree = 4]. *)
  Notation M := 4.
  Notation heap := (list (anode Z)).
  Notation puf := (parray Z).

  (** persistent_unionfind.hpp:9 — every element starts as a root of size 1. *)
  Definition pu_new : puf := pa_new (-1)%Z.

  (** persistent_unionfind.hpp:10-17 — [leader(u)]; reassigns the member
      [par_], so it returns the new object. The recursion is bounded by
      [fuel]. *)
  Fixpoint pu_leader (fuel : nat) (h : heap) (a : puf) (u : nat) : option (heap * puf * nat) :=
    match fuel with
    | O => None
    | S fuel =>
        let* pu := pa_get M h a u in
        if (pu <? 0)%Z then Some (h, a, u)
        else
          let* (h, a, ret) := pu_leader fuel h a (Z.to_nat pu) in
          let* (h, a) := pa_set M h a u (Z.of_nat ret) in
          Some (h, a, ret)
    end.
  (** persistent_unionfind.hpp:18-20 — [size_of(u)]. *)
  Definition pu_size_of (fuel : nat) (h : heap) (a : puf) (u : nat) : option (heap * puf * nat) :=
    let* (h, a, r) := pu_leader fuel h a u in
    let* p := pa_get M h a r in
    Some (h, a, Z.to_nat (- p)%Z).
  (** persistent_unionfind.hpp:21-23 — [same(a, b)]; the order of the two
      calls is unspecified in C++ and chosen by [o]. *)
  Definition pu_same (fuel : nat) (o : bool) (h : heap) (a : puf) (u v : nat) : option (heap * puf * bool) :=
    let '(u, v) := if o then (u, v) else (v, u) in
    let* (h, a, ru) := pu_leader fuel h a u in
    let* (h, a, rv) := pu_leader fuel h a v in
    Some (h, a, ru =? rv).
  (** persistent_unionfind.hpp:24-35 — [merge(a, b)]; returns the modified
      receiver and the new version. *)
  Definition pu_merge (fuel : nat) (h : heap) (a : puf) (u v : nat) : option (heap * puf * puf) :=
    let* (h, a, ra) := pu_leader fuel h a u in
    let* (h, a, rb) := pu_leader fuel h a v in
    if ra =? rb then Some (h, a, a)
    else
      let* (h, a, sa) := pu_size_of fuel h a ra in
      let* (h, a, sb) := pu_size_of fuel h a rb in
      let '(ra, rb) := if sa <? sb then (rb, ra) else (ra, rb) in
      let ret := a in
      let* (h, ret) := pa_set M h ret rb (Z.of_nat ra) in
      let* (h, a, sa) := pu_size_of fuel h a ra in
      let* (h, a, sb) := pu_size_of fuel h a rb in
      let* (h, ret) := pa_set M h ret ra (- Z.of_nat (sa + sb))%Z in
      Some (h, a, ret).

  (** Clients: versions are mutable objects (queries compress paths). *)
  Inductive pu_op := PNew | PMerge (k u v : nat) | PSame (o : bool) (k u v : nat) | PSize (k u : nat).
  Inductive pu_ans := ANone | ABool (b : bool) | ANat (n : nat).
  Definition pu_step (fuel : nat) (st : heap * list puf) (c : pu_op) : option (heap * list puf * pu_ans) :=
    let '(h, vs) := st in
    match c with
    | PNew => Some (h, vs ++ [pu_new], ANone)
    | PMerge k u v =>
        let* a := get vs k in
        let* (h, a, r) := pu_merge fuel h a u v in
        let* vs := set vs k a in Some (h, vs ++ [r], ANone)
    | PSame o k u v =>
        let* a := get vs k in
        let* (h, a, b) := pu_same fuel o h a u v in
        let* vs := set vs k a in Some (h, vs, ABool b)
    | PSize k u =>
        let* a := get vs k in
        let* (h, a, n) := pu_size_of fuel h a u in
        let* vs := set vs k a in Some (h, vs, ANat n)
    end.
  Fixpoint pu_run (fuel : nat) (st : heap * list puf) (cs : list pu_op) : option (heap * list puf * list pu_ans) :=
    match cs with
    | [] => Some (st, [])
    | c :: cs =>
        let* (h, vs, r) := pu_step fuel st c in
        let* (st, rs) := pu_run fuel (h, vs) cs in
        Some (st, r :: rs)
    end.
End UF.
