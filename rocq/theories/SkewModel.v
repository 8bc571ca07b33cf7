(** Model of [include/mtl/skewbinary_list.hpp] (PersistentSkewbinaryList).

    Nodes and digits are never written after the operation that created them
    has returned, so a version is modelled as an immutable value: a list of
    trees.  A null [node_pointer] is [Nul].  Sizes and the digit counter are
    [nat]: [uint8_t dig] and [int j] do not overflow for lists of fewer than
    2^31 elements. *)
From Verif Require Import Base.
Set Implicit Arguments.

Section Skew.
  Variable T : Type.
  (** skewbinary_list.hpp:27-38 — [Node {v, dig, left, right}]. *)
  Inductive tree := Nul | Nd (v : T) (dig : nat) (left right : tree).
  (** 32-34 — [size()]; [None] for a null pointer. *)
  Definition t_size (t : tree) : option nat := match t with Nul => None | Nd _ d _ _ => Some (2 ^ d - 1) end.
  Definition t_val (t : tree) : option T := match t with Nul => None | Nd v _ _ _ => Some v end.
  Definition t_dig (t : tree) : option nat := match t with Nul => None | Nd _ d _ _ => Some d end.
  (** 35-37 — [is_lump()]. *)
  Definition lump (d : nat) (l : tree) : bool := (1 <? d) && match l with Nul => true | _ => false end.
  (** 31 — the [Node] constructor. *)
  Definition mk_node (v : T) (d : nat) : tree := Nd v d Nul Nul.

  (** 39-46 — the digit list and [size_]. *)
  Record sklist := mk_sk { sk_root : list tree; sk_size : nat }.
  (** 57. *)
  Definition sk_new : sklist := mk_sk [] 0.

  (** 85-87 — [front()]. *)
  Definition sk_front (s : sklist) : option T := match sk_root s with [] => None | c :: _ => t_val c end.

  (** 89-100 — [pushed(v)]. *)
  Definition sk_pushed (s : sklist) (v : T) : option sklist :=
    match sk_root s with
    | a :: b :: rest =>
        let* da := t_dig a in let* db := t_dig b in
        if da =? db then Some (mk_sk (Nd v (da + 1) a b :: rest) (sk_size s + 1))
        else Some (mk_sk (mk_node v 1 :: sk_root s) (sk_size s + 1))
    | _ => Some (mk_sk (mk_node v 1 :: sk_root s) (sk_size s + 1))
    end.

  (** 60-80 — the range constructor for bidirectional iterators:
      [for (it = prev(end); ; --it)]; the range must not be empty. *)
  Definition sk_range (l : list T) : option sklist :=
    match l with
    | [] => None
    | _ => for_each (rev l) (fun v s => sk_pushed s v) sk_new
    end.

  (** 102-117 — [popped()]. *)
  Definition sk_popped (s : sklist) : option sklist :=
    match sk_root s with
    | Nd v d l r :: rest =>
        if 1 <? 2 ^ d - 1 then
          if negb (lump d l) then Some (mk_sk (l :: r :: rest) (sk_size s - 1))
          else let u := mk_node v (d - 1) in Some (mk_sk (u :: u :: rest) (sk_size s - 1))
        else Some (mk_sk rest (sk_size s - 1))
    | _ => None
    end.

  (** 126-138 — the descent of [get_at] inside one tree. *)
  Fixpoint t_get (u : tree) (j : nat) : option T :=
    match u with
    | Nul => None
    | Nd v d l r =>
        if j =? 0 then Some v
        else
          let j := j - 1 in
          if lump d l then Some v
          else
            let* sl := t_size l in
            if j <? sl then t_get l j else t_get r (j - sl)
    end.
  (** 119-125 — [get_at(i)]. *)
  Fixpoint d_get (ds : list tree) (j : nat) : option T :=
    match ds with
    | [] => None
    | c :: rest =>
        let* n := t_size c in
        if n <=? j then d_get rest (j - n) else t_get c j
    end.
  Definition sk_get_at (s : sklist) (i : nat) : option T := d_get (sk_root s) i.

  (** 182-201 — [updated_at] below a lump with value [w]: fresh nodes down to
      position [j], the other subtrees stay lumps. *)
  Fixpoint lump_set (w v : T) (d : nat) (j : nat) : tree :=
    match d with
    | O => Nul
    | S d' =>
        if j =? 0 then Nd v (S d') (mk_node w d') (mk_node w d')
        else
          let j := j - 1 in
          let s := 2 ^ d' - 1 in
          if j <? s then Nd w (S d') (lump_set w v d' j) (mk_node w d')
          else Nd w (S d') (mk_node w d') (lump_set w v d' (j - s))
    end.
  (** 156-181 — [updated_at] inside one tree. The source builds the copy top
      down, filling in the child of the previous copy; here it is returned by
      the recursion. *)
  Fixpoint t_set (u : tree) (j : nat) (x : T) : option tree :=
    match u with
    | Nul => None
    | Nd v d l r =>
        if lump d l then Some (lump_set v x d j)
        else if j =? 0 then Some (Nd x d l r)
        else
          let j := j - 1 in
          let* sl := t_size l in
          if j <? sl then let* l' := t_set l j x in Some (Nd v d l' r)
          else let* r' := t_set r (j - sl) x in Some (Nd v d l r')
    end.
  (** 141-155 — [updated_at(i, v)]: the spine of digits. *)
  Fixpoint d_set (ds : list tree) (j : nat) (x : T) : option (list tree) :=
    match ds with
    | [] => None
    | c :: rest =>
        let* n := t_size c in
        if n <=? j then let* rest' := d_set rest (j - n) x in Some (c :: rest')
        else let* c' := t_set c j x in Some (c' :: rest)
    end.
  Definition sk_updated_at (s : sklist) (i : nat) (x : T) : option sklist :=
    let* ds := d_set (sk_root s) i x in Some (mk_sk ds (sk_size s)).

  (** 218-230 — the descent of [dropped]; it reads [u->left] of every node it
      passes. *)
  Fixpoint t_drop (u : tree) (j : nat) (dst : list tree) : option (list tree) :=
    match u with
    | Nul => None
    | Nd v d l r =>
        if j =? 0 then Some (u :: dst)
        else
          let j := j - 1 in
          let* sl := t_size l in
          if j <? sl then t_drop l j (r :: dst) else t_drop r (j - sl) dst
    end.
  (** 205-217 — [dropped(i)]. *)
  Fixpoint d_drop (ds : list tree) (j : nat) : option (list tree) :=
    match ds with
    | [] => Some []
    | c :: rest =>
        let* n := t_size c in
        if n <=? j then d_drop rest (j - n) else t_drop c j rest
    end.
  Definition sk_dropped (s : sklist) (i : nat) : option sklist :=
    let* ds := d_drop (sk_root s) i in
    match ds with
    | [] => Some sk_new
    | _ => Some (mk_sk ds (sk_size s - i))
    end.

  (** 237-268 — [extended(n, v)]; the final [assert] (266) is a guard. *)
  Definition sk_push_node (s : sklist) (u : tree) : option sklist :=
    let* n := t_size u in Some (mk_sk (u :: sk_root s) (sk_size s + n)).
  Definition sk_extended (s : sklist) (n : nat) (v : T) : option sklist :=
    let* (dst, m) := loop (S n) (fun '(dst, m) =>
      if m =? 0 then Some (inr (dst, m))
      else
        let* merge := (match sk_root dst with
                       | a :: b :: _ => let* sa := t_size a in let* sb := t_size b in Some (sa =? sb)
                       | _ => Some false
                       end) in
        if (merge : bool) then
          match sk_root dst with
          | a :: b :: rest =>
              let* da := t_dig a in
              Some (inl (mk_sk (Nd v (da + 1) a b :: rest) (sk_size dst + 1), m - 1))
          | _ => None
          end
        else
          match sk_root dst with
          | a :: _ =>
              let* sa := t_size a in let* da := t_dig a in
              if sa <=? m then
                let* dst := sk_push_node dst (mk_node v da) in Some (inl (dst, m - sa))
              else Some (inr (dst, m))
          | [] => None
          end) (s, n) in
    let* dst := loop (S m) (fun '(dst, m) =>
      if m =? 0 then Some (inr dst)
      else
        let* dig := msb (m + 1) in
        let* dst := sk_push_node dst (mk_node v dig) in
        let sz := 2 ^ dig - 1 in
        let* _ := guard (sz <=? m) in
        Some (inl (dst, m - sz))) (dst, m) in
    let* _ := guard (sk_size dst =? sk_size s + n) in
    Some dst.

  (** 275-313 — reading with the iterator: [*it], [++it] until [end()]. *)
  Definition sk_iterate (s : sklist) : option (list T) :=
    loop (S (sk_size s)) (fun '(s, out) =>
      match sk_root s with
      | [] => Some (inr out)
      | _ => let* v := sk_front s in let* s := sk_popped s in Some (inl (s, out ++ [v]))
      end) (s, []).

  (** Clients: any number of versions. *)
  Inductive sk_op := KNew | KRange (l : list T) | KPush (k : nat) (x : T) | KPop (k : nat) | KSet (k i : nat) (x : T)
                   | KDrop (k i : nat) | KExt (k n : nat) (x : T).
  Definition sk_step (vs : list sklist) (c : sk_op) : option (list sklist) :=
    match c with
    | KNew => Some (vs ++ [sk_new])
    | KRange l => let* s := sk_range l in Some (vs ++ [s])
    | KPush k x => let* s := get vs k in let* s := sk_pushed s x in Some (vs ++ [s])
    | KPop k => let* s := get vs k in let* s := sk_popped s in Some (vs ++ [s])
    | KSet k i x => let* s := get vs k in let* s := sk_updated_at s i x in Some (vs ++ [s])
    | KDrop k i => let* s := get vs k in let* s := sk_dropped s i in Some (vs ++ [s])
    | KExt k n x => let* s := get vs k in let* s := sk_extended s n x in Some (vs ++ [s])
    end.
  Definition sk_run (cs : list sk_op) : option (list sklist) := for_each cs (fun c vs => sk_step vs c) [].
End Skew.

(** Specification: a pool of plain lists.  The flag records that the version
    descends from a call of [extended]. *)
Section Spec.
  Variable T : Type.
  Definition sk_spec (ls : list (list T * bool)) (c : sk_op T) : list (list T * bool) :=
    ls ++ match c with
    | KNew _ => [([], false)]
    | KRange l => [(l, false)]
    | KPush k x => match get ls k with Some (xs, e) => [(x :: xs, e)] | None => [] end
    | KPop _ k => match get ls k with Some (_ :: xs, e) => [(xs, e)] | _ => [] end
    | KSet k i x => match get ls k with Some (xs, e) => [(lset xs i x, e)] | None => [] end
    | KDrop _ k i => match get ls k with Some (xs, e) => [(skipn i xs, e)] | None => [] end
    | KExt k n x => match get ls k with Some (xs, _) => [(repeat x n ++ xs, true)] | None => [] end
    end.
  (** [dropped] is not called on descendants of [extended], and [extended]
      not on an empty list: both dereference a null pointer. *)
  Definition sk_valid (ls : list (list T * bool)) (c : sk_op T) : Prop :=
    match c with
    | KNew _ => True
    | KRange l => l <> []
    | KPush k _ => k < length ls
    | KPop _ k => exists x xs e, get ls k = Some (x :: xs, e)
    | KSet k i _ => exists xs e, get ls k = Some (xs, e) /\ i < length xs
    | KDrop _ k i => exists xs, get ls k = Some (xs, false)
    | KExt k n _ => exists xs e, get ls k = Some (xs, e) /\ xs <> []
    end.
  Fixpoint sk_valid_all (ls : list (list T * bool)) (cs : list (sk_op T)) : Prop :=
    match cs with [] => True | c :: cs => sk_valid ls c /\ sk_valid_all (sk_spec ls c) cs end.
End Spec.
