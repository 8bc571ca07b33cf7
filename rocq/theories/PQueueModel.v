(** Model of [include/mtl/persistent_queue.hpp] (PersistentQueue).

    Nodes and streams are mutable cells in explicit heaps (lists indexed by
    address; [None] is the null pointer).  Nothing is ever freed: every
    version keeps its cells alive through [shared_ptr]s.  [proc_] is a raw
    pointer; that it always points into the chain owned by [f_] (so that it
    cannot dangle) is part of the theorem, not of the model. *)
From Verif Require Import Base.
Set Implicit Arguments.

Section Queue.
  Variable T : Type.
  (** persistent_queue.hpp:28-34 — [Node {next, v}]; 35-36 — [Stream {scan, rotate}]. *)
  Notation node := (option nat * T)%type.
  Notation stream := (option nat * option nat)%type.
  Notation heap := (list node * list stream)%type.
  (** persistent_queue.hpp:57-61. *)
  Record pqueue := mk_pq { pq_f : option nat; pq_proc : option nat; pq_stream : option nat; pq_size : nat; pq_r : option nat }.

  (** persistent_queue.hpp:20-22 — [make_node]. *)
  Definition q_alloc (h : list node) (nx : option nat) (v : T) : list node * nat := (h ++ [(nx, v)], length h).

  (** persistent_queue.hpp:41-53 — [Stream::next()]. *)
  Definition q_next (st : heap) (s : nat) : option (heap * option nat) :=
    let '(h, ss) := st in
    let* (sc, ro) := get ss s in
    match sc with
    | Some p =>
        let* (nx, v) := get h p in
        let '(h, n) := q_alloc h None v in
        let* ss := set ss s (nx, ro) in
        Some ((h, ss), Some n)
    | None =>
        let* (h, ret) := loop (S (length h)) (fun '(h, ret, ro) =>
            match ro with
            | None => Some (inr (h, ret))
            | Some p =>
                let* (nx, v) := get h p in
                let '(h, n) := q_alloc h ret v in
                Some (inl (h, Some n, nx))
            end) (h, None, ro) in
        let* ss := set ss s (None, None) in
        Some ((h, ss), ret)
    end.

  (** persistent_queue.hpp:63-68 — the constructor from a fresh stream. *)
  Definition q_from_stream (st : heap) (sc ro : option nat) (size : nat) : option (heap * pqueue) :=
    let '(h, ss) := st in
    let s := length ss in
    let* (st, f) := q_next (h, ss ++ [(sc, ro)]) s in
    Some (st, mk_pq f f (Some s) size None).

  (** persistent_queue.hpp:80-82, 91-93 —
      [if (!proc_->next) proc_->next = stream_->next();] returns [proc_->next]. *)
  Definition q_force (st : heap) (q : pqueue) (a : nat) : option (heap * option nat) :=
    let '(h, ss) := st in
    let* (nx, v) := get h a in
    match nx with
    | Some b => Some (st, Some b)
    | None =>
        let* s := pq_stream q in
        let* ((h, ss), p) := q_next st s in
        let* (_, v) := get h a in
        let* h := set h a (p, v) in
        Some ((h, ss), p)
    end.

  (** persistent_queue.hpp:75-85 — [_push], used by push and emplace. *)
  Definition q_push (st : heap) (q : pqueue) (x : T) : option (heap * pqueue) :=
    match pq_proc q with
    | None =>
        let '(h, ss) := st in
        let '(h, n) := q_alloc h (pq_r q) x in
        q_from_stream (h, ss) (pq_f q) (Some n) (pq_size q + 1)
    | Some a =>
        let* ((h, ss), p) := q_force st q a in
        let '(h, n) := q_alloc h (pq_r q) x in
        Some ((h, ss), mk_pq (pq_f q) p (pq_stream q) (pq_size q + 1) (Some n))
    end.

  (** persistent_queue.hpp:86-96 — [_pop]; 87 asserts non-emptiness. *)
  Definition q_pop (st : heap) (q : pqueue) : option (heap * pqueue) :=
    let* _ := guard (negb (pq_size q =? 0)) in
    match pq_proc q with
    | None =>
        let* f := pq_f q in let* (nx, _) := get (fst st) f in
        q_from_stream st nx (pq_r q) (pq_size q - 1)
    | Some a =>
        let* (st, p) := q_force st q a in
        let* f := pq_f q in let* (nx, _) := get (fst st) f in
        Some (st, mk_pq nx p (pq_stream q) (pq_size q - 1) (pq_r q))
    end.

  (** persistent_queue.hpp:99-100. *)
  Definition q_new : pqueue := mk_pq None None None 0 None.
  (** persistent_queue.hpp:103-106 — [front()]. *)
  Definition q_front (st : heap) (q : pqueue) : option T :=
    let* f := pq_f q in let* (_, v) := get (fst st) f in Some v.

  (** Clients: any number of versions over one heap; [push] and [pop] add one. *)
  Inductive q_op := QNew | QPush (k : nat) (x : T) | QPop (k : nat) | QFront (k : nat) | QSize (k : nat).
  Inductive q_ans := QNone | QVal (x : T) | QNat (n : nat).
  Definition q_step (st : heap) (vs : list pqueue) (c : q_op) : option (heap * list pqueue * q_ans) :=
    match c with
    | QNew => Some (st, vs ++ [q_new], QNone)
    | QPush k x => let* q := get vs k in let* (st, q) := q_push st q x in Some (st, vs ++ [q], QNone)
    | QPop k => let* q := get vs k in let* (st, q) := q_pop st q in Some (st, vs ++ [q], QNone)
    | QFront k => let* q := get vs k in let* x := q_front st q in Some (st, vs, QVal x)
    | QSize k => let* q := get vs k in Some (st, vs, QNat (pq_size q))
    end.
  Fixpoint q_run (st : heap) (vs : list pqueue) (cs : list q_op) : option (heap * list pqueue * list q_ans) :=
    match cs with
    | [] => Some (st, vs, [])
    | c :: cs =>
        let* (st, vs, r) := q_step st vs c in
        let* (st, vs, rs) := q_run st vs cs in
        Some (st, vs, r :: rs)
    end.
End Queue.

(** Specification: a pool of independent lists, front first. *)
Section Spec.
  Variable T : Type.
  Definition q_spec (ls : list (list T)) (c : q_op T) : list (list T) :=
    match c with
    | QNew _ => ls ++ [[]]
    | QPush k x => match get ls k with Some l => ls ++ [l ++ [x]] | None => ls end
    | QPop _ k => match get ls k with Some (_ :: l) => ls ++ [l] | _ => ls end
    | _ => ls
    end.
  Definition q_answer (ls : list (list T)) (c : q_op T) (r : q_ans T) : Prop :=
    match c with
    | QNew _ | QPush _ _ | QPop _ _ => r = QNone T
    | QFront _ k => exists x l, get ls k = Some (x :: l) /\ r = QVal x
    | QSize _ k => exists l, get ls k = Some l /\ r = QNat _ (length l)
    end.
  Definition q_valid (ls : list (list T)) (c : q_op T) : Prop :=
    match c with
    | QNew _ => True
    | QPush k _ | QSize _ k => k < length ls
    | QPop _ k | QFront _ k => exists x l, get ls k = Some (x :: l)
    end.
  Fixpoint q_valid_all (ls : list (list T)) (cs : list (q_op T)) : Prop :=
    match cs with [] => True | c :: cs => q_valid ls c /\ q_valid_all (q_spec ls c) cs end.
  Fixpoint q_answers (ls : list (list T)) (cs : list (q_op T)) (rs : list (q_ans T)) : Prop :=
    match cs, rs with
    | [], [] => True
    | c :: cs, r :: rs => q_answer ls c r /\ q_answers (q_spec ls c) cs rs
    | _, _ => False
    end.
  (** [f_] owns [proc_]: it is reached from it through [next]. *)
  Inductive reach (h : list (option nat * T)) : option nat -> option nat -> Prop :=
  | reach_refl p : reach h p p
  | reach_step a nx v q : get h a = Some (nx, v) -> reach h nx q -> reach h (Some a) q.
End Spec.
