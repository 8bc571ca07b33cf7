(** Model of include/mtl/segment_tree_divide_and_conquer.hpp. The node container
    is a list to which the [set] callback appends an update [x]. *)
From Coq Require Import Permutation.
From Verif Require Import Base.

Set Implicit Arguments.

Section Dnc.
Variable X : Type.

(** segment_tree_divide_and_conquer.hpp:9-10 *)
Record dnc := mk_dnc { dn_time : nat; dn_size : nat; dn_tree : list (list X) }.

(** segment_tree_divide_and_conquer.hpp:14; [bm::bit_ceil(time)] is the least
    power of two that is at least [time]. *)
Definition dn_make (time : nat) : dnc :=
  let size := 2 ^ Nat.log2_up time in mk_dnc time size (repeat [] (size + time)).

(** [set(tree_[i])] with the appending callback. *)
Definition dn_push (t : list (list X)) (i : nat) (x : X) : option (list (list X)) :=
  let* c := get t i in set t i (c ++ [x]).

(** segment_tree_divide_and_conquer.hpp:16-22 [set] *)
Definition dn_set (d : dnc) (l r : nat) (x : X) : option dnc :=
  let* t := loop (r + dn_size d + 2) (fun '(l, r, t) =>
    if l <? r then
      let* (l, t) := (if Nat.odd l then let* t := dn_push t l x in Some (l + 1, t) else Some (l, t)) in
      let* (r, t) := (if Nat.odd r then let* t := dn_push t (r - 1) x in Some (r - 1, t) else Some (r, t)) in
      Some (inl (Nat.div2 l, Nat.div2 r, t))
    else Some (inr t)) (l + dn_size d, r + dn_size d, dn_tree d) in
  Some (mk_dnc (dn_time d) (dn_size d) t).

(** The calls of the three callbacks, in order. *)
Inductive event := EUpd (c : list X) | EFn (t : nat) | EUndo.

(** segment_tree_divide_and_conquer.hpp:30-41 [_dfs] *)
Fixpoint dn_dfs_rec (fuel : nat) (d : dnc) (u : nat) : option (list event) :=
  match fuel with
  | O => None
  | S fuel =>
      if dn_size d + dn_time d <=? u then Some []
      else
        let* c := get (dn_tree d) u in
        let* mid :=
          (if u <? dn_size d then
             let* a := dn_dfs_rec fuel d (u * 2) in
             let* b := dn_dfs_rec fuel d (u * 2 + 1) in Some (a ++ b)
           else Some [EFn (u - dn_size d)]) in
        Some (EUpd c :: mid ++ [EUndo])
  end.
(** segment_tree_divide_and_conquer.hpp:24-27 [dfs] *)
Definition dn_dfs (d : dnc) : option (list event) := dn_dfs_rec (dn_size d + 1) d 1.

(** A use: build, set all the intervals, traverse. *)
Definition dn_run (time : nat) (h : list (nat * nat * X)) : option (list event) :=
  let* d := for_each h (fun '(l, r, x) d => dn_set d l r x) (dn_make time) in
  dn_dfs d.

(** ** Specification: the client keeps a stack of applied batches. *)
(** Replays the events on a stack (top first). [None]: an undo with nothing
    applied. Yields the list of visited times with the stack at that moment,
    and the final stack. *)
Fixpoint replay (ev : list event) (st : list (list X)) : option (list (nat * list (list X)) * list (list X)) :=
  match ev with
  | [] => Some ([], st)
  | EUpd c :: ev => replay ev (c :: st)
  | EFn t :: ev => let* (out, s) := replay ev st in Some ((t, st) :: out, s)
  | EUndo :: ev => match st with [] => None | _ :: st => replay ev st end
  end.
(** The updates active at time [t]. *)
Definition active (h : list (nat * nat * X)) (t : nat) : list X :=
  map snd (filter (fun '(l, r, _) => (l <=? t) && (t <? r)) h).
End Dnc.
