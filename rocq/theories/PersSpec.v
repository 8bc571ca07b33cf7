(** Specifications: pools of independent pure values. *)
From Verif Require Import Base PersModel UnionFindModel UnionFindSpec.
Set Implicit Arguments.

Section Stack.
  Variable T : Type.
  (** The pool of lists after a call: existing lists never change. *)
  Definition ps_spec (ls : list (list T)) (c : ps_op T) : list (list T) :=
    ls ++ match c with
    | SNew _ => [[]]
    | SPush k x => match get ls k with Some xs => [x :: xs] | None => [] end
    | SPop _ k => match get ls k with Some (_ :: xs) => [xs] | _ => [] end
    | SConcat _ k j => match get ls k, get ls j with Some xs, Some ys => [xs ++ ys] | _, _ => [] end
    | SReverse _ k => match get ls k with Some xs => [rev xs] | None => [] end
    end.
  Definition ps_valid (ls : list (list T)) (c : ps_op T) : Prop :=
    match c with
    | SNew _ => True
    | SPush k _ | SReverse _ k => k < length ls
    | SPop _ k => exists x xs, get ls k = Some (x :: xs)
    | SConcat _ k j => k < length ls /\ j < length ls
    end.
  Fixpoint ps_valid_all (ls : list (list T)) (cs : list (ps_op T)) : Prop :=
    match cs with [] => True | c :: cs => ps_valid ls c /\ ps_valid_all (ps_spec ls c) cs end.
End Stack.

Section Array.
  Variable T : Type.
  Definition pa_spec (fs : list (nat -> T)) (c : pa_op T) : list (nat -> T) :=
    fs ++ match c with
    | ANew x => [fun _ => x]
    | ASet k i x => match get fs k with Some f => [fun j => if j =? i then x else f j] | None => [] end
    end.
  (** The version operated on exists. *)
  Fixpoint pa_valid_all (n : nat) (cs : list (pa_op T)) : Prop :=
    match cs with
    | [] => True
    | c :: cs => match c with ANew _ => True | ASet k _ _ => k < n end /\ pa_valid_all (S n) cs
    end.
End Array.

(** Union-find: each version carries its own list of merged pairs. *)
Definition pu_spec (ps : list (list (nat * nat))) (c : pu_op) : list (list (nat * nat)) :=
  match c with
  | PNew => ps ++ [[]]
  | PMerge k u v => match get ps k with Some p => ps ++ [(u, v) :: p] | None => ps end
  | _ => ps
  end.
Definition pu_answer (ps : list (list (nat * nat))) (c : pu_op) (r : pu_ans) : Prop :=
  match c, r with
  | PNew, ANone | PMerge _ _ _, ANone => True
  | PSame _ k u v, ABool b => exists p, get ps k = Some p /\ (b = true <-> conn p u v)
  | PSize k u, ANat n => exists p l, get ps k = Some p /\ NoDup l /\ (forall w, In w l <-> conn p u w) /\ n = length l
  | _, _ => False
  end.
Fixpoint pu_answers (ps : list (list (nat * nat))) (cs : list pu_op) (rs : list pu_ans) : Prop :=
  match cs, rs with
  | [], [] => True
  | c :: cs, r :: rs => pu_answer ps c r /\ pu_answers (pu_spec ps c) cs rs
  | _, _ => False
  end.
(** Existing versions only, elements below [n]. *)
Fixpoint pu_valid (n vers : nat) (cs : list pu_op) : Prop :=
  match cs with
  | [] => True
  | PNew :: cs => pu_valid n (S vers) cs
  | PMerge k u v :: cs => k < vers /\ u < n /\ v < n /\ pu_valid n (S vers) cs
  | PSame _ k u v :: cs => k < vers /\ u < n /\ v < n /\ pu_valid n vers cs
  | PSize k u :: cs => k < vers /\ u < n /\ pu_valid n vers cs
  end.
