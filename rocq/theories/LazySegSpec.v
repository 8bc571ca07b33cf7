(** Specification of the lazy and dual segment trees: a plain list. *)
From Verif Require Import Base LazySegModel.
Set Implicit Arguments.

(** Apply [g] to the elements of positions [l..r). *)
Definition map_range {M} (g : M -> M) (l r : nat) (xs : list M) : list M :=
  firstn l xs ++ map g (slice l r xs) ++ skipn r xs.

(** What a history returns on a plain list. *)
Section Lazy.
  Variables (M A : Type) (op : M -> M -> M) (e : M) (act : A -> M -> M).
  Fixpoint spec_run (xs : list M) (h : list (lz_op M A)) : list M * list (option M) :=
    match h with
    | [] => (xs, [])
    | LUpdate _ l r f :: h => spec_run (map_range (act f) l r xs) h
    | LQuery _ _ l r :: h => let '(ys, vs) := spec_run xs h in (ys, Some (product op e (slice l r xs)) :: vs)
    | LGet _ _ i :: h => let '(ys, vs) := spec_run xs h in (ys, get xs i :: vs)
    | LSet _ i x :: h => spec_run (lset xs i x) h
    end.

  Definition lz_valid (n : nat) (c : lz_op M A) : Prop :=
    match c with
    | LUpdate _ l r _ | LQuery _ _ l r => l <= r <= n
    | LGet _ _ i | LSet _ i _ => i < n
    end.
  Definition is_set (c : lz_op M A) : Prop := match c with LSet _ _ _ => True | _ => False end.
  Definition is_update (c : lz_op M A) : Prop := match c with LUpdate _ _ _ _ => True | _ => False end.
End Lazy.

Section Dual.
  Variables (M : Type) (op : M -> M -> M).
  Fixpoint dual_spec (xs : list M) (h : list (du_op M)) : list (option M) :=
    match h with
    | [] => []
    | DUpdate l r f :: h => dual_spec (map_range (fun x => op x f) l r xs) h
    | DSet i x :: h => dual_spec (lset xs i x) h
    | DGet _ i :: h => get xs i :: dual_spec xs h
    end.
  Definition du_valid (n : nat) (c : du_op M) : Prop :=
    match c with
    | DUpdate l r _ => l <= r <= n
    | DGet _ i | DSet i _ => i < n
    end.
End Dual.
