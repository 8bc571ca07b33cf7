(** Model of include/mtl/rerooting.hpp. [ReRootingGraph] and [ReRootingNetwork] have the same text
    up to the type of an adjacency entry, so the functions are written once for entries of a type
    [A] with [tgt a] the vertex of an entry and [ap x a] the call of [F] on the entry. *)
From Verif Require GraphModel NetModel.
From Verif Require Export Base HldModel.
Set Implicit Arguments.

Section Core.
Variables (A T : Type) (tgt : A -> nat) (ap : T -> A -> T) (mrg : T -> T -> T) (gf : T -> nat -> T) (e : T).
(** rerooting.hpp:13-23 and 62-72 [dfs]; [-1] as parent is [None] *)
Fixpoint rr_dfs (fuel : nat) (g : list (list A)) (s : nat) (p : option nat) (dp : list (list T)) : option (T * list (list T)) :=
  match fuel with
  | O => None
  | S fuel =>
      let* row := get g s in
      let* (m, dp) := for_up (length row) 0 (fun i '(m, dp) =>
        let* a := get row i in
        if oeq (Some (tgt a)) p then Some (m, dp)
        else
          let* (v, dp) := rr_dfs fuel g (tgt a) (Some s) dp in
          let* dp := set2 dp s i v in
          let* x := get2 dp s i in
          Some (mrg m (ap x a), dp)) (e, dp) in
      Some (gf m s, dp)
  end.
(** rerooting.hpp:24-41 and 73-92 [dfs2] *)
Fixpoint rr_dfs2 (fuel : nat) (g : list (list A)) (s : nat) (p : option nat) (prop : T) (dp : list (list T)) : option (list (list T)) :=
  match fuel with
  | O => None
  | S fuel =>
      let* row := get g s in
      let* dp := loop (S (length row)) (fun i =>
        if i <? length row then
          let* a := get row i in
          if oeq (Some (tgt a)) p then let* dp := set2 dp s i prop in Some (inr dp) else Some (inl (i + 1))
        else Some (inr dp)) 0 in
      let* cR := for_down (length row - 1) 0 (fun i cR =>
        let* a := get row (i + 1) in
        let* x := get2 dp s (i + 1) in
        let* r := get cR (i + 1) in
        set cR i (mrg r (ap x a))) (repeat e (length row)) in
      let* (_, dp) := for_up (length row) 0 (fun i '(cL, dp) =>
        let* a := get row i in
        let* dp := (if oeq (Some (tgt a)) p then Some dp
                    else let* r := get cR i in rr_dfs2 fuel g (tgt a) (Some s) (gf (mrg cL r) s) dp) in
        let* x := get2 dp s i in
        Some (mrg cL (ap x a), dp)) (e, dp) in
      Some dp
  end.
(** rerooting.hpp:46-51 and 97-102 [calc]; [dp] is what the constructor or an earlier call left *)
Definition rr_calc (n : nat) (g : list (list A)) (dp : list (list T)) (root : nat) : option (list (list T)) :=
  let* dp := for_up n 0 (fun i dp => let* row := get g i in set dp i (repeat e (length row))) dp in
  let* (_, dp) := rr_dfs (n + 1) g root None dp in
  rr_dfs2 (n + 1) g root None e dp.
End Core.

(** rerooting.hpp:5-52 [ReRootingGraph] *)
Definition rg_calc (T : Type) (F : T -> nat -> T) (mrg : T -> T -> T) (gf : T -> nat -> T) (e : T) (G : GraphModel.graph) dp root :=
  rr_calc (fun t : nat => t) (fun x t => F x t) mrg gf e (GraphModel.gr_n G) (GraphModel.gr_g G) dp root.
(** rerooting.hpp:54-103 [ReRootingNetwork]; the weight comes from a [Path], an [int] *)
Definition rn_calc (T : Type) (F : T -> nat -> Z -> T) (mrg : T -> T -> T) (gf : T -> nat -> T) (e : T) (G : NetModel.network) dp root :=
  rr_calc (fun a : nat * Z => fst a) (fun x '(t, w) => F x t w) mrg gf e (NetModel.nw_n G) (NetModel.nw_g G) dp root.

(** ** Specification *)
(** The value of a rooted tree; [F v x c] is the contribution to [v] of a child [c] of value [x]. *)
Section Value.
Variables (T : Type) (F : nat -> T -> nat -> T) (mrg : T -> T -> T) (gf : T -> nat -> T) (e : T).
Fixpoint value (t : tree) : T := let 'Node v cs := t in gf (product mrg e (map (fun c => F v (value c) (root c)) cs)) v.
End Value.
Definition kids (t : tree) : list tree := let 'Node _ cs := t in cs.
