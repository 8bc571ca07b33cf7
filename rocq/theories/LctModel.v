(** Model of [include/mtl/link_cut_tree.hpp]: LinkCutTreeBase and LinkCutTree, over the splay
    trees of [SplayModel] (splay_tree.hpp). *)
From Verif Require Export Base PTree SplayModel.
Set Implicit Arguments.

Section Lct.
(** [M * M], [M()], [A *= A] (first argument acts first), [A()], [A::act] of monoid.hpp *)
Variables (M A : Type) (op : M -> M -> M) (e : M) (comp : A -> A -> A) (aid : A) (act : A -> M -> M).
Notation nd := (nd M A).
Notation sh := (sh M A).

(** LinkCutTreeNode, 53-63: m, prod, rprod, f, and rev of the base; [nsum] is no field of these
    nodes and is not read. [nodes[i]] (74-84) is cell [i] of the memory. The nodes vector owns
    every node, so no weak parent link expires. *)
Definition lct := sh.
Definition lct_node (m : M) : nd := ND 0 false m m m aid.
(** the range constructor, 80-84 *)
Definition lct_build (xs : list M) : lct :=
  let none := map (fun _ => None) xs in SH (PH none none none) (map lct_node xs).
(** LinkCutTree(n), 76-79 *)
Definition lct_new (n : nat) : lct := lct_build (repeat e n).

(** [c and c->p.lock() == u], 89-90, 119, 123 *)
Definition is_child (h : lct) (u : nat) (c : option nat) : option bool :=
  match c with
  | None => Some false
  | Some c => let* p := get (pp (sk h)) c in Some (peq p (Some u))
  end.
Definition upd_if (b : bool) (h : lct) (o : option nat) (g : nd -> nd) : option lct := if b then upd_opt h o g else Some h.
(** propagate, 88-115 *)
Definition lct_prop (h : lct) (u : nat) : option lct :=
  let* l := get (pl (sk h)) u in
  let* r := get (pr (sk h)) u in
  let* cl := is_child h u l in
  let* cr := is_child h u r in
  let* d := get (sd h) u in
  let* h := upd_if cl h l (act_node comp act (nf d)) in
  let* h := upd_if cr h r (act_node comp act (nf d)) in
  let* h := (if nrev d then
      let* k := set_pl (sk h) u r in
      let* k := set_pr k u l in
      let* h := upd_if cr (with_sk h k) r (@rev_node M A) in
      let* h := upd_if cl h l (@rev_node M A) in
      upd h u (fun d => ND (nsum d) false (nm d) (nprod d) (nrprod d) (nf d))
    else Some h) in
  upd h u (fun d => ND (nsum d) (nrev d) (nm d) (nprod d) (nrprod d) aid).
(** aggregate, 116-127 *)
Definition lagg_l (dl : option nd) (d : nd) : nd :=
  match dl with Some c => ND (nsum d) (nrev d) (nm d) (op (nprod c) (nprod d)) (op (nrprod d) (nrprod c)) (nf d) | None => d end.
Definition lagg_r (dr : option nd) (d : nd) : nd :=
  match dr with Some c => ND (nsum d) (nrev d) (nm d) (op (nprod d) (nprod c)) (op (nrprod c) (nrprod d)) (nf d) | None => d end.
Definition lagg_node (dl dr : option nd) (d : nd) : nd := lagg_r dr (lagg_l dl (ND (nsum d) (nrev d) (nm d) (nm d) (nm d) (nf d))).
Definition get_if (b : bool) (h : lct) (o : option nat) : option (option nd) := if b then get_opt h o else Some None.
Definition lct_agg (h : lct) (u : nat) : option lct :=
  let* l := get (pl (sk h)) u in
  let* r := get (pr (sk h)) u in
  let* cl := is_child h u l in
  let* cr := is_child h u r in
  let* dl := get_if cl h l in
  let* dr := get_if cr h r in
  upd h u (lagg_node dl dr).
Definition lct_splay : lct -> nat -> option lct := splay lct_prop lct_agg.

(** expose, 11-20; the loop state is the memory, p and r *)
Definition expose (h : lct) (x : nat) : option lct :=
  let* h := loop (sfuel h) (fun '(h, p, r) =>
    match p with
    | None => Some (inr h)
    | Some p =>
        let* h := lct_splay h p in
        let* k := set_pr (sk h) p r in
        let* h := lct_agg (with_sk h k) p in
        let* q := get (pp (sk h)) p in
        Some (inl (h, q, Some p))
    end) (h, Some x, None) in
  lct_splay h x.
(** evert, 21-26 *)
Definition evert (h : lct) (v : nat) : option lct :=
  let* h := expose h v in
  let* h := upd h v (@rev_node M A) in
  lct_prop h v.
(** what LinkCutTreeBase::cut (27-33) and LinkCutTree::cut (128-135) do after the expose *)
Definition cut_left (h : lct) (c : nat) : option lct :=
  let* l := get (pl (sk h)) c in
  let* k := set_pl (sk h) c None in
  let* l := l in
  let* k := set_pp k l None in
  lct_agg (with_sk h k) c.
(** LinkCutTreeBase::cut, 27-33 *)
Definition cut_base (h : lct) (c : nat) : option lct :=
  let* h := expose h c in cut_left h c.
(** LinkCutTreeBase::link, 34-40 *)
Definition link_base (h : lct) (c p : nat) : option lct :=
  let* h := evert h c in
  let* h := expose h p in
  let* k := set_pr (sk h) p (Some c) in
  let* k := set_pp k c (Some p) in
  lct_agg (with_sk h k) p.
(** cut(u, v), 128-135 *)
Definition lct_cut (h : lct) (u v : nat) : option lct :=
  let* h := evert h u in
  let* h := expose h v in
  cut_left h v.
(** link(u, v), 136-138 *)
Definition lct_link (h : lct) (u v : nat) : option lct := link_base h v u.
(** prod(u, v), 139-143 *)
Definition lct_prod (h : lct) (u v : nat) : option (lct * M) :=
  let* h := evert h u in
  let* h := expose h v in
  let* d := get (sd h) v in
  Some (h, nprod d).
(** set(i, ..), 144-150, and update(i, f), 151-156 *)
Definition lct_point (h : lct) (i : nat) (g : M -> M) : option lct :=
  let* h := lct_splay h i in
  let* h := upd h i (fun d => ND (nsum d) (nrev d) (g (nm d)) (nprod d) (nrprod d) (nf d)) in
  lct_agg h i.
Definition lct_set (h : lct) (i : nat) (m : M) : option lct := lct_point h i (fun _ => m).
Definition lct_update1 (h : lct) (i : nat) (f : A) : option lct := lct_point h i (act f).
(** update(u, v, f), 157-166 *)
Definition lct_update (h : lct) (u v : nat) (f : A) : option lct :=
  let* h := evert h u in
  let* h := expose h v in
  let* h := upd h v (act_node comp act f) in
  lct_splay h v.

(** ** Histories *)
Inductive lct_op := Link (u v : nat) | Cut (u v : nat) | Prod (u v : nat) | SetV (i : nat) (m : M) | Upd1 (i : nat) (f : A) | UpdP (u v : nat) (f : A).
Definition lct_step (h : lct) (c : lct_op) : option (lct * option M) :=
  match c with
  | Link u v => let* h := lct_link h u v in Some (h, None)
  | Cut u v => let* h := lct_cut h u v in Some (h, None)
  | Prod u v => let* (h, m) := lct_prod h u v in Some (h, Some m)
  | SetV i m => let* h := lct_set h i m in Some (h, None)
  | Upd1 i f => let* h := lct_update1 h i f in Some (h, None)
  | UpdP u v f => let* h := lct_update h u v f in Some (h, None)
  end.
Fixpoint lct_run (h : lct) (cs : list lct_op) : option (lct * list M) :=
  match cs with
  | [] => Some (h, [])
  | c :: cs => let* (h, o) := lct_step h c in let* (h, vs) := lct_run h cs in Some (h, match o with Some v => v :: vs | None => vs end)
  end.

(** * Specification: a graph given by its edges, and a value for every vertex *)
Definition edges := list (nat * nat).
Definition joined (E : edges) (u v : nat) : Prop := In (u, v) E \/ In (v, u) E.
Inductive conn (E : edges) : nat -> nat -> Prop :=
| conn_refl u : conn E u u
| conn_step u v w : joined E u v -> conn E v w -> conn E u w.
(** [p] is a path from [u] to [v] that visits no vertex twice *)
Fixpoint walk (E : edges) (u : nat) (p : list nat) (v : nat) : Prop :=
  match p with
  | [] => False
  | a :: p => u = a /\ match p with [] => v = a | b :: _ => joined E a b /\ walk E b p v end
  end.
Definition spath (E : edges) (u v : nat) (p : list nat) : Prop := walk E u p v /\ NoDup p.
Definition cut_edges (E : edges) (u v : nat) : edges :=
  filter (fun '(a, b) => negb ((a =? u) && (b =? v) || (a =? v) && (b =? u))) E.
Definition act_on (f : A) (p : list nat) (vs : list M) : list M :=
  map (fun '(i, x) => if existsb (Nat.eqb i) p then act f x else x) (combine (seq 0 (length vs)) vs).
Definition path_prod (vs : list M) (p : list nat) : M := product op e (map (fun i => nth i vs e) p).
(** One operation on the graph: links join different trees, cuts remove edges, products and
    updates are along the path. *)
Inductive fstep : edges * list M -> lct_op -> edges * list M -> option M -> Prop :=
| f_link E vs u v : u < length vs -> v < length vs -> ~ conn E u v -> fstep (E, vs) (Link u v) ((u, v) :: E, vs) None
| f_cut E vs u v : joined E u v -> fstep (E, vs) (Cut u v) (cut_edges E u v, vs) None
| f_prod E vs u v p : u < length vs -> spath E u v p -> fstep (E, vs) (Prod u v) (E, vs) (Some (path_prod vs p))
| f_set E vs i m : i < length vs -> fstep (E, vs) (SetV i m) (E, lset vs i m) None
| f_upd1 E vs i f x : get vs i = Some x -> fstep (E, vs) (Upd1 i f) (E, lset vs i (act f x)) None
| f_updp E vs u v f p : u < length vs -> spath E u v p -> fstep (E, vs) (UpdP u v f) (E, act_on f p vs) None.
Inductive frun : edges * list M -> list lct_op -> edges * list M -> list M -> Prop :=
| fr_nil s : frun s [] s []
| fr_cons s c s1 o cs s2 vs : fstep s c s1 o -> frun s1 cs s2 vs -> frun s (c :: cs) s2 (match o with Some v => v :: vs | None => vs end).
End Lct.
