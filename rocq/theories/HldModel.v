(** Model of include/mtl/hld.hpp ([struct Hld]).

    Vertices are [nat]; [None] in an array of [option nat] is the value [-1]. Sizes, times
    and depths do not overflow an [int]. Using [-1] as an index or an unset entry as a number
    is an error. *)
From Coq Require Export Permutation.
From Verif Require Export Base.
Set Implicit Arguments.

(** hld.hpp:6-8 *)
Record hld := Hld {
  hn : nat; hroot : nat;
  edge : list (list nat); size : list nat;
  tin : list (option nat); tout : list (option nat); head : list (option nat); rvs : list (option nat);
  par : list (option nat); depth : list (option nat); clen : list nat }.
Definition rd (a : list (option nat)) (i : nat) : option nat := let* x := get a i in x.
Definition oeq (x y : option nat) : bool :=
  match x, y with Some a, Some b => a =? b | None, None => true | _, _ => false end.

(** hld.hpp:46 *)
Definition hl_new (n : nat) : hld :=
  Hld n 0 (repeat [] n) (repeat 0 n) (repeat None n) (repeat None n) (repeat None n) (repeat None n) (repeat None n) (repeat None n) (repeat 0 n).
(** hld.hpp:48-51, on the adjacency lists *)
Definition e_add (E : list (list nat)) (a b : nat) : option (list (list nat)) :=
  let* r := get E a in
  let* E := set E a (r ++ [b]) in
  let* r := get E b in
  set E b (r ++ [a]).
Definition with_edge (h : hld) E := Hld (hn h) (hroot h) E (size h) (tin h) (tout h) (head h) (rvs h) (par h) (depth h) (clen h).
Definition hl_add (h : hld) (a b : nat) : option hld := let* E := e_add (edge h) a b in Some (with_edge h E).
Definition hl_graph (n : nat) (es : list (nat * nat)) : option hld := for_each es (fun '(a, b) h => hl_add h a b) (hl_new n).

(** [std::swap(edge[v][i], edge[v][j])] *)
Definition e_swap (E : list (list nat)) (v i j : nat) : option (list (list nat)) :=
  let* x := get2 E v i in
  let* y := get2 E v j in
  let* E := set2 E v i y in
  set2 E v j x.
(** hld.hpp:10-22 [dfs_sz]; the parameter [d] is only passed on. [t] is a reference into
    [edge[v]], so it is read again after the call. *)
Notation sz_st := (list (list nat) * list (option nat) * list nat)%type.
Fixpoint dfs_sz (fuel v : nat) (p : option nat) (st : sz_st) : option sz_st :=
  match fuel with
  | O => None
  | S fuel =>
      let '(E, P, Sz) := st in
      let* P := set P v p in
      let* Sz := set Sz v 1 in
      let* row := get E v in
      let* E := (match row with
                 | [] => Some E
                 | x :: _ => if oeq (Some x) p then e_swap E v 0 (length row - 1) else Some E
                 end) in
      for_up (length row) 0 (fun i '(E, P, Sz) =>
        let* t := get2 E v i in
        if oeq (Some t) p then Some (E, P, Sz)
        else
          let* (E, P, Sz) := dfs_sz fuel t (Some v) (E, P, Sz) in
          let* t := get2 E v i in
          let* sv := get Sz v in
          let* st := get Sz t in
          let* Sz := set Sz v (sv + st) in
          let* x := get2 E v 0 in
          let* sx := get Sz x in
          let* st := get Sz t in
          let* E := (if sx <? st then e_swap E v 0 i else Some E) in
          Some (E, P, Sz)) (E, P, Sz)
  end.

(** hld.hpp:23-43 [dfs_hld] *)
Record arrs := Arrs { a_in : list (option nat); a_out : list (option nat); a_head : list (option nat); a_rev : list (option nat); a_dep : list (option nat); a_clen : list nat }.
Definition put_in a x := Arrs x (a_out a) (a_head a) (a_rev a) (a_dep a) (a_clen a).
Definition put_out a x := Arrs (a_in a) x (a_head a) (a_rev a) (a_dep a) (a_clen a).
Definition put_head a x := Arrs (a_in a) (a_out a) x (a_rev a) (a_dep a) (a_clen a).
Definition put_rev a x := Arrs (a_in a) (a_out a) (a_head a) x (a_dep a) (a_clen a).
Definition put_dep a x := Arrs (a_in a) (a_out a) (a_head a) (a_rev a) x (a_clen a).
Definition put_clen a x := Arrs (a_in a) (a_out a) (a_head a) (a_rev a) (a_dep a) x.
Fixpoint dfs_hld (fuel : nat) (E : list (list nat)) (v : nat) (p : option nat) (st : nat * arrs) : option (nat * arrs) :=
  match fuel with
  | O => None
  | S fuel =>
      let '(times, a) := st in
      let* x := set (a_in a) v (Some times) in let a := put_in a x in
      let times := S times in
      let* i := rd (a_in a) v in
      let* x := set (a_rev a) i (Some v) in let a := put_rev a x in
      let* x := set (a_clen a) v 1 in let a := put_clen a x in
      let* row := get E v in
      let* (times, a) :=
        (match row with
         | t :: _ =>
             if oeq (Some t) p then Some (times, a)
             else
               let* h := get (a_head a) v in
               let* x := set (a_head a) t h in let a := put_head a x in
               let* d := rd (a_dep a) v in
               let* x := set (a_dep a) t (Some d) in let a := put_dep a x in
               let* (times, a) := dfs_hld fuel E t (Some v) (times, a) in
               let* c := get (a_clen a) v in
               let* ct := get (a_clen a) t in
               let* x := set (a_clen a) v (c + ct) in
               Some (times, put_clen a x)
         | [] => Some (times, a)
         end) in
      let* (times, a) := for_up (length row - 1) 1 (fun i '(times, a) =>
        let* t := get2 E v i in
        if oeq (Some t) p then Some (times, a)
        else
          let* x := set (a_head a) t (Some t) in let a := put_head a x in
          let* d := rd (a_dep a) v in
          let* x := set (a_dep a) t (Some (d + 1)) in let a := put_dep a x in
          dfs_hld fuel E t (Some v) (times, a)) (times, a) in
      let* x := set (a_out a) v (Some times) in
      Some (times, put_out a x)
  end.
(** hld.hpp:53-60 *)
Definition hl_build (h : hld) (root : nat) : option hld :=
  let* (E, P, Sz) := dfs_sz (S (hn h)) root None (edge h, par h, size h) in
  let* hd := set (head h) root (Some root) in
  let* dp := set (depth h) root (Some 0) in
  let* (t, a) := dfs_hld (S (hn h)) E root None (0, Arrs (tin h) (tout h) hd (rvs h) dp (clen h)) in
  Some (Hld (hn h) root E Sz (a_in a) (a_out a) (a_head a) (a_rev a) P (a_dep a) (a_clen a)).

(** [par[head[v]]] *)
Definition par_head (h : hld) (v : nat) : option (option nat) := let* x := rd (head h) v in get (par h) x.
(** hld.hpp:62-72 [lca] *)
Definition hl_lca (h : hld) (a b : nat) : option nat :=
  let* da := rd (depth h) a in
  let* db := rd (depth h) b in
  let '(a, b) := if db <? da then (b, a) else (a, b) in
  let* b := loop (S (hn h)) (fun b =>
    let* da := rd (depth h) a in
    let* db := rd (depth h) b in
    if da <? db then let* b := par_head h b in let* b := b in Some (inl b) else Some (inr b)) b in
  let* (a, b) := loop (S (hn h)) (fun '(a, b) =>
    let* ha := rd (head h) a in
    let* hb := rd (head h) b in
    if ha =? hb then Some (inr (a, b))
    else
      let* a := par_head h a in let* a := a in
      let* b := par_head h b in let* b := b in
      Some (inl (a, b))) (a, b) in
  let* ia := rd (tin h) a in
  let* ib := rd (tin h) b in
  Some (if ia <? ib then a else b).

(** hld.hpp:74-104 [_query]; [T()] is [one], [*] is [mul] *)
Section Query.
Variables (T : Type) (mul : T -> T -> T) (one : T) (Q RQ : nat -> nat -> option T).
Definition u_up (h : hld) (u : nat) (um : T) : option (nat * T) :=
  let* x := rd (head h) u in
  let* l := rd (tin h) x in
  let* r := rd (tin h) u in
  let* q := RQ l (r + 1) in
  let* u := get (par h) x in
  let* u := u in
  Some (u, mul um q).
Definition v_up (h : hld) (v : nat) (vm : T) : option (nat * T) :=
  let* x := rd (head h) v in
  let* l := rd (tin h) x in
  let* r := rd (tin h) v in
  let* q := Q l (r + 1) in
  let* v := get (par h) x in
  let* v := v in
  Some (v, mul q vm).
Definition hl_query (h : hld) (u v : nat) (include_lca : bool) : option T :=
  let* (u, um) := loop (S (hn h)) (fun '(u, um) =>
    let* du := rd (depth h) u in
    let* dv := rd (depth h) v in
    if dv <? du then let* s := u_up h u um in Some (inl s) else Some (inr (u, um))) (u, one) in
  let* (v, vm) := loop (S (hn h)) (fun '(v, vm) =>
    let* du := rd (depth h) u in
    let* dv := rd (depth h) v in
    if du <? dv then let* s := v_up h v vm in Some (inl s) else Some (inr (v, vm))) (v, one) in
  let* (u, um, v, vm) := loop (S (hn h)) (fun '(u, um, v, vm) =>
    let* hu := rd (head h) u in
    let* hv := rd (head h) v in
    if hu =? hv then Some (inr (u, um, v, vm))
    else
      let* (u, um) := u_up h u um in
      let* (v, vm) := v_up h v vm in
      Some (inl (u, um, v, vm))) (u, um, v, vm) in
  let* iu := rd (tin h) u in
  let* iv := rd (tin h) v in
  if iu <? iv then
    let* q := Q (if include_lca then iu else iu + 1) (iv + 1) in Some (mul (mul um q) vm)
  else
    let* q := RQ (if include_lca then iv else iv + 1) (iu + 1) in Some (mul (mul um q) vm).
End Query.

(** hld.hpp:119-138 [update]; [U l r] acts on a caller's state *)
Section Update.
Variables (A : Type) (U : nat -> nat -> A -> option A).
Definition upd_up (h : hld) (v : nat) (st : A) : option (nat * A) :=
  let* x := rd (head h) v in
  let* l := rd (tin h) x in
  let* r := rd (tin h) v in
  let* st := U l (r + 1) st in
  let* v := get (par h) x in
  let* v := v in
  Some (v, st).
Definition hl_update (h : hld) (u v : nat) (include_lca : bool) (st : A) : option A :=
  let* du := rd (depth h) u in
  let* dv := rd (depth h) v in
  let '(u, v) := if dv <? du then (v, u) else (u, v) in
  let* (v, st) := loop (S (hn h)) (fun '(v, st) =>
    let* du := rd (depth h) u in
    let* dv := rd (depth h) v in
    if du <? dv then let* s := upd_up h v st in Some (inl s) else Some (inr (v, st))) (v, st) in
  let* (u, v, st) := loop (S (hn h)) (fun '(u, v, st) =>
    let* hu := rd (head h) u in
    let* hv := rd (head h) v in
    if hu =? hv then Some (inr (u, v, st))
    else
      let* (u, st) := upd_up h u st in
      let* (v, st) := upd_up h v st in
      Some (inl (u, v, st))) (u, v, st) in
  let* iu := rd (tin h) u in
  let* iv := rd (tin h) v in
  let '(iu, iv) := if iv <? iu then (iv, iu) else (iu, iv) in
  U (if include_lca then iu else iu + 1) (iv + 1) st.
End Update.

(** hld.hpp:140-170, subtree sums; [Add i x] and [Sum l r] act on and read a caller's state *)
Section Subtree.
Variables (A T : Type) (Add : nat -> T -> A -> option A) (Sum : nat -> nat -> A -> option T).
Fixpoint dfs_subtree_build (fuel : nat) (h : hld) (u : nat) (st : A) : option A :=
  match fuel with
  | O => None
  | S fuel =>
      let* row := get (edge h) u in
      for_up (length row) 0 (fun i st =>
        let* v := get row i in
        let* p := get (par h) u in
        if oeq (Some v) p then Some st
        else
          let* st := dfs_subtree_build fuel h v st in
          if 0 <? i then
            let* iu := rd (tin h) u in
            let* iv := rd (tin h) v in
            let* c := get (clen h) v in
            let* x := Sum iv (iv + c) st in
            Add iu x st
          else Some st) st
  end.
Definition hl_subtree_build (h : hld) (st : A) : option A := dfs_subtree_build (S (hn h)) h (hroot h) st.
Definition hl_subtree_sum (h : hld) (r : nat) (st : A) : option T :=
  let* i := rd (tin h) r in
  let* c := get (clen h) r in
  Sum i (i + c) st.
Definition hl_point_add (h : hld) (u : nat) (x : T) (st : A) : option A :=
  loop (S (hn h)) (fun '(u, st) =>
    match u with
    | None => Some (inr st)
    | Some u =>
        let* i := rd (tin h) u in
        let* st := Add i x st in
        let* p := par_head h u in
        Some (inl (p, st))
    end) (Some u, st).
End Subtree.

(** * Specification *)
(** Rooted trees *)
Inductive tree := Node (v : nat) (cs : list tree).
Definition root (t : tree) : nat := let 'Node v _ := t in v.
Fixpoint verts (t : tree) : list nat := let 'Node v cs := t in v :: flat_map verts cs.
(** (parent, child) pairs *)
Fixpoint tedges (t : tree) : list (nat * nat) := let 'Node v cs := t in flat_map (fun c => (v, root c) :: tedges c) cs.
(** [es], the edges as given to [add_edge], are those of the tree [t] on [0..n-1], in any
    order and in either direction. *)
Definition flip_of (e f : nat * nat) : Prop := f = e \/ f = (snd e, fst e).
Definition tree_graph (n : nat) (t : tree) (es : list (nat * nat)) : Prop :=
  Permutation (verts t) (seq 0 n) /\ exists es', Permutation (tedges t) es' /\ Forall2 flip_of es' es.
(** Ancestors, reflexively *)
Inductive anc (t : tree) : nat -> nat -> Prop :=
  | anc_refl x : anc t x x
  | anc_step x p y : anc t x p -> In (p, y) (tedges t) -> anc t x y.
Definition is_lca (t : tree) (a b w : nat) : Prop := anc t w a /\ anc t w b /\ forall c, anc t c a -> anc t c b -> anc t c w.
(** Simple paths *)
Definition adjacent (es : list (nat * nat)) (x y : nat) : Prop := In (x, y) es \/ In (y, x) es.
Fixpoint walk (es : list (nat * nat)) (x : nat) (p : list nat) (y : nat) : Prop :=
  match p with
  | [] => False
  | [z] => x = z /\ z = y
  | z :: ((z' :: _) as q) => x = z /\ adjacent es z z' /\ walk es z' q y
  end.
Definition is_path (es : list (nat * nat)) (x y : nat) (p : list nat) : Prop := walk es x p y /\ NoDup p.
