(** Model of [include/mtl/segment_hld.hpp]: SegmentHldBase, SegmentHld and LazySegmentHld, over
    the heavy-light decompositions of [HldModel]. *)
From Verif Require Export Base HldModel.
Set Implicit Arguments.

(** The fields l, r, p, lc, rc of SegmentHldNode, 75; [None] is [-1]. They are kept apart from
    m, rm and a, which is all that changes after the construction. *)
Record sn := SN { sl : nat; sr : nat; sp : option nat; slc : option nat; src : option nat }.
Definition ssize (x : sn) : nat := sr x - sl x.

(** SegmentHldBase(tree), 16-24: prefix sums of the sizes that are not on the heavy child;
    [tree.edge[u][0] != tree.par[u]] compares with [-1] at the root *)
Definition sh_weight (h : hld) (u : nat) : option nat :=
  let* w := get (size h) u in
  let* row := get (edge h) u in
  match row with
  | [] => Some w
  | x :: _ =>
      let* p := get (par h) u in
      if oeq (Some x) p then Some w
      else let* y := get (size h) x in let* _ := guard (y <=? w) in Some (w - y)
  end.
Definition sh_cw (h : hld) : option (list nat) :=
  for_up (hn h) 0 (fun i cw =>
    let* u := rd (rvs h) i in
    let* w := sh_weight h u in
    let* x := get cw i in
    set cw (i + 1) (x + w)) (repeat 0 (hn h + 1)).
(** upper_bound(cw.begin()+l, cw.begin()+r, v): the first position above [v], by a scan *)
Definition ub (cw : list nat) (l r v : nat) : option nat :=
  loop (S (r - l)) (fun i => if i <? r then let* x := get cw i in if v <? x then Some (inr i) else Some (inl (S i)) else Some (inr i)) l.
(** 35-39: where a node of more than one element is divided *)
Definition sh_mid (cw : list nat) (l r : nat) : option nat :=
  let* cr := get cw r in
  let* cl := get cw l in
  let* mid := ub cw l r ((cr + cl + 1) / 2) in
  let* _ := guard (negb (l =? mid)) in
  let* a := get cw (mid - 1) in
  let* b := get cw mid in
  Some (if cr - b <? a - cl then mid - 1 else mid).
(** 26-55: the loop over the nodes while they are made *)
Definition sh_step (cw : list nat) (i : nat) (T : list sn) (tg : list nat) : option (list sn * list nat) :=
  let* x := get T i in
  if ssize x =? 1 then let* tg := set tg (sl x) i in Some (T, tg)
  else
    let* m := sh_mid cw (sl x) (sr x) in
    let* T := (if sl x <? m then
        let* y := get T i in
        let* T := set T i (SN (sl y) (sr y) (sp y) (Some (length T)) (src y)) in
        Some (T ++ [SN (sl x) m (Some i) None None])
      else Some T) in
    let* T := (if m <? sr x then
        let* y := get T i in
        let* T := set T i (SN (sl y) (sr y) (sp y) (slc y) (Some (length T))) in
        Some (T ++ [SN m (sr x) (Some i) None None])
      else Some T) in
    Some (T, tg).
Definition sh_shape (cw : list nat) (n : nat) : option (list sn * list nat) :=
  loop (2 * n + 1) (fun '(i, T, tg) =>
    if i <? length T then let* (T, tg) := sh_step cw i T tg in Some (inl (S i, T, tg)) else Some (inr (T, tg)))
    (0, [SN 0 n None None None], repeat 0 n).

Section Seg.
(** [M * M], [M()], [A *= A] (first argument acts first), [A()], [A::act], and [A::operator()],
    which tells that an operator has to be applied *)
Variables (M A : Type) (op : M -> M -> M) (e : M) (comp : A -> A -> A) (aid : A) (act : A -> M -> M) (isop : A -> bool).

(** m and rm (76) and a (159) of the nodes; SegmentHld has no [a] and is modelled with any [A] *)
Record sd := SD { sm : M; srm : M; sa : A }.
Record seg := Seg { sg_T : list sn; sg_tg : list nat; sg_D : list sd }.
Definition with_D (s : seg) (D : list sd) : seg := Seg (sg_T s) (sg_tg s) D.
(** set, 80-82, and take, 83-86 *)
Definition n_set (D : list sd) (u : nat) (x : M) : option (list sd) := let* d := get D u in set D u (SD x x (sa d)).
Definition n_take (D : list sd) (u a b : nat) : option (list sd) :=
  let* x := get D a in
  let* y := get D b in
  let* d := get D u in
  set D u (SD (op (sm x) (sm y)) (op (srm y) (srm x)) (sa d)).

(** SegmentHldBase(tree), 16-56 *)
Definition sh_new (h : hld) : option seg :=
  let* cw := sh_cw h in
  let* (T, tg) := sh_shape cw (hn h) in
  Some (Seg T tg (repeat (SD e e aid) (length T))).
(** SegmentHldBase(tree, begin, end), 57-70 *)
Definition sh_build (h : hld) (xs : list M) : option seg :=
  let* s := sh_new h in
  let* (_, D) := for_each xs (fun x '(i, D) => let* u := get (sg_tg s) i in let* D := n_set D u x in Some (S i, D)) (0, sg_D s) in
  let* D := for_down (length (sg_T s)) 0 (fun i D =>
    let* x := get (sg_T s) i in
    if ssize x =? 1 then Some D
    else let* a := slc x in let* b := src x in n_take D i a b) D in
  Some (with_D s D).

(** ** SegmentHld *)
(** get, 107-109, and get_reversed, 110-112 *)
Definition sg_get (s : seg) (i : nat) : option M := let* u := get (sg_tg s) i in let* d := get (sg_D s) u in Some (sm d).
Definition sg_get_rev (s : seg) (i : nat) : option M := let* u := get (sg_tg s) i in let* d := get (sg_D s) u in Some (srm d).
(** set, 113-123; a node has at most all others above it *)
Definition sg_set (s : seg) (i : nat) (x : M) : option seg :=
  let* u := get (sg_tg s) i in
  let* D := n_set (sg_D s) u x in
  let* nd := get (sg_T s) u in
  let* D := loop (S (length (sg_T s))) (fun '(u, D) =>
    match u with
    | None => Some (inr D)
    | Some u =>
        let* nd := get (sg_T s) u in
        let* a := slc nd in
        let* b := src nd in
        let* D := n_take D u a b in
        Some (inl (sp nd, D))
    end) (sp nd, D) in
  Some (with_D s D).
(** _query, 131-149; the depth of the recursion is at most the number of nodes *)
Fixpoint sg_query_at (fuel : nat) (rv : bool) (s : seg) (l r : nat) (u : option nat) : option M :=
  match fuel, u with
  | O, _ => None
  | S _, None => Some e
  | S fuel, Some u =>
      let* nd := get (sg_T s) u in
      if (sr nd <=? l) || (r <=? sl nd) then Some e
      else if (l <=? sl nd) && (sr nd <=? r) then let* d := get (sg_D s) u in Some (if rv then srm d else sm d)
      else
        let* a := sg_query_at fuel rv s l r (if rv then src nd else slc nd) in
        let* b := sg_query_at fuel rv s l r (if rv then slc nd else src nd) in
        Some (op a b)
  end.
(** query, 124-126, and reverse_query, 127-129 *)
Definition sg_query (rv : bool) (s : seg) (l r : nat) : option M := sg_query_at (S (length (sg_T s))) rv s l r (Some 0).

(** ** LazySegmentHld *)
(** _propagate, 179-190 *)
Definition put_a (D : list sd) (u : nat) (f : A -> A) : option (list sd) := let* d := get D u in set D u (SD (sm d) (srm d) (f (sa d))).
Definition lg_prop (s : seg) (u : nat) (D : list sd) : option (list sd) :=
  let* n := get D u in
  let a := sa n in
  if negb (isop a) then Some D
  else
    let* D := set D u (SD (act a (sm n)) (act a (srm n)) a) in
    let* nd := get (sg_T s) u in
    let* D := (if 1 <? ssize nd then
        let* x := slc nd in
        let* y := src nd in
        let* D := put_a D x (fun b => comp b a) in
        put_a D y (fun b => comp b a)
      else Some D) in
    put_a D u (fun _ => aid).
(** set, 192-215 *)
Definition lg_ids (s : seg) (u : nat) : option (list nat) :=
  loop (S (length (sg_T s))) (fun '(u, ids) =>
    match u with
    | None => Some (inr ids)
    | Some u => let* nd := get (sg_T s) u in Some (inl (sp nd, ids ++ [u]))
    end) (Some u, []).
Definition lg_set (s : seg) (i : nat) (x : M) : option seg :=
  let* u := get (sg_tg s) i in
  let* ids := lg_ids s u in
  let* D := for_down (length ids) 0 (fun k D => let* v := get ids k in lg_prop s v D) (sg_D s) in
  let* u0 := get ids 0 in
  let* D := n_set D u0 x in
  let* D := for_up (length ids - 1) 1 (fun k D =>
    let* u := get ids k in
    let* nd := get (sg_T s) u in
    let* a := slc nd in
    let* b := src nd in
    let* c := get ids (k - 1) in
    let* D := lg_prop s (Nat.lxor (Nat.lxor a b) c) D in
    n_take D u a b) D in
  Some (with_D s D).
(** _query, 222-243 *)
Fixpoint lg_query_at (fuel : nat) (rv : bool) (s : seg) (l r : nat) (u : option nat) (D : list sd) : option (list sd * M) :=
  match fuel, u with
  | O, _ => None
  | S _, None => Some (D, e)
  | S fuel, Some u =>
      let* nd := get (sg_T s) u in
      if (sr nd <=? l) || (r <=? sl nd) then Some (D, e)
      else
        let* D := lg_prop s u D in
        if (l <=? sl nd) && (sr nd <=? r) then let* d := get D u in Some (D, if rv then srm d else sm d)
        else
          let* (D, a) := lg_query_at fuel rv s l r (if rv then src nd else slc nd) D in
          let* (D, b) := lg_query_at fuel rv s l r (if rv then slc nd else src nd) D in
          Some (D, op a b)
  end.
Definition lg_query (rv : bool) (s : seg) (l r : nat) : option (seg * M) :=
  let* (D, x) := lg_query_at (S (length (sg_T s))) rv s l r (Some 0) (sg_D s) in Some (with_D s D, x).
(** _update, 249-264 *)
Fixpoint lg_update_at (fuel : nat) (s : seg) (l r : nat) (f : A) (u : option nat) (D : list sd) : option (list sd) :=
  match fuel, u with
  | O, _ => None
  | S _, None => Some D
  | S fuel, Some u =>
      let* nd := get (sg_T s) u in
      if (sr nd <=? l) || (r <=? sl nd) then lg_prop s u D
      else if (l <=? sl nd) && (sr nd <=? r) then let* D := put_a D u (fun b => comp b f) in lg_prop s u D
      else
        let* D := lg_prop s u D in
        if 1 <? ssize nd then
          let* D := lg_update_at fuel s l r f (slc nd) D in
          let* D := lg_update_at fuel s l r f (src nd) D in
          let* a := slc nd in
          let* b := src nd in
          n_take D u a b
        else Some D
  end.
Definition lg_update (s : seg) (l r : nat) (f : A) : option seg :=
  let* D := lg_update_at (S (length (sg_T s))) s l r f (Some 0) (sg_D s) in Some (with_D s D).

(** ** Histories *)
Inductive sg_op := GSet (i : nat) (x : M) | GGet (i : nat) | GQuery (rv : bool) (l r : nat) | GUpdate (l r : nat) (f : A).
(** of SegmentHld, which has no update *)
Definition sg_step (s : seg) (c : sg_op) : option (seg * option M) :=
  match c with
  | GSet i x => let* s := sg_set s i x in Some (s, None)
  | GGet i => let* x := sg_get s i in Some (s, Some x)
  | GQuery rv l r => let* x := sg_query rv s l r in Some (s, Some x)
  | GUpdate _ _ _ => None
  end.
(** of LazySegmentHld, which has no get *)
Definition lg_step (s : seg) (c : sg_op) : option (seg * option M) :=
  match c with
  | GSet i x => let* s := lg_set s i x in Some (s, None)
  | GGet _ => None
  | GQuery rv l r => let* (s, x) := lg_query rv s l r in Some (s, Some x)
  | GUpdate l r f => let* s := lg_update s l r f in Some (s, None)
  end.
Fixpoint sg_run (step : seg -> sg_op -> option (seg * option M)) (s : seg) (cs : list sg_op) : option (seg * list M) :=
  match cs with
  | [] => Some (s, [])
  | c :: cs => let* (s, o) := step s c in let* (s, vs) := sg_run step s cs in Some (s, match o with Some v => v :: vs | None => vs end)
  end.

(** * Specification: the same on a list *)
Definition sg_list_step (lazy : bool) (xs : list M) (c : sg_op) : option (list M * option M) :=
  match c with
  | GSet i x => let* _ := guard (i <? length xs) in Some (lset xs i x, None)
  | GGet i => let* _ := guard (negb lazy) in let* x := get xs i in Some (xs, Some x)
  | GQuery rv l r => let* _ := guard ((l <=? r) && (r <=? length xs)) in let s := slice l r xs in Some (xs, Some (product op e (if rv then rev s else s)))
  | GUpdate l r f => let* _ := guard (lazy && (l <=? r) && (r <=? length xs)) in Some (firstn l xs ++ map (act f) (slice l r xs) ++ skipn r xs, None)
  end.
Fixpoint sg_list_run (lazy : bool) (xs : list M) (cs : list sg_op) : option (list M * list M) :=
  match cs with
  | [] => Some (xs, [])
  | c :: cs => let* (xs, o) := sg_list_step lazy xs c in let* (ys, vs) := sg_list_run lazy xs cs in Some (ys, match o with Some v => v :: vs | None => vs end)
  end.
End Seg.
