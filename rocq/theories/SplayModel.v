(** Models of [include/mtl/splay_tree.hpp] (SplayTreeBase) and
    [include/mtl/splay_tree_list.hpp] (SplayTreeList). *)
From Verif Require Export Base PTree.
Set Implicit Arguments.

Section Splay.
(** [M * M], [A *= A] (first argument acts first), [A()], [A::act], 1.. of monoid.hpp *)
Variables (M A : Type) (op : M -> M -> M) (comp : A -> A -> A) (aid : A) (act : A -> M -> M).

(** SplayTreeListNode, splay_tree_list.hpp:5-14, without the links l, r, p
    (splay_tree.hpp:10-11) that are in [ph]: sum, rev, m, prod, rprod, f. *)
Record nd := ND { nsum : nat; nrev : bool; nm : M; nprod : M; nrprod : M; nf : A }.
Record sh := SH { sk : ph; sd : list nd }.
Definition with_sk (h : sh) (k : ph) : sh := SH k (sd h).
Definition sh_empty : sh := SH (PH [] [] []) [].
(** make_shared<node_type>(m): splay_tree_list.hpp:11-13 *)
Definition node_new (h : sh) (m : M) : sh * nat := (SH (ph_new (sk h)) (sd h ++ [ND 1 false m m m aid]), length (sd h)).
Definition upd (h : sh) (i : nat) (g : nd -> nd) : option sh :=
  let* d := get (sd h) i in let* l := set (sd h) i (g d) in Some (SH (sk h) l).
Definition upd_opt (h : sh) (o : option nat) (g : nd -> nd) : option sh := match o with Some i => upd h i g | None => Some h end.
Definition get_opt (h : sh) (o : option nat) : option (option nd) := match o with Some i => let* d := get (sd h) i in Some (Some d) | None => Some None end.
Definition sfuel (h : sh) : nat := S (S (length (sd h))).

(** ** splay_tree.hpp *)
(** is_root, 13-15 *)
Definition is_root (k : ph) (u : nat) : option bool :=
  let* p := get (pp k) u in
  match p with
  | None => Some true
  | Some p => let* l := get (pl k) p in let* r := get (pr k) p in Some (negb (peq l (Some u)) && negb (peq r (Some u)))
  end.
(** rotate_left, 32-46 *)
Definition rotate_left (k : ph) (u : nat) : option ph :=
  let* p := get (pp k) u in let* p := p in
  let* q := get (pp k) p in
  let* ul := get (pl k) u in
  let* k := set_pr k p ul in
  let* k := set_pp_opt k ul (Some p) in
  let* k := set_pl k u (Some p) in
  let* k := set_pp k p (Some u) in
  let* k := set_pp k u q in
  match q with
  | None => Some k
  | Some q =>
      let* ql := get (pl k) q in
      if peq ql (Some p) then set_pl k q (Some u) else
      let* qr := get (pr k) q in
      if peq qr (Some p) then set_pr k q (Some u) else Some k
  end.
(** rotate_right, 47-61 *)
Definition rotate_right (k : ph) (u : nat) : option ph :=
  let* p := get (pp k) u in let* p := p in
  let* q := get (pp k) p in
  let* ur := get (pr k) u in
  let* k := set_pl k p ur in
  let* k := set_pp_opt k ur (Some p) in
  let* k := set_pr k u (Some p) in
  let* k := set_pp k p (Some u) in
  let* k := set_pp k u q in
  match q with
  | None => Some k
  | Some q =>
      let* ql := get (pl k) q in
      if peq ql (Some p) then set_pl k q (Some u) else
      let* qr := get (pr k) q in
      if peq qr (Some p) then set_pr k q (Some u) else Some k
  end.
Definition rot_l (h : sh) (u : nat) : option sh := let* k := rotate_left (sk h) u in Some (with_sk h k).
Definition rot_r (h : sh) (u : nat) : option sh := let* k := rotate_right (sk h) u in Some (with_sk h k).
(** splay, 65-113; [prop] and [agg] are the virtual propagate and aggregate. A thrown
    "invalid tree" is [None]. First the body of the do-while loop, 70-111. *)
Definition splay_step (prop agg : sh -> nat -> option sh) (h : sh) (u : nat) : option sh :=
  let* p := get (pp (sk h)) u in let* p := p in
  let* b := is_root (sk h) p in
  if (b : bool) then
    let* h := prop h p in
    let* h := prop h u in
    let* l := get (pl (sk h)) p in
    let* r := get (pr (sk h)) p in
    let* h := (if peq l (Some u) then rot_r h u else if peq r (Some u) then rot_l h u else None) in
    let* h := agg h p in
    agg h u
  else
    let* q := get (pp (sk h)) p in let* q := q in
    let* h := prop h q in
    let* h := prop h p in
    let* h := prop h u in
    let* ql := get (pl (sk h)) q in
    let* qr := get (pr (sk h)) q in
    let* l := get (pl (sk h)) p in
    let* r := get (pr (sk h)) p in
    let* h := (if peq ql (Some p) then
        if peq l (Some u) then let* h := rot_r h p in let* h := rot_r h u in let* h := agg h q in agg h p
        else if peq r (Some u) then let* h := rot_l h u in let* h := rot_r h u in let* h := agg h p in agg h q
        else None
      else if peq qr (Some p) then
        if peq r (Some u) then let* h := rot_l h p in let* h := rot_l h u in let* h := agg h q in agg h p
        else if peq l (Some u) then let* h := rot_r h u in let* h := rot_l h u in let* h := agg h p in agg h q
        else None
      else Some h) in
    agg h u.
Definition splay (prop agg : sh -> nat -> option sh) (h : sh) (u : nat) : option sh :=
  let* b := is_root (sk h) u in
  if (b : bool) then let* h := prop h u in agg h u else
  loop (sfuel h) (fun h =>
    let* h := splay_step prop agg h u in
    let* b := is_root (sk h) u in
    if (b : bool) then Some (inr h) else Some (inl h)) h.

(** ** splay_tree_list.hpp *)
(** the four assignments for a child in propagate, 63-66 *)
Definition act_node (f : A) (d : nd) : nd := ND (nsum d) (nrev d) (act f (nm d)) (act f (nprod d)) (act f (nrprod d)) (comp (nf d) f).
(** rev ^= true and reverse_prod (58-60) *)
Definition rev_node (d : nd) : nd := ND (nsum d) (negb (nrev d)) (nm d) (nrprod d) (nprod d) (nf d).
(** propagate, 61-88 *)
Definition propagate (h : sh) (u : nat) : option sh :=
  let* l := get (pl (sk h)) u in
  let* r := get (pr (sk h)) u in
  let* d := get (sd h) u in
  let* h := upd_opt h l (act_node (nf d)) in
  let* h := upd_opt h r (act_node (nf d)) in
  let* h := (if nrev d then
      let* k := set_pl (sk h) u r in
      let* k := set_pr k u l in
      let* h := upd_opt (with_sk h k) r rev_node in
      let* h := upd_opt h l rev_node in
      upd h u (fun d => ND (nsum d) false (nm d) (nprod d) (nrprod d) (nf d))
    else Some h) in
  upd h u (fun d => ND (nsum d) (nrev d) (nm d) (nprod d) (nrprod d) aid).
(** aggregate, 89-103 *)
Definition agg_l (dl : option nd) (d : nd) : nd :=
  match dl with Some c => ND (nsum d + nsum c) (nrev d) (nm d) (op (nprod c) (nprod d)) (op (nrprod d) (nrprod c)) (nf d) | None => d end.
Definition agg_r (dr : option nd) (d : nd) : nd :=
  match dr with Some c => ND (nsum d + nsum c) (nrev d) (nm d) (op (nprod d) (nprod c)) (op (nrprod c) (nrprod d)) (nf d) | None => d end.
Definition agg_node (dl dr : option nd) (d : nd) : nd := agg_r dr (agg_l dl (ND 1 (nrev d) (nm d) (nm d) (nm d) (nf d))).
Definition aggregate (h : sh) (u : nat) : option sh :=
  let* l := get (pl (sk h)) u in
  let* r := get (pr (sk h)) u in
  let* dl := get_opt h l in
  let* dr := get_opt h r in
  upd h u (agg_node dl dr).
Definition lsplay := splay propagate aggregate.

(** The list: the memory and the member root. *)
Definition sl := (sh * option nat)%type.
Definition sl_new : sl := (sh_empty, None).
(** _dfs_init, 29-41 *)
Fixpoint dfs_init (fuel : nat) (h : sh) (xs : list M) : option (sh * option nat) :=
  match fuel with
  | O => None
  | S fuel =>
      match xs with
      | [] => Some (h, None)
      | _ =>
          let mid := length xs / 2 in
          let* x := get xs mid in
          let (h, u) := node_new h x in
          let* (h, l) := dfs_init fuel h (firstn mid xs) in
          let* k := set_pl (sk h) u l in
          let* k := set_pp_opt k l (Some u) in
          let* (h, r) := dfs_init fuel (with_sk h k) (skipn (S mid) xs) in
          let* k := set_pr (sk h) u r in
          let* k := set_pp_opt k r (Some u) in
          let* h := aggregate (with_sk h k) u in
          Some (h, Some u)
      end
  end.
(** the range constructor, 43-49, for iterators that can be read again (the branch 50-59 is taken
    for no standard iterator category) *)
Definition sl_build (xs : list M) : option sl := dfs_init (S (length xs)) sh_empty xs.

Definition sum_opt (h : sh) (o : option nat) : option nat := let* d := get_opt h o in Some (match d with Some d => nsum d | None => 0 end).
(** kth_element, 104-136; a failing assertion is [None] *)
Definition kth (s : sl) (k : nat) : option (sl * nat) :=
  let (h, root) := s in
  let* u := root in
  let* n := sum_opt h (Some u) in
  let* _ := guard (k <? n) in
  let* (h, u) := loop (sfuel h) (fun '(h, u, k) =>
    let* l := get (pl (sk h)) u in
    let* r := get (pr (sk h)) u in
    let* lp := sum_opt h l in
    let* rp := sum_opt h r in
    let* n := sum_opt h (Some u) in
    let* _ := guard (n =? lp + rp + 1) in
    let* h := propagate h u in
    let* l := get (pl (sk h)) u in
    let* r := get (pr (sk h)) u in
    match l with
    | None => if k =? 0 then Some (inr (h, u)) else let* v := r in Some (inl (h, v, k - 1))
    | Some lv =>
        let* ls := sum_opt h l in
        if ls =? k then Some (inr (h, u))
        else if k <? ls then Some (inl (h, lv, k))
        else let* v := r in Some (inl (h, v, k - (ls + 1)))
    end) (h, u, k) in
  let* h := lsplay h u in
  Some ((h, Some u), u).
Definition root_size (s : sl) : option nat := let* u := snd s in sum_opt (fst s) (Some u).
(** insert, 138-168 *)
Definition sl_insert (s : sl) (i : nat) (m : M) : option sl :=
  let (h, root) := s in
  let (h, u) := node_new h m in
  if i =? 0 then
    let* k := set_pr (sk h) u root in
    let* k := set_pp_opt k root (Some u) in
    let* h := aggregate (with_sk h k) u in
    Some (h, Some u)
  else
    let* n := root_size (h, root) in
    if i =? n then
      let* k := set_pl (sk h) u root in
      let* k := set_pp_opt k root (Some u) in
      let* h := aggregate (with_sk h k) u in
      Some (h, Some u)
    else
      let* (s, p) := kth (h, root) i in
      let h := fst s in
      let* pl0 := get (pl (sk h)) p in
      let* k := set_pl (sk h) u pl0 in
      let* k := set_pr k u (Some p) in
      let* k := set_pp_opt k pl0 (Some u) in
      let* k := set_pp k p (Some u) in
      let* k := set_pl k p None in
      let* h := aggregate (with_sk h k) p in
      let* h := aggregate h u in
      Some (h, Some u).
(** erase, 169-196 *)
Definition sl_erase (s : sl) (i : nat) : option sl :=
  let* n := root_size s in
  let* _ := guard (i <? n) in
  let* (s, p) := kth s i in
  let h := fst s in
  let* l := get (pl (sk h)) p in
  let* r := get (pr (sk h)) p in
  if i =? 0 then let* k := set_pp_opt (sk h) r None in Some (with_sk h k, r) else
  let* n := root_size s in
  if i =? n - 1 then let* k := set_pp_opt (sk h) l None in Some (with_sk h k, l) else
  let* rv := r in
  let* k := set_pp (sk h) rv None in
  let* (s, r) := kth (with_sk h k, Some rv) 0 in
  let h := fst s in
  let* k := set_pl (sk h) r l in
  let* lv := l in
  let* k := set_pp k lv (Some r) in
  let* h := aggregate (with_sk h k) r in
  Some (h, snd s).
(** between, 197-217 *)
Definition between (s : sl) (l r : nat) : option (sl * option nat) :=
  let* n := root_size s in
  let* _ := guard (r <=? n) in
  if l =? 0 then
    if r =? n then Some (s, snd s)
    else let* (s, u) := kth s r in let* v := get (pl (sk (fst s))) u in Some (s, v)
  else if r =? n then let* (s, u) := kth s (l - 1) in let* v := get (pr (sk (fst s))) u in Some (s, v)
  else
    let* (s, rp) := kth s r in
    let h := fst s in
    let* w := get (pl (sk h)) rp in
    let* wv := w in
    let* k := set_pp (sk h) wv None in
    let* (s, lp) := kth (with_sk h k, Some wv) (l - 1) in
    let h := fst s in
    let* k := set_pl (sk h) rp (Some lp) in
    let* k := set_pp k lp (Some rp) in
    let* h := aggregate (with_sk h k) rp in
    let* v := get (pr (sk h)) lp in
    Some ((h, Some rp), v).
(** prod, 218-220 *)
Definition sl_prod (s : sl) (l r : nat) : option (sl * M) :=
  let* (s, v) := between s l r in
  let* u := v in
  let* d := get (sd (fst s)) u in
  Some (s, nprod d).
(** reverse, 221-228 *)
Definition sl_reverse (s : sl) (l r : nat) : option sl :=
  if l =? r then Some s else
  let* (s, v) := between s l r in
  let* u := v in
  let* h := upd (fst s) u rev_node in
  let* h := lsplay h u in
  Some (h, Some u).
(** set, 229-234, and update(i, f), 235-239 *)
Definition sl_point (s : sl) (i : nat) (g : M -> M) : option sl :=
  let* (s, u) := kth s i in
  let* h := upd (fst s) u (fun d => ND (nsum d) (nrev d) (g (nm d)) (nprod d) (nrprod d) (nf d)) in
  let* h := aggregate h u in
  Some (h, snd s).
Definition sl_set (s : sl) (i : nat) (m : M) : option sl := sl_point s i (fun _ => m).
Definition sl_update1 (s : sl) (i : nat) (f : A) : option sl := sl_point s i (act f).
(** update(l, r, f), 240-249 *)
Definition sl_update (s : sl) (l r : nat) (f : A) : option sl :=
  let* _ := guard (l <? r) in
  let* (s, v) := between s l r in
  let* u := v in
  let* h := upd (fst s) u (act_node f) in
  let* h := lsplay h u in
  Some (h, Some u).

(** ** Histories *)
Inductive sl_op := Ins (i : nat) (m : M) | Era (i : nat) | Prd (l r : nat) | Rev (l r : nat) | Put (i : nat) (m : M) | Upd1 (i : nat) (f : A) | Upd (l r : nat) (f : A).
Definition sl_step (s : sl) (c : sl_op) : option (sl * option M) :=
  match c with
  | Ins i m => let* s := sl_insert s i m in Some (s, None)
  | Era i => let* s := sl_erase s i in Some (s, None)
  | Prd l r => let* (s, m) := sl_prod s l r in Some (s, Some m)
  | Rev l r => let* s := sl_reverse s l r in Some (s, None)
  | Put i m => let* s := sl_set s i m in Some (s, None)
  | Upd1 i f => let* s := sl_update1 s i f in Some (s, None)
  | Upd l r f => let* s := sl_update s l r f in Some (s, None)
  end.
Fixpoint sl_run (s : sl) (h : list sl_op) : option (sl * list M) :=
  match h with
  | [] => Some (s, [])
  | c :: h => let* (s, o) := sl_step s c in let* (s, vs) := sl_run s h in Some (s, match o with Some v => v :: vs | None => vs end)
  end.

(** * Specification: the same history on a list *)
Variable e : M.
Definition list_step (xs : list M) (c : sl_op) : option (list M * option M) :=
  match c with
  | Ins i m => if i <=? length xs then Some (firstn i xs ++ m :: skipn i xs, None) else None
  | Era i => if i <? length xs then Some (firstn i xs ++ skipn (S i) xs, None) else None
  | Prd l r => if (l <? r) && (r <=? length xs) then Some (xs, Some (product op e (slice l r xs))) else None
  | Rev l r => if (l <=? r) && (r <=? length xs) then Some (firstn l xs ++ rev (slice l r xs) ++ skipn r xs, None) else None
  | Put i m => if i <? length xs then Some (firstn i xs ++ m :: skipn (S i) xs, None) else None
  | Upd1 i f => let* x := get xs i in Some (firstn i xs ++ act f x :: skipn (S i) xs, None)
  | Upd l r f => if (l <? r) && (r <=? length xs) then Some (firstn l xs ++ map (act f) (slice l r xs) ++ skipn r xs, None) else None
  end.
Fixpoint list_run (xs : list M) (h : list sl_op) : option (list M * list M) :=
  match h with
  | [] => Some (xs, [])
  | c :: h => let* (xs, o) := list_step xs c in let* (xs, vs) := list_run xs h in Some (xs, match o with Some v => v :: vs | None => vs end)
  end.
End Splay.
