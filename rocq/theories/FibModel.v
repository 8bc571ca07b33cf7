(** Model of [include/mtl/fibonacci_heap.hpp] (FibonacciHeap). *)
From Verif Require Export Base.
Set Implicit Arguments.

Section Fib.
(** [cond l r] is [cond_(l, r)] (std::less by default: the greatest priority is on top), [d0] a
    default constructed T. *)
Variables (T : Type) (cond : T -> T -> bool) (d0 : T).

(** Node, lines 18-40: next, prev, child, parent, deg, marked, enabled, value.second.
    A node is named by its key (value.first): [map_] and [container_] (lines 44-46, 50-51, 80-83)
    give every key its own node, for ever, so only the lazily made ones are simplified away:
    a key never pushed has a node that is not enabled. *)
Record fn := FN { nx : option nat; pv : option nat; chd : option nat; par : option nat; dg : nat; mk : bool; en : bool; vl : T }.
(** the heap, lines 42-47: nodes, deg_table_, root_, sz_ *)
Record fh := FH { nds : list fn; tab : list (option nat); rt : option nat; sz : nat }.
Definition upd_n (h : fh) (i : nat) (f : fn -> fn) : option fh :=
  let* d := get (nds h) i in let* l := set (nds h) i (f d) in Some (FH l (tab h) (rt h) (sz h)).
Definition with_rt (h : fh) (r : option nat) : fh := FH (nds h) (tab h) r (sz h).
Definition with_sz (h : fh) (n : nat) : fh := FH (nds h) (tab h) (rt h) n.
Definition w_nx x (d : fn) := FN (Some x) (pv d) (chd d) (par d) (dg d) (mk d) (en d) (vl d).
Definition w_pv x (d : fn) := FN (nx d) (Some x) (chd d) (par d) (dg d) (mk d) (en d) (vl d).
Definition w_chd x (d : fn) := FN (nx d) (pv d) x (par d) (dg d) (mk d) (en d) (vl d).
Definition w_par x (d : fn) := FN (nx d) (pv d) (chd d) x (dg d) (mk d) (en d) (vl d).
Definition w_dg x (d : fn) := FN (nx d) (pv d) (chd d) (par d) x (mk d) (en d) (vl d).
Definition w_mk x (d : fn) := FN (nx d) (pv d) (chd d) (par d) (dg d) x (en d) (vl d).
Definition w_en x (d : fn) := FN (nx d) (pv d) (chd d) (par d) (dg d) (mk d) x (vl d).
Definition w_vl x (d : fn) := FN (nx d) (pv d) (chd d) (par d) (dg d) (mk d) (en d) x.
(** init, lines 29-36 *)
Definition w_init (k : nat) (v : T) (d : fn) := FN (Some k) (Some k) None None 0 false true v.

(** A [node_ptr*] argument: &deg_table_[d] or &node->child. *)
Inductive slot := Tab (d : nat) | Chd (i : nat).
Definition head (h : fh) (o : slot) : option (option nat) :=
  match o with Tab d => get (tab h) d | Chd i => let* d := get (nds h) i in Some (chd d) end.
Definition set_head (h : fh) (o : slot) (x : option nat) : option fh :=
  match o with
  | Tab d => let* t := set (tab h) d x in Some (FH (nds h) t (rt h) (sz h))
  | Chd i => upd_n h i (w_chd x)
  end.

(** _CompareNodePriority, 173-175 *)
Definition cmp (h : fh) (l r : nat) : option bool := let* a := get (nds h) l in let* b := get (nds h) r in Some (cond (vl a) (vl b)).
(** _PushLink, 177-189 *)
Definition push_link (h : fh) (node : nat) (o : slot) : option fh :=
  let* x := head h o in
  match x with
  | None =>
      let* h := set_head h o (Some node) in
      let* h := upd_n h node (w_nx node) in
      upd_n h node (w_pv node)
  | Some x =>
      let* dx := get (nds h) x in
      let* b := pv dx in
      let* h := upd_n h node (w_nx x) in
      let* h := upd_n h node (w_pv b) in
      let* h := upd_n h b (w_nx node) in
      upd_n h x (w_pv node)
  end.
(** _PopLink, 191-207 *)
Definition pop_link (h : fh) (node : nat) (o : slot) : option fh :=
  let* x := head h o in
  let* x := x in
  let* d := get (nds h) node in
  let* n := nx d in
  let* p := pv d in
  if n =? node then
    let* _ := guard (p =? node) in
    let* _ := guard (x =? node) in
    set_head h o None
  else
    let* h := upd_n h p (w_nx n) in
    let* h := upd_n h n (w_pv p) in
    let* h := (if x =? node then set_head h o (Some n) else Some h) in
    let* h := upd_n h node (w_nx node) in
    upd_n h node (w_pv node).
(** _Meld, 209-218 *)
Definition meld (h : fh) (l r : nat) : option (fh * nat) :=
  let* dl := get (nds h) l in
  let* dr := get (nds h) r in
  let* _ := guard (dg dl =? dg dr) in
  let* c := cmp h l r in
  let (l, r) := if c : bool then (r, l) else (l, r) in
  let* h := push_link h r (Chd l) in
  let* h := upd_n h r (w_par (Some l)) in
  let* h := upd_n h l (fun d => w_dg (S (dg d)) d) in
  Some (h, l).
(** _ExpandChildren, 220-230; every turn takes one child away, there are at most as many as nodes *)
Definition expand (h : fh) (node : nat) : option fh :=
  let* h := loop (S (length (nds h))) (fun h =>
    let* d := get (nds h) node in
    match chd d with
    | None => Some (inr h)
    | Some c =>
        let* h := pop_link h c (Chd node) in
        let* d := get (nds h) node in
        let* _ := guard (1 <=? dg d) in
        let* h := upd_n h node (fun d => w_dg (dg d - 1) d) in
        let* h := upd_n h c (w_par None) in
        let* h := upd_n h c (w_mk false) in
        let* dc := get (nds h) c in
        let* h := push_link h c (Tab (dg dc)) in
        Some (inl h)
    end) h in
  let* d := get (nds h) node in
  let* _ := guard (dg d =? 0) in
  Some h.
(** the inner loop of _ExtractTop, 242-248 *)
Definition meld_up (h : fh) (node : nat) : option (fh * nat) :=
  loop (S (length (tab h))) (fun '(h, node) =>
    let* dn := get (nds h) node in
    let d := dg dn in
    let* u := get (tab h) d in
    match u with
    | None => Some (inr (h, node))
    | Some u =>
        let* h := pop_link h u (Tab d) in
        let* (h, node) := meld h node u in
        let* dn := get (nds h) node in
        let* _ := guard (dg dn =? S d) in
        Some (inl (h, node))
    end) (h, node).
(** the skip loop of _ExtractTop, 235 *)
Definition skip_empty (h : fh) (k : nat) : option nat :=
  loop (S (length (tab h))) (fun k =>
    if k <? length (tab h) then let* u := get (tab h) k in match u with None => Some (inl (S k)) | Some _ => Some (inr k) end
    else Some (inr k)) k.
(** _ExtractTop, 232-256; every turn advances k or melds two trees *)
Definition extract_top (h : fh) : option fh :=
  loop (S (S (length (tab h) + length (nds h)))) (fun '(h, k) =>
    if k <? length (tab h) then
      let* k := skip_empty h k in
      if k =? length (tab h) then Some (inr h) else
      let* u := get (tab h) k in let* u := u in
      let* du := get (nds h) u in
      let* n := nx du in
      if n =? u then
        let* better := (match rt h with None => Some true | Some r => cmp h r u end) in
        Some (inl (if better then with_rt h (Some u) else h, S k))
      else
        let* h := pop_link h u (Tab k) in
        let* du := get (nds h) u in
        let* _ := guard (dg du =? k) in
        let* (h, node) := meld_up h u in
        let* dn := get (nds h) node in
        let* h := push_link h node (Tab (dg dn)) in
        Some (inl (h, k))
    else Some (inr h)) (h, 0).
(** _Consolidate, 258-278 *)
Fixpoint consolidate (fuel : nat) (h : fh) (node : nat) : option fh :=
  match fuel with
  | O => None
  | S fuel =>
      let* d := get (nds h) node in
      let* p := par d in
      let* dp := get (nds h) p in
      let* h := (if mk dp then let* _ := par dp in consolidate fuel h p else Some h) in
      let* dp := get (nds h) p in
      let* _ := guard (negb (mk dp)) in
      let* h := (match par dp with
                 | Some _ => upd_n h p (w_mk true)
                 | None =>
                     let* h := pop_link h p (Tab (dg dp)) in
                     let* _ := guard (1 <=? dg dp) in
                     push_link h p (Tab (dg dp - 1))
                 end) in
      let* h := pop_link h node (Chd p) in
      let* dp := get (nds h) p in
      let* _ := guard (1 <=? dg dp) in
      let* h := upd_n h p (fun d => w_dg (dg d - 1) d) in
      let* h := upd_n h node (w_par None) in
      let* h := upd_n h node (w_mk false) in
      let* d := get (nds h) node in
      push_link h node (Tab (dg d))
  end.
Definition cfuel (h : fh) : nat := S (length (nds h)).

(** the constructor, 50-61: the table is as long as the first Fibonacci number F(k) >= size, k >= 2 *)
Definition fib_table (size : nat) : option nat :=
  loop (S (S size)) (fun '(a, b, k) => if b <? size then Some (inl (b, a + b, S k)) else Some (inr k)) (1, 1, 2).
Definition fh_new (size : nat) : option fh :=
  let* k := fib_table size in
  Some (FH (repeat (FN None None None None 0 false false d0) size) (repeat None k) None 0).
(** top, 63-66 *)
Definition fh_top (h : fh) : option (nat * T) := let* r := rt h in let* d := get (nds h) r in let* _ := guard (en d) in Some (r, vl d).
(** get, 68-71 *)
Definition fh_get (h : fh) (k : nat) : option (nat * T) := let* d := get (nds h) k in let* _ := guard (en d) in Some (k, vl d).
(** the rest of push after the first test, 79-87 *)
Definition push_new (h : fh) (k : nat) (v : T) : option fh :=
  let* h := upd_n h k (w_init k v) in
  let* h := push_link h k (Tab 0) in
  let* better := (match rt h with None => Some true | Some r => cmp h r k end) in
  let h := if better : bool then with_rt h (Some k) else h in
  Some (with_sz h (S (sz h))).
(** the rest of update after the first test, 96-107 *)
Definition update_live (h : fh) (k : nat) (v : T) : option fh :=
  let* d := get (nds h) k in
  if negb (cond (vl d) v) then Some h else
  let* h := upd_n h k (w_vl v) in
  let* h := (match par d with
             | Some p => let* c := cmp h p k in if c : bool then consolidate (cfuel h) h k else Some h
             | None => Some h
             end) in
  let* r := rt h in
  let* c := cmp h r k in
  Some (if c : bool then with_rt h (Some k) else h).
(** push, 74-88, and update, 91-108 *)
Definition fh_push (h : fh) (k : nat) (v : T) : option fh := let* d := get (nds h) k in if en d then update_live h k v else push_new h k v.
Definition fh_update (h : fh) (k : nat) (v : T) : option fh := let* d := get (nds h) k in if negb (en d) then push_new h k v else update_live h k v.
(** pop, 111-120; sz_ is unsigned and --sz_ of 0 would wrap: a guard *)
Definition fh_pop (h : fh) : option fh :=
  let* r := rt h in
  let h := with_rt h None in
  let* d := get (nds h) r in
  let* h := pop_link h r (Tab (dg d)) in
  let* h := expand h r in
  let* h := extract_top h in
  let* h := upd_n h r (w_en false) in
  let* _ := guard (1 <=? sz h) in
  Some (with_sz h (sz h - 1)).
(** erase, 123-138 *)
Definition fh_erase (h : fh) (k : nat) : option fh :=
  let* d := get (nds h) k in
  let* _ := guard (en d) in
  let needs := match rt h with Some r => r =? k | None => false end in
  let* h := (match par d with Some _ => consolidate (cfuel h) h k | None => Some h end) in
  let* d := get (nds h) k in
  let* _ := guard (match par d with None => true | Some _ => false end) in
  let* h := pop_link h k (Tab (dg d)) in
  let* h := expand h k in
  let* h := (if needs then extract_top h else Some h) in
  let* h := upd_n h k (w_en false) in
  let* _ := guard (1 <=? sz h) in
  Some (with_sz h (sz h - 1)).
(** size, 140 *)
Definition fh_size (h : fh) : nat := sz h.

(** * Specification: a partial map from keys to priorities *)
Definition pmap := nat -> option T.
Definition p_set (m : pmap) (k : nat) (v : option T) : pmap := fun j => if j =? k then v else m j.
(** push and update keep the better of the two priorities *)
Definition p_push (m : pmap) (k : nat) (v : T) : pmap := p_set m k (Some (match m k with Some w => if cond w v then v else w | None => v end)).
Record weak_order : Prop := {
  wo_irr : forall x, cond x x = false;
  wo_trans : forall x y z, cond x y = true -> cond y z = true -> cond x z = true;
  wo_neg : forall x y z, cond x y = false -> cond y z = false -> cond x z = false }.
(** [k] with priority [v] is live and nothing live is better *)
Definition is_best (m : pmap) (k : nat) (v : T) : Prop := m k = Some v /\ forall j w, m j = Some w -> cond v w = false.
(** [n] keys are live *)
Definition count_is (m : pmap) (n : nat) : Prop := exists ks, NoDup ks /\ length ks = n /\ forall k, In k ks <-> m k <> None.
End Fib.

(** A test: a history with ties, cascading cuts and pops. *)
Definition f_test : option (list (nat * nat)) :=
  let* h := fh_new 0 12 in
  let push h kv := let* h := h in fh_push Nat.ltb h (fst kv) (snd kv) in
  let* h := fold_left push [(0, 5); (1, 7); (2, 3); (3, 9); (4, 1); (5, 8); (6, 2); (7, 6); (8, 4)] (Some h) in
  let* h := fh_pop Nat.ltb h in
  let* h := fold_left push [(4, 20); (6, 19); (2, 18); (8, 17)] (Some h) in
  let* h := fh_erase Nat.ltb h 6 in
  let drain := fix drain n h := match n with O => Some [] | S n => let* t := fh_top h in let* h := fh_pop Nat.ltb h in let* r := drain n h in Some (t :: r) end in
  drain 7 h.
Example f_test_ok : f_test = Some [(4, 20); (2, 18); (8, 17); (5, 8); (1, 7); (7, 6); (0, 5)].
Proof. vm_compute. reflexivity. Qed.
