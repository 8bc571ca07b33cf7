(** Model of [include/mtl/skiplist.hpp] (Skiplist, SkiplistSet). *)
From Verif Require Export Base.
Set Implicit Arguments.

(** kMaxHeight, line 27: the sentinel has the levels 0..32 *)
Definition kmax : nat := 32.

Section Skip.
Variable T : Type.
(** Node, lines 12-24: v, next, length, the last two one entry for each level 0..height *)
Record snode := SN { s_v : T; s_next : list (option nat); s_len : list nat }.
(** The list, lines 63-65, and the stack_ and idx_ of SkiplistSet, 185-186. Nodes are numbered in
    the order they are made, node 0 is sentinel_. shared_ptr's reference counts are not modelled: a
    node unlinked stays in [sk_n], unreachable. [length] is an int and never negative here: a nat,
    the subtractions carry guards (its overflow, at 2^31 elements, is not modelled). *)
Record skl := SK { sk_n : list snode; sk_h : nat; sk_size : nat; sk_stack : list nat; sk_idx : list nat }.
Definition with_n (s : skl) n := SK n (sk_h s) (sk_size s) (sk_stack s) (sk_idx s).
Definition with_h (s : skl) x := SK (sk_n s) x (sk_size s) (sk_stack s) (sk_idx s).
Definition with_size (s : skl) x := SK (sk_n s) (sk_h s) x (sk_stack s) (sk_idx s).
(** u->next[r], u->length[r] *)
Definition nxt (s : skl) (u r : nat) : option (option nat) := let* d := get (sk_n s) u in get (s_next d) r.
Definition len (s : skl) (u r : nat) : option nat := let* d := get (sk_n s) u in get (s_len d) r.
Definition val (s : skl) (u : nat) : option T := let* d := get (sk_n s) u in Some (s_v d).
Definition set_nxt (s : skl) (u r : nat) (x : option nat) : option skl :=
  let* d := get (sk_n s) u in let* l := set (s_next d) r x in let* n := set (sk_n s) u (SN (s_v d) l (s_len d)) in Some (with_n s n).
Definition set_len (s : skl) (u r : nat) (x : nat) : option skl :=
  let* d := get (sk_n s) u in let* l := set (s_len d) r x in let* n := set (sk_n s) u (SN (s_v d) (s_next d) l) in Some (with_n s n).
(** make_shared<Node>(v, h), line 23 *)
Definition new_node (s : skl) (v : T) (h : nat) : skl * nat := (with_n s (sk_n s ++ [SN v (repeat None (S h)) (repeat 0 (S h))]), length (sk_n s)).
Definition sub (a b : nat) : option nat := let* _ := guard (b <=? a) in Some (a - b).

(** Skiplist(), 71-76, and SkiplistSet(), 188-190; [t0] is T() *)
Definition sk_new (t0 : T) : skl := SK [SN t0 (repeat None (S kmax)) (repeat 0 (S kmax))] 0 0 (repeat 0 (S kmax)) (repeat 0 (S kmax)).
(** an iterator is a node_ptr, None is end(); *it and ++it, 39-48 *)
Definition it_deref (s : skl) (it : option nat) : option T := let* u := it in val s u.
Definition it_next (s : skl) (it : option nat) : option (option nat) := let* u := it in nxt s u 0.
(** begin, 89-91 *)
Definition sk_begin (s : skl) : option (option nat) := nxt s 0 0.
(** the inner while of get_at, insert_at and erase_at, 102-105 *)
Definition adv_len (s : skl) (r u i : nat) : option (nat * nat) :=
  loop (S (length (sk_n s))) (fun '(u, i) =>
    let* x := nxt s u r in
    match x with
    | None => Some (inr (u, i))
    | Some x => let* l := len s u r in if l <? i then Some (inl (x, i - l)) else Some (inr (u, i))
    end) (u, i).
(** get_at, 96-111: the levels [0, k) from the top *)
Fixpoint get_lv (k : nat) (s : skl) (u i : nat) : option (option nat) :=
  match k with
  | O => None
  | S r =>
      let* (u, i) := adv_len s r u i in
      let* x := nxt s u r in
      match x with
      | Some x => let* l := len s u r in if l =? i then Some (Some x) else get_lv r s u i
      | None => get_lv r s u i
      end
  end.
Definition get_at (s : skl) (i : nat) : option (option nat) :=
  if sk_size s <=? i then Some None else get_lv (S (sk_h s)) s 0 (S i).
(** pick_height, 119-121: the number of trailing zeros of a draw from [0, 2^32), 64 for the draw 0:
    an argument [hw] of the operations below. insert_at, 123-148 *)
Fixpoint ins_lv (k : nat) (s : skl) (u i w hw : nat) : option skl :=
  match k with
  | O => Some s
  | S r =>
      let* (u, i) := adv_len s r u i in
      let* x := nxt s u r in
      let* s := (if r <=? hw then
                   let* lw := (match x with Some _ => let* l := len s u r in sub l (i - 1) | None => Some 0 end) in
                   let* s := set_len s w r lw in
                   let* s := set_len s u r i in
                   let* s := set_nxt s w r x in
                   set_nxt s u r (Some w)
                 else match x with Some _ => let* l := len s u r in set_len s u r (S l) | None => Some s end) in
      ins_lv r s u i w hw
  end.
Definition insert_at (s : skl) (hw i : nat) (v : T) : option (skl * option nat) :=
  if sk_size s <? i then Some (s, None) else
  let s := if sk_h s <? hw then with_h s hw else s in
  let '(s, w) := new_node s v hw in
  let* s := ins_lv (S (sk_h s)) s 0 (S i) w hw in
  Some (with_size s (S (sk_size s)), Some w).
(** erase_at, 150-173 *)
Fixpoint era_lv (k : nat) (s : skl) (u i : nat) : option (skl * nat) :=
  match k with
  | O => Some (s, u)
  | S r =>
      let* (u, i) := adv_len s r u i in
      let* x := nxt s u r in
      let* s := (match x with
                 | None => Some s
                 | Some w =>
                     let* l := len s u r in
                     if l =? i then
                       let* lw := len s w r in
                       let* n := (if negb (lw =? 0) then sub (l + lw) 1 else Some 0) in
                       let* s := set_len s u r n in
                       let* y := nxt s w r in
                       set_nxt s u r y
                     else let* n := sub l 1 in set_len s u r n
                 end) in
      era_lv r s u i
  end.
Definition erase_at (s : skl) (i : nat) : option (skl * option nat) :=
  if sk_size s <=? i then Some (s, None) else
  let* (s, u) := era_lv (S (sk_h s)) s 0 (S i) in
  let* n := sub (sk_size s) 1 in
  let s := with_size s n in
  let* x := nxt s u 0 in
  Some (s, x).
(** Skiplist(first, last), 78-84; one height for each element *)
Definition sk_of (t0 : T) (l : list (nat * T)) : option skl :=
  fold_left (fun s e => let* s := s in let* (s, _) := insert_at s (fst e) (sk_size s) (snd e) in Some s) l (Some (sk_new t0)).

(** * SkiplistSet *)
(** T's operator<, == and <= *)
Variables (ltb eqb leb : T -> T -> bool).
(** the inner while: go on while the value of the next node satisfies [p] *)
Definition adv_val (s : skl) (p : T -> bool) (r u : nat) : option nat :=
  loop (S (length (sk_n s))) (fun u =>
    let* x := nxt s u r in
    match x with
    | None => Some (inr u)
    | Some x => let* y := val s x in if p y then Some (inl x) else Some (inr u)
    end) u.
(** u->next[r] and u->next[r]->v == v *)
Definition hit (s : skl) (u r : nat) (v : T) : option (option nat) :=
  let* x := nxt s u r in
  match x with None => Some None | Some x => let* y := val s x in Some (if eqb y v then Some x else None) end.
(** find, 219-228, and lower_bound, 232-241: the node found, or the last node before it *)
Fixpoint find_lv (k : nat) (s : skl) (v : T) (u : nat) : option (nat + nat) :=
  match k with
  | O => Some (inr u)
  | S r =>
      let* u := adv_val s (fun y => ltb y v) r u in
      let* x := hit s u r v in
      match x with Some x => Some (inl x) | None => find_lv r s v u end
  end.
Definition ss_find (s : skl) (v : T) : option (option nat) :=
  let* x := find_lv (S (sk_h s)) s v 0 in Some (match x with inl x => Some x | inr _ => None end).
Definition ss_count (s : skl) (v : T) : option nat := let* x := ss_find s v in Some (match x with Some _ => 1 | None => 0 end).
Definition ss_lower_bound (s : skl) (v : T) : option (option nat) :=
  let* x := find_lv (S (sk_h s)) s v 0 in match x with inl x => Some (Some x) | inr u => nxt s u 0 end.
(** upper_bound, 242-249, successor, 250-252, predecessor, 253-260 *)
Fixpoint last_lv (k : nat) (s : skl) (p : T -> bool) (u : nat) : option nat :=
  match k with O => Some u | S r => let* u := adv_val s p r u in last_lv r s p u end.
Definition ss_upper_bound (s : skl) (v : T) : option (option nat) := let* u := last_lv (S (sk_h s)) s (fun y => leb y v) 0 in nxt s u 0.
Definition ss_successor := ss_upper_bound.
Definition ss_predecessor (s : skl) (v : T) : option (option nat) :=
  let* u := last_lv (S (sk_h s)) s (fun y => ltb y v) 0 in Some (if u =? 0 then None else Some u).
(** emplace, 262-300. The inner while, 268-271 *)
Definition adv_both (s : skl) (v : T) (r u j : nat) : option (nat * nat) :=
  loop (S (length (sk_n s))) (fun '(u, j) =>
    let* x := nxt s u r in
    match x with
    | None => Some (inr (u, j))
    | Some x => let* y := val s x in if ltb y v then let* l := len s u r in Some (inl (x, j + l)) else Some (inr (u, j))
    end) (u, j).
Definition set_stack (s : skl) (r u : nat) : option skl := let* l := set (sk_stack s) r u in Some (SK (sk_n s) (sk_h s) (sk_size s) l (sk_idx s)).
Definition set_idx (s : skl) (r j : nat) : option skl := let* l := set (sk_idx s) r j in Some (SK (sk_n s) (sk_h s) (sk_size s) (sk_stack s) l).
(** 267-276: the node found, or the position of the new one *)
Fixpoint emp_search (k : nat) (s : skl) (v : T) (u j : nat) : option (skl * (nat + nat)) :=
  match k with
  | O => Some (s, inr j)
  | S r =>
      let* (u, j) := adv_both s v r u j in
      let* x := hit s u r v in
      match x with
      | Some x => Some (s, inl x)
      | None =>
          let* s := set_stack s r u in
          let* j1 := sub j 1 in
          let* s := set_idx s r j1 in
          emp_search r s v u j
      end
  end.
(** 282-297 *)
Fixpoint emp_link (k : nat) (s : skl) (w hw j : nat) : option skl :=
  match k with
  | O => Some s
  | S r =>
      let* t := get (sk_stack s) r in
      let* x := nxt s t r in
      let* s := (if r <=? hw then
                   let* q := get (sk_idx s) r in
                   let* _ := guard (q <? j) in
                   let* lw := (match x with Some _ => let* l := len s t r in let* n := sub l (j - q) in Some (n + 1) | None => Some 0 end) in
                   let* s := set_len s w r lw in
                   let* s := set_len s t r (j - q) in
                   let* s := set_nxt s w r x in
                   set_nxt s t r (Some w)
                 else match x with Some _ => let* l := len s t r in set_len s t r (S l) | None => Some s end) in
      emp_link r s w hw j
  end.
Definition ss_insert (s : skl) (hw : nat) (v : T) : option (skl * (option nat * bool)) :=
  let* (s, x) := emp_search (S (sk_h s)) s v 0 1 in
  match x with
  | inl x => Some (s, (Some x, false))
  | inr j =>
      let s := if sk_h s <? hw then with_h s hw else s in
      let '(s, w) := new_node s v hw in
      let* s := emp_link (S (sk_h s)) s w hw j in
      Some (with_size s (S (sk_size s)), (Some w, true))
  end.
(** erase, 308-338. The first loop, 312-320: u, and the level at which v was met *)
Fixpoint ers_search (k : nat) (s : skl) (v : T) (u : nat) : option (skl * nat * option nat) :=
  match k with
  | O => Some (s, u, None)
  | S r =>
      let* u := adv_val s (fun y => ltb y v) r u in
      let* x := hit s u r v in
      match x with Some _ => Some (s, u, Some r) | None => let* s := set_stack s r u in ers_search r s v u end
  end.
(** 323-325: the levels above, [k] of them from [lo] up *)
Definition ers_above (k lo : nat) (s : skl) : option skl :=
  for_down k lo (fun i s => let* t := get (sk_stack s) i in let* x := nxt s t i in
    match x with Some _ => let* l := len s t i in let* n := sub l 1 in set_len s t i n | None => Some s end) s.
(** 326-335: the levels [0, k); u is not moved any more *)
Fixpoint ers_below (k : nat) (s : skl) (v : T) (u : nat) : option skl :=
  match k with
  | O => Some s
  | S r =>
      let* x := hit s u r v in
      let* s := (match x with
                 | None => Some s
                 | Some w =>
                     let* y := nxt s w r in
                     let* n := (match y with Some _ => let* l := len s u r in let* lw := len s w r in sub (l + lw) 1 | None => Some 0 end) in
                     let* s := set_len s u r n in
                     set_nxt s u r y
                 end) in
      ers_below r s v u
  end.
Definition ss_erase (s : skl) (v : T) : option (skl * option nat) :=
  let* (su, lv) := ers_search (S (sk_h s)) s v 0 in
  let '(s, u) := su in
  let* s := (match lv with
             | None => Some s
             | Some r =>
                 let* n := sub (sk_size s) 1 in
                 let s := with_size s n in
                 let* s := ers_above (sk_h s - r) (S r) s in
                 ers_below (S r) s v u
             end) in
  let* x := nxt s u 0 in
  Some (s, x).

(** * Specification *)
(** the values from an iterator to the end *)
Inductive reads (s : skl) : option nat -> list T -> Prop :=
| rd_end : reads s None []
| rd_step it v it' l : it_deref s it = Some v -> it_next s it = Some it' -> reads s it' l -> reads s it (v :: l).
Definition sk_is (s : skl) (l : list T) : Prop := exists it, sk_begin s = Some it /\ reads s it l.
Definition put_at (l : list T) (i : nat) (v : T) : list T := firstn i l ++ v :: skipn i l.
Definition del_at (l : list T) (i : nat) : list T := firstn i l ++ skipn (S i) l.
End Skip.

(** Tests: heights 0,2,0,1,3 *)
Definition sk_walk {T} (s : skl T) : option (list T) :=
  (fix go k it := match k with O => None | S k => match it with None => Some [] | Some u => let* v := val s u in let* n := nxt s u 0 in let* r := go k n in Some (v :: r) end end)
    (S (S (length (sk_n s)))) (match sk_begin s with Some x => x | None => None end).
Example sk_test : (let* s := sk_of 0 [(0, 10); (2, 20); (0, 30); (1, 40); (3, 50)] in let* (s, _) := insert_at s 1 2 25 in let* (s, _) := erase_at s 1 in let* x := get_at s 2 in let* v := it_deref s x in let* l := sk_walk s in Some (l, v)) = Some ([10; 25; 30; 40; 50], 30).
Proof. vm_compute. reflexivity. Qed.
Example ss_test : (let ins s hv := let* s := s in let* (s, _) := ss_insert Nat.ltb Nat.eqb s (fst hv) (snd hv) in Some s in
  let* s := fold_left ins [(0, 30); (2, 10); (1, 20); (0, 40); (4, 20); (2, 25)] (Some (sk_new 0)) in let* l := sk_walk s in let* (s, _) := ss_erase Nat.ltb Nat.eqb s 10 in let* l2 := sk_walk s in Some (l, l2)) = Some ([10; 20; 25; 30; 40], [20; 25; 30; 40]).
Proof. vm_compute. reflexivity. Qed.
