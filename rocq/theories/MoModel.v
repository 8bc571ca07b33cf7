(** Model of include/mtl/mo.hpp. The callbacks are recorded as a trace of events.
    Left ends are natural numbers; machine overflow is not modelled. *)
From Coq Require Import Permutation.
From Verif Require Import Base.

Set Implicit Arguments.

Inductive event :=
| PushL (i : nat) | PushR (i : nat) | PopL (i : nat) | PopR (i : nat) | Rem (t : nat)
| Init | Snapshot | Rollback.

(** mo.hpp:21-27: a segment is its number, left and right end *)
Definition seg := (nat * nat * nat)%type.
Definition sg_t (s : seg) := fst (fst s).
Definition sg_l (s : seg) := snd (fst s).
Definition sg_r (s : seg) := snd s.
(** mo.hpp:25-28 [add_segment], the assertion being a precondition *)
Definition add_segment (segs : list seg) (l r : nat) : option (list seg) :=
  if l <=? r then Some (segs ++ [(length segs, l, r)]) else None.
Definition add_all (qs : list (nat * nat)) : option (list seg) :=
  for_each qs (fun '(l, r) segs => add_segment segs l r) [].

(** An arbitrary implementation of std::sort, given the comparison. *)
Definition sorter := (nat -> nat -> bool) -> list nat -> list nat.
(** What std::sort promises for a strict weak order: a permutation in which no
    element compares less than its predecessor. *)
Definition weak_order {T} (ltb : T -> T -> bool) : Prop :=
  (forall x, ltb x x = false) /\
  (forall x y z, ltb x y = true -> ltb y z = true -> ltb x z = true) /\
  (forall x y z, ltb x y = false -> ltb y z = false -> ltb x z = false).
Definition sort_spec (srt : sorter) : Prop :=
  forall ltb l, weak_order ltb -> Permutation l (srt ltb l) /\
    forall l1 x y l2, srt ltb l = l1 ++ x :: y :: l2 -> ltb y x = false.

Section Mo.
(** mo.hpp:35-36, 130: [std::ceil((double)n / std::sqrt(q))] *)
Variable ceil_div : nat -> nat -> nat.
Variable srt : sorter.
Variable segs : list seg.

Definition sget (i : nat) : seg := nth i segs (0, 0, 0).
Definition q : nat := length segs.
(** mo.hpp:32-34 *)
Definition maxr : nat := fold_left Nat.max (map sg_r segs) 0.
(** mo.hpp:38-41 [get_bo], also [block_odd] 162-164 *)
Definition get_bo (b x : nat) : nat := let bf := b - b / 2 in if x <? bf then 0 else (x - bf) / b + 1.
(** mo.hpp:42-53 [EvenComp], [OddComp] with the block of a left end *)
Definition mo_comp (block : nat -> nat) (u v : nat) : bool :=
  let s := sget u in let t := sget v in
  let bs := block (sg_l s) in let bt := block (sg_l t) in
  if negb (bs =? bt) then sg_l s <? sg_l t
  else if bs mod 2 =? 0 then sg_r s <? sg_r t else sg_r t <? sg_r s.
Definition absdiff (x y : nat) : nat := (x - y) + (y - x).
(** mo.hpp:62-70 *)
Definition move_distance (ids : list nat) : nat :=
  list_sum (map (fun '(j, k) => absdiff (sg_l (sget j)) (sg_l (sget k)) + absdiff (sg_r (sget j)) (sg_r (sget k)))
                (combine ids (tl ids))).
(** mo.hpp:30-73 [calc_mos_move]. The comparisons divide by [b]; a sort of two
    or more elements evaluates its comparison at least once. *)
Definition calc_mos_move : option (list nat) :=
  let b := ceil_div maxr q in
  if (b =? 0) && (2 <=? q) then None
  else
    let IE := srt (mo_comp (fun x => x / b)) (seq 0 q) in
    let IO := srt (mo_comp (get_bo b)) IE in
    Some (if move_distance IO <? move_distance IE then IO else IE).

(** The four [while] loops of mo.hpp:84-91 for one segment *)
Definition move_to (l r : nat) (st : nat * nat * list event) : option (nat * nat * list event) :=
  let '(l0, r0, tr) := st in
  let* (l0, tr) := loop (S l0) (fun '(l0, tr) => if l <? l0 then Some (inl (l0 - 1, tr ++ [PushL (l0 - 1)])) else Some (inr (l0, tr))) (l0, tr) in
  let* (r0, tr) := loop (S r) (fun '(r0, tr) => if r0 <? r then Some (inl (r0 + 1, tr ++ [PushR r0])) else Some (inr (r0, tr))) (r0, tr) in
  let* (l0, tr) := loop (S l) (fun '(l0, tr) => if l0 <? l then Some (inl (l0 + 1, tr ++ [PopL l0])) else Some (inr (l0, tr))) (l0, tr) in
  let* (r0, tr) := loop (S r0) (fun '(r0, tr) => if r <? r0 then Some (inl (r0 - 1, tr ++ [PopR (r0 - 1)])) else Some (inr (r0, tr))) (r0, tr) in
  Some (l0, r0, tr).
(** mo.hpp:80-94, given the visiting order *)
Definition visit (ids : list nat) : option (nat * nat * list event) :=
  for_each ids (fun i '(l0, r0, tr) =>
    let* s := get segs i in
    let* (p, tr) := move_to (sg_l s) (sg_r s) (l0, r0, tr) in
    Some (p, tr ++ [Rem (sg_t s)])) (0, 0, []).
(** mo.hpp:75-95 [solve]: the trace of callbacks *)
Definition solve : option (list event) :=
  if q =? 0 then Some []
  else
    let* ids := calc_mos_move in
    let* (_, tr) := visit ids in
    Some tr.

(** mo.hpp:97-105: the comparison of [calc_mos_rollback_move] *)
Definition rb_comp (block : nat -> nat) (u v : nat) : bool :=
  let s := sget u in let t := sget v in
  if negb (block (sg_l s) =? block (sg_l t)) then sg_l s <? sg_l t else sg_r s <? sg_r t.
(** mo.hpp:106-123: the cost of an order *)
Definition rb_dist (block bend : nat -> nat) (idx : list nat) : Z :=
  fst (fold_left (fun '(dist, (cb, r0)) i =>
    let s := sget i in
    let bi := block (sg_l s) in
    let be := bend bi in
    let r0 := if match cb with Some c => c =? bi | None => false end then r0 else be in
    ((dist + (Z.of_nat (sg_r s) - Z.of_nat r0) + (Z.of_nat be - Z.of_nat (sg_l s)))%Z, (Some bi, sg_r s))) idx (0%Z, (None, 0))).
(** mo.hpp:97-125 [calc_mos_rollback_move]: the order with its blocks, and its cost *)
Definition calc_rb (block bend : nat -> nat) (idx : list nat) : list (nat * (nat * nat)) * Z :=
  let idx := srt (rb_comp block) idx in
  (map (fun i => let bi := block (sg_l (sget i)) in (i, (bi, bend bi))) idx, rb_dist block bend idx).
(** mo.hpp:141-147: a short segment is answered from scratch *)
Definition push_range (l r : nat) (tr : list event) : option (list event) :=
  let* (_, tr) := loop (S r) (fun '(j, tr) => if j <? r then Some (inl (j + 1, tr ++ [PushR j])) else Some (inr (j, tr))) (l, tr) in
  Some tr.
(** mo.hpp:138-151 *)
Definition short_ones (b : nat) : option (list nat * list event) :=
  for_up q 0 (fun i '(J, tr) =>
    let* s := get segs i in
    if sg_r s - sg_l s <? b then
      let* tr := push_range (sg_l s) (sg_r s) (tr ++ [Init]) in
      Some (J, tr ++ [Rem (sg_t s)])
    else Some (J ++ [i], tr)) ([], []).
(** mo.hpp:181-206: one long segment *)
Definition rb_step (b : nat) (x : nat * (nat * nat)) (st : option nat * nat * list event) : option (option nat * nat * list event) :=
  let '(i, (bi, be)) := x in
  let '(cb, r0, tr) := st in
  let* s := get segs i in
  let '(r0, tr) := if match cb with Some c => c =? bi | None => false end then (r0, tr) else (be, tr ++ [Init]) in
  let* _ := guard (r0 <=? sg_r s) in
  let* (r0, tr) := loop (S (sg_r s)) (fun '(r0, tr) => if r0 <? sg_r s then Some (inl (r0 + 1, tr ++ [PushR r0])) else Some (inr (r0, tr))) (r0, tr) in
  let tr := tr ++ [Snapshot] in
  let* _ := guard (sg_l s <=? be) in
  let* _ := guard (be - sg_l s <=? b) in
  let* (_, tr) := loop (S be) (fun '(l0, tr) => if sg_l s <? l0 then Some (inl (l0 - 1, tr ++ [PushL (l0 - 1)])) else Some (inr (l0, tr))) (be, tr) in
  Some (Some bi, r0, tr ++ [Rem (sg_t s); Rollback]).
(** mo.hpp:127-208 [solve_rollback] *)
Definition solve_rollback : option (list event) :=
  if q =? 0 then Some []
  else
    let b := ceil_div maxr q in
    let* (J, tr) := short_ones b in
    if (b =? 0) && negb (length J =? 0) then None
    else
      let bf := b - b / 2 in
      let '(even, de) := calc_rb (fun x => x / b) (fun bi => (bi + 1) * b) J in
      (* [K = J]: the order left by the first call *)
      let '(odd, do_) := calc_rb (get_bo b) (fun bi => bf + bi * b) (map fst even) in
      let* (_, tr) := for_each (if (do_ <? de)%Z then odd else even) (rb_step b) (None, 0, tr) in
      Some tr.
End Mo.

(** ** Specification *)
(** What the callbacks have built: the current window as a list of indices and
    the saved one. A pop must remove an end of the window. *)
Fixpoint replay (tr : list event) (st : list nat * option (list nat)) : option (list nat * option (list nat)) :=
  match tr with
  | [] => Some st
  | e :: tr =>
      let '(win, saved) := st in
      match e with
      | PushL i => replay tr (i :: win, saved)
      | PushR i => replay tr (win ++ [i], saved)
      | PopL i => match win with j :: w => if i =? j then replay tr (w, saved) else None | [] => None end
      | PopR i => match rev win with j :: w => if i =? j then replay tr (rev w, saved) else None | [] => None end
      | Rem _ => replay tr st
      | Init => replay tr ([], saved)
      | Snapshot => replay tr (win, Some win)
      | Rollback => match saved with Some w => replay tr (w, None) | None => None end
      end
  end.
(** The numbers reported, in order. *)
Definition reports (tr : list event) : list nat :=
  flat_map (fun e => match e with Rem t => [t] | _ => [] end) tr.
(** Every query is reported exactly once, at its own window, and no pop or
    rollback is ever misplaced. *)
Definition good_trace (qs : list (nat * nat)) (tr : list event) : Prop :=
  Permutation (reports tr) (seq 0 (length qs)) /\
  (exists st, replay tr ([], None) = Some st) /\
  forall pre t post, tr = pre ++ Rem t :: post ->
    exists l r saved, nth_error qs t = Some (l, r) /\ replay pre ([], None) = Some (seq l (r - l), saved).
(** The contract of the floating-point block size used below. *)
Definition ceil_spec (ceil_div : nat -> nat -> nat) : Prop := forall n q, 0 < q -> (ceil_div n q = 0 <-> n = 0).
