(** C39: ConvexHullTrickDeque (include/mtl/convex_hull_trick.hpp) *)
From Verif Require Import Base ChtModel ChtProof.
Local Open Scope Z_scope.

(** Any history of [push_back] with slopes beyond all present ones, [push_front] with
    slopes before all present ones, [clear] and queries: no assertion fails, nothing is
    accessed out of range, and every query answers the maximum (minimum for
    [std::greater]) over all lines pushed since the last [clear]; after an incremental
    query at [x] every later query must be at or above [x], after a decremental one at or
    below. *)
Theorem C39_cht_deque : forall (rev : bool) (w : Z) (h : list cht_op),
  1 < w -> Z.of_nat (length h) < 2 ^ (w - 1) -> legal rev [] None None h ->
  exists L out, cht_run rev w h = Some (L, out) /\ answers rev [] h out.
Proof.
  intros rev w h Hw Hlen Lg. destruct (run_ok rev w Hw h [] None None [] []) as (L & o & E & A); auto.
  - split; [apply hull_nil|]. split; [apply incl_refl|]. split; [auto|]. split; [cbn; lia|]. intros ? _ ? [].
  - exists L, o. split; auto.
Qed.

(** Querying before any push reads [L[0]] of an empty deque. *)
Theorem C39_empty_refuted : forall rev w x, 1 < w -> cht_get rev w [] x = None.
Proof.
  intros rev w x Hw. unfold cht_get, mach. assert (0 < 2 ^ (w - 1)) by (apply Z.pow_pos_nonneg; lia). cbn [length Z.of_nat].
  rewrite (proj2 (andb_true_iff _ _)) by (split; [apply Z.leb_le|apply Z.ltb_lt]; lia). cbn [obind]. unfold bisect. cbn [loop]. unfold mach. change (0 - 1 - -1) with 0. change (Z.abs 0) with 0.
  rewrite (proj2 (andb_true_iff _ _)) by (split; [apply Z.leb_le|apply Z.ltb_lt]; lia). cbn [obind].
  rewrite (proj2 (andb_true_iff _ _)) by (split; [apply Z.leb_le|apply Z.ltb_lt]; lia). reflexivity.
Qed.

Definition C39_hist : list cht_op :=
  [PushBack 0 5; PushBack 1 4; PushBack 2 0; PushFront (-3) 1; Get (-10); Get 3; GetInc 0; PushBack 5 (-20); Get 7; GetDec 6; Get 4].
Example C39_ex : legal false [] None None C39_hist /\ cht_run false 32 C39_hist = Some ([(0, 5); (1, 4); (2, 0)], [31; 7; 5; 15; 12; 8]).
Proof.
  split; [|vm_compute; reflexivity]. unfold C39_hist; cbn [legal beyond ask In fst].
  repeat split; try lia; try discriminate; intros l H; repeat (destruct H as [<-|H]; [cbn; lia|]); destruct H.
Qed.

Print Assumptions C39_cht_deque.
Print Assumptions C39_empty_refuted.
