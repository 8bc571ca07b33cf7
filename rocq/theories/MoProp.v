From Coq Require Import Permutation.
From Verif Require Import Base BaseLemmas MoModel MoProof.

(** C31.  For every list of queries with [l <= r], every implementation of
    std::sort and every block size: each query is reported exactly once, at its own
    window, and no pop ever removes anything but an end of the window.  With two or
    more queries some right end must be positive. *)
Theorem C31_mo : forall ceil_div srt qs, ceil_spec ceil_div -> sort_spec srt ->
  (forall l r, In (l, r) qs -> l <= r) -> (length qs <= 1 \/ exists l r, In (l, r) qs /\ 0 < r) ->
  exists segs tr, add_all qs = Some segs /\ solve ceil_div srt segs = Some tr /\ good_trace qs tr.
Proof.
  intros cd srt qs Hc Hs Hle Hp. destruct (add_all_ok qs Hle) as (segs & E & L & S).
  destruct (solve_ok cd srt segs qs Hle L S Hs Hc Hp) as (tr & Et & G). eauto.
Qed.

(** The same for any order in which the queries are visited. *)
Theorem C31_any_order : forall qs ids, (forall l r, In (l, r) qs -> l <= r) -> Permutation ids (seq 0 (length qs)) ->
  exists segs p tr, add_all qs = Some segs /\ visit segs ids = Some (p, tr) /\ good_trace qs tr.
Proof.
  intros qs ids Hle P. destruct (add_all_ok qs Hle) as (segs & E & L & S).
  destruct (visit_ok segs qs Hle L S ids) as (p & tr & Ev & R & Ok & St).
  { intros i Hi. apply (Permutation_in _ P), in_seq in Hi. lia. }
  exists segs, p, tr. split; [auto|]. split; [auto|]. split; [now rewrite R|]. auto.
Qed.

(** Two queries at the empty window [0,0): the block size is zero and the
    comparison divides by it. *)
Theorem C31_zero_refuted : forall ceil_div srt, ceil_spec ceil_div ->
  exists segs, add_all [(0, 0); (0, 0)] = Some segs /\ solve ceil_div srt segs = None.
Proof.
  intros cd srt Hc. exists [(0, 0, 0); (1, 0, 0)]; split; [reflexivity|]. unfold solve, calc_mos_move. cbn [q length Nat.eqb maxr map sg_r snd fold_left Nat.max].
  assert (E : cd 0 2 = 0) by (apply Hc; lia). rewrite E. reflexivity.
Qed.

Definition cdiv (n q : nat) : nat := let s := Nat.sqrt q in if s =? 0 then n else (n + s - 1) / s.
Lemma cdiv_spec : ceil_spec cdiv.
Proof.
  intros n q Hq. unfold cdiv. pose proof (Nat.sqrt_specif q) as Hs. set (s := Nat.sqrt q) in *.
  destruct (Nat.eqb_spec s 0) as [->|N]; [lia|]. split.
  - intros E. apply Nat.div_small_iff in E; lia.
  - intros ->. apply Nat.div_small. lia.
Qed.
Example C31_example :
  (let* segs := add_all [(1, 4); (0, 2); (3, 3); (2, 5)] in solve cdiv isort segs) =
  Some [PushR 0; PushR 1; Rem 1; PushR 2; PushR 3; PopL 0; Rem 0; PushR 4; PopL 1; Rem 3; PopL 2; PopR 4; PopR 3; Rem 2].
Proof. reflexivity. Qed.

(** C49.  The same for [solve_rollback], whose queries must not all have a zero
    right end. *)
Theorem C49_mo_rollback : forall ceil_div srt qs, ceil_spec ceil_div -> sort_spec srt ->
  (forall l r, In (l, r) qs -> l <= r) -> (qs = [] \/ exists l r, In (l, r) qs /\ 0 < r) ->
  exists segs tr, add_all qs = Some segs /\ solve_rollback ceil_div srt segs = Some tr /\ good_trace qs tr.
Proof.
  intros cd srt qs Hc Hs Hle Hp. destruct (add_all_ok qs Hle) as (segs & E & L & S).
  destruct (rollback_ok cd srt segs qs Hle L S Hs Hc Hp) as (tr & Et & G). eauto.
Qed.
(** A single query [0,0) divides by zero. *)
Theorem C49_zero_refuted : forall ceil_div srt, ceil_spec ceil_div ->
  exists segs, add_all [(0, 0)] = Some segs /\ solve_rollback ceil_div srt segs = None.
Proof.
  intros cd srt Hc. exists [(0, 0, 0)]; split; [reflexivity|]. unfold solve_rollback. cbn [q length Nat.eqb maxr map sg_r snd fold_left Nat.max].
  assert (E : cd 0 1 = 0) by (apply Hc; lia). rewrite E. reflexivity.
Qed.
Example C49_example :
  (let* segs := add_all [(1, 4); (0, 5); (3, 3); (2, 5)] in solve_rollback cdiv isort segs) =
  Some [Init; Rem 2; Init; PushR 3; Snapshot; PushL 2; PushL 1; Rem 0; Rollback; PushR 4; Snapshot; PushL 2; PushL 1; PushL 0; Rem 1; Rollback;
        Snapshot; PushL 2; Rem 3; Rollback].
Proof. reflexivity. Qed.
(** The contracts are satisfiable. *)
Example C49_contracts : ceil_spec cdiv /\ sort_spec isort.
Proof. split; [apply cdiv_spec|apply isort_spec]. Qed.

Print Assumptions C31_mo.
Print Assumptions C31_any_order.
Print Assumptions C31_zero_refuted.
Print Assumptions C49_mo_rollback.
Print Assumptions C49_zero_refuted.
