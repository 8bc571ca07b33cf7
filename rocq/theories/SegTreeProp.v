(** Properties C01 and C02: segment_tree.hpp. *)
From Verif Require Import Base BaseLemmas SegTreeModel SegTreeProof.

(** C01, contents given by a range. *)
Theorem C01_segment_tree_range : forall A (op : A -> A -> A) e, monoid_laws op e ->
  forall (xs : list A) (h : list (nat * A)),
  (forall i x, In (i, x) h -> i < length xs) ->
  exists s0 s, st_build op e xs = Some s0 /\ st_sets op s0 h = Some s /\
    (forall i, i < length xs -> st_get s i = get (list_updates xs h) i) /\
    (forall l r, l <= r -> r <= length xs ->
      st_query op e s l r = Some (product op e (slice l r (list_updates xs h)))).
Proof.
  intros A op e M xs h Hh.
  destruct (build_rep M xs) as (s0 & E0 & R0).
  destruct (sets_rep h R0 Hh) as (s & E & R).
  exists s0, s. repeat split; auto.
  - intros i Hi. unfold st_get. pose proof R as (Es & _). rewrite Es. apply (rep_leaf _ R).
  - intros l r Hl Hr. apply (query_correct M R); auto. rewrite list_updates_length; auto.
Qed.
Print Assumptions C01_segment_tree_range.

(** C01, tree created with a size. *)
Theorem C01_segment_tree_sized : forall A (op : A -> A -> A) e, monoid_laws op e ->
  forall n (h : list (nat * A)),
  (forall i x, In (i, x) h -> i < n) ->
  exists s, st_sets op (st_new e n) h = Some s /\
    (forall i, i < n -> st_get s i = get (list_updates (repeat e n) h) i) /\
    (forall l r, l <= r -> r <= n ->
      st_query op e s l r = Some (product op e (slice l r (list_updates (repeat e n) h)))).
Proof.
  intros A op e M n h Hh.
  destruct (sets_rep h (rep_new M n)) as (s & E & R).
  { rewrite repeat_length. auto. }
  exists s. repeat split; auto.
  - intros i Hi. unfold st_get. pose proof R as (Es & _). rewrite Es. apply (rep_leaf _ R).
  - intros l r Hl Hr. apply (query_correct M R); auto. rewrite list_updates_length, repeat_length; auto.
Qed.
Print Assumptions C01_segment_tree_sized.

(** C02: for any predicate true on the identity, the reported boundary is a
    boundary; see the next theorem for monotone predicates. *)
Theorem C02_max_right_boundary : forall A (op : A -> A -> A) e, monoid_laws op e ->
  forall (xs : list A) (h : list (nat * A)) (f : A -> bool),
  (forall i x, In (i, x) h -> i < length xs) -> f e = true ->
  exists s0 s, st_build op e xs = Some s0 /\ st_sets op s0 h = Some s /\
    forall b en, b <= en -> en <= length xs ->
    let P l r := f (product op e (slice l r (list_updates xs h))) in
    (exists q, st_max_right op e f s b en = Some q /\ b <= q <= en /\
       P b q = true /\ (q = en \/ P b (S q) = false)) /\
    (exists q, st_min_left op e f s b en = Some q /\ b <= q <= en /\
       P q en = true /\ (q = b \/ 1 <= q /\ P (q - 1) en = false)).
Proof.
  intros A op e M xs h f Hh Fe.
  destruct (build_rep M xs) as (s0 & E0 & R0).
  destruct (sets_rep h R0 Hh) as (s & E & R).
  exists s0, s. split; auto. split; auto. intros b en Hb Hen P.
  assert (en <= length (list_updates xs h)) by (rewrite list_updates_length; auto).
  split.
  - apply (max_right_correct M f R); auto.
  - apply (min_left_correct M f R); auto.
Qed.
Print Assumptions C02_max_right_boundary.

(** C02 for a predicate that is monotone on the searched ranges: the answer is
    the largest right end / smallest left end. *)
Theorem C02_max_right_largest : forall A (op : A -> A -> A) e, monoid_laws op e ->
  forall (xs : list A) (f : A -> bool), f e = true ->
  exists s, st_build op e xs = Some s /\
    forall b en, b <= en -> en <= length xs ->
    let P l r := f (product op e (slice l r xs)) in
    ((forall i j, b <= i <= j -> j <= en -> P b j = true -> P b i = true) ->
     exists q, st_max_right op e f s b en = Some q /\ b <= q <= en /\
       forall i, b <= i <= en -> (P b i = true <-> i <= q)) /\
    ((forall i j, b <= i <= j -> j <= en -> P i en = true -> P j en = true) ->
     exists q, st_min_left op e f s b en = Some q /\ b <= q <= en /\
       forall i, b <= i <= en -> (P i en = true <-> q <= i)).
Proof.
  intros A op e M xs f Fe.
  destruct (build_rep M xs) as (s & E & R).
  exists s. split; auto. intros b en Hb Hen P. split; intros Mono.
  - destruct (max_right_correct M f R Hb Hen Fe) as (q & Eq & Hq & T & B).
    exists q. repeat split; try tauto; intros.
    + destruct B as [->|B]; [lia|]. destruct (Nat.le_gt_cases i q); auto.
      exfalso. enough (P b (S q) = true) by (unfold P in *; congruence).
      apply Mono with i; auto; lia.
    + apply Mono with q; auto; lia.
  - destruct (min_left_correct M f R Hb Hen Fe) as (q & Eq & Hq & T & B).
    exists q. repeat split; try tauto; intros.
    + destruct B as [->|(B1 & B)]; [lia|]. destruct (Nat.le_gt_cases q i); auto.
      exfalso. enough (P (q-1) en = true) by (unfold P in *; congruence).
      apply Mono with i; auto; lia.
    + apply Mono with q; auto; lia.
Qed.
Print Assumptions C02_max_right_largest.

(** Non-vacuity: the free monoid (not commutative) on a tree of size 5. *)
Example list_monoid : monoid_laws (@app nat) [].
Proof. split; intros; rewrite ?app_assoc, ?app_nil_r; reflexivity. Qed.

Example C01_example :
  (let* s := st_build (@app nat) [] [[1];[2];[3];[4];[5]] in
   let* s := st_sets (@app nat) s [(2,[7;8]); (0,[])] in
   st_query (@app nat) [] s 0 4) = Some [2;7;8;4].
Proof. reflexivity. Qed.

Example C02_example :
  let f (l : list nat) := length l <=? 3 in
  (let* s := st_build (@app nat) [] [[1];[2];[3];[4];[5];[6];[7]] in
   let* a := st_max_right (@app nat) [] f s 1 7 in
   let* b := st_min_left (@app nat) [] f s 0 6 in Some (a, b)) = Some (4, 3).
Proof. reflexivity. Qed.
