(** Properties C06, C07 and C08: the lazy and the dual segment tree. *)
From Verif Require Import Base BaseLemmas Array2 FenwickModel FenwickProof LazySegModel LazySegSpec LazySegIds LazySegProof LazySegProof2 DualSegProof.

(** [comp a b] acts as [a] first, then [b]. *)
Record action_laws {M A} (op : M -> M -> M) (comp : A -> A -> A) (aid : A) (act : A -> M -> M) : Prop := {
  act_unit : forall v, act aid v = v;
  act_compose : forall a b v, act (comp a b) v = act b (act a v);
  act_distr : forall a x y, act a (op x y) = op (act a x) (act a y)
}.

(** Tree built from a list; every history of range updates, range queries and
    reads returns what the same history returns on the plain list. *)
Theorem C06_lazy_segment_tree : forall M A (op : M -> M -> M) (e : M) (comp : A -> A -> A) (aid : A) (act : A -> M -> M),
  monoid_laws op e -> action_laws op comp aid act ->
  forall (xs : list M) (h : list (lz_op M A)),
  1 <= length xs -> (N.of_nat (4 * length xs) < 2^64)%N ->
  Forall (fun c => ~ is_set c /\ lz_valid (length xs) c) h ->
  exists T T' vs, lz_build op e aid xs = Some T /\
    lz_run op e comp aid act T h = Some (T', vs) /\ map Some vs = snd (spec_run op e act xs h).
Proof.
  intros M A op e comp aid act Mon [L1 L2 L3] xs h Hx Hs Hh.
  destruct (@build_ok M A op e comp aid act L1 L2 L3 xs Hx) as (n & t & E & Hn & R & C).
  destruct (@run_ok M A op e comp aid act Mon L1 L2 L3 n) with (h := h) (t := t) (xs := xs) as (T & vs & E2 & V); auto; try lia.
  { unfold small. lia. }
  exists (mk_lz n t), T, vs. auto.
Qed.
Print Assumptions C06_lazy_segment_tree.

(** The same for a tree of the default value. *)
Theorem C06_lazy_segment_tree_sized : forall M A (op : M -> M -> M) (e : M) (comp : A -> A -> A) (aid : A) (act : A -> M -> M),
  monoid_laws op e -> action_laws op comp aid act ->
  forall n (h : list (lz_op M A)),
  1 <= n -> (N.of_nat (4 * n) < 2^64)%N ->
  Forall (fun c => ~ is_set c /\ lz_valid n c) h ->
  exists T T' vs, lz_new e aid n = Some T /\
    lz_run op e comp aid act T h = Some (T', vs) /\ map Some vs = snd (spec_run op e act (repeat e n) h).
Proof.
  intros M A op e comp aid act Mon [L1 L2 L3] n0 h Hx Hs Hh.
  destruct (@new_rep M A op e comp aid act Mon L1 L2 L3 n0 Hx) as (n & t & E & Hn & R & C).
  destruct (@run_ok M A op e comp aid act Mon L1 L2 L3 n) with (h := h) (t := t) (xs := repeat e n0) as (T & vs & E2 & V); auto; try lia.
  { unfold small. lia. }
  { now rewrite repeat_length. }
  exists (mk_lz n t), T, vs. auto.
Qed.
Print Assumptions C06_lazy_segment_tree_sized.

(** Non-commutative values (strings) under non-commutative operators
    (functions [x -> a x + b] on every letter, composed left to right). *)
Example C06_case :
  option_map snd (let* T := lz_build (@app nat) [] (1, 0) [[1]; [2]; [3]; [4]; [5]] in
   lz_run (@app nat) [] (fun f g => (fst f * fst g, snd f * fst g + snd g)) (1, 0) (fun f => map (fun x => fst f * x + snd f)) T
     [LUpdate _ 1 4 (2, 1); LQuery _ _ 0 5; LUpdate _ 0 3 (3, 0); LUpdate _ 2 5 (1, 10); LGet _ _ 2; LQuery _ _ 1 5])
  = Some [[1; 5; 7; 9; 5]; [31]; [15; 31; 19; 15]].
Proof. vm_compute. auto. Qed.

(** Assignments that come before the first update are right, and so is
    everything that follows them. *)
Theorem C07_lazy_set_before_updates : forall M A (op : M -> M -> M) (e : M) (comp : A -> A -> A) (aid : A) (act : A -> M -> M),
  monoid_laws op e -> action_laws op comp aid act ->
  forall (xs : list M) (h1 h2 : list (lz_op M A)),
  1 <= length xs -> (N.of_nat (4 * length xs) < 2^64)%N ->
  Forall (fun c => ~ is_update c /\ lz_valid (length xs) c) h1 ->
  Forall (fun c => ~ is_set c /\ lz_valid (length xs) c) h2 ->
  exists T T' vs, lz_build op e aid xs = Some T /\
    lz_run op e comp aid act T (h1 ++ h2) = Some (T', vs) /\ map Some vs = snd (spec_run op e act xs (h1 ++ h2)).
Proof.
  intros M A op e comp aid act Mon [L1 L2 L3] xs h1 h2 Hx Hs H1 H2.
  destruct (@build_ok M A op e comp aid act L1 L2 L3 xs Hx) as (n & t & E & Hn & R & C).
  destruct (@run_set_ok M A op e comp aid act Mon L1 L2 L3 n) with (h1 := h1) (h2 := h2) (t := t) (xs := xs) as (T & vs & E2 & V); auto; try lia.
  { unfold small. lia. }
  exists (mk_lz n t), T, vs. auto.
Qed.
Print Assumptions C07_lazy_set_before_updates.

Example C07_case :
  option_map snd (let* T := lz_build Nat.max 0 0 [3; 1; 4] in
   lz_run Nat.max 0 Nat.add 0 Nat.add T [LQuery _ _ 0 3; LSet _ 1 7; LGet _ _ 1; LQuery _ _ 0 3; LUpdate _ 0 2 5; LQuery _ _ 0 3])
  = Some [4; 7; 7; 12].
Proof. vm_compute. auto. Qed.

(** With an update before the assignment the property fails: after
    [update(0,2,+5); set(0,10)] on [0;0] the code reads 15 at position 0. *)
Theorem C07_lazy_set_refuted :
  exists (M A : Type) (op : M -> M -> M) (e : M) (comp : A -> A -> A) (aid : A) (act : A -> M -> M) (xs : list M) (h : list (lz_op M A)),
  monoid_laws op e /\ action_laws op comp aid act /\ Forall (lz_valid (length xs)) h /\
  exists T T' vs, lz_build op e aid xs = Some T /\ lz_run op e comp aid act T h = Some (T', vs) /\
    map Some vs <> snd (spec_run op e act xs h).
Proof.
  exists nat, nat, Nat.max, 0, Nat.add, 0, Nat.add, [0; 0], [LUpdate _ 0 2 5; LSet _ 0 10; LGet _ _ 0].
  split; [split; intros; lia|]. split; [split; intros; lia|].
  split; [repeat constructor; simpl; lia|].
  eexists _, _, _. split; [reflexivity|]. split; [vm_compute; reflexivity|]. vm_compute. discriminate.
Qed.
Print Assumptions C07_lazy_set_refuted.

(** The range queries after such a [set] are wrong too. *)
Example C07_query_refuted :
  option_map snd (let* T := lz_build Nat.max 0 0 [0; 0; 0; 0] in
   lz_run Nat.max 0 Nat.add 0 Nat.add T [LUpdate _ 0 4 5; LSet _ 0 1; LQuery _ _ 0 4]) = Some [1]
  /\ snd (spec_run Nat.max 0 Nat.add [0; 0; 0; 0] [LUpdate _ 0 4 5; LSet _ 0 1; LQuery _ _ 0 4]) = [Some 5].
Proof. vm_compute. auto. Qed.

Theorem C08_dual_segment_tree : forall M (op : M -> M -> M) (e : M), monoid_laws op e ->
  forall (xs : list M) (h : list (du_op M)),
  1 <= length xs -> (N.of_nat (2 * length xs) < 2^64)%N ->
  Forall (du_valid (length xs)) h ->
  exists T vs, du_run op e (du_build e xs) h = Some (T, vs) /\ map Some vs = dual_spec op xs h.
Proof.
  intros M op e Mon xs h Hx Hs Hh.
  destruct (@dbuild_ok M op e Mon xs Hx) as (t & E & R). rewrite E.
  apply drun_ok; auto.
Qed.
Print Assumptions C08_dual_segment_tree.

Theorem C08_dual_segment_tree_sized : forall M (op : M -> M -> M) (e : M), monoid_laws op e ->
  forall n (h : list (du_op M)),
  1 <= n -> (N.of_nat (2 * n) < 2^64)%N ->
  Forall (du_valid n) h ->
  exists T vs, du_run op e (du_new e n) h = Some (T, vs) /\ map Some vs = dual_spec op (repeat e n) h.
Proof.
  intros M op e Mon n h Hx Hs Hh.
  replace (du_new e n) with (du_build e (repeat e n)).
  - apply C08_dual_segment_tree; rewrite ?repeat_length; auto.
  - unfold du_build, du_new. rewrite repeat_length. f_equal. rewrite <- repeat_app. f_equal. lia.
Qed.
Print Assumptions C08_dual_segment_tree_sized.

(** What [get(i)] returns, said without the list: the operators that cover
    [i] since the last [set] of [i], in the order of the calls. *)
Fixpoint since_set {M} (i : nat) (acc : list M) (h : list (du_op M)) : list M :=
  match h with
  | [] => acc
  | DUpdate l r f :: h => since_set i (if (l <=? i) && (i <? r) then acc ++ [f] else acc) h
  | DGet _ _ :: h => since_set i acc h
  | DSet j x :: h => since_set i (if j =? i then [x] else acc) h
  end.

Lemma dual_spec_last M (op : M -> M -> M) (e : M) (Mon : monoid_laws op e) i : forall h xs acc,
  Forall (du_valid (length xs)) h -> i < length xs -> get xs i = Some (product op e acc) ->
  last (dual_spec op xs (h ++ [DGet _ i])) None = Some (product op e (since_set i acc h)).
Proof.
  induction h as [|c h IH]; intros xs acc Hh Hi Ha; [exact Ha|].
  inversion Hh as [|? ? V Hh']; subst. destruct c as [l r f|j|j x]; simpl in V; cbn [app dual_spec since_set].
  - apply IH; rewrite ?map_range_length; auto. rewrite (get_map_range _ _ _ V Ha).
    destruct (_ && _); auto. now rewrite (product_app Mon), (product_one Mon).
  - assert (NE : dual_spec op xs (h ++ [DGet M i]) <> []).
    { clear - h. revert xs. induction h as [|[l r f|k|k x] h IH]; intros; simpl; auto; discriminate. }
    destruct (dual_spec op xs (h ++ [DGet M i])) eqn:Q; [congruence|]. rewrite <- (IH xs acc); auto. now rewrite Q.
  - apply IH; rewrite ?lset_length; auto. rewrite get_lset. replace (j <? length xs) with true by lia. rewrite andb_true_r.
    destruct (j =? i); auto. f_equal. symmetry. apply (product_one Mon).
Qed.

Theorem C08_dual_get_composition : forall M (op : M -> M -> M) (e : M), monoid_laws op e ->
  forall (xs : list M) (h : list (du_op M)) i x0,
  (N.of_nat (2 * length xs) < 2^64)%N -> Forall (du_valid (length xs)) h -> get xs i = Some x0 ->
  exists T vs v, du_run op e (du_build e xs) (h ++ [DGet _ i]) = Some (T, vs) /\
    last (map Some vs) None = Some v /\ v = product op e (since_set i [x0] h).
Proof.
  intros M op e Mon xs h i x0 Hs Hh Hi. pose proof (get_some_lt _ _ Hi).
  destruct (@C08_dual_segment_tree M op e Mon xs (h ++ [DGet _ i])) as (T & vs & E & V); auto; [lia| |].
  - apply Forall_app; split; auto.
  - eexists T, vs, _. split; auto. split; [|reflexivity]. rewrite V. apply dual_spec_last with (e := e) (acc := [x0]); auto.
    now rewrite (product_one Mon).
Qed.
Print Assumptions C08_dual_get_composition.

Example C08_case :
  option_map snd (du_run (@app nat) [] (du_build [] [[0]; [10]; [20]])
    [DUpdate 0 3 [1]; DUpdate 1 3 [2]; DGet _ 1; DSet 1 [5]; DUpdate 0 2 [3]; DGet _ 1; DGet _ 0; DGet _ 2])
  = Some [[10; 1; 2]; [5; 3]; [0; 1; 3]; [20; 1; 2]].
Proof. vm_compute. auto. Qed.
