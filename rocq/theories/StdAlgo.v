(** Models of the C++ standard algorithms that several modules call, with the
    facts the standard guarantees about them. *)
From Coq Require Import Permutation Sorted.
From Verif Require Import Base BaseLemmas.

Set Implicit Arguments.

(** A strict total order given by a boolean [<]. *)
Record strict_order {T} (ltb : T -> T -> bool) : Prop := {
  so_irrefl : forall x, ltb x x = false;
  so_trans  : forall x y z, ltb x y = true -> ltb y z = true -> ltb x z = true;
  so_total  : forall x y, ltb x y = false -> ltb y x = false -> x = y
}.

Section Sort.
Variable T : Type.
Variable ltb : T -> T -> bool.

(** [std::sort(begin, end)]: under a strict total order the sorted permutation
    is unique, so any algorithm computes the same list. *)
Fixpoint sort_insert (x : T) (l : list T) : list T :=
  match l with
  | [] => [x]
  | y :: t => if ltb y x then y :: sort_insert x t else x :: l
  end.
Definition std_sort (l : list T) : list T := fold_right sort_insert [] l.

(** [erase(unique(begin, end), end)]: keeps the first of each run of equal
    neighbours; [eqb] is the [==] of the element type. *)
Variable eqb : T -> T -> bool.
Fixpoint std_unique (l : list T) : list T :=
  match l with
  | [] => []
  | x :: t =>
      match t with
      | [] => [x]
      | y :: _ => if eqb x y then std_unique t else x :: std_unique t
      end
  end.

Definition le (x y : T) := ltb y x = false.
Definition lt (x y : T) := ltb x y = true.

Hypothesis SO : strict_order ltb.

Lemma lt_asym x y : ltb x y = true -> ltb y x = false.
Proof.
  intros H; destruct (ltb y x) eqn:E; auto.
  rewrite <- (so_irrefl SO x). symmetry. now apply (so_trans SO) with y.
Qed.

Lemma le_trans x y z : le x y -> le y z -> le x z.
Proof.
  unfold le; intros H1 H2. destruct (ltb z x) eqn:E; auto.
  destruct (ltb x y) eqn:E1.
  - rewrite (so_trans SO z x y) in H2; auto.
  - assert (x = y) by now apply (so_total SO). subst. congruence.
Qed.

Lemma sort_insert_perm x l : Permutation (x :: l) (sort_insert x l).
Proof.
  induction l as [|y t IH]; simpl; auto.
  destruct (ltb y x); auto.
  eapply perm_trans; [apply perm_swap|]. now constructor.
Qed.

Lemma std_sort_perm l : Permutation l (std_sort l).
Proof.
  induction l as [|x t IH]; simpl; auto.
  eapply perm_trans; [|apply sort_insert_perm]. now constructor.
Qed.

Lemma sort_insert_sorted x l :
  StronglySorted le l -> StronglySorted le (sort_insert x l).
Proof.
  induction l as [|y t IH]; intros H; simpl.
  - constructor; auto.
  - apply StronglySorted_inv in H as [H1 H2].
    destruct (ltb y x) eqn:E.
    + constructor; auto. apply Forall_forall. intros z Hz.
      apply (Permutation_in _ (Permutation_sym (sort_insert_perm x t))) in Hz.
      destruct Hz as [<-|Hz].
      * unfold le. now apply lt_asym.
      * rewrite Forall_forall in H2; auto.
    + constructor; [constructor; auto|]. constructor; auto.
      rewrite Forall_forall in H2 |- *. intros z Hz.
      apply le_trans with y; auto.
Qed.

Lemma std_sort_sorted l : StronglySorted le (std_sort l).
Proof. induction l; simpl; [constructor|]. now apply sort_insert_sorted. Qed.

Hypothesis EQ : forall x y, eqb x y = true <-> x = y.

Lemma std_unique_In l x : In x (std_unique l) <-> In x l.
Proof.
  induction l as [|a t IH]; [reflexivity|].
  destruct t as [|b t]; [reflexivity|].
  change (std_unique (a :: b :: t)) with
    (if eqb a b then std_unique (b :: t) else a :: std_unique (b :: t)).
  destruct (eqb a b) eqn:E.
  - apply EQ in E as ->. rewrite IH. simpl. tauto.
  - simpl In in *. rewrite IH. tauto.
Qed.

Lemma std_unique_sorted l : StronglySorted le l -> StronglySorted lt (std_unique l).
Proof.
  induction l as [|a t IH]; intros H; [constructor|].
  apply StronglySorted_inv in H as [H1 H2].
  destruct t as [|b t]; [repeat constructor|].
  change (std_unique (a :: b :: t)) with
    (if eqb a b then std_unique (b :: t) else a :: std_unique (b :: t)).
  destruct (eqb a b) eqn:E; auto.
  constructor; auto.
  rewrite Forall_forall in *. intros z Hz. rewrite std_unique_In in Hz.
  assert (Hab : lt a b).
  { unfold lt. destruct (ltb a b) eqn:E1; auto.
    assert (Hle : le a b) by (apply H2; now left).
    assert (a = b) by now apply (so_total SO). subst.
    assert (eqb b b = true) by now apply EQ. congruence. }
  destruct Hz as [<-|Hz]; auto.
  assert (Hbz : le b z).
  { apply StronglySorted_inv in H1 as [_ H1]. rewrite Forall_forall in H1; auto. }
  unfold lt, le in *. destruct (ltb b z) eqn:E2; [now apply (so_trans SO) with b|].
  assert (b = z) by now apply (so_total SO). now subst.
Qed.

(** Sorted permutations are unique. *)
Lemma sorted_unique l l' :
  StronglySorted le l -> StronglySorted le l' -> Permutation l l' -> l = l'.
Proof.
  revert l'; induction l as [|a t IH]; intros l' H1 H2 P.
  - now apply Permutation_nil in P.
  - destruct l' as [|b t']; [now apply Permutation_sym, Permutation_nil in P|].
    apply StronglySorted_inv in H1 as [H1 F1]; apply StronglySorted_inv in H2 as [H2 F2].
    rewrite Forall_forall in *.
    assert (a = b).
    { assert (In a (b :: t')) by (eapply Permutation_in; [apply P|now left]).
      assert (In b (a :: t)) by (eapply Permutation_in; [apply Permutation_sym, P|now left]).
      destruct H as [->|H]; auto. destruct H0 as [->|H0]; auto.
      apply (so_total SO); [apply F2|apply F1]; auto. }
    subst. f_equal. apply IH; auto. now apply Permutation_cons_inv in P.
Qed.

End Sort.
