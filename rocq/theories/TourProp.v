From Verif Require Import Base BaseLemmas.
From Verif Require GraphModel.
From Verif Require Import HldModel TreeGraph TourModel TourProof.

(** C59.  [euler_tour(root)] on a graph whose edges form a tree, whatever an earlier call left. *)
Theorem C59_euler_tour : forall (n : nat) (t : tree) (es : list (nat * nat)) (old : tours),
  tree_graph n t es ->
  exists G x, GraphModel.build n (both es) = Some G /\ euler_tour G old (root t) = Some x /\ is_tour n t es x.
Proof.
  intros n t es old TG. destruct (tree_build TG) as (G & E & En & Lg & _ & A). destruct (tour_ok G old TG En Lg A) as (x & Ex & H). eauto 10.
Qed.

Definition ex_t : tree := Node 2 [Node 0 [Node 4 []; Node 1 [Node 5 []]]; Node 3 []].
Definition ex_es : list (nat * nat) := [(0, 4); (3, 2); (1, 0); (2, 0); (1, 5)].
Lemma ex_graph : tree_graph 6 ex_t ex_es.
Proof.
  split.
  - apply NoDup_Permutation_bis; [cbn; repeat constructor; cbn; intuition lia|cbn; lia|]. intros x I. cbn in I. apply in_seq. intuition lia.
  - exists [(0, 4); (2, 3); (0, 1); (2, 0); (1, 5)]. split.
    + apply NoDup_Permutation_bis; [cbn; repeat constructor; cbn; intuition congruence|cbn; lia|]. intros x I. cbn in *. intuition congruence.
    + unfold flip_of. repeat (apply Forall2_cons; [cbn; auto|]). apply Forall2_nil.
Qed.
Example C59_example : (let* G := GraphModel.build 6 (both ex_es) in euler_tour G (Tours [9; 9] [7] [7; 7; 7; 7; 7; 7; 7; 7]) 2)
  = Some (Tours [2; 3; 2; 0; 4; 0; 1; 5; 1; 0; 2] [3; 6; 0; 1; 4; 7] [9; 8; 10; 1; 4; 7]).
Proof. vm_compute. reflexivity. Qed.

Print Assumptions C59_euler_tour.
