(** C48: SegmentTree2D (include/mtl/segment_tree_2d.hpp) *)
From Verif Require Import Base BaseLemmas SegTreeModel Seg2dModel Seg2dProof.

(** After any history of [set] calls on an [n * m] tree every query returns the product of
    the entries of the rectangle. *)
Theorem C48_segment_tree_2d : forall A (op : A -> A -> A) e, cmonoid_laws op e ->
  forall n m (h : list (nat * nat * A)),
  (forall i j v, In (i, j, v) h -> i < n /\ j < m) ->
  exists s, s2_sets op (s2_new e n m) h = Some s /\
    forall rl cl rr cr, rl <= rr -> rr <= n -> cl <= cr -> cr <= m ->
      s2_query op e s rl cl rr cr = Some (product op e (rect (grid_sets (repeat (repeat e m) n) h) rl cl rr cr)).
Proof.
  intros A op e CM n m h H. destruct (@sets_rep2 A op e h (s2_new e n m) (repeat (repeat e m) n) (new_rep2 CM n m) H) as (s & E & R & Hn & Hm).
  exists s. split; [exact E|]. intros rl cl rr cr H1 H2 H3 H4. cbn in Hn, Hm. apply (query_rep2 CM R); lia.
Qed.

(** The commutativity is needed: for words under concatenation the tree answers with the
    entries of the columns one after the other. *)
Theorem C48_commutativity_needed :
  exists h : list (nat * nat * list nat), exists s, s2_sets (@app nat) (s2_new [] 2 2) h = Some s /\
    s2_query (@app nat) [] s 0 0 2 2 <> Some (product (@app nat) [] (rect (grid_sets (repeat (repeat [] 2) 2) h) 0 0 2 2)).
Proof.
  exists [(0, 0, [1]); (0, 1, [2]); (1, 0, [3]); (1, 1, [4])]. eexists. split; [vm_compute; reflexivity|]. vm_compute. discriminate.
Qed.

Example C48_ex : exists s, s2_sets Nat.add (s2_new 0 3 5) [(0, 0, 7); (2, 4, 1); (1, 3, 10); (2, 2, 100); (1, 3, 20)] = Some s /\
  s2_query Nat.add 0 s 1 2 3 5 = Some 121 /\ s2_query Nat.add 0 s 0 0 3 4 = Some 127 /\ s2_query Nat.add 0 s 1 1 1 3 = Some 0.
Proof. eexists. split; [vm_compute; reflexivity|]. vm_compute. auto. Qed.

Print Assumptions C48_segment_tree_2d.
Print Assumptions C48_commutativity_needed.
