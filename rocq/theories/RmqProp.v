(** * C85, C86, C87: range minimum queries (range_minimum_query.hpp) *)
From Verif Require Import Base BaseLemmas Order SparseModel BitModel BmapModel BmapProof BvModel RmqModel RmqWord RmqTree RmqParens RmqProof.

(** [rmq64] of any word is the first position (from the lowest bit) where the excess of the ones
    over the zeros is minimal, and that excess. *)
Theorem C85_rmq64 w : word64 w -> exists a, rmq64 w = Some (a, exc (bits 64 w) a) /\ leftmin (exc (bits 64 w)) 0 64 a.
Proof. apply rmq64_ok. Qed.
Print Assumptions C85_rmq64.
Example C85_case : rmq64 0xFF0F = Some (63, (-40)%Z) /\ rmq64 0xFFFFFFFFFFFFF0FF = Some (0, 1%Z) /\ rmq64 0xFFFFFFFFFFFF00E6 = Some (15, (-6)%Z).
Proof. vm_compute. auto. Qed.

(** The constructor of [DecaltTree] on any sequence: the links of its nodes form one binary tree
    (with the parent links that belong to it), whose nodes from left to right are [0, 1, ...], and
    every node is smaller than those in its left subtree and not larger than those in its right
    subtree: the Cartesian tree, the first of equal elements above the others. *)
Theorem C86_cartesian_tree T (ltb : T -> T -> bool) : weak_order ltb -> forall dflt a,
  exists d t, decalt_build T ltb a = Some d /\ length (d_nodes d) = length a /\
  linked (d_nodes d) None (d_root d) t /\ inord t = seq 0 (length a) /\ heap ltb (fun i => nth i a dflt) t.
Proof. intros W dflt a. exact (decalt_ok W dflt a). Qed.
Print Assumptions C86_cartesian_tree.
(** [traverse_right_path_to_children] on any tree writes its parentheses into the bit vector. *)
Theorem C86_parentheses d t : linked (d_nodes d) None (d_root d) t -> length (inord t) = length (d_nodes d) ->
  exists b b', bm_resize (Bm [] 0) (2 * (length (d_nodes d) + 1)) false = Some b /\ parens d b = Some b' /\
  bm_iterate b' = Some (true :: pbits t ++ [false]).
Proof.
  intros L N. destruct (@resize_ok (Bm [] 0) [] (2 * (length (d_nodes d) + 1)) false) as (b & E & _ & _); [repeat split; cbn; auto; intros; lia|cbn; lia|].
  destruct (@parens_ok t d b L N E) as (b' & E' & I & _). exists b, b'. split; auto. split; auto. now apply iterate_ok.
Qed.
Print Assumptions C86_parentheses.
Example C86_case : (let* d := decalt_build nat Nat.ltb [2; 4; 3; 5; 1; 8; 6; 7; 9] in
    let* b := bm_resize (Bm [] 0) 20 false in let* b := parens d b in let* l := bm_iterate b in Some (d_root d, map (fun b : bool => if b then 1 else 0) l))
  = Some (Some 4, [1;1;1;0;1;1;0;0;1;0;0;1;1;0;0;1;0;1;0;0]).
Proof. vm_compute. reflexivity. Qed.

(** [Rmq] over any non-empty sequence, with any recursion height: the construction succeeds, and
    [rmq(l, r)] is the first position of a minimum of the elements [l, ..., r - 1]. *)
Theorem C87_rmq h T (ltb : T -> T -> bool) : weak_order ltb -> forall dflt a, 0 < length a ->
  exists s, rmq_build h ltb dflt a = Some s /\
  forall l r, l < r <= length a -> exists k, rmq_query ltb s l r = Some k /\ first_min ltb a l r k.
Proof. apply rmq_ok. Qed.
Print Assumptions C87_rmq.
(** An empty range is not answered: [rmq] throws. *)
Theorem C87_empty_range T (ltb : T -> T -> bool) s l r : r <= l -> rmq_query ltb s l r = None.
Proof. intros H. destruct s; cbn [rmq_query]; (destruct (Nat.ltb_spec l r); [lia|reflexivity]). Qed.
Print Assumptions C87_empty_range.
(** The constructor on an empty sequence reads outside of the (empty) sparse table. *)
Theorem C87_empty_refuted h T (ltb : T -> T -> bool) dflt : rmq_build h ltb dflt [] = None.
Proof. destruct h; reflexivity. Qed.
Print Assumptions C87_empty_refuted.
(** [LcaToRmq::lca(x, y)] exchanges the positions but not [x] and [y]: in the tree of [1, 2],
    where 1 is the root, the ancestor of the nodes 1 and 0 is given as 1. *)
Theorem C87_lca_refuted : exists d b v, decalt_build nat Nat.ltb [1; 2] = Some d /\
  (let* b := bm_resize (Bm [] 0) 6 false in parens d b) = Some b /\ bv_build 64 (bm_vec b) = Some v /\ d_root d = Some 0 /\
  lca b v (fun _ _ => None) 0 1 = Some 0 /\ lca b v (fun _ _ => None) 1 0 = Some 1.
Proof. do 3 eexists. repeat split; vm_compute; reflexivity. Qed.
Print Assumptions C87_lca_refuted.
Example C87_case : (let* s := rmq_build 3 Nat.ltb 0 [5; 3; 8; 2; 9; 2; 7; 4; 6] in
    let* x := rmq_query Nat.ltb s 0 9 in let* y := rmq_query Nat.ltb s 4 8 in let* z := rmq_query Nat.ltb s 0 3 in Some (x, y, z)) = Some (3, 5, 1).
Proof. vm_compute. reflexivity. Qed.
