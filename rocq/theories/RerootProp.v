From Verif Require Import Base BaseLemmas ListExtra NthExtra.
From Verif Require GraphModel NetModel.
From Verif Require Import HldModel HldTree TreeGraph RerootModel RerootProof RerootNet.

(** C60.  After [calc], [dp[s][i]] is the value of the part of the tree that hangs from the
    neighbour [g[s][i]] of [s]: in every rooted tree with root [s] that has the given edges, the
    value of the child that is that neighbour. There is such a rooted tree for every [s]. *)
Theorem C60_reroot_graph : forall (T : Type) (F : T -> nat -> T) (mrg : T -> T -> T) (gf : T -> nat -> T) (e : T), cmonoid_laws mrg e ->
  forall (n : nat) (t : tree) (es : list (nat * nat)) (dp0 : list (list T)), tree_graph n t es -> length dp0 = n ->
  exists G dp, GraphModel.build n (both es) = Some G /\ rg_calc F mrg gf e G dp0 (root t) = Some dp /\ length dp = n /\
  (forall s, s < n -> exists cs, tree_graph n (Node s cs) es) /\
  (forall s cs c, tree_graph n (Node s cs) es -> In c cs -> exists i, get2 (GraphModel.gr_g G) s i = Some (root c)) /\
  (forall s cs i c, tree_graph n (Node s cs) es -> In c cs -> get2 (GraphModel.gr_g G) s i = Some (root c) ->
     get2 dp s i = Some (value (fun _ => F) mrg gf e c)).
Proof.
  intros T F mrg gf e CM n t es dp0 TG L0. destruct (tree_build TG) as (G & Eb & En & Lg & Rw & _). exists G.
  destruct (@calc_ok nat T (fun t => t) (fun x t => F x t) mrg gf e CM n (GraphModel.gr_g G) (fun _ => F) Lg) with (es := es) (t := t) (dp0 := dp0) as (dp & Ed & Ld & Ex & Vl); auto.
  { intros v. rewrite <- Rw. change (@nil nat) with (map (fun t : nat => t) []) at 1. rewrite map_nth. apply map_id. }
  exists dp. split; [auto|]. split; [unfold rg_calc; rewrite En; auto|]. split; [auto|]. split; [auto|]. split.
  - intros s cs c TG2 Ic. assert (A : adj (GraphModel.gr_g G) None (Node s cs)) by (apply (@tree_adj n _ es (with_edge (hl_new n) (GraphModel.gr_g G)) TG2 Lg Rw)).
    inversion A as [? ? ? row Er Pr _]; subst. assert (Ir : In (root c) row) by (apply (Permutation_in _ (Permutation_sym Pr)); now apply in_map). apply In_get in Ir as (i & _ & Hi). exists i. unfold get2. now rewrite Er.
  - intros s cs i c TG2 Ic Hi. apply (Vl s cs); auto. unfold get2 in Hi. change (@nil nat) with (map (fun t : nat => t) []). rewrite map_nth, map_id.
    destruct (get (GraphModel.gr_g G) s) as [row|] eqn:Er; [|discriminate]. rewrite (@nth_get _ _ _ _ [] Er). exact Hi.
Qed.

(** The same for weighted edges; [wt a b] is the weight of the edge between [a] and [b]. *)
Theorem C60_reroot_network : forall (T : Type) (F : T -> nat -> Z -> T) (mrg : T -> T -> T) (gf : T -> nat -> T) (e : T), cmonoid_laws mrg e ->
  forall (n : nat) (t : tree) (es : list (nat * nat * Z)) (wt : nat -> nat -> Z) (dp0 : list (list T)),
  tree_graph n t (ends es) -> int_weights es -> (forall a b c, In (a, b, c) es -> wt a b = c /\ wt b a = c) -> length dp0 = n ->
  exists G dp, NetModel.nw_build n (wboth es) = Some G /\ rn_calc F mrg gf e G dp0 (root t) = Some dp /\ length dp = n /\
  (forall s, s < n -> exists cs, tree_graph n (Node s cs) (ends es)) /\
  (forall s cs c, tree_graph n (Node s cs) (ends es) -> In c cs -> exists i, get2 (NetModel.nw_g G) s i = Some (root c, wt s (root c))) /\
  (forall s cs i c, tree_graph n (Node s cs) (ends es) -> In c cs -> get2 (NetModel.nw_g G) s i = Some (root c, wt s (root c)) ->
     get2 dp s i = Some (value (fun v x c => F x c (wt v c)) mrg gf e c)).
Proof.
  intros T F mrg gf e CM n t es wt dp0 TG Iw Hw L0. destruct (@wbuild_ok n es) as (G & Eb & En & Lg & Rw); auto; [now apply (tree_bound TG)|]. exists G.
  assert (Hrow : forall v, nth v (map (map fst) (NetModel.nw_g G)) [] = nbrs (ends es) v).
  { intros v. rewrite <- wnbrs_fst, <- Rw. change (@nil nat) with (map (@fst nat Z) []). now rewrite map_nth. }
  assert (Hin : forall s row t c, get (NetModel.nw_g G) s = Some row -> In (t, c) row -> c = wt s t).
  { intros s row u c Er I. rewrite <- (@nth_get _ _ _ _ [] Er), Rw in I. apply wnbrs_in in I as [I|I]; apply Hw in I; symmetry; apply I. }
  destruct (@calc_ok (nat * Z) T fst (fun x '(t, w) => F x t w) mrg gf e CM n (NetModel.nw_g G) (fun v x c => F x c (wt v c)) Lg) with (es := ends es) (t := t) (dp0 := dp0) as (dp & Ed & Ld & Ex & Vl); auto.
  { intros s row [u c] x Er I. cbn [fst]. f_equal. now apply (Hin s row). }
  exists dp. split; [auto|]. split; [unfold rn_calc; rewrite En; auto|]. split; [auto|]. split; [auto|]. split.
  - intros s cs c TG2 Ic. assert (A : adj (map (map fst) (NetModel.nw_g G)) None (Node s cs)).
    { apply (@tree_adj n _ (ends es) (with_edge (hl_new n) (map (map fst) (NetModel.nw_g G))) TG2); auto. cbn. now rewrite map_length. }
    inversion A as [? ? ? row Er Pr _]; subst. assert (Ir : In (root c) row) by (apply (Permutation_in _ (Permutation_sym Pr)); now apply in_map). apply In_get in Ir as (i & _ & Hi). exists i.
    rewrite get_map in Er. unfold get2. destruct (get (NetModel.nw_g G) s) as [rw|] eqn:Eg; [|discriminate]. cbn in Er. injection Er as <-. cbn [obind]. rewrite get_map in Hi.
    destruct (get rw i) as [[u w]|] eqn:Ei; [|discriminate]. cbn in Hi. injection Hi as ->. f_equal. f_equal. apply (Hin s rw); auto. apply get_In in Ei. auto.
  - intros s cs i c TG2 Ic Hi. apply (Vl s cs); auto. unfold get2 in Hi. destruct (get (NetModel.nw_g G) s) as [row|] eqn:Er; [|discriminate]. cbn [obind] in Hi.
    assert (Er2 : get (map (map fst) (NetModel.nw_g G)) s = Some (map fst row)) by (rewrite get_map, Er; auto). rewrite (@nth_get _ _ _ _ [] Er2). rewrite get_map, Hi. auto.
Qed.

(** [merge] has to commute: [dfs2] multiplies the neighbours that follow from right to left. On a
    star the value found for the centre (seen from the leaf 1) has its two other leaves in the
    opposite order of the adjacency list. *)
Theorem C60_order_refuted : exists (F : list nat -> nat -> list nat) G dp, monoid_laws (@app nat) [] /\
  GraphModel.build 4 (both [(0, 1); (0, 2); (0, 3)]) = Some G /\ rg_calc F (@app nat) (fun x _ => x) [] G (repeat [] 4) 0 = Some dp /\
  get (GraphModel.gr_g G) 0 = Some [1; 2; 3] /\ get (GraphModel.gr_g G) 1 = Some [0] /\
  value (fun _ => F) (@app nat) (fun x _ => x) [] (Node 0 [Node 2 []; Node 3 []]) = [2; 3] /\ get2 dp 1 0 = Some [3; 2].
Proof.
  exists (fun x t => x ++ [t]). eexists. eexists. split; [split; [apply app_assoc|auto|apply app_nil_r]|]. split; [vm_compute; reflexivity|].
  split; [vm_compute; reflexivity|]. vm_compute. auto.
Qed.

(** Greatest distance from a vertex, weighted; vertex 1 is the root. *)
Example C60_example : (let* G := NetModel.nw_build 5 (wboth [(0, 1, 3%Z); (2, 1, 4%Z); (2, 3, 10%Z); (4, 2, 1%Z)]) in
  rn_calc (fun x _ w => x + w)%Z Z.max (fun x _ => x) 0%Z G (repeat [] 5) 1) = Some [[14]; [0; 10]; [3; 0; 0]; [7]; [10]]%Z.
Proof. vm_compute. reflexivity. Qed.

Print Assumptions C60_reroot_graph.
Print Assumptions C60_reroot_network.
Print Assumptions C60_order_refuted.
