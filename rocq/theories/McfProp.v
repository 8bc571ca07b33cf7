(** C61: MinCostFlowGraph. *)
From Verif Require Import Base BaseLemmas FlowModel FlowProof FlowNet McfModel McfCost McfBuild McfProof.
Set Implicit Arguments.
Open Scope Z_scope.

(** On a graph with costs that are not negative, [flow(s, t, limit)] terminates without overflow.
    The returned pair is the value and the cost of a flow of at most [limit] units, which the
    residual network shows; no flow of the same value is cheaper; the value is [limit] or that of
    a maximum flow. [K] bounds the costs; a path of [n] arcs and the saturation of all edges
    must be payable in the cost type. *)
Theorem C61_min_cost_flow : forall w M K n es s t limit,
  cedges_ok M K n es -> (s < n)%nat -> (t < n)%nat -> s <> t -> 0 <= limit <= M ->
  0 <= K -> Z.of_nat n * K < 2 ^ (w - 1) - 1 -> cost_bound es < 2 ^ (w - 1) ->
  exists g0 f cost g xs, mc_build w n es = Some g0 /\ mc_flow w M g0 s t limit = Some (f, cost, g) /\
    cheapest es s t xs f /\ cost = flow_cost es xs /\ shows (map (map fst) g) (map fst es) xs /\
    0 <= f <= limit /\ (f < limit -> max_flow (map fst es) s t f).
Proof.
  intros w M K n es s t limit HE Hs Ht St Hl HK HI HC. destruct (@cbuild_ok w M K n es HE) as (g0 & E0 & B); [assert (1 <= Z.of_nat n) by lia; nia|].
  destruct (flow_ok w HE B St Hs Ht HK HI HC Hl) as (f & cost & g & E & R1 & R2 & R3 & R4 & R5). exists g0, f, cost, g, (flow_of (map fst es) (strip g)). auto 10.
Qed.

(** A flow is certified by node potentials: if no edge with spare capacity has a negative reduced
    cost and no used edge a positive one, no flow of the same value is cheaper. *)
Theorem C61_certificate : forall es s t xs r (p : nat -> Z), s <> t -> is_flow (map fst es) s t xs r ->
  (forall i a b c k x, get es i = Some ((a, b, c), k) -> get xs i = Some x -> (x < c -> 0 <= k + p a - p b) /\ (0 < x -> k + p a - p b <= 0)) ->
  cheapest es s t xs r.
Proof. intros es s t xs r p. apply pot_cheapest. Qed.

(** The second path runs back over the edge 1-2, which the first used. *)
Definition ex_es : list (edge * Z) := [((0%nat, 1%nat, 1), 1); ((0%nat, 2%nat, 1), 4); ((1%nat, 2%nat, 1), 1); ((1%nat, 3%nat, 1), 5); ((2%nat, 3%nat, 1), 1); ((3%nat, 3%nat, 2), 7)].
Example C61_ex : exists g0 g1 g2, mc_build 64 4 ex_es = Some g0 /\ mc_flow 64 1000 g0 0 3 1 = Some (1, 3, g1) /\ mc_flow 64 1000 g0 0 3 9 = Some (2, 11, g2) /\
  flow_cost ex_es [1; 1; 0; 1; 1; 0] = 11 /\ shows (map (map fst) g2) (map fst ex_es) [1; 1; 0; 1; 1; 0] /\ cedges_ok 1000 7 4 ex_es /\ cost_bound ex_es = 26.
Proof.
  eexists _, _, _. split; [vm_compute; reflexivity|]. split; [vm_compute; reflexivity|]. split; [vm_compute; reflexivity|]. split; [reflexivity|]. split; [|split; [|reflexivity]].
  - intros i a b c x E X. do 6 (destruct i as [|i]; [cbn in E, X; injection E as <- <- <-; injection X as <-; eexists; vm_compute; auto|]). destruct i; discriminate.
  - intros a b c k I. repeat (destruct I as [I|I]; [injection I as <- <- <- <-; lia|]). destruct I.
Qed.

Print Assumptions C61_min_cost_flow.
Print Assumptions C61_certificate.
