From Verif Require Import Base BaseLemmas GraphModel GraphProof SccModel SccProof.

(** C57.  [scc()] returns the strongly connected components in topological order. *)
Theorem C57_scc : forall (n : nat) (es : list (nat * nat)),
  (forall a b, In (a, b) es -> a < n /\ b < n) ->
  exists s cs, scc_build n es = Some s /\ scc s = Some cs /\ is_scc n es cs.
Proof.
  intros n es Ok. destruct (scc_build_ok n es Ok) as (s & E & En & R1 & R2). exists s.
  destruct (phase1 (sc_g s) n es R1) as (vis & st & E1 & Nd & Al & K).
  destruct (phase2 (sc_ig s) n es R2 st Nd Al K) as (vis2 & ret & E2 & H). exists ret. split; auto. split; auto.
  unfold scc. rewrite En, E1. cbn [obind]. rewrite E2. reflexivity.
Qed.

(** Two cycles joined by an arc, a loop, a parallel arc and an isolated vertex. *)
Example C57_example : match scc_build 7 [(1, 4); (5, 2); (3, 0); (5, 5); (4, 1); (0, 3); (4, 2); (2, 0); (2, 0)] with Some s => scc s | None => None end
  = Some [[6]; [5]; [4; 1]; [2]; [3; 0]].
Proof. vm_compute. reflexivity. Qed.

Print Assumptions C57_scc.
