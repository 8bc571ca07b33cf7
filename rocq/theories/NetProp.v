From Verif Require Import Base BaseLemmas ListExtra SearchModel FibModel FibOps FibProp NetModel DijkProof.
Local Open Scope Z_scope.

(** C58.  [dijkstra_search] computes the least weight of a walk from [s] to every vertex, and leaves
    [INF] at the vertices that no walk reaches. *)
Theorem C58_dijkstra : forall (w : Z) (n : nat) (es : list nedge) (s : nat) (INF : Z),
  nedges_ok n (narcs es) -> (s < n)%nat -> dist_ok w (narcs es) s INF ->
  exists G dist, nw_build n es = Some G /\ dijkstra w G s INF = Some dist /\ length dist = n /\
  forall v, (v < n)%nat -> exists d, get dist v = Some d /\
    ((shortest (narcs es) s v d /\ d < INF) \/ (d = INF /\ forall c, ~ wwalk (narcs es) s v c)).
Proof.
  intros w n es s INF Ok Hs DO. destruct (nbuild_ok n es Ok) as (G & E & R). exists G.
  destruct (dijkstra_ok w G n (narcs es) s INF R Ok Hs DO) as (dist & Ed & L & H). exists dist.
  split; auto. split; auto. split; auto. intros v Hv. exists (D INF dist v). split.
  - eapply D_get; eauto.
  - destruct (H v Hv) as [S|S]; auto. left. split; auto. destruct S as [S1 S2]. destruct DO as (_ & HR & _).
    destruct (HR v _ S1) as (d & Hd & Lt). apply S2 in Hd. lia.
Qed.

(** The weights are stored in an [int] (graph.hpp:90): with a 64-bit weight type and a weight that
    needs more than 32 bits the distance found is wrong. *)
Theorem C58_wide_weight_refuted : exists es dist,
  (forall a b c, In (a, b, c) (narcs es) -> (a < 2)%nat /\ (b < 2)%nat /\ 0 <= c) /\
  dist_ok 64 (narcs es) 0 (2 ^ 60) /\
  (let* G := nw_build 2 es in dijkstra 64 G 0 (2 ^ 60)) = Some dist /\
  exists d, get dist 1 = Some d /\ ~ shortest (narcs es) 0 1 d.
Proof.
  assert (E : (let* G := nw_build 2 [NDir 0 1 (2 ^ 32 + 5)] in dijkstra 64 G 0 (2 ^ 60)) = Some [0; 5]) by (vm_compute; reflexivity).
  assert (W0 : forall u v c, wwalk (narcs [NDir 0 1 (2 ^ 32 + 5)]) u v c -> u = 0%nat -> (v = 0%nat /\ c = 0) \/ (v = 1%nat /\ c = 2 ^ 32 + 5)).
  { intros u v c H. induction H as [u|u v t c x H IH Hi]; intros Eu; [auto|].
    destruct Hi as [Hi|[]]. injection Hi as <- <- <-. destruct (IH Eu) as [[_ ->]|[X _]]; [|discriminate]. right. split; auto. }
  assert (W := fun v c H => W0 0%nat v c H eq_refl).
  exists [NDir 0 1 (2 ^ 32 + 5)], [0; 5]. split; [|split; [|split]].
  - intros a b c [H|[]]. injection H as <- <- <-. lia.
  - split; [lia|]. split.
    + intros v c H. exists c. split; auto. apply W in H. lia.
    + intros v d t c [H _] Hi. apply W in H. destruct Hi as [Hi|[]]. injection Hi as <- <- <-. lia.
  - exact E.
  - exists 5. split; [reflexivity|]. intros [H _]. apply W in H. lia.
Qed.

(** Two routes to 3, an edge in both directions, a better route found late, an unreachable vertex. *)
Example C58_example : (let* G := nw_build 6 [NDir 0 1 7; NDir 0 2 2; NDir 2 1 3; NDir 1 3 1; NBoth 2 3 9; NDir 4 0 1; NDir 4 4 1] in dijkstra 64 G 0 1000)
  = Some [0; 5; 2; 6; 1000; 1000].
Proof. vm_compute. reflexivity. Qed.

Print Assumptions C58_dijkstra.
Print Assumptions C58_wide_weight_refuted.
