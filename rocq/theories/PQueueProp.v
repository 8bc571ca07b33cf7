(** Property C13: persistent_queue.hpp. *)
From Verif Require Import Base BaseLemmas PQueueModel PQueueProof.

(** Every history over any number of versions runs without a null
    dereference, every [front] and [size] answers as an independent list, and
    in the end every version's raw pointer [proc_] still points into the
    chain that [f_] keeps alive. *)
Theorem C13_persistent_queue : forall T (cs : list (q_op T)), q_valid_all [] cs ->
  exists h ss vs rs, q_run ([], []) [] cs = Some ((h, ss), vs, rs) /\ q_answers [] cs rs /\
    forall k q, get vs k = Some q -> reach h (pq_f q) (pq_proc q).
Proof.
  intros T cs V.
  destruct (@run_ok T cs [] [] (fun _ => []) (fun _ => None) (fun _ => []) [] []) as (h & ss & vs & rs & G & O & R & E & A & I & P); auto.
  - split. + intros [|a] nx v _ E; discriminate. + intros [|a] b s v w _ _ E; discriminate. + intros [|s] sc ro E; discriminate.
  - constructor.
  - exists h, ss, vs, rs. split; auto. split; auto. intros k q Ek.
    assert (exists l, vok h G O q l) as (l & Vq).
    { clear -P Ek. revert k Ek. induction P; intros [|k] Ek; simpl in *; try discriminate.
      - inversion Ek; subst. eauto. - eapply IHP; eauto. }
    destruct (vSeg Vq) as (x & S & _). eapply seg_reach; eauto.
Qed.
Print Assumptions C13_persistent_queue.

(** Branching history: two versions share suspended cells. *)
Example C13_example :
  option_map snd (q_run ([], []) [] [QNew nat; QPush 0 1; QPush 1 2; QPush 2 3; QPush 3 4; QPop _ 3; QPop _ 4; QPop _ 6; QPush 5 9;
     QFront _ 8; QFront _ 7; QPop _ 8; QPop _ 9; QFront _ 10; QSize _ 4; QFront _ 3; QPop _ 7; QFront _ 11]) =
  Some [QNone _; QNone _; QNone _; QNone _; QNone _; QNone _; QNone _; QNone _; QNone _;
        QVal 2; QVal 3; QNone _; QNone _; QVal 9; QNat _ 4; QVal 1; QNone _; QVal 4].
Proof. reflexivity. Qed.
