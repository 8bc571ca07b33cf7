(** Property C16: skewbinary_list.hpp. *)
From Verif Require Import Base BaseLemmas SkewModel SkewProof.

(** After every history of calls on arbitrary versions, every version ever
    created reads as the list of the specification, through [size], [front],
    [get_at] and the iterator. *)
Theorem C16_skewbinary_list : forall T (cs : list (sk_op T)), sk_valid_all [] cs ->
  exists vs, sk_run cs = Some vs /\ length vs = length cs /\ length (fold_left (@sk_spec T) cs []) = length cs /\
    forall k xs e, get (fold_left (@sk_spec T) cs []) k = Some (xs, e) ->
      exists s, get vs k = Some s /\ sk_size s = length xs /\ sk_iterate s = Some xs /\
        (forall i, i < length xs -> sk_get_at s i = get xs i) /\
        (forall x ys, xs = x :: ys -> sk_front s = Some x).
Proof.
  intros T cs V. destruct (@steps_ok T cs [] []) as (vs & E & P); auto; [constructor|]. exists vs. split; auto.
  assert (L : forall cs (ls : list (list T * bool)), sk_valid_all ls cs -> length (fold_left (@sk_spec T) cs ls) = length ls + length cs).
  { clear. induction cs as [|c cs IH]; intros ls V; simpl in *; [lia|]. destruct V as (V1 & V2). rewrite IH by auto.
    unfold sk_spec. rewrite app_length. destruct c; simpl in V1 |- *; try lia.
    - destruct (get_lt ls V1) as ((? & ?) & ->). simpl. lia.
    - destruct V1 as (? & ? & ? & ->). simpl. lia.
    - destruct V1 as (? & ? & -> & _). simpl. lia.
    - destruct V1 as (? & ->). simpl. lia.
    - destruct V1 as (? & ? & -> & _). simpl. lia. }
  specialize (L cs [] V). simpl in L.
  assert (LV : length vs = length (fold_left (@sk_spec T) cs [])) by (clear -P; induction P; simpl; auto).
  split; [lia|]. split; auto. intros k xs e Ek. destruct (kpool_get k P Ek) as (s & Es & S). exists s. split; auto. split; [apply S|].
  split; [eapply iterate_ok; eauto|]. split.
  - intros i Hi. destruct S as (D & _). eapply d_get_ok; eauto.
  - intros x ys ->. eapply popped_ok; eauto.
Qed.
Print Assumptions C16_skewbinary_list.

Example C16_example :
  (let* vs := sk_run [KRange [1;2;3;4;5;6]; KPush 0 0; KSet 1 4 9; KDrop _ 2 3; KPop _ 0; KExt 4 7 8; KSet 5 3 1; KPop _ 6] in
   Some (List.map (@sk_iterate nat) vs)) =
  Some [Some [1;2;3;4;5;6]; Some [0;1;2;3;4;5;6]; Some [0;1;2;3;9;5;6]; Some [3;9;5;6]; Some [2;3;4;5;6];
        Some [8;8;8;8;8;8;8;2;3;4;5;6]; Some [8;8;8;1;8;8;8;2;3;4;5;6]; Some [8;8;1;8;8;8;2;3;4;5;6]].
Proof. reflexivity. Qed.

(** The two exclusions are necessary: [dropped] after [extended] and
    [extended] of the empty list dereference a null pointer. *)
Theorem C16_dropped_after_extended_refuted : exists (s s' : sklist nat),
  sk_range [0] = Some s /\ sk_extended s 5 7 = Some s' /\ sk_size s' = 6 /\ sk_iterate s' = Some [7;7;7;7;7;0] /\ sk_dropped s' 1 = None.
Proof. do 2 eexists. repeat split. Qed.
Theorem C16_extended_empty_refuted : forall T n (v : T), 0 < n -> sk_extended (sk_new T) n v = None.
Proof. intros T [|n] v H; [lia|]. reflexivity. Qed.
Print Assumptions C16_dropped_after_extended_refuted.
Print Assumptions C16_extended_empty_refuted.
