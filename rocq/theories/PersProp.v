(** Properties C12, C14, C15: persistent_stack.hpp, persistent_array.hpp,
    persistent_unionfind.hpp. *)
From Verif Require Import Base BaseLemmas PersModel PersSpec UnionFindModel UnionFindSpec PersProof.

(** After every history of calls on arbitrary versions, every version ever
    created holds exactly the list of the specification. *)
Theorem C12_persistent_stack : forall T (cs : list (ps_op T)), ps_valid_all [] cs ->
  exists h vs, ps_run cs = Some (h, vs) /\ length vs = length cs /\
    length (fold_left (@ps_spec T) cs []) = length cs /\
    forall k xs, get (fold_left (@ps_spec T) cs []) k = Some xs ->
      exists s, get vs k = Some s /\ ps_size s = length xs /\ ps_drain h s = Some xs /\
                (forall x ys, xs = x :: ys -> ps_top h s = Some x).
Proof.
  intros T cs V. destruct (@steps_ok T cs [] [] []) as (h & vs & E & P); auto; [constructor|].
  exists h, vs. split; auto.
  assert (L : forall cs (ls : list (list T)), ps_valid_all ls cs -> length (fold_left (@ps_spec T) cs ls) = length ls + length cs).
  { clear. induction cs as [|c cs IH]; intros ls V; simpl in *; [lia|]. destruct V as (V1 & V2). rewrite IH by auto.
    unfold ps_spec. rewrite app_length. destruct c; simpl in V1 |- *.
    - lia.
    - destruct (get_lt ls V1) as (? & ->). simpl. lia.
    - destruct V1 as (? & ? & ->). simpl. lia.
    - destruct V1 as (A & B). destruct (get_lt ls A) as (? & ->). destruct (get_lt ls B) as (? & ->). simpl. lia.
    - destruct (get_lt ls V1) as (? & ->). simpl. lia. }
  specialize (L cs [] V). simpl in L. split; [rewrite <- L; eapply Forall2_len; eauto|]. split; auto.
  intros k xs Ek. destruct (pool_get k P Ek) as (s & Es & Hs). exists s. split; auto. split; [apply Hs|]. split; [now apply drain_ok|].
  intros x ys ->. eapply pop_ok; eauto.
Qed.
Print Assumptions C12_persistent_stack.

(** Versions 0..8 of a branching history; old versions stay readable. *)
Example C12_example :
  (let* (h, vs) := ps_run [SNew nat; SPush 0 1; SPush 1 2; SPush 1 3; SConcat _ 2 3; SReverse _ 4; SPop _ 5; SConcat _ 4 4; SPop _ 2] in
   Some (List.map (ps_drain h) vs)) =
  Some [Some []; Some [1]; Some [2;1]; Some [3;1]; Some [2;1;3;1]; Some [1;3;1;2]; Some [3;1;2]; Some [2;1;3;1;2;1;3;1]; Some [1]].
Proof. reflexivity. Qed.

(** Every version of the array is the function of the specification, for
    every branching factor. *)
Theorem C14_persistent_array : forall T M (cs : list (pa_op T)), 1 <= M -> pa_valid_all 0 cs ->
  exists h vs, pa_run M cs = Some (h, vs) /\ length vs = length cs /\
    length (fold_left (@pa_spec T) cs []) = length cs /\
    forall k f, get (fold_left (@pa_spec T) cs []) k = Some f ->
      exists a, get vs k = Some a /\ forall i, pa_get M h a i = Some (f i).
Proof.
  intros T M cs HM V. destruct (@asteps_ok T M HM cs [] [] []) as (h & vs & E & W & P); auto.
  { intros p v ch G. destruct p; discriminate. } { constructor. }
  exists h, vs. split; auto.
  assert (L : forall cs (ls : list (nat -> T)), pa_valid_all (length ls) cs -> length (fold_left (@pa_spec T) cs ls) = length ls + length cs).
  { clear. induction cs as [|c cs IH]; intros ls V; [simpl; lia|]. simpl in V. destruct V as (V1 & V2). cbn [fold_left].
    assert (Lc : length (pa_spec ls c) = S (length ls)).
    { unfold pa_spec. rewrite app_length. destruct c; simpl in V1 |- *; [lia|]. destruct (get_lt ls V1) as (? & ->). simpl. lia. }
    rewrite IH by (now rewrite Lc). rewrite Lc. simpl. lia. }
  specialize (L cs [] V). simpl in L. split; [rewrite <- L; eapply Forall2_len; eauto|]. split; auto.
  intros k f Ek. destruct (apool_get k P Ek) as (a & Ea & Ha). exists a. split; auto. apply Ha.
Qed.
Print Assumptions C14_persistent_array.

(** One call, in the words of the property. *)
Theorem C14_set_get : forall T M (cs : list (pa_op T)) h vs k a i x h' a', 1 <= M -> pa_valid_all 0 cs ->
  pa_run M cs = Some (h, vs) -> get vs k = Some a -> pa_set M h a i x = Some (h', a') ->
  pa_get M h' a' i = Some x /\
  (forall j, j <> i -> pa_get M h' a' j = pa_get M h a j) /\
  (forall j b m, get vs m = Some b -> pa_get M h' b j = pa_get M h b j).
Proof.
  intros T M cs h vs k a i x h' a' HM V R Ea E.
  destruct (@asteps_ok T M HM cs [] [] []) as (h1 & vs1 & R1 & W & P); auto.
  { intros p v ch G. destruct p; discriminate. } { constructor. }
  unfold pa_run in R. rewrite R1 in R. inversion R; subst h1 vs1. clear R R1.
  assert (K : forall m b, get vs m = Some b -> exists f, aok M h b f).
  { clear -P. intros m b Eb. revert m Eb. induction P; intros [|m] Eb; simpl in *; try discriminate.
    - inversion Eb; subst. eauto. - eapply IHP; eauto. }
  destruct (K _ _ Ea) as (f & A). destruct (aset_ok HM i x W A) as (e & a1 & E1 & W1 & A1). rewrite E1 in E. inversion E; subst h' a'. clear E.
  destruct A as (_ & A). destruct A1 as (_ & A1). split; [rewrite A1, Nat.eqb_refl; auto|]. split.
  - intros j Hj. rewrite A1, A. destruct (Nat.eqb_spec j i); congruence.
  - intros j b m Eb. destruct (K _ _ Eb) as (fb & B). destruct (aok_ext HM e W B) as (_ & B'). destruct B as (_ & B). rewrite B', B. auto.
Qed.
Print Assumptions C14_set_get.

Example C14_example :
  (let* (h, vs) := pa_run 2 [ANew 7; ASet 0 11 1; ASet 1 4 2; ASet 1 11 3] in
   Some (List.map (fun a => List.map (pa_get 2 h a) [0;4;5;11;12]) vs)) =
  Some [ [Some 7;Some 7;Some 7;Some 7;Some 7]; [Some 7;Some 7;Some 7;Some 1;Some 7];
         [Some 7;Some 2;Some 7;Some 1;Some 7]; [Some 7;Some 7;Some 7;Some 3;Some 7] ].
Proof. reflexivity. Qed.

(** Every history over every version answers as the closure of the merges
    on that version's own path.  [fuel >= n] bounds the recursion depth of
    [leader]. *)
Theorem C15_persistent_unionfind : forall n fuel (cs : list pu_op), n <= fuel -> pu_valid n 0 cs ->
  exists st rs, pu_run fuel ([], []) cs = Some (st, rs) /\ pu_answers [] cs rs.
Proof.
  intros n fuel cs Hf V. apply (urun_ok Hf); auto.
  - intros p v ch G. destruct p; discriminate.
  - constructor.
Qed.
Print Assumptions C15_persistent_unionfind.

Example C15_example :
  option_map snd (pu_run 6 ([], []) [PNew; PMerge 0 1 2; PMerge 1 3 4; PMerge 1 2 5; PSame true 2 1 4; PSame false 3 1 5;
     PMerge 2 4 2; PSize 4 1; PSize 3 5; PSize 0 1; PSame true 4 1 3]) =
  Some [ANone; ANone; ANone; ANone; ABool false; ABool true; ANone; ANat 4; ANat 3; ANat 1; ABool true].
Proof. reflexivity. Qed.
