(** * C64: Bitmap, a vector of bits in 64-bit words *)
From Verif Require Import Base BaseLemmas BitModel BmapModel BmapProof.
Set Implicit Arguments.

(** The states a bitmap starts from: [Bitmap(n, bit)] and [Bitmap(begin, end)]. *)
Inductive bstart : option bmap -> list bool -> Prop :=
  | bst_new n b : bstart (Some (bm_new n b)) (repeat b n)
  | bst_of l : bstart (bm_of l) l.
Lemma start_ok o l : bstart o l -> exists m, o = Some m /\ binv m l.
Proof.
  intros [n b|l']; [eexists; split; [reflexivity|apply new_ok]|].
  unfold bm_of. assert (K : forall r m p, binv m p -> exists m', for_each r (fun b m => bm_push m b) m = Some m' /\ binv m' (p ++ r)).
  { induction r as [|b r IH]; intros m p I; [exists m; rewrite app_nil_r; auto|]. cbn [for_each]. destruct (push_ok b I) as (m1 & -> & I1 & _). cbn [obind]. destruct (IH _ _ I1) as (m2 & E & I2). exists m2. split; auto. now rewrite <- app_assoc in I2. }
  destruct (K l' (Bm [] 0) []) as (m & E & I); [|eauto]. repeat split; cbn; auto. intros; lia.
Qed.

(** After any history of [push_back], [resize], [assign], assignments through references, [set],
    [range_set] (and [pop_back] or a shrinking [resize] inside the last word), the bitmap is the list
    of bits that the same history makes: its size, every bit read, every [range_get] of up to 64
    bits, and what iteration visits. Nothing is read or written out of bounds. *)
Theorem C64_history o l0 cs l : bstart o l0 -> bsteps l0 cs l -> exists m, (let* m := o in bm_run cs m) = Some m /\
  bsz m = length l /\
  (forall i b, get l i = Some b -> bm_get m i = Some b) /\
  (forall b e, b <= e <= length l -> e - b <= 64 -> bm_range_get m b e = Some (bin (slice b e l))) /\
  bm_iterate m = Some l.
Proof.
  intros St Ss. destruct (start_ok St) as (m0 & -> & I0). cbn [obind]. destruct (steps_ok I0 Ss) as (m & E & I & _). exists m. split; [auto|]. split; [apply I|]. split.
  { intros i b G. rewrite (bm_get_ok I) by (eapply get_some_lt; eauto). f_equal. unfold get in G. apply nth_error_nth with (d := false) in G. auto. }
  split; [intros; now apply range_get_ok|now apply iterate_ok].
Qed.

(** A random access iterator: [begin() + i] is a position that [++], [--], [+=] move as integers
    do, [-=] as well when it does not borrow from the word index; dereferencing reads the bit. *)
Definition it_pos (i : nat) : biter := it_plus it_begin (Z.of_nat i).
Theorem C64_iterators o l0 cs l : bstart o l0 -> bsteps l0 cs l -> exists m, (let* m := o in bm_run cs m) = Some m /\
  it_pos (length l) = it_end m /\
  (forall i b, get l i = Some b -> it_deref m (it_pos i) = Some b) /\
  (forall i, it_incr (it_pos i) = it_pos (i + 1) /\ it_decr (it_pos (i + 1)) = it_pos i) /\
  (forall i d, it_plus (it_pos i) (Z.of_nat d) = it_pos (i + d)) /\
  (forall i d, d <= i -> d mod 64 <= i mod 64 ->
     it_minus (it_pos i) (Z.of_nat d) = it_pos (i - d) /\ it_plus (it_pos i) (- Z.of_nat d) = it_pos (i - d)) /\
  (forall i j, it_eqb (it_pos i) (it_pos j) = (i =? j)).
Proof.
  intros St Ss. destruct (start_ok St) as (m0 & -> & I0). cbn [obind]. destruct (steps_ok I0 Ss) as (m & E & I & _). exists m. split; [auto|].
  assert (P : forall i, it_pos i = it_at i). { intros i. unfold it_pos, it_plus. destruct (Z.ltb_spec (Z.of_nat i) 0); [lia|]. apply (fwd_ok 0 i). }
  split; [rewrite P; destruct I as (_ & _ & <- & _); reflexivity|]. split.
  { intros i b G. rewrite P, (deref_ok I) by (eapply get_some_lt; eauto). f_equal. unfold get in G. apply nth_error_nth with (d := false) in G. auto. }
  split; [intros; rewrite !P; split; [apply incr_ok|apply decr_ok]|]. split.
  { intros. rewrite !P. unfold it_plus. destruct (Z.ltb_spec (Z.of_nat d) 0); [lia|]. apply fwd_ok. }
  split; [|intros; rewrite !P; apply it_at_inj].
  intros i d L M. rewrite !P. split.
  - unfold it_minus. destruct (Z.ltb_spec (Z.of_nat d) 0); [lia|]. now apply back_ok.
  - unfold it_plus. destruct (Z.ltb_spec (- Z.of_nat d) 0).
    + rewrite Z.opp_involutive. now apply back_ok.
    + assert (d = 0) by lia. subst d. cbn [Z.of_nat Z.opp]. rewrite Nat.sub_0_r. rewrite <- (Nat.add_0_r i) at 2. apply (fwd_ok i 0).
Qed.

(** [pop_back] keeps the words, so a later [push_back] appends a word behind the one it should
    write: after [push_back(true)] the last bit reads false. *)
Theorem C64_pop_refuted :
  (let* m := bm_of (repeat false 65) in let* m := bm_pop m in let* m := bm_push m true in
   let* b := bm_get m 64 in Some (bsz m, b)) = Some (65, false).
Proof. vm_compute. reflexivity. Qed.
(** A [resize] that shrinks keeps the words, so growing again with zeros brings old bits back. *)
Theorem C64_shrink_refuted :
  (let* m := bm_resize (bm_new 200 true) 10 false in let* m := bm_resize m 200 false in
   let* b := bm_get m 100 in Some (bsz m, b)) = Some (200, true).
Proof. vm_compute. reflexivity. Qed.
(** [-=] that borrows from the word index leaves a bit index of [2^32 - r]: one step back from the
    beginning of the second word cannot be dereferenced (an undefined shift). *)
Theorem C64_minus_refuted : forall m, it_minus (it_pos 64) 1 = (0, 2 ^ 32 - 1)%Z /\ it_pos 63 = (0, 63)%Z /\
  it_deref m (it_minus (it_pos 64) 1) = None.
Proof. intros m. split; [|split]; vm_compute; reflexivity. Qed.

(** Non-trivial cases. *)
Example ex_steps : bsteps [true; false] [BPush true; BResize 5 true; BRange 1 4 2; BSet 6 true; BPop; BAnd 0 false]
  [false; false; true; false; true; false].
Proof.
  apply bs_cons with [true; false; true]; [apply (@bs_push [true; false] true)|].
  apply bs_cons with [true; false; true; true; true]; [apply (@bs_resize [true; false; true] 5 true); cbn; lia|].
  apply bs_cons with [true; false; true; false; true]; [apply (@bs_range [true; false; true; true; true] 1 4 2); cbn; lia|].
  apply bs_cons with [true; false; true; false; true; false; true]; [apply (@bs_set_new [true; false; true; false; true] 6 true); cbn; lia|].
  apply bs_cons with [true; false; true; false; true; false]; [apply (@bs_pop _ [true; false; true; false; true; false] true); [reflexivity|cbn; lia]|].
  apply bs_cons with [false; false; true; false; true; false]; [apply (@bs_and [true; false; true; false; true; false] 0 false true); reflexivity|]. apply bs_nil.
Qed.
Example ex_run : (let* m := bm_of [true; false] in let* m := bm_run [BPush true; BResize 70 true; BRange 60 68 0xA5; BSet 72 true; BPop; BAnd 0 false] m in
  let* a := bm_range_get m 58 72 in Some (bsz m, a)) = Some (72, 3735%Z).
Proof. vm_compute. reflexivity. Qed.

Print Assumptions C64_history.
Print Assumptions C64_iterators.
Print Assumptions C64_pop_refuted.
Print Assumptions C64_shrink_refuted.
Print Assumptions C64_minus_refuted.
