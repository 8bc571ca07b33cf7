(** Minima of the excess of a word: [rmq64]. *)
From Verif Require Import Base BaseLemmas ListExtra NthExtra SparseModel BitModel BitProof BmapModel BmapProof BvModel BvSel BvOps RmqModel.
Set Implicit Arguments.
Local Open Scope Z_scope.

Lemma firstn_bits k n x : (k <= n)%nat -> firstn k (bits n x) = bits k x.
Proof. intros H. unfold bits. rewrite firstn_map. f_equal. replace n with (k + (n - k))%nat by lia. rewrite seq_app, firstn_app, seq_length, Nat.sub_diag. cbn [firstn]. rewrite app_nil_r. rewrite <- (seq_length k 0) at 1. apply firstn_all. Qed.

(** the table *)
Definition entry_ok (v : Z) : bool :=
  let '(a, m) := rmq_entry (Z.to_nat v) in
  (0 <=? a) && (a <? 8) && (m =? exc (bits 8 v) (Z.to_nat a)) &&
  forallb (fun i => if (i <? Z.to_nat a)%nat then m <? exc (bits 8 v) i else m <=? exc (bits 8 v) i) (seq 0 8).
Lemma entry_all : forallb entry_ok (map Z.of_nat (seq 0 256)) = true.
Proof. vm_compute. reflexivity. Qed.
Lemma tb_get v : byte v -> get rmq_tb (Z.to_nat v) = Some (rmq_entry (Z.to_nat v)).
Proof. intros H. unfold byte in H. unfold rmq_tb. rewrite get_map, get_seq by lia. reflexivity. Qed.
Lemma entry_spec v : byte v -> exists a, rmq_entry (Z.to_nat v) = (Z.of_nat a, exc (bits 8 v) a) /\ leftmin (exc (bits 8 v)) 0 8 a.
Proof.
  intros H. pose proof (@all_bytes entry_ok entry_all v H) as K. unfold entry_ok in K. destruct (rmq_entry (Z.to_nat v)) as [a m].
  rewrite !andb_true_iff in K. destruct K as [[[K1 K2] K3] K4]. exists (Z.to_nat a). rewrite forallb_forall in K4.
  apply Z.leb_le in K1. apply Z.ltb_lt in K2. apply Z.eqb_eq in K3. rewrite Z2Nat.id by lia. rewrite K3. split; auto. split; [lia|]. split.
  - intros i Hi. specialize (K4 i ltac:(apply in_seq; lia)). destruct (Nat.ltb_spec i (Z.to_nat a)); [|lia]. rewrite <- K3. now apply Z.ltb_lt.
  - intros i Hi. specialize (K4 i ltac:(apply in_seq; lia)). destruct (Nat.ltb_spec i (Z.to_nat a)); [lia|]. rewrite <- K3. now apply Z.leb_le.
Qed.

Lemma exc_bits n x i : (i < n)%nat -> exc (bits n x) i = 2 * Z.of_nat (cnt true (bits (i + 1) x)) - Z.of_nat (i + 1).
Proof. intros H. unfold exc. replace (S i) with (i + 1)%nat by lia. now rewrite firstn_bits by lia. Qed.

Lemma exc_bound l i : (i < length l)%nat -> - Z.of_nat (i + 1) <= exc l i <= Z.of_nat (i + 1).
Proof.
  intros H. unfold exc. pose proof (cnt_two (firstn (S i) l)) as K. rewrite firstn_length in K. lia.
Qed.

Lemma rmq64_ok w : word64 w -> exists a, rmq64 w = Some (a, exc (bits 64 w) a) /\ leftmin (exc (bits 64 w)) 0 64 a.
Proof.
  intros Hw. destruct (word8 w Hw) as (a0 & a1 & a2 & a3 & a4 & a5 & a6 & a7 & E & F).
  pose proof (pc8_bound a0). pose proof (pc8_bound a1). pose proof (pc8_bound a2). pose proof (pc8_bound a3). pose proof (pc8_bound a4). pose proof (pc8_bound a5). pose proof (pc8_bound a6). pose proof (pc8_bound a7).
  unfold rmq64.
  set (es := [64; 56 + 2 * pc8 a0; 48 + 2 * (pc8 a0 + pc8 a1); 40 + 2 * (pc8 a0 + pc8 a1 + pc8 a2); 32 + 2 * (pc8 a0 + pc8 a1 + pc8 a2 + pc8 a3); 24 + 2 * (pc8 a0 + pc8 a1 + pc8 a2 + pc8 a3 + pc8 a4); 16 + 2 * (pc8 a0 + pc8 a1 + pc8 a2 + pc8 a3 + pc8 a4 + pc8 a5); 8 + 2 * (pc8 a0 + pc8 a1 + pc8 a2 + pc8 a3 + pc8 a4 + pc8 a5 + pc8 a6)]).
  assert (Fe : Forall byte es) by (unfold es; repeat constructor; unfold byte; lia).
  assert (Ee : u64 (u64 (64 * 0x0101010101010101 + u64 (u64 (popcnt_e8 w * 2) * 0x0101010101010100)) - u64 (8 * 0x0706050403020100)) = word es).
  { replace (popcnt_e8 w) with (word (map pc8 [a0; a1; a2; a3; a4; a5; a6; a7])) by (rewrite E, popcnt_e8_ok; auto). cbn [map].
    set (P := word [pc8 a0; pc8 a1; pc8 a2; pc8 a3; pc8 a4; pc8 a5; pc8 a6; pc8 a7]).
    assert (EP : u64 (u64 (P * 2) * 0x0101010101010100) = u64 (2 * u64 (P * 0x0101010101010100))).
    { unfold u64. rewrite Z.mul_mod_idemp_l by lia. rewrite Z.mul_mod_idemp_r by lia. f_equal. ring. }
    rewrite EP. unfold P. rewrite prefix_word by auto. clear EP P.
    assert (E2 : u64 (2 * word [0; pc8 a0; pc8 a0 + pc8 a1; pc8 a0 + pc8 a1 + pc8 a2; pc8 a0 + pc8 a1 + pc8 a2 + pc8 a3; pc8 a0 + pc8 a1 + pc8 a2 + pc8 a3 + pc8 a4; pc8 a0 + pc8 a1 + pc8 a2 + pc8 a3 + pc8 a4 + pc8 a5; pc8 a0 + pc8 a1 + pc8 a2 + pc8 a3 + pc8 a4 + pc8 a5 + pc8 a6]) = 
       word [0; 2 * pc8 a0; 2 * (pc8 a0 + pc8 a1); 2 * (pc8 a0 + pc8 a1 + pc8 a2); 2 * (pc8 a0 + pc8 a1 + pc8 a2 + pc8 a3); 2 * (pc8 a0 + pc8 a1 + pc8 a2 + pc8 a3 + pc8 a4); 2 * (pc8 a0 + pc8 a1 + pc8 a2 + pc8 a3 + pc8 a4 + pc8 a5); 2 * (pc8 a0 + pc8 a1 + pc8 a2 + pc8 a3 + pc8 a4 + pc8 a5 + pc8 a6)]).
    { unfold u64. rewrite Z.mod_small; unfold word; cbn [fold_right]; lia. }
    rewrite E2. clear E2. pose proof (@word_bound _ Fe) as Be. change (8 * Z.of_nat (length es)) with 64 in Be.
    match goal with |- u64 (u64 (?x + ?y) - _) = _ => replace (x + y) with (word es + 8 * 0x0706050403020100) by (unfold es, word; cbn [fold_right]; lia) end.
    unfold u64 at 3. rewrite (@Z.mod_small (8 * 0x0706050403020100)) by lia.
    unfold u64. rewrite Zminus_mod_idemp_l. replace (word es + 8 * 506097522914230528 - 8 * 506097522914230528) with (word es) by ring. apply Z.mod_small. exact Be. }
  cbv zeta. rewrite Ee. clear Ee.
  set (as_ := [a0; a1; a2; a3; a4; a5; a6; a7]) in *.
  match goal with |- context [for_up _ _ ?bd _] => set (body := bd) end.
  assert (K : exists s, for_up 8 0 body (0, 65) = Some s /\
    exists a, s = (Z.of_nat a, exc (bits 64 w) a) /\ leftmin (exc (bits 64 w)) 0 64 a).
  { destruct (@for_up_rule _ (fun k s => (k = 0%nat /\ s = (0, 65)) \/ exists a, s = (Z.of_nat a, exc (bits 64 w) a) /\ leftmin (exc (bits 64 w)) 0 (8 * k) a) body 8 0 (0, 65)) as (s & Es & Is).
    - left. auto.
    - intros k s Hk Is. destruct s as [am ms]. unfold body at 1.
      assert (Ge : get es k = Some (nth k es 0)) by (apply get_nth; unfold es; cbn [length]; lia).
      assert (Ga : get as_ k = Some (nth k as_ 0)) by (apply get_nth; unfold as_; cbn [length]; lia).
      change 255 with (Z.ones 8). rewrite !Z.land_ones by lia. replace (Z.of_nat (8 * k)) with (8 * Z.of_nat k) by lia.
      rewrite (@word_byte es k _ Fe Ge).
      assert (Ea : Z.shiftr w (8 * Z.of_nat k) mod 2 ^ 8 = nth k as_ 0) by (rewrite E; exact (@word_byte as_ k _ F Ga)).
      rewrite Ea. set (v := nth k as_ 0) in *.
      assert (Bv : byte v). { rewrite Forall_forall in F. apply F. eapply get_In; eauto. }
      rewrite tb_get by auto. destruct (entry_spec Bv) as (a & -> & (La & L1 & L2)). cbn [obind].
      assert (P : nth k es 0 - 64 = 2 * Z.of_nat (cnt true (bits (8 * k) w)) - Z.of_nat (8 * k)).
      { rewrite <- cnt_ones. replace (ones_count (bits (8 * k) w)) with (fold_right (fun b r => pc8 b + r) 0 (firstn k as_)).
        - unfold es, as_. do 8 (destruct k as [|k]; [cbn [nth firstn fold_right]; lia|]). lia.
        - symmetry. rewrite E. rewrite <- (firstn_skipn k as_) at 1. set (xs := firstn k as_). assert (Lx : length xs = k) by (unfold xs, as_; rewrite firstn_length; cbn [length]; lia).
          rewrite <- Lx at 1. apply word_bits_pre. rewrite <- (firstn_skipn k as_) in F. apply Forall_app in F. tauto. }
      assert (X : forall i, (i < 8)%nat -> exc (bits 64 w) (8 * k + i) = exc (bits 8 v) i + (nth k es 0 - 64)).
      { intros i Hi. rewrite !exc_bits by lia. rewrite P. replace (8 * k + i + 1)%nat with (8 * k + (i + 1))%nat by lia. rewrite bits_app, cnt_app.
        replace (bits (i + 1) (Z.shiftr w (Z.of_nat (8 * k)))) with (bits (i + 1) v). { lia. }
        unfold bits. apply map_ext_in. intros j Hj. apply in_seq in Hj. rewrite <- Ea. rewrite Z.mod_pow2_bits_low by lia. do 2 f_equal. lia. }
      assert (Xm : exc (bits 8 v) a + (nth k es 0 - 64) = exc (bits 64 w) (8 * k + a)) by (rewrite X by lia; lia). rewrite Xm.
      assert (Y1 : forall i, (8 * k <= i < 8 * k + a)%nat -> exc (bits 64 w) (8 * k + a) < exc (bits 64 w) i).
      { intros i Hi. replace i with (8 * k + (i - 8 * k))%nat by lia. rewrite !X by lia. specialize (L1 (i - 8 * k)%nat ltac:(lia)). lia. }
      assert (Y2 : forall i, (8 * k + a <= i < 8 * S k)%nat -> exc (bits 64 w) (8 * k + a) <= exc (bits 64 w) i).
      { intros i Hi. replace i with (8 * k + (i - 8 * k))%nat by lia. rewrite !X by lia. specialize (L2 (i - 8 * k)%nat ltac:(lia)). lia. }
      assert (U : exc (bits 64 w) (8 * k + a) < 65). { pose proof (@exc_bound (bits 64 w) (8 * k + a)%nat) as B. rewrite bits_length in B. lia. }
      eexists. split; [reflexivity|]. right. destruct Is as [[-> Is]|(a' & Is & (M & M1 & M2))]; injection Is as -> ->.
      + destruct (Z.ltb_spec (exc (bits 64 w) (8 * 0 + a)) 65); [|lia]. exists (8 * 0 + a)%nat. split; [f_equal; lia|]. split; [lia|]. split; intros; [apply Y1|apply Y2]; lia.
      + destruct (Z.ltb_spec (exc (bits 64 w) (8 * k + a)) (exc (bits 64 w) a')).
        * exists (8 * k + a)%nat. split; [f_equal; lia|]. split; [lia|]. split; intros i Hi; [|apply Y2; lia].
          destruct (Nat.lt_ge_cases i (8 * k)); [|apply Y1; lia].
          destruct (Nat.lt_ge_cases i a'); [specialize (M1 i ltac:(lia))|specialize (M2 i ltac:(lia))]; lia.
        * exists a'. split; [reflexivity|]. split; [lia|]. split; intros i Hi; [apply M1; lia|].
          destruct (Nat.lt_ge_cases i (8 * k)); [apply M2; lia|].
          destruct (Nat.lt_ge_cases i (8 * k + a)); [specialize (Y1 i ltac:(lia))|specialize (Y2 i ltac:(lia))]; lia.
    - exists s. split; auto. destruct Is as [[? _]|Is]; [lia|]. exact Is. }
  destruct K as (s & -> & a & -> & L). cbn [obind]. rewrite Nat2Z.id. exists a. auto.
Qed.
