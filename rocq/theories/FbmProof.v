From Verif Require Import Base BaseLemmas ListExtra NthExtra BitModel BitProof BmapModel BmapProof BvModel BvSel BvBlock BvProof BvOps BvProp FenwickModel FenwickProof FbmModel.
Set Implicit Arguments.

(** the table *)
Definition ftb_ok (b : Z) : bool :=
  forallb (fun r => match ftb b (Z.of_nat r) with
    | Some p => ((0 <=? p) && (p <? 8) && Z.testbit b p && (ones_count (bits (Z.to_nat p) b) =? Z.of_nat r - 1))%Z
    | None => false end) (seq 1 (Z.to_nat (ones_count (bits 8 b)))).
Lemma ftb_all : forallb ftb_ok (map Z.of_nat (seq 0 256)) = true.
Proof. vm_compute. reflexivity. Qed.
Lemma ftb_spec b r : byte b -> (1 <= r <= pc8 b)%Z -> exists p, ftb b r = Some p /\ (0 <= p < 8)%Z /\ Z.testbit b p = true /\ ones_count (bits (Z.to_nat p) b) = (r - 1)%Z.
Proof.
  intros Hb Hr. pose proof (@all_bytes ftb_ok ftb_all b Hb) as K. unfold ftb_ok in K. rewrite forallb_forall in K.
  unfold pc8 in Hr. specialize (K (Z.to_nat r) ltac:(apply in_seq; lia)). rewrite Z2Nat.id in K by lia.
  destruct (ftb b r) as [p|]; [|discriminate]. exists p. split; auto. rewrite !andb_true_iff in K. destruct K as [[[K1 K2] K3] K4]. repeat split; auto; lia.
Qed.

Local Open Scope Z_scope.
Lemma byte_word ps b : Forall byte ps -> length ps = 8%nat -> (b < 8)%nat -> byte_at (word ps) (Z.of_nat b) = Some (nth b ps 0).
Proof.
  intros F L Lb. unfold byte_at. destruct (Z.leb_spec 0 (Z.of_nat b)); [|lia]. destruct (Z.ltb_spec (Z.of_nat b) 8); [|lia]. cbn [andb guard obind].
  assert (Gp : get ps b = Some (nth b ps 0)) by (apply get_nth; lia). now rewrite (@word_byte ps b (nth b ps 0) F Gp).
Qed.
(** three rounds of the binary search *)
Lemma search8 P0 P1 P2 P3 P4 P5 P6 P7 P8 m : let ps := [P0; P1; P2; P3; P4; P5; P6; P7] in Forall byte ps ->
  P0 < m <= P8 -> P0 <= P1 -> P1 <= P2 -> P2 <= P3 -> P3 <= P4 -> P4 <= P5 -> P5 <= P6 -> P6 <= P7 -> P7 <= P8 ->
  exists b, (b < 8)%nat /\ loop 4 (fun '(b, d) =>
    if 1 <? d then
      let c := (b + d / 2) in
      let* v := byte_at (word ps) c in
      Some (inl (if v <? m then c else b, (d / 2)))
    else Some (inr b)) (0, 8) = Some (Z.of_nat b) /\
  nth b ps 0 < m <= nth (S b) [P0; P1; P2; P3; P4; P5; P6; P7; P8] 0.
Proof.
  intros ps F Hm H0 H1 H2 H3 H4 H5 H6 H7.
  assert (B : forall b, (b < 8)%nat -> byte_at (word ps) (Z.of_nat b) = Some (nth b ps 0)) by (intros; apply byte_word; auto).
  pose proof (B 1%nat ltac:(lia)) as B1. pose proof (B 2%nat ltac:(lia)) as B2. pose proof (B 3%nat ltac:(lia)) as B3. pose proof (B 4%nat ltac:(lia)) as B4. pose proof (B 5%nat ltac:(lia)) as B5. pose proof (B 6%nat ltac:(lia)) as B6. pose proof (B 7%nat ltac:(lia)) as B7.
  clear B F. generalize dependent (word ps). intros x B1 B2 B3 B4 B5 B6 B7. cbn [Z.of_nat Pos.of_succ_nat Pos.succ] in *. unfold ps in *. cbn [nth] in B1, B2, B3, B4, B5, B6, B7.
  cbn [loop]. change (1 <? 8) with true. cbv iota. change (0 + 8 / 2) with 4. change (8 / 2) with 4. rewrite B4. cbn [obind]. change (1 <? 4) with true. change (4 / 2) with 2.
  destruct (Z.ltb_spec P4 m).
  - change (4 + 2) with 6. rewrite B6. cbn [obind]. change (1 <? 2) with true. change (2 / 2) with 1. destruct (Z.ltb_spec P6 m).
    + change (6 + 1) with 7. rewrite B7. cbn [obind]. change (1 <? 1) with false. destruct (Z.ltb_spec P7 m); [exists 7%nat|exists 6%nat]; cbn [nth]; repeat split; lia.
    + change (4 + 1) with 5. rewrite B5. cbn [obind]. change (1 <? 1) with false. destruct (Z.ltb_spec P5 m); [exists 5%nat|exists 4%nat]; cbn [nth]; repeat split; lia.
  - change (0 + 2) with 2. rewrite B2. cbn [obind]. change (1 <? 2) with true. change (2 / 2) with 1. destruct (Z.ltb_spec P2 m).
    + change (2 + 1) with 3. rewrite B3. cbn [obind]. change (1 <? 1) with false. destruct (Z.ltb_spec P3 m); [exists 3%nat|exists 2%nat]; cbn [nth]; repeat split; lia.
    + change (0 + 1) with 1. rewrite B1. cbn [obind]. change (1 <? 1) with false. destruct (Z.ltb_spec P1 m); [exists 1%nat|exists 0%nat]; cbn [nth]; repeat split; lia.
Qed.

Lemma fword_sel_ok w k : word64 w -> (k < cnt true (bits 64 w))%nat -> exists p, (p < 64)%nat /\
  fword_sel w (Z.of_nat k + 1) = Some (Z.of_nat p) /\ Z.testbit w (Z.of_nat p) = true /\ cnt true (bits p w) = k.
Proof.
  intros Hw Hk. destruct (word8 w Hw) as (a0 & a1 & a2 & a3 & a4 & a5 & a6 & a7 & E & F). 
  assert (Tot : ones_count (bits 64 w) = pc8 a0 + pc8 a1 + pc8 a2 + pc8 a3 + pc8 a4 + pc8 a5 + pc8 a6 + pc8 a7).
  { rewrite E. pose proof (@count_word _ F) as C. cbn [length fold_right] in C. change (8 * 8)%nat with 64%nat in C. rewrite C. lia. }
  rewrite cnt_ones in Tot.
  pose proof (pc8_bound a0). pose proof (pc8_bound a1). pose proof (pc8_bound a2). pose proof (pc8_bound a3). pose proof (pc8_bound a4). pose proof (pc8_bound a5). pose proof (pc8_bound a6). pose proof (pc8_bound a7).
  unfold fword_sel. set (o := Z.of_nat k + 1). replace (popcnt_e8 w) with (word (map pc8 [a0; a1; a2; a3; a4; a5; a6; a7])) by (rewrite E, popcnt_e8_ok; auto). cbn [map]. rewrite prefix_word by auto.
  destruct (@search8 0 (pc8 a0) (pc8 a0 + pc8 a1) (pc8 a0 + pc8 a1 + pc8 a2) (pc8 a0 + pc8 a1 + pc8 a2 + pc8 a3) (pc8 a0 + pc8 a1 + pc8 a2 + pc8 a3 + pc8 a4) (pc8 a0 + pc8 a1 + pc8 a2 + pc8 a3 + pc8 a4 + pc8 a5) (pc8 a0 + pc8 a1 + pc8 a2 + pc8 a3 + pc8 a4 + pc8 a5 + pc8 a6) (pc8 a0 + pc8 a1 + pc8 a2 + pc8 a3 + pc8 a4 + pc8 a5 + pc8 a6 + pc8 a7) o) as (b & Lb & Eb & Hb); try lia.
  { repeat constructor; unfold byte; lia. }
  cbv zeta in Eb |- *. rewrite Eb. clear Eb. set (ps := [0; _; _; _; _; _; _; _]) in *. cbn [obind].
  assert (Fp : Forall byte ps) by (unfold ps; repeat constructor; unfold byte; lia).
  rewrite (@byte_word ps b Fp eq_refl Lb). set (as_ := [a0; a1; a2; a3; a4; a5; a6; a7]) in *. cbn [obind].
  assert (Ga : get as_ b = Some (nth b as_ 0)). { apply get_nth. unfold as_. cbn [length]. lia. }
  replace (byte_at w (Z.of_nat b)) with (Some (nth b as_ 0)) by (rewrite E; symmetry; exact (@byte_word as_ b F eq_refl Lb)). set (by_ := nth b as_ 0) in *. cbn [obind].
  assert (Bb : byte by_). { rewrite Forall_forall in F. apply F. eapply get_In; eauto. }
  assert (Rr : 1 <= o - nth b ps 0 <= pc8 by_).
  { split; [lia|]. destruct Hb as [Hb1 Hb2]. unfold by_, as_, ps. do 8 (destruct b as [|b]; [cbn [nth] in Hb1, Hb2 |- *; lia|]). lia. }
  set (r := o - nth b ps 0) in *.
  destruct (@ftb_spec _ _ Bb Rr) as (t & Et & Ht & Tt & Ct). rewrite Et. cbn [obind].
  exists (8 * b + Z.to_nat t)%nat. split; [lia|]. split; [f_equal; lia|].
  assert (Sp : exists xs ys, as_ = xs ++ by_ :: ys /\ length xs = b). { exists (firstn b as_), (skipn (S b) as_). split; [|unfold as_; rewrite firstn_length; cbn [length]; lia]. rewrite <- (firstn_skipn b as_) at 1. f_equal. apply skipn_get_cons; auto. }
  destruct Sp as (xs & ys & Ea & Lx). rewrite Ea in *. assert (Fx : Forall byte xs) by (apply Forall_app in F; tauto).
  assert (Sh : Z.shiftr w (8 * Z.of_nat b) = by_ + 2 ^ 8 * word ys). { rewrite E, word_app, Lx. pose proof (@word_bound _ Fx) as Bx. rewrite Lx in Bx. rewrite cat_shiftr by lia. reflexivity. }
  split.
  - replace (Z.of_nat (8 * b + Z.to_nat t)) with (t + 8 * Z.of_nat b) by lia. rewrite <- Z.shiftr_spec by lia. rewrite Sh.
    rewrite <- (@Z.mod_pow2_bits_low _ 8) by lia. rewrite cat_mod; [auto|lia|exact Bb].
  - apply Nat2Z.inj. rewrite <- cnt_ones. rewrite bits_app, ones_count_app. 
    replace (ones_count (bits (8 * b) w)) with (nth b ps 0).
    + replace (Z.of_nat (8 * b)) with (8 * Z.of_nat b) by lia. rewrite Sh. 
      replace (bits (Z.to_nat t) (by_ + 2 ^ 8 * word ys)) with (bits (Z.to_nat t) by_); [rewrite Ct; unfold r, o; lia|].
      unfold bits. apply map_ext_in. intros i Hi. apply in_seq in Hi. symmetry. rewrite <- (@Z.mod_pow2_bits_low _ 8) by lia. rewrite cat_mod; [auto|lia|exact Bb].
    + rewrite <- Lx at 2. rewrite E, word_bits_pre by auto.
      assert (K : nth b ps 0 = fold_right (fun b r => pc8 b + r) 0 (firstn b [a0; a1; a2; a3; a4; a5; a6; a7])).
      { unfold ps. do 8 (destruct b as [|b]; [cbn [nth firstn fold_right]; lia|]). lia. }
      rewrite K. f_equal. fold as_. unfold as_ in *. rewrite Ea. rewrite <- Lx. rewrite firstn_app, Nat.sub_diag, firstn_all. cbn [firstn]. now rewrite app_nil_r.
Qed.
Local Close Scope Z_scope.
