(** Proofs for [select64] of BvModel.v *)
From Verif Require Import Base BaseLemmas ListExtra NthExtra BitModel BitProof BmapModel BmapProof BvModel.
Set Implicit Arguments.
Local Open Scope Z_scope.

Lemma cnt_ones l : ones_count l = Z.of_nat (cnt true l).
Proof. induction l as [|[] l IH]; cbn [cnt ones_count Bool.eqb]; lia. Qed.
Lemma cnt_negb B l : cnt B (map negb l) = cnt (negb B) l.
Proof. induction l as [|[] l IH]; destruct B; cbn [cnt map negb Bool.eqb] in *; auto. Qed.
Lemma cnt_app B l l' : cnt B (l ++ l') = (cnt B l + cnt B l')%nat.
Proof. induction l as [|b l IH]; cbn [cnt app]; auto. destruct (Bool.eqb b B); rewrite IH; auto. Qed.

(** the table *)
Definition tb_ok (b : Z) : bool :=
  forallb (fun r => match sel_tb b (Z.of_nat r) with
    | Some p => (0 <=? p) && (p <? 8) && Z.testbit b p && (ones_count (bits (Z.to_nat p) b) =? Z.of_nat r - 1)
    | None => false end) (seq 1 (Z.to_nat (ones_count (bits 8 b)))).
Lemma tb_all : forallb tb_ok (map Z.of_nat (seq 0 256)) = true.
Proof. vm_compute. reflexivity. Qed.
Lemma sel_tb_ok b r : byte b -> 1 <= r <= pc8 b -> exists p, sel_tb b r = Some p /\ 0 <= p < 8 /\ Z.testbit b p = true /\ ones_count (bits (Z.to_nat p) b) = r - 1.
Proof.
  intros Hb Hr. pose proof (@all_bytes tb_ok tb_all b Hb) as K. unfold tb_ok in K. rewrite forallb_forall in K.
  unfold pc8 in Hr. specialize (K (Z.to_nat r) ltac:(apply in_seq; lia)). rewrite Z2Nat.id in K by lia.
  destruct (sel_tb b r) as [p|]; [|discriminate]. exists p. split; auto. rewrite !andb_true_iff in K. destruct K as [[[K1 K2] K3] K4]. repeat split; auto; lia.
Qed.

(** gathering the top bits of the bytes *)
Lemma gather8 (y0 y1 y2 y3 y4 y5 y6 y7 : bool) :
  let f (y : bool) := if y then 128 else 0 in
  Z.shiftr (u64 (word [f y0; f y1; f y2; f y3; f y4; f y5; f y6; f y7] * 0x02040810204081)) 56 =
  fold_right (fun (b : bool) r => (if b then 1 else 0) + 2 * r) 0 [y0; y1; y2; y3; y4; y5; y6; y7].
Proof. destruct y0, y1, y2, y3, y4, y5, y6, y7; vm_compute; reflexivity. Qed.

Lemma word_app xs ys : word (xs ++ ys) = word xs + 2 ^ (8 * Z.of_nat (length xs)) * word ys.
Proof.
  induction xs as [|x xs IH]; cbn [app length]; [change (8 * Z.of_nat 0) with 0; cbn [word fold_right]; lia|].
  cbn [word fold_right]. fold (word (xs ++ ys)) (word xs). rewrite IH. replace (8 * Z.of_nat (S (length xs))) with (8 + 8 * Z.of_nat (length xs)) by lia. rewrite Z.pow_add_r by lia. ring.
Qed.
Lemma word_bits_pre xs ys : Forall byte xs -> ones_count (bits (8 * length xs) (word (xs ++ ys))) = fold_right (fun b r => pc8 b + r) 0 xs.
Proof.
  intros F. rewrite <- count_word by auto. rewrite word_app. replace (8 * Z.of_nat (length xs)) with (Z.of_nat (8 * length xs)) by lia.
  rewrite bits_cat; auto. apply word_bound in F. now replace (Z.of_nat (8 * length xs)) with (8 * Z.of_nat (length xs)) by lia.
Qed.

(** the number of ones in the bytes before *)
Lemma prefix_word c0 c1 c2 c3 c4 c5 c6 c7 :
  0 <= c0 <= 8 -> 0 <= c1 <= 8 -> 0 <= c2 <= 8 -> 0 <= c3 <= 8 -> 0 <= c4 <= 8 -> 0 <= c5 <= 8 -> 0 <= c6 <= 8 -> 0 <= c7 <= 8 ->
  u64 (word [c0; c1; c2; c3; c4; c5; c6; c7] * 0x0101010101010100) =
  word [0; c0; c0 + c1; c0 + c1 + c2; c0 + c1 + c2 + c3; c0 + c1 + c2 + c3 + c4; c0 + c1 + c2 + c3 + c4 + c5; c0 + c1 + c2 + c3 + c4 + c5 + c6].
Proof.
  intros. unfold u64. symmetry.
  apply Z.mod_unique with (word [c1 + c2 + c3 + c4 + c5 + c6 + c7; c2 + c3 + c4 + c5 + c6 + c7; c3 + c4 + c5 + c6 + c7; c4 + c5 + c6 + c7; c5 + c6 + c7; c6 + c7; c7]).
  - left. cbn [word fold_right]. lia.
  - cbn [word fold_right]. ring_simplify. lia.
Qed.

Lemma and128 p o : 1 <= o <= 64 -> 0 <= p <= 64 -> Z.land (Z.lor p 128 - o) 128 = if o <=? p then 128 else 0.
Proof.
  intros Ho Hp. assert (E : Z.lor p 128 = p + 128).
  { rewrite Z.lor_comm. replace 128 with (0 + 2 ^ 7 * 1) by reflexivity. replace p with (p + 2 ^ 7 * 0) by lia. rewrite lor_cat by lia. rewrite Z.lor_0_l, Z.lor_0_r. lia. }
  rewrite E. apply Z.eqb_eq. 
  assert (K : forall d, 64 <= d < 192 -> (Z.land d 128 =? if 128 <=? d then 128 else 0) = true).
  { intros d Hd. assert (T : forallb (fun d => (d <? 64) || (Z.land d 128 =? if 128 <=? d then 128 else 0)) (map Z.of_nat (seq 0 256)) = true) by (vm_compute; reflexivity).
    pose proof (@all_bytes _ T d ltac:(unfold byte; lia)) as Q. cbv beta in Q. apply orb_true_iff in Q as [Q|Q]; [lia|exact Q]. }
  specialize (K (p + 128 - o) ltac:(lia)). destruct (Z.leb_spec o p), (Z.leb_spec 128 (p + 128 - o)); auto; lia.
Qed.
Lemma lor128 p : 0 <= p < 128 -> Z.lor p 128 = p + 128.
Proof.
  intros. rewrite Z.lor_comm. replace 128 with (0 + 2 ^ 7 * 1) by reflexivity. replace p with (p + 2 ^ 7 * 0) by lia. rewrite lor_cat by lia. rewrite Z.lor_0_l, Z.lor_0_r. lia.
Qed.

Lemma select_y P1 P2 P3 P4 P5 P6 P7 o : 1 <= o <= 64 ->
  0 <= P1 <= 56 -> 0 <= P2 <= 56 -> 0 <= P3 <= 56 -> 0 <= P4 <= 56 -> 0 <= P5 <= 56 -> 0 <= P6 <= 56 -> 0 <= P7 <= 56 ->
  Z.shiftr (u64 (Z.land (u64 (Z.lor (word [0; P1; P2; P3; P4; P5; P6; P7]) 0x8080808080808080 - u64 (o * 0x0101010101010101))) 0x8080808080808080 * 0x02040810204081)) 56 =
  fold_right (fun (b : bool) r => (if b then 1 else 0) + 2 * r) 0 [false; o <=? P1; o <=? P2; o <=? P3; o <=? P4; o <=? P5; o <=? P6; o <=? P7].
Proof.
  intros Ho H1 H2 H3 H4 H5 H6 H7. set (ps := [0; P1; P2; P3; P4; P5; P6; P7]).
  assert (F : Forall byte ps) by (unfold ps; repeat constructor; unfold byte; lia).
  replace 0x8080808080808080 with (word (map (fun _ => 128) ps)) at 1 by reflexivity.
  replace (word ps) with (word (map (fun p => p) ps)) by (now rewrite map_id).
  rewrite (@map_lor (fun p => p) (fun _ => 128) ps) by (auto; intros; unfold byte in *; lia).
  replace (u64 (o * 0x0101010101010101)) with (word (map (fun _ => o) ps)).
  2:{ unfold u64. rewrite Z.mod_small by lia. cbn [map ps word fold_right]. lia. }
  assert (Es : word (map (fun b => Z.lor b 128) ps) - word (map (fun _ => o) ps) = word (map (fun b => Z.lor b 128 - o) ps)).
  { pose proof (@map_add (fun b => Z.lor b 128 - o) (fun _ => o) ps) as A. cbv beta in A. replace (word (map (fun b => Z.lor b 128 - o + o) ps)) with (word (map (fun b => Z.lor b 128) ps)) in A; [rewrite <- A; ring|]. f_equal. apply map_ext. intros; lia. }
  rewrite Es. assert (F2 : Forall byte (map (fun b => Z.lor b 128 - o) ps)).
  { unfold ps. cbn [map]. repeat constructor; unfold byte; rewrite lor128 by lia; lia. }
  rewrite u64_id by auto. replace 0x8080808080808080 with (rep (length (map (fun b => Z.lor b 128 - o) ps)) 128) by reflexivity.
  rewrite map_land by (auto; unfold byte; lia). rewrite map_map. unfold ps. cbn [map]. rewrite !and128 by lia. destruct (Z.leb_spec o 0); [lia|].
  apply (@gather8 false (o <=? P1) (o <=? P2) (o <=? P3) (o <=? P4) (o <=? P5) (o <=? P6) (o <=? P7)).
Qed.

Lemma select_byte P1 P2 P3 P4 P5 P6 P7 P8 o : 1 <= o <= P8 -> 0 <= P1 -> P1 <= P2 -> P2 <= P3 -> P3 <= P4 -> P4 <= P5 -> P5 <= P6 -> P6 <= P7 -> P7 <= P8 ->
  exists b, (b < 8)%nat /\
  (ctz8 (fold_right (fun (b : bool) r => (if b then 1 else 0) + 2 * r) 0 [false; o <=? P1; o <=? P2; o <=? P3; o <=? P4; o <=? P5; o <=? P6; o <=? P7]) - 1) mod 2 ^ 8 = Z.of_nat b /\
  nth b [0; P1; P2; P3; P4; P5; P6; P7] 0 < o <= nth (S b) [0; P1; P2; P3; P4; P5; P6; P7; P8] 0.
Proof.
  intros. 
  destruct (Z.leb_spec o P1); [exists 0%nat|destruct (Z.leb_spec o P2); [exists 1%nat|destruct (Z.leb_spec o P3); [exists 2%nat|destruct (Z.leb_spec o P4); [exists 3%nat|
   destruct (Z.leb_spec o P5); [exists 4%nat|destruct (Z.leb_spec o P6); [exists 5%nat|destruct (Z.leb_spec o P7); [exists 6%nat|exists 7%nat]]]]]]];
  repeat match goal with |- context [o <=? ?P] => destruct (Z.leb_spec o P); try lia end;
  (split; [lia|split; [vm_compute; reflexivity|cbn [nth]; lia]]).
Qed.

Lemma bits64_neg p w : (p <= 64)%nat -> bits p (not64 w) = map negb (bits p w).
Proof.
  intros. unfold bits. rewrite map_map. apply map_ext_in. intros i Hi. apply in_seq in Hi. apply not64_bit. lia.
Qed.
Lemma select64_true w k : word64 w -> (k < cnt true (bits 64 w))%nat -> exists p, (p < 64)%nat /\
  select64 true (Z.of_nat k) w = Some (Z.of_nat p) /\ Z.testbit w (Z.of_nat p) = true /\ cnt true (bits p w) = k.
Proof.
  intros Hw Hk. destruct (word8 w Hw) as (a0 & a1 & a2 & a3 & a4 & a5 & a6 & a7 & E & F). 
  assert (Tot : ones_count (bits 64 w) = pc8 a0 + pc8 a1 + pc8 a2 + pc8 a3 + pc8 a4 + pc8 a5 + pc8 a6 + pc8 a7).
  { rewrite E. pose proof (@count_word _ F) as C. cbn [length fold_right] in C. change (8 * 8)%nat with 64%nat in C. rewrite C. lia. }
  rewrite cnt_ones in Tot.
  pose proof (pc8_bound a0). pose proof (pc8_bound a1). pose proof (pc8_bound a2). pose proof (pc8_bound a3). pose proof (pc8_bound a4). pose proof (pc8_bound a5). pose proof (pc8_bound a6). pose proof (pc8_bound a7).
  unfold select64. destruct (Z.ltb_spec (Z.of_nat k) 64); [cbn [guard obind]|lia].
  set (o := Z.of_nat k + 1). replace (popcnt_e8 w) with (word (map pc8 [a0; a1; a2; a3; a4; a5; a6; a7])) by (rewrite E, popcnt_e8_ok; auto). cbn [map]. rewrite prefix_word by auto.
  rewrite select_y by lia.
  destruct (@select_byte (pc8 a0) (pc8 a0 + pc8 a1) (pc8 a0 + pc8 a1 + pc8 a2) (pc8 a0 + pc8 a1 + pc8 a2 + pc8 a3) (pc8 a0 + pc8 a1 + pc8 a2 + pc8 a3 + pc8 a4) (pc8 a0 + pc8 a1 + pc8 a2 + pc8 a3 + pc8 a4 + pc8 a5) (pc8 a0 + pc8 a1 + pc8 a2 + pc8 a3 + pc8 a4 + pc8 a5 + pc8 a6) (pc8 a0 + pc8 a1 + pc8 a2 + pc8 a3 + pc8 a4 + pc8 a5 + pc8 a6 + pc8 a7) o) as (b & Lb & Eb & Hb); try lia.
  rewrite Eb. clear Eb. set (ps := [0; _; _; _; _; _; _; _]) in *. unfold byte_at.
  destruct (Z.leb_spec 0 (Z.of_nat b)); [|lia]. destruct (Z.ltb_spec (Z.of_nat b) 8); [|lia]. cbn [andb guard obind].
  assert (Fp : Forall byte ps) by (unfold ps; repeat constructor; unfold byte; lia).
  assert (Gp : get ps b = Some (nth b ps 0)). { apply get_nth. unfold ps. cbn [length]. lia. }
  rewrite (@word_byte ps b (nth b ps 0) Fp Gp). set (as_ := [a0; a1; a2; a3; a4; a5; a6; a7]) in *.
  assert (Ga : get as_ b = Some (nth b as_ 0)). { apply get_nth. unfold as_. cbn [length]. lia. }
  replace (Z.shiftr w (8 * Z.of_nat b) mod 2 ^ 8) with (nth b as_ 0) by (rewrite E; symmetry; exact (@word_byte as_ b (nth b as_ 0) F Ga)). set (by_ := nth b as_ 0) in *. cbn [obind].
  assert (Bb : byte by_). { rewrite Forall_forall in F. apply F. eapply get_In; eauto. }
  assert (Wb : word64 by_) by (unfold word64; unfold byte in Bb; lia).
  assert (Pb : popcnt by_ = pc8 by_).
  { rewrite popcnt_ok by auto. unfold pc8. change 64%nat with (8 + 56)%nat. rewrite bits_app, ones_count_app. 
    replace (Z.shiftr by_ (Z.of_nat 8)) with 0. { replace (ones_count (bits 56 0)) with 0 by reflexivity. lia. }
    symmetry. unfold byte in Bb. rewrite Z.shiftr_div_pow2 by lia. apply Z.div_small. exact Bb. }
  assert (Rr : 1 <= o - nth b ps 0 <= pc8 by_).
  { split; [lia|]. destruct Hb as [Hb1 Hb2]. unfold by_, as_, ps. do 8 (destruct b as [|b]; [cbn [nth] in Hb1, Hb2 |- *; lia|]). lia. }
  rewrite Pb. set (r := o - nth b ps 0) in *. destruct (Z.eqb_spec r 0); [lia|]. destruct (Z.leb_spec r (pc8 by_)); [|lia]. cbn [negb andb guard obind].
  pose proof (pc8_bound by_). rewrite Z.mod_small by lia. destruct (@sel_tb_ok _ _ Bb Rr) as (t & Et & Ht & Tt & Ct). rewrite Et. cbn [obind].
  exists (8 * b + Z.to_nat t)%nat. split; [lia|]. split; [f_equal; rewrite Z.mod_small; lia|].
  assert (Sp : exists xs ys, as_ = xs ++ by_ :: ys /\ length xs = b). { exists (firstn b as_), (skipn (S b) as_). split; [|unfold as_; rewrite firstn_length; cbn [length]; lia]. rewrite <- (firstn_skipn b as_) at 1. f_equal. apply skipn_get_cons; auto. }
  destruct Sp as (xs & ys & Ea & Lx). rewrite Ea in *. assert (Fx : Forall byte xs) by (apply Forall_app in F; tauto).
  assert (Sh : Z.shiftr w (8 * Z.of_nat b) = by_ + 2 ^ 8 * word ys). { rewrite E, word_app, Lx. pose proof (@word_bound _ Fx) as Bx. rewrite Lx in Bx. rewrite cat_shiftr by lia. reflexivity. }
  split.
  - replace (Z.of_nat (8 * b + Z.to_nat t)) with (t + 8 * Z.of_nat b) by lia. rewrite <- Z.shiftr_spec by lia. rewrite Sh.
    rewrite <- (@Z.mod_pow2_bits_low _ 8) by lia. rewrite cat_mod; [auto|lia|exact Bb].
  - apply Nat2Z.inj. rewrite <- cnt_ones. rewrite bits_app, ones_count_app. 
    replace (ones_count (bits (8 * b) w)) with (nth b ps 0).
    + replace (Z.of_nat (8 * b)) with (8 * Z.of_nat b) by lia. rewrite Sh. 
      replace (bits (Z.to_nat t) (by_ + 2 ^ 8 * word ys)) with (bits (Z.to_nat t) by_); [rewrite Ct; unfold r, o; lia|].
      unfold bits. apply map_ext_in. intros i Hi. apply in_seq in Hi. symmetry. rewrite <- (@Z.mod_pow2_bits_low _ 8) by lia. rewrite cat_mod; [auto|lia|exact Bb].
    + rewrite <- Lx at 2. rewrite E, word_bits_pre by auto.
      assert (K : nth b ps 0 = fold_right (fun b r => pc8 b + r) 0 (firstn b [a0; a1; a2; a3; a4; a5; a6; a7])).
      { unfold ps. do 8 (destruct b as [|b]; [cbn [nth firstn fold_right]; lia|]). lia. }
      rewrite K. f_equal. fold as_. unfold as_ in *. rewrite Ea. rewrite <- Lx. rewrite firstn_app, Nat.sub_diag, firstn_all. cbn [firstn]. now rewrite app_nil_r.
Qed.
Lemma select64_ok B w k : word64 w -> (k < cnt B (bits 64 w))%nat -> exists p, (p < 64)%nat /\
  select64 B (Z.of_nat k) w = Some (Z.of_nat p) /\ Z.testbit w (Z.of_nat p) = B /\ cnt B (bits p w) = k.
Proof.
  intros Hw Hk. destruct B.
  - destruct (select64_true Hw Hk) as (p & Lp & R). exists p. auto.
  - assert (N : bits 64 (not64 w) = map negb (bits 64 w)) by (apply bits64_neg; lia).
    destruct (@select64_true (not64 w) k) as (p & Lp & E & T & C); [now apply not64_word|rewrite N, cnt_negb; exact Hk|].
    exists p. split; auto. split; [exact E|]. rewrite not64_bit in T by auto. split; [destruct (Z.testbit w (Z.of_nat p)); [discriminate|auto]|]. rewrite bits64_neg, cnt_negb in C by lia. exact C.
Qed.
