(** * C65: rank and select on a bit vector ([BV] of bv.hpp, [BitVector]) *)
From Verif Require Import Base BaseLemmas ListExtra BitModel BmapModel BmapProof BmapProp BvModel BvSel BvBlock BvProof BvOps.
Set Implicit Arguments.

(** The words of a list of bits, [W] bits in each, the last one filled with zeros. *)
Definition words_of (W : nat) (l : list bool) : list Z :=
  map (fun q => bin (slice (W * q) (W * (q + 1)) l)) (seq 0 ((length l + W - 1) / W)).

Lemma bin_bit : forall l i, Z.testbit (bin l) (Z.of_nat i) = nth i l false.
Proof.
  induction l as [|b l IH]; intros i; [cbn [bin]; rewrite Z.bits_0; now destruct i|]. cbn [bin]. destruct i as [|i].
  - rewrite Z.bit0_odd, Z.odd_add_mul_2. now destruct b.
  - cbn [nth]. rewrite Nat2Z.inj_succ, <- (IH i). rewrite <- Z.div2_bits by lia. f_equal. symmetry. apply Z.div_unique with (if b then 1 else 0)%Z; destruct b; lia.
Qed.
Lemma bin_bound l : (0 <= bin l < 2 ^ Z.of_nat (length l))%Z.
Proof. induction l as [|b l IH]; [cbn; lia|]. cbn [bin length]. rewrite Nat2Z.inj_succ, Z.pow_succ_r by lia. destruct b; lia. Qed.
Lemma words_rep W l : 1 <= W <= 64 -> vrep W (Bvec (length l) (words_of W l)) l.
Proof.
  intros HW. repeat split; cbn [vsize vwords].
  - unfold words_of. now rewrite map_length, seq_length.
  - apply Forall_forall. intros w Hw. apply in_map_iff in Hw. destruct Hw as (q & <- & _). set (s := slice _ _ l). assert (length s <= 64) by (unfold s, slice; rewrite firstn_length; lia).
    pose proof (bin_bound s). assert (2 ^ Z.of_nat (length s) <= 2 ^ 64)%Z by (apply Z.pow_le_mono_r; lia). unfold word64. lia.
  - intros q w j Gq Hj. unfold words_of in Gq. rewrite get_map in Gq. assert (Hq : q < (length l + W - 1) / W). { destruct (get (seq 0 ((length l + W - 1) / W)) q) eqn:E; [|discriminate]. apply get_some_lt in E. now rewrite seq_length in E. }
    rewrite get_seq in Gq by auto. injection Gq as <-. cbn [Nat.add]. rewrite bin_bit. unfold slice. destruct (Nat.ltb_spec j W).
    + rewrite nth_firstn_lt by lia. now rewrite nth_skipn.
    + apply nth_overflow. rewrite firstn_length. lia.
Qed.

(** For every width [W <= 64] of the words of the bit vector (64 for a [Bitmap], 63 for [Rrr]):
    [build] on any bits succeeds, and then [rank1], [rank0], [select<1>] and [select<0>] count and
    find bits: [select<B>(k)] is the position of the [k]th [B], or the size when there is none. *)
Theorem C65_directory W l : 1 <= W <= 64 -> let v := Bvec (length l) (words_of W l) in
  exists d, bv_build W v = Some d /\
  (forall i, rank1 W v d i = Some (cnt true (firstn i l))) /\
  (forall i, i <= length l -> rank0 W v d i = Some (cnt false (firstn i l))) /\
  (forall B k, select W v d B k = Some (kth B k l)).
Proof.
  intros HW v. pose proof (words_rep l HW) as R. destruct (build_ok HW R) as (d & E & D). exists d. split; [exact E|]. split; [|split].
  - intros i. exact (rank1_ok HW R D i).
  - intros i Hi. exact (rank_ok HW R D false Hi).
  - intros B k. exact (select_ok HW R D B k).
Qed.

(** [select] undoes [rank]. *)
Lemma kth_inv B : forall l k, k < cnt B l -> kth B k l < length l /\ nth (kth B k l) l false = B /\ cnt B (firstn (kth B k l) l) = k.
Proof.
  induction l as [|b l IH]; intros k Hk; [cbn in Hk; lia|]. cbn [cnt kth length] in *. destruct (Bool.eqb b B) eqn:E.
  - destruct k as [|k]; [apply Bool.eqb_prop in E; cbn; repeat split; auto; lia|]. destruct (IH k ltac:(lia)) as (H1 & H2 & H3). cbn [nth firstn cnt]. rewrite E. repeat split; auto; lia.
  - destruct (IH k Hk) as (H1 & H2 & H3). cbn [nth firstn cnt]. rewrite E. repeat split; auto; lia.
Qed.

(** A [BitVector]: after a history of its bitmap that leaves zeros behind the end (started from
    zeros or from a list; no growth filled with ones, nothing popped), [build] and the queries. *)
Inductive bstart0 : option bmap -> list bool -> Prop :=
  | bst0_new n : bstart0 (Some (bm_new n false)) (repeat false n)
  | bst0_of l : bstart0 (bm_of l) l.
Lemma start0_ok o l : bstart0 o l -> exists m, o = Some m /\ binv m l /\ clean m.
Proof.
  intros [n|l']; [eexists; split; [reflexivity|]; destruct (new_ok n false); auto|].
  unfold bm_of. assert (K : forall r m p, binv m p -> clean m -> exists m', for_each r (fun b m => bm_push m b) m = Some m' /\ binv m' (p ++ r) /\ clean m').
  { induction r as [|b r IH]; intros m p I C; [exists m; rewrite app_nil_r; auto|]. cbn [for_each]. destruct (push_ok b I) as (m1 & -> & I1 & C1). cbn [obind]. destruct (IH _ _ I1 (C1 C)) as (m2 & E & I2 & C2). exists m2. split; auto. rewrite <- app_assoc in I2. auto. }
  destruct (K l' (Bm [] 0) []) as (m & E & I); [|intros i _; unfold bitf; cbn [arr]; rewrite nth_overflow by (cbn; lia); apply Z.bits_0|eauto]. repeat split; cbn; auto. intros; lia.
Qed.
Lemma bitmap_rep m l : binv m l -> clean m -> vrep 64 (bm_vec m) l.
Proof.
  intros (Lw & F & Sz & Bt) C. repeat split; cbn [bm_vec vsize vwords]; auto.
  - rewrite Lw, Sz. unfold req. f_equal. lia.
  - intros q w j Gq Hj. destruct (Nat.ltb_spec j 64); [|lia]. cbn [andb]. destruct (@idx_eq (64 * q + j) q j Hj eq_refl) as (Eq & Er).
    assert (E : bitf (arr m) (64 * q + j) = Z.testbit w (Z.of_nat j)) by (rewrite (@bitf_get _ _ w) by (rewrite Eq; auto); now rewrite Er).
    rewrite <- E. destruct (Nat.lt_ge_cases (64 * q + j) (length l)); [now apply Bt|]. rewrite C by lia. symmetry. now apply nth_overflow.
Qed.
Theorem C65_bit_vector o l0 cs l : bstart0 o l0 -> bsteps l0 cs l -> forallb nofill cs = true ->
  exists m d, (let* m := o in bm_run cs m) = Some m /\ bv_build 64 (bm_vec m) = Some d /\
  (forall i, rank1 64 (bm_vec m) d i = Some (cnt true (firstn i l))) /\
  (forall i, i <= length l -> rank0 64 (bm_vec m) d i = Some (cnt false (firstn i l))) /\
  (forall B k, select 64 (bm_vec m) d B k = Some (kth B k l)).
Proof.
  intros St Ss Hn. destruct (start0_ok St) as (m0 & -> & I0 & C0). cbn [obind]. destruct (steps_ok I0 Ss) as (m & E & I & C). pose proof (bitmap_rep I (C Hn C0)) as R.
  assert (HW : 1 <= 64 <= 64) by lia. destruct (build_ok HW R) as (d & Ed & D). exists m, d. split; [exact E|]. split; [exact Ed|]. split; [|split].
  - intros i. exact (rank1_ok HW R D i).
  - intros i Hi. exact (rank_ok HW R D false Hi).
  - intros B k. exact (select_ok HW R D B k).
Qed.
(** Whatever is behind the end, [rank1] inside the vector counts the bits of the vector. *)
Theorem C65_rank_any o l0 cs l : bstart o l0 -> bsteps l0 cs l ->
  exists m d, (let* m := o in bm_run cs m) = Some m /\ bv_build 64 (bm_vec m) = Some d /\
  (forall i, i < length l -> rank1 64 (bm_vec m) d i = Some (cnt true (firstn i l)) /\ rank0 64 (bm_vec m) d i = Some (cnt false (firstn i l))).
Proof.
  intros St Ss. destruct (start_ok St) as (m0 & -> & I0). cbn [obind]. destruct (steps_ok I0 Ss) as (m & E & I & _). exists m.
  destruct I as (Lw & F & Sz & Bt). set (l' := map (bitf (arr m)) (seq 0 (64 * req (length l)))).
  assert (Ll : length l' = 64 * req (length l)) by (unfold l'; now rewrite map_length, seq_length).
  assert (Nl : forall i, i < 64 * req (length l) -> nth i l' false = bitf (arr m) i).
  { intros i Hi. unfold l'. rewrite (nth_indep _ false (bitf (arr m) 0)) by (rewrite map_length, seq_length; auto). now rewrite map_nth, seq_nth by auto. }
  assert (Rq : length l <= 64 * req (length l) < length l + 64). { unfold req. pose proof (Nat.div_mod (length l + 63) 64 ltac:(lia)). pose proof (m64 (length l + 63)). lia. }
  assert (R : vrep 64 (Bvec (length l') (arr m)) l').
  { repeat split; cbn [vsize vwords]; auto.
    - rewrite Lw, Sz, Ll. apply Nat.div_unique with 63; lia.
    - intros q w j Gq Hj. destruct (Nat.ltb_spec j 64); [|lia]. cbn [andb]. destruct (@idx_eq (64 * q + j) q j Hj eq_refl) as (Eq & Er). apply get_some_lt in Gq as Hq.
      rewrite Nl by (rewrite Lw, Sz in Hq; lia). rewrite (@bitf_get _ _ w) by (rewrite Eq; auto). now rewrite Er. }
  assert (HW : 1 <= 64 <= 64) by lia. destruct (build_ok HW R) as (d & Ed & D). exists d. split; [exact E|].
  assert (Eb : bv_build 64 (bm_vec m) = bv_build 64 (Bvec (length l') (arr m))).
  { unfold bv_build. cbn [bm_vec vsize vwords]. replace ((bsz m + LB 64 - 1) / LB 64) with ((length l' + LB 64 - 1) / LB 64); [reflexivity|].
    rewrite Sz, Ll. unfold LB. change (64 * 8) with 512. pose proof (Nat.div_mod (64 * req (length l) + 512 - 1) 512 ltac:(lia)) as D1. pose proof (Nat.mod_upper_bound (64 * req (length l) + 512 - 1) 512 ltac:(lia)).
    set (q := (64 * req (length l) + 512 - 1) / 512) in *. set (r := (64 * req (length l) + 512 - 1) mod 512) in *. apply Nat.div_unique with (length l + 512 - 1 - 512 * q); lia. }
  split; [now rewrite Eb|]. intros i Hi.
  assert (E1 : rank1 64 (bm_vec m) d i = Some (cnt true (firstn i l))).
  { pose proof (rank1_ok HW R D i) as K. unfold rank1 in *. cbn [bm_vec vsize vwords] in *. rewrite Sz. rewrite Ll in K. destruct (Nat.leb_spec (length l) i); [lia|]. destruct (Nat.leb_spec (64 * req (length l)) i); [lia|]. rewrite K. do 2 f_equal.
    apply nth_ext with false false; [rewrite !firstn_length; lia|]. intros n. rewrite firstn_length. intros Hn. rewrite !nth_firstn_lt by lia. rewrite Nl by lia. apply Bt. lia. }
  split; [exact E1|]. unfold rank0. rewrite E1. cbn [obind]. pose proof (cnt_two (firstn i l)) as K. rewrite firstn_length in K. destruct (Nat.leb_spec (cnt true (firstn i l)) i); [|lia]. cbn [guard obind]. f_equal. lia.
Qed.
(** Ones behind the end are counted by [rank1(size())], so [BitVector(3, true)] has 64 ones. *)
Theorem C65_padding_refuted : (let m := bm_new 3 true in let* d := bv_build 64 (bm_vec m) in let* r := rank1 64 (bm_vec m) d 3 in let* p := select 64 (bm_vec m) d true 3 in Some (bsz m, r, p)) = Some (3, 64, 3).
Proof. vm_compute. reflexivity. Qed.

(** Non-trivial cases: three words; three blocks of eight words of seven bits. *)
Definition ex_bits := map (fun i => i * i mod 7 <? 2) (seq 0 7 ++ seq 3 9 ++ seq 1 8 ++ seq 5 7).
Definition ex_long := ex_bits ++ rev ex_bits ++ ex_bits ++ ex_bits ++ rev ex_bits.
Example C65_ex : (let* m := bm_of ex_long in let* d := bv_build 64 (bm_vec m) in
  let* a := rank1 64 (bm_vec m) d 130 in let* b := rank0 64 (bm_vec m) d 100 in let* p := select 64 (bm_vec m) d true 50 in
  let* q := select 64 (bm_vec m) d false 70 in let* e := select 64 (bm_vec m) d true 90 in Some (a, b, p, q, e)) =
  Some (cnt true (firstn 130 ex_long), cnt false (firstn 100 ex_long), kth true 50 ex_long, kth false 70 ex_long, 155).
Proof. vm_compute. reflexivity. Qed.
Example C65_ex7 : (let v := Bvec 155 (words_of 7 ex_long) in let* d := bv_build 7 v in
  let* a := rank1 7 v d 150 in let* p := select 7 v d true 60 in let* q := select 7 v d false 80 in Some (a, p, q)) =
  Some (cnt true (firstn 150 ex_long), kth true 60 ex_long, kth false 80 ex_long).
Proof. vm_compute. reflexivity. Qed.

Print Assumptions C65_directory.
Print Assumptions C65_bit_vector.
Print Assumptions C65_rank_any.
Print Assumptions C65_padding_refuted.
