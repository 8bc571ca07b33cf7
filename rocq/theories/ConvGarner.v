(** [convolution_garner]. *)
From Coq Require Import Setoid Morphisms Znumtheory.
From Verif Require Import Base BaseLemmas NthExtra SearchModel BitModel NumTheory NumProth ModularModel ModularProof PrimRootModel NttModel NttSum NttRev NttProof NttCore ConvModel ConvSum ConvNtt ConvInt.
Local Open Scope Z_scope.
Ltac Zify.zify_post_hook ::= idtac.

Definition I1 : Z := 95869806.
Definition I2 : Z := 187290749.

Lemma i1_ok : m_inv G1 (m_signed G1 G0) = Some I1.
Proof. vm_compute. reflexivity. Qed.
Lemma i2_ok : m_inv G2 (m_signed G2 (G0 * G1)) = Some I2.
Proof. vm_compute. reflexivity. Qed.

(** ** Size of the entries of the product *)
Lemma zsum_le n f g : (forall i, (i < n)%nat -> f i <= g i) -> zsum n f <= zsum n g.
Proof.
  induction n as [|n IH]; intros H; cbn [zsum]; [lia|]. pose proof (H n ltac:(lia)).
  assert (zsum n f <= zsum n g) by (apply IH; intros; apply H; lia). lia.
Qed.

Lemma conv_comm f g k : conv f g k = conv g f k.
Proof.
  rewrite (conv_dbl g f). rewrite <- dbl_swap. rewrite conv_dbl. unfold dbl. apply zsum_ext. intros i _. apply zsum_ext. intros j _.
  rewrite (Nat.add_comm i j). destruct (j + i =? k)%nat; ring.
Qed.

Lemma conv_bound_l f g k B : 0 <= B -> (forall i, 0 <= nth i f 0 <= B) -> (forall i, 0 <= nth i g 0 <= B) ->
  0 <= conv f g k <= Z.of_nat (length f) * (B * B).
Proof.
  intros HB Hf Hg. rewrite conv_dbl. unfold dbl.
  rewrite (zsum_ext (length f) _ (fun i => if (i <=? k)%nat then nth i f 0 * nth (k - i) g 0 else 0)).
  2:{ intros i _. apply (inner_sum (length g) i k (nth i f 0) (fun j => nth j g 0)). intros; now apply nth_overflow. }
  split.
  - transitivity (zsum (length f) (fun _ => 0)); [rewrite zsum_0; lia|]. apply zsum_le. intros i _.
    destruct (i <=? k)%nat; [|lia]. apply Z.mul_nonneg_nonneg; [apply Hf|apply Hg].
  - rewrite <- zsum_const. apply zsum_le. intros i _. destruct (i <=? k)%nat.
    + apply Z.mul_le_mono_nonneg; [apply Hf|apply Hf|apply Hg|apply Hg].
    + apply Z.mul_nonneg_nonneg; auto.
Qed.

Lemma conv_bound f g k B : 0 <= B -> (forall i, 0 <= nth i f 0 <= B) -> (forall i, 0 <= nth i g 0 <= B) ->
  0 <= conv f g k <= Z.of_nat (Nat.min (length f) (length g)) * (B * B).
Proof.
  intros HB Hf Hg. destruct (Nat.min_spec (length f) (length g)) as [[_ ->]|[_ ->]]; [now apply conv_bound_l|].
  rewrite conv_comm. now apply conv_bound_l.
Qed.

(** ** One entry *)
Lemma rem_eqm a m : m <> 0 -> eqm m (Z.rem a m) a.
Proof. intros H. exists (- Z.quot a m). pose proof (Z.quot_rem a m H). lia. Qed.

Lemma garner_ok md s : 1 <= md < 2 ^ 31 -> 0 <= s < G0 * G1 * (G2 - 1) ->
  garner md I1 I2 (s mod G0) (s mod G1) (s mod G2) = Some (s mod md).
Proof.
  intros Hmd Hs. assert (M2 : 1 <= G2 < 2 ^ 31) by (unfold G2; lia).
  pose proof (Z.mod_pos_bound s G0 ltac:(unfold G0; lia)) as B0. pose proof (Z.mod_pos_bound s G1 ltac:(unfold G1; lia)) as B1.
  pose proof (Z.mod_pos_bound s G2 ltac:(unfold G2; lia)) as B2.
  pose proof (eqm_mod G0 s) as C0. pose proof (eqm_mod G1 s) as C1. pose proof (eqm_mod G2 s) as C2.
  set (r0 := s mod G0) in *. set (r1 := s mod G1) in *. set (r2 := s mod G2) in *. clearbody r0 r1 r2.
  unfold garner.
  rewrite mach_ok by (unfold I1, G0, G1 in *; change (2 ^ (64 - 1)) with 9223372036854775808; lia). cbn [obind].
  set (y := I1 * (r1 + G1 - r0)). set (v1 := Z.rem y G1).
  assert (V1 : - G1 < v1 < G1).
  { pose proof (Z.rem_bound_abs y G1 ltac:(unfold G1; lia)) as A. fold v1 in A. unfold G1 in *. lia. }
  assert (E1 : eqm G1 v1 y) by (apply rem_eqm; unfold G1; lia). clearbody v1.
  rewrite mach_ok by (unfold G1 in *; change (2 ^ (32 - 1)) with 2147483648; lia). cbn [obind].
  rewrite (m_signed_ok G2 M2), (m_signed_ok G2 M2), (m_signed_ok G2 M2), (m_signed_ok G2 M2), (m_signed_ok G2 M2).
  assert (RB : forall x, 0 <= x mod G2 < G2) by (intros x; apply Z.mod_pos_bound; unfold G2; lia).
  rewrite (m_mul_ok G2 M2 _ _ (RB _) (RB _)). cbn [obind]. rewrite (m_sub_ok G2 M2 (r2 mod G2) _ (RB _) (RB _)), (m_sub_ok G2 M2 _ _ (RB _) (RB _)), (m_mul_ok G2 M2 _ _ (RB _) (RB _)). cbn [obind].
  set (v2 := (_ mod G2 * (I2 mod G2)) mod G2).
  assert (E2 : eqm G2 v2 ((s - r0 - G0 * v1) * I2)).
  { unfold v2. rewrite eqm_mod, (eqm_mod G2 I2). apply eqm_mul_m; [|reflexivity]. rewrite eqm_mod.
    apply eqm_sub_m; [rewrite eqm_mod; apply eqm_sub_m; [rewrite eqm_mod; exact C2|apply eqm_mod]|].
    rewrite eqm_mod. apply eqm_mul_m; apply eqm_mod. }
  assert (V2 : 0 <= v2 < G2) by apply RB. clearbody v2.
  (* the first two primes *)
  assert (X0 : (G0 | s - (r0 + G0 * v1))).
  { destruct C0 as [z Hz]. exists (- z - v1). lia. }
  assert (X1 : (G1 | s - (r0 + G0 * v1))).
  { assert (H : eqm G1 (r0 + G0 * v1) s); [|destruct H as [z Hz]; exists (- z); lia].
    rewrite E1. unfold y. rewrite <- C1. transitivity (r0 + 1 * (r1 - r0)).
    - apply eqm_add_m; [reflexivity|]. rewrite Z.mul_assoc. apply eqm_mul_m.
      + exists 431414125. vm_compute. reflexivity.
      + exists 1. lia.
    - apply eq_eqm. ring. }
  assert (X : exists u, s - (r0 + G0 * v1) = G0 * G1 * u).
  { destruct X0 as [t Ht]. rewrite Ht, Z.mul_comm in X1. apply Gauss in X1.
    - destruct X1 as [u Hu]. exists u. rewrite Ht, Hu. ring.
    - apply prime_rel_prime; [exact prime_167772161|]. intros [z Hz]. unfold G0, G1 in Hz. lia. }
  destruct X as [u Hu].
  assert (U : 0 <= u < G2).
  { assert (- (G0 * G1) < G0 * G1 * u < G0 * G1 * G2) by (rewrite <- Hu; unfold G0, G1, G2 in *; lia).
    unfold G0, G1, G2 in *. lia. }
  assert (EU : v2 = u).
  { apply (eqm_small G2); auto. rewrite E2. replace (s - r0 - G0 * v1) with (s - (r0 + G0 * v1)) by ring. rewrite Hu.
    transitivity (1 * u); [|apply eq_eqm; ring]. replace (G0 * G1 * u * I2) with (G0 * G1 * I2 * u) by ring.
    apply eqm_mul_m; [|reflexivity]. exists 50499921969271932. vm_compute. reflexivity. }
  subst v2.
  pose proof (Z.rem_bound_pos (G0 * G1) md ltac:(unfold G0, G1; lia) ltac:(lia)) as RM.
  assert (RM2 : 0 <= Z.rem (G0 * G1) md * u < 2 ^ 60).
  { split; [apply Z.mul_nonneg_nonneg; lia|]. change (2 ^ 60) with (2 ^ 31 * 2 ^ 29).
    apply Z.mul_lt_mono_nonneg; try lia. unfold G2 in U. lia. }
  assert (RM1 : - 2 ^ 60 < G0 * v1 < 2 ^ 60) by (unfold G0, G1 in *; lia).
  rewrite mach_ok by (change (2 ^ (64 - 1)) with (2 ^ 63); lia). cbn [obind].
  rewrite mach_ok by (change (2 ^ (64 - 1)) with (2 ^ 63); unfold G0 in *; lia). cbn [obind].
  rewrite mach_ok by (change (2 ^ (64 - 1)) with (2 ^ 63); lia). cbn [obind].
  rewrite mach_ok by (change (2 ^ (64 - 1)) with (2 ^ 63); unfold G0 in *; lia). cbn [obind].
  f_equal. rewrite m_signed_ok by auto. apply eqm_mod_eq; [lia|].
  transitivity (r0 + G0 * v1 + G0 * G1 * u); [|apply eq_eqm; lia].
  apply eqm_add_m; [reflexivity|]. apply eqm_mul_m; [|reflexivity]. apply rem_eqm. lia.
Qed.

(** ** The whole vector *)
Theorem conv_garner_ok md f g : 1 <= md < 2 ^ 31 -> residues md f -> residues md g -> (0 < length f)%nat -> (0 < length g)%nat ->
  (length f + length g - 2 <= 2 ^ 24)%nat ->
  exists h, conv_garner md f g = Some h /\ length h = conv_ntt_len (length f) (length g) /\ forall k, nth k h 0 = conv f g k mod md.
Proof.
  intros Hmd Rf Rg Hf Hg HL. unfold conv_garner.
  destruct (Nat.eqb_spec (length f) 0) as [?|_]; [lia|]. destruct (Nat.eqb_spec (length g) 0) as [?|_]; [lia|]. cbn [orb].
  destruct (ntt_ints G0 f g 24 prime_754974721) as (c0 & E0 & L0 & K0); auto. { unfold G0; lia. } { exists 45. reflexivity. }
  destruct (ntt_ints G1 f g 24 prime_167772161) as (c1 & E1 & L1 & K1); auto. { unfold G1; lia. } { exists 10. reflexivity. }
  destruct (ntt_ints G2 f g 24 prime_469762049) as (c2 & E2 & L2 & K2); auto. { unfold G2; lia. } { exists 28. reflexivity. }
  rewrite E0, E1, E2, i1_ok, i2_ok. cbn [obind].
  set (L := conv_ntt_len (length f) (length g)) in *. rewrite L0.
  match goal with |- context [for_up _ _ ?bd _] => set (body := bd) end.
  assert (SB : forall k, 0 <= conv f g k < G0 * G1 * (G2 - 1)).
  { intros k. destruct (conv_bound f g k (2 ^ 31)) as [A B]; try lia.
    - intros i. pose proof (res_n md Hmd f i Rf). lia.
    - intros i. pose proof (res_n md Hmd g i Rg). lia.
    - split; auto. eapply Z.le_lt_trans; [exact B|].
      assert (Z.of_nat (Nat.min (length f) (length g)) <= 2 ^ 23 + 1).
      { assert (HZ : Z.of_nat (length f + length g - 2) <= Z.of_nat (2 ^ 24)) by lia. rewrite Nat2Z.inj_pow in HZ.
        change (Z.of_nat 2 ^ Z.of_nat 24) with (2 * 2 ^ 23) in HZ. lia. }
      apply Z.le_lt_trans with ((2 ^ 23 + 1) * (2 ^ 31 * 2 ^ 31)); [apply Z.mul_le_mono_nonneg_r; lia|]. reflexivity. }
  destruct (@for_up_rule _ (fun i h => length h = L /\ forall k, (k < i)%nat -> nth k h 0 = conv f g k mod md) body L 0%nat (repeat 0 L))
    as (h & E & Lh & Kh).
  - split; [apply repeat_length|]. intros; lia.
  - intros i h Hi (Lh & Kh). unfold body.
    rewrite (get_nth c0 _ 0), (get_nth c1 _ 0), (get_nth c2 _ 0) by lia. cbn [obind]. rewrite K0, K1, K2.
    rewrite garner_ok by auto. cbn [obind]. rewrite set_some by lia. eexists. split; [reflexivity|]. rewrite lset_length. split; auto.
    intros k Hk. destruct (Nat.eq_dec i k) as [<-|N]; [rewrite nth_lset_eq by lia; auto|]. rewrite nth_lset_neq by auto. apply Kh. lia.
  - exists h. split; [exact E|]. split; auto. intros k. destruct (Nat.lt_ge_cases k L) as [C|C]; [apply Kh; lia|].
    rewrite nth_overflow by lia. pose proof (conv_len_ge _ _ Hf Hg). fold L in H. rewrite conv_high by lia. symmetry. apply Z.mod_0_l. lia.
Qed.
