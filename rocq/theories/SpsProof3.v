From Coq Require Import Lia Ring_theory Ring.
From Verif Require Import Base BaseLemmas ListExtra NthExtra RSum BitConvModel BitConvSweep BitConvProof BitConvSubset SpsModel SpsAlg SpsRep SpsProof.

Lemma lnot_subset n i j : i < 2 ^ n -> j < 2 ^ n -> subset (2 ^ n - 1 - j) (2 ^ n - 1 - i) = subset i j.
Proof.
  intros Hi Hj. rewrite !compl by auto. apply eq_true_iff_eq. rewrite !subset_spec. split; intros H b Hb.
  - destruct (Nat.lt_ge_cases b n) as [L|L].
    + specialize (H b). rewrite !Nat.lnot_spec_low in H by auto. rewrite Hb in H. destruct (Nat.testbit j b); auto.
    + exfalso. destruct (Nat.eq_dec i 0) as [->|N0]; [now rewrite Nat.bits_0 in Hb|]. rewrite Nat.bits_above_log2 in Hb; [discriminate|].
      apply Nat.log2_lt_pow2; [lia|]. pose proof (Nat.pow_le_mono_r 2 n b). lia.
  - destruct (Nat.lt_ge_cases b n) as [L|L].
    + specialize (H b). rewrite !Nat.lnot_spec_low in * by auto. destruct (Nat.testbit i b); auto. rewrite H in Hb by auto. discriminate.
    + rewrite <- compl in * by auto. destruct (Nat.eq_dec (2 ^ n - 1 - j) 0) as [E|N0]; [rewrite E, Nat.bits_0 in Hb; discriminate|]. rewrite Nat.bits_above_log2 in Hb; [discriminate|].
      apply Nat.log2_lt_pow2; [lia|]. pose proof (Nat.pow_le_mono_r 2 n b). lia.
Qed.
Lemma lnot_ldiff n i j : i < 2 ^ n -> j < 2 ^ n -> Nat.ldiff (2 ^ n - 1 - i) (2 ^ n - 1 - j) = Nat.ldiff j i.
Proof.
  intros Hi Hj. rewrite !compl by auto. apply Nat.bits_inj. intros b. rewrite !Nat.ldiff_spec. destruct (Nat.lt_ge_cases b n) as [L|L].
  - rewrite !Nat.lnot_spec_low by auto. now destruct (Nat.testbit i b), (Nat.testbit j b).
  - assert (Z : forall x, x < 2 ^ n -> Nat.testbit x b = false).
    { intros x Hx. destruct (Nat.eq_dec x 0) as [->|N0]; [apply Nat.bits_0|]. apply Nat.bits_above_log2. apply Nat.log2_lt_pow2; [lia|]. pose proof (Nat.pow_le_mono_r 2 n b). lia. }
    rewrite <- !compl by auto. rewrite (Z j), (Z (2 ^ n - 1 - i)) by lia. reflexivity.
Qed.

Section Proof.
Variable T : Type.
Variables (zero one : T) (add mul sub : T -> T -> T) (opp : T -> T) (eqb : T -> T -> bool).
Hypothesis RT : ring_theory zero one add mul sub opp eq.
Hypothesis EQ : forall x y, eqb x y = true <-> x = y.
Add Ring Tring : RT.
Variable LIM : nat.
Notation sum := (sum T zero add).
Notation at2 := (at2 T zero).
Notation sconv := (sconv T zero add mul).
Notation hi := (hi T).
Notation rep := (rep T zero add).
Notation mem := (mem T LIM).
Notation cmp := (cmp T zero one add mul).
Notation pk := (pk T zero one add mul).
Notation delta := (delta T zero one).
Notation view := (view T zero).
Notation vec A := (fun t => nth t A zero).
Let SR := SRT T zero one add mul sub opp RT.
Infix "+" := add. Infix "*" := mul.

Definition tconv (n : nat) (s x : nat -> T) (u : nat) : T :=
  sum (seq 0 (2 ^ n)) (fun j => if subset u j then x j * s (Nat.ldiff j u) else zero).
Lemma tconv_rev n s x u : u < 2 ^ n -> sconv s (fun t => x (2 ^ n - 1 - t)%nat) (2 ^ n - 1 - u) = tconv n s x u.
Proof.
  intros Hu. rewrite (sconv_comm T zero one add mul sub opp RT n) by lia. rewrite (sconv_full T zero one add mul sub opp RT n) by lia.
  rewrite (sum_rev T zero one add mul sub opp RT). apply sum_ext. intros j Hj. apply in_seq in Hj. rewrite lnot_subset, lnot_ldiff by lia.
  replace (2 ^ n - 1 - (2 ^ n - 1 - j))%nat with j by lia. reflexivity.
Qed.
Lemma tconv_ext n s s' x x' u : (forall t, t < 2 ^ n -> s t = s' t) -> (forall t, t < 2 ^ n -> x t = x' t) -> tconv n s x u = tconv n s' x' u.
Proof.
  intros Hs Hx. apply sum_ext. intros j Hj. apply in_seq in Hj. pose proof (ldiff_le j u). rewrite Hx, Hs by lia. reflexivity.
Qed.
(** The transposed operation is adjoint to the convolution. *)
Lemma tconv_adj n s x f : sum (seq 0 (2 ^ n)) (fun u => f u * tconv n s x u) = sum (seq 0 (2 ^ n)) (fun j => x j * sconv s f j).
Proof.
  rewrite (sum_ext _ _ _ (seq 0 (2 ^ n)) (fun u => f u * tconv n s x u) (fun u => sum (seq 0 (2 ^ n)) (fun j => f u * (if subset u j then x j * s (Nat.ldiff j u) else zero)))).
  2: { intros u _. now rewrite (sum_mul _ _ _ _ _ SR). }
  rewrite (sum_swap _ _ _ _ _ SR). apply sum_ext. intros j Hj. apply in_seq in Hj. rewrite (sconv_comm T zero one add mul sub opp RT n) by lia.
  rewrite (sconv_full T zero one add mul sub opp RT n) by lia. rewrite <- (sum_mul _ _ _ _ _ SR). apply sum_ext. intros u _. destruct (subset u j); ring.
Qed.

Lemma transposed_conv_ok n s x : n <= LIM -> length x = 2 ^ n -> length s <= 2 ^ n -> exists y, transposed_conv zero add sub mul LIM s x = Some y /\ length y = 2 ^ n /\
  forall u, u < 2 ^ n -> nth u y zero = tconv n (vec s) (vec x) u.
Proof.
  intros Hn Lx Ls. pose proof (pow2_pos n). unfold transposed_conv. assert (M : max (length (rev x)) (length s) = 2 ^ n) by (rewrite rev_length; lia).
  rewrite (subset_convolution_ok T zero one add mul sub opp RT LIM (rev x) s) by (rewrite M, ?bitlen_pow2; lia). rewrite M, bitlen_pow2. cbn [obind].
  eexists. split; [reflexivity|]. unfold conv_out. rewrite rev_length, map_length, seq_length. split; auto. intros u Hu.
  rewrite rev_nth by (rewrite map_length, seq_length; auto). rewrite map_length, seq_length. rewrite map_seq_nth by lia. rewrite <- tconv_rev by auto.
  rewrite (sconv_comm T zero one add mul sub opp RT n) by lia. replace (2 ^ n - S u)%nat with (2 ^ n - 1 - u)%nat by lia.
  change (subset_conv zero add mul (rev x) s (2 ^ n - 1 - u)) with (sconv (vec (rev x)) (vec s) (2 ^ n - 1 - u)). apply (sconv_ext T zero one add mul sub opp RT n); [lia| |auto].
  intros t Ht. cbn beta. rewrite rev_nth by lia. f_equal. lia.
Qed.

Lemma project_block_ok W i zs s f : mem W zs -> length f = W -> i <= LIM -> (2 ^ i + 2 ^ i <= W)%nat -> rep i (view (2 ^ i) zs) (hi i s) ->
  exists R, project_block zero add sub mul LIM zs i f = Some R /\ length R = W /\
  forall r, nth r R zero = if (2 ^ i <=? r) && (r <? 2 ^ i + 2 ^ i)%nat then tconv i (hi i s) (hi i (vec f)) (r - 2 ^ i) else nth r f zero.
Proof.
  intros M Lf Hi HW RZ. unfold project_block. destruct (block_ok (2 ^ i) (2 ^ i) f) as (b & Eb & Lb & Vb); [lia|]. rewrite Eb. cbn [obind].
  destruct (rep_zeta T zero one add mul sub opp RT LIM i (rev b)) as (zf & Ez & Lz & Gz & Rz); auto; [rewrite rev_length; lia|]. rewrite Ez. cbn [obind].
  destruct (block_mem T zero one eqb EQ LIM W zs (2 ^ i) (2 ^ i)) as (z & EZ & (LZ & GZ) & VZ); auto. rewrite EZ. cbn [obind].
  destruct (pointwise_to_ok T zero one add mul sub opp RT LIM true i z zf zf) as (p & Ep & Lp & Gp & Vp); auto. rewrite Ep. cbn [obind].
  assert (Rp : rep i (at2 p) (sconv (hi i s) (vec (rev b)))).
  { apply (rep_mul T zero one add mul sub opp RT i (at2 z) (at2 zf)); auto. eapply rep_ext; [exact RZ| |auto]. intros r d Hr Hd. unfold SpsProof.view. now rewrite VZ. }
  rewrite (rep_mobius T zero one add mul sub opp RT LIM i p _ Hi Lp Gp Rp). cbn [obind]. set (m := map _ _). assert (Lm : length m = 2 ^ i) by (unfold m; now rewrite map_length, seq_length).
  destruct (put_block_ok (2 ^ i) (rev m) f) as (R & ER & LR & VR); [rewrite rev_length; lia|]. exists R. split; [auto|]. split; [lia|]. intros r. rewrite VR, rev_length, Lm.
  destruct (Nat.leb_spec (2 ^ i) r), (Nat.ltb_spec r (2 ^ i + 2 ^ i)%nat); cbn [andb]; auto. rewrite rev_nth by lia. rewrite Lm. unfold m. rewrite map_seq_nth by lia.
  rewrite <- tconv_rev by lia. replace (2 ^ i - S (r - 2 ^ i))%nat with (2 ^ i - 1 - (r - 2 ^ i))%nat by lia. apply (sconv_ext T zero one add mul sub opp RT i); [lia|auto|].
  intros t Ht. cbn beta. rewrite rev_nth by lia. rewrite Lb, Vb by lia. unfold SpsAlg.hi. f_equal. lia.
Qed.
Lemma fold_block_ok W i g : length g = W -> (2 ^ i + 2 ^ i <= W)%nat -> exists R, fold_block zero add i g = Some R /\ length R = W /\
  forall r, nth r R zero = if r <? 2 ^ i then nth r g zero + nth (r + 2 ^ i)%nat g zero else if r <? (2 ^ i + 2 ^ i)%nat then zero else nth r g zero.
Proof.
  intros Lg HW. unfold fold_block. match goal with |- context [for_up _ _ ?bd _] => set (body := bd) end.
  destruct (@for_up_rule _ (fun j R => length R = W /\ forall r, nth r R zero = if r <? j then nth r g zero + nth (r + 2 ^ i)%nat g zero
      else if (2 ^ i <=? r) && (r <? 2 ^ i + j)%nat then zero else nth r g zero) body (2 ^ i) 0 g) as (R & E & LR & VR).
  - split; auto. intros r. destruct (Nat.ltb_spec r 0); [lia|]. destruct (Nat.leb_spec (2 ^ i) r), (Nat.ltb_spec r (2 ^ i + 0)%nat); cbn [andb]; auto; lia.
  - intros j R Hj (LR & VR). unfold body. rewrite (get_nth R j zero), (get_nth R (j + 2 ^ i) zero) by lia. cbn [obind]. rewrite set_some by lia. cbn [obind].
    rewrite set_some by (rewrite lset_length; lia). eexists. split; [reflexivity|]. rewrite !lset_length. split; auto. intros r. rewrite !nth_lset, lset_length, LR.
    destruct (Nat.ltb_spec j W); [|lia]. destruct (Nat.ltb_spec (j + 2 ^ i) W); [|lia]. rewrite !andb_true_r. destruct (Nat.eqb_spec (j + 2 ^ i) r) as [E1|N1].
    + destruct (Nat.ltb_spec r (S j)), (Nat.leb_spec (2 ^ i) r), (Nat.ltb_spec r (2 ^ i + S j)%nat); cbn [andb]; auto; lia.
    + destruct (Nat.eqb_spec j r) as [E2|N2].
      * subst r. rewrite !VR. destruct (Nat.ltb_spec j j); [lia|]. destruct (Nat.ltb_spec j (S j)); [|lia]. destruct (Nat.leb_spec (2 ^ i) j); [lia|]. cbn [andb].
        destruct (Nat.ltb_spec (j + 2 ^ i) j); [lia|]. destruct (Nat.ltb_spec (j + 2 ^ i) (2 ^ i + j)%nat); [lia|]. now rewrite andb_false_r.
      * rewrite VR. destruct (Nat.ltb_spec r j), (Nat.ltb_spec r (S j)), (Nat.leb_spec (2 ^ i) r), (Nat.ltb_spec r (2 ^ i + j)%nat), (Nat.ltb_spec r (2 ^ i + S j)%nat); cbn [andb]; auto; lia.
  - exists R. split; [exact E|]. split; auto. intros r. rewrite VR. cbn [Nat.add]. destruct (Nat.ltb_spec r (2 ^ i)); auto. destruct (Nat.leb_spec (2 ^ i) r); [|lia]. reflexivity.
Qed.

(** The sum over the blocks and zero. *)
Lemma sum_blocks m f : sum (seq 0 (2 ^ m)) f = f 0%nat + sum (seq 0 m) (fun i => sum (seq 0 (2 ^ i)) (fun t => f (2 ^ i + t)%nat)).
Proof.
  induction m as [|m IH].
  - cbn [Nat.pow seq]. rewrite sum_cons, !sum_nil. reflexivity.
  - rewrite seq_pow2, (sum_app _ _ _ _ _ SR), sum_map, IH. rewrite seq_S, (sum_app _ _ _ _ _ SR). cbn [Nat.add]. rewrite sum_cons, sum_nil. ring.
Qed.

Section Project.
Variable s : list T.
Hypothesis S0 : nth 0 s zero = zero.
Variable n : nat.
Hypothesis Hn : n <= LIM.
Hypothesis Ls : 2 ^ n <= length s.
Notation G f i := (tconv i (hi i (vec s)) (hi i f)).

Lemma blocks_ok m zs f : m <= n -> mem (2 ^ n) zs -> blocks T zero add n zs (vec s) -> length f = 2 ^ n -> exists g, for_up m 0 (project_block zero add sub mul LIM zs) f = Some g /\
  length g = 2 ^ n /\ nth 0 g zero = nth 0 f zero /\ (forall i u, i < m -> u < 2 ^ i -> nth (2 ^ i + u) g zero = G (vec f) i u) /\ forall r, 2 ^ m <= r -> nth r g zero = nth r f zero.
Proof.
  intros Hm M B Lf. destruct (@for_up_rule _ (fun k g => length g = 2 ^ n /\ nth 0 g zero = nth 0 f zero /\ (forall i u, i < k -> u < 2 ^ i -> nth (2 ^ i + u) g zero = G (vec f) i u) /\
     forall r, 2 ^ k <= r -> nth r g zero = nth r f zero) (project_block zero add sub mul LIM zs) m 0 f) as (g & E & H).
  - split; [auto|]. split; [auto|]. split; [lia|auto].
  - intros k g Hk (Lg & V0 & V1 & V2). assert (HW := pow2_le_lt k n ltac:(lia)). pose proof (pow2_pos k). pose proof (Nat.pow_succ_r' 2 k).
    destruct (project_block_ok (2 ^ n) k zs (vec s) g) as (R & ER & LR & VR); auto; try lia; [apply B; lia|]. exists R. split; [auto|]. split; [auto|]. split; [|split].
    + rewrite VR. destruct (Nat.leb_spec (2 ^ k) 0); [lia|]. auto.
    + intros i u Hi Hu. rewrite VR. destruct (Nat.eq_dec i k) as [->|Ne].
      * destruct (Nat.leb_spec (2 ^ k) (2 ^ k + u)), (Nat.ltb_spec (2 ^ k + u) (2 ^ k + 2 ^ k)%nat); cbn [andb]; try lia. replace (2 ^ k + u - 2 ^ k)%nat with u by lia.
        apply tconv_ext; auto. intros t Ht. unfold SpsAlg.hi. apply V2. lia.
      * pose proof (pow2_le_lt i k ltac:(lia)). destruct (Nat.leb_spec (2 ^ k) (2 ^ i + u)); [lia|]. cbn [andb]. apply V1; auto. lia.
    + intros r Hr. rewrite VR. destruct (Nat.ltb_spec r (2 ^ k + 2 ^ k)%nat); [lia|]. rewrite andb_false_r. apply V2. lia.
  - exists g. split; [exact E|]. exact H.
Qed.
Lemma folds_ok m g : m <= n -> length g = 2 ^ n -> exists h, for_up m 0 (fold_block zero add) g = Some h /\ length h = 2 ^ n /\
  (forall u, u < 2 ^ m -> nth u h zero = (if u =? 0 then nth 0 g zero else zero) + sum (seq 0 m) (fun i => if u <? 2 ^ i then nth (2 ^ i + u) g zero else zero)) /\
  forall u, 2 ^ m <= u -> nth u h zero = nth u g zero.
Proof.
  intros Hm Lg. destruct (@for_up_rule _ (fun k h => length h = 2 ^ n /\
    (forall u, u < 2 ^ k -> nth u h zero = (if u =? 0 then nth 0 g zero else zero) + sum (seq 0 k) (fun i => if u <? 2 ^ i then nth (2 ^ i + u) g zero else zero)) /\
    forall u, 2 ^ k <= u -> nth u h zero = nth u g zero) (fold_block zero add) m 0 g) as (h & E & H).
  - split; [auto|]. split; [|auto]. intros u Hu. assert (u = 0)%nat by (cbn in Hu; lia). subst. cbn [Nat.eqb seq]. rewrite sum_nil. ring.
  - intros k h Hk (Lh & V1 & V2). assert (HW := pow2_le_lt k n ltac:(lia)). pose proof (pow2_pos k). pose proof (Nat.pow_succ_r' 2 k).
    destruct (fold_block_ok (2 ^ n) k h) as (R & ER & LR & VR); auto. exists R. split; [auto|]. split; [auto|]. split.
    + intros u Hu. rewrite VR. rewrite seq_S, (sum_app _ _ _ _ _ SR). cbn [Nat.add]. rewrite sum_cons, sum_nil. destruct (Nat.ltb_spec u (2 ^ k)).
      * rewrite V1, V2 by lia. replace (u + 2 ^ k)%nat with (2 ^ k + u)%nat by lia. ring.
      * destruct (Nat.ltb_spec u (2 ^ k + 2 ^ k)%nat); [|lia]. destruct (Nat.eqb_spec u 0); [lia|]. rewrite (sum_zero_ext _ _ _ _ _ SR); [ring|].
        intros i Hi. apply in_seq in Hi. pose proof (Nat.pow_le_mono_r 2 i k). destruct (Nat.ltb_spec u (2 ^ i)); [lia|auto].
    + intros u Hu. rewrite VR. destruct (Nat.ltb_spec u (2 ^ k)); [lia|]. destruct (Nat.ltb_spec u (2 ^ k + 2 ^ k)%nat); [lia|]. apply V2. lia.
  - exists h. split; [exact E|]. exact H.
Qed.

Definition proj (f : nat -> T) (j : nat) : T := sum (seq 0 (2 ^ n)) (fun v => f v * pk (vec s) j v).
Lemma proj_0 f : proj f 0 = f 0%nat.
Proof.
  unfold proj. pose proof (pow2_pos n). replace (2 ^ n) with (S (2 ^ n - 1)) by lia. change (seq 0 (S (2 ^ n - 1))) with (0%nat :: seq 1 (2 ^ n - 1)). rewrite sum_cons.
  rewrite (sum_zero_ext _ _ _ _ _ SR (seq 1 (2 ^ n - 1))).
  - rewrite (pk_0 T zero one add mul sub opp RT). unfold SpsAlg.delta. cbn [Nat.eqb]. ring.
  - intros v Hv. apply in_seq in Hv. rewrite (pk_0 T zero one add mul sub opp RT). unfold SpsAlg.delta. destruct (Nat.eqb_spec v 0); [lia|]. ring.
Qed.
(** One step: the projection of degree [j + 1] of [f] is the projection of degree [j] of the
    folded blocks. *)
Lemma proj_step m f h j : m <= n -> (forall v, 2 ^ m <= v < 2 ^ n -> f v = zero) ->
  (forall u, u < 2 ^ m -> h u = sum (seq 0 m) (fun i => if u <? 2 ^ i then G f i u else zero)) -> (forall u, 2 ^ m <= u < 2 ^ n -> h u = zero) -> proj f (S j) = proj h j.
Proof.
  intros Hm Hf H1 H2. pose proof (Nat.pow_le_mono_r 2 m n ltac:(lia) Hm) as P. unfold proj.
  assert (TR : forall g : nat -> T, (forall v, 2 ^ m <= v < 2 ^ n -> g v = zero) -> sum (seq 0 (2 ^ n)) g = sum (seq 0 (2 ^ m)) g).
  { intros g Hg. apply (sum_seq_le T zero one add mul sub opp RT); [lia|]. intros i Hi. apply Hg. lia. }
  rewrite !TR by (intros v Hv; rewrite ?Hf, ?H2 by auto; ring). rewrite sum_blocks. rewrite (pk_0_0 T zero one add mul sub opp RT). unfold kron. cbn [Nat.eqb].
  transitivity (sum (seq 0 m) (fun i => sum (seq 0 (2 ^ i)) (fun u => pk (vec s) j u * G f i u))).
  - rewrite (sum_ext _ _ _ (seq 0 m) _ (fun i => sum (seq 0 (2 ^ i)) (fun u => pk (vec s) j u * G f i u))); [ring|]. intros i Hi. rewrite tconv_adj. apply sum_ext. intros t Ht. apply in_seq in Ht.
    rewrite (pk_hi T zero one add mul sub opp RT) by lia. reflexivity.
  - rewrite (sum_ext _ _ _ (seq 0 (2 ^ m)) (fun v => h v * pk (vec s) j v) (fun u => sum (seq 0 m) (fun i => if u <? 2 ^ i then pk (vec s) j u * G f i u else zero))).
    + rewrite (sum_swap _ _ _ _ _ SR). apply sum_ext. intros i Hi. apply in_seq in Hi. pose proof (Nat.pow_le_mono_r 2 i m ltac:(lia) ltac:(lia)).
      transitivity (sum (seq 0 (2 ^ i)) (fun u => if u <? 2 ^ i then pk (vec s) j u * G f i u else zero)).
      * apply sum_ext. intros u Hu. apply in_seq in Hu. destruct (Nat.ltb_spec u (2 ^ i)); [auto|lia].
      * symmetry. apply (sum_seq_le T zero one add mul sub opp RT); [lia|]. intros u Hu. destruct (Nat.ltb_spec u (2 ^ i)); [lia|auto].
    + intros u Hu. apply in_seq in Hu. rewrite H1 by lia. rewrite <- (sum_mul_r _ _ _ _ _ SR). apply sum_ext. intros i _. destruct (u <? 2 ^ i); ring.
Qed.
Lemma transposed_egf_ok x : 2 ^ n <= length x -> exists y, transposed_egf zero add sub mul eqb LIM n s x = Some y /\ length y = (n + 1)%nat /\ forall k, k <= n -> nth k y zero = proj (vec x) k.
Proof.
  intros Lx. pose proof (pow2_pos n). unfold transposed_egf. rewrite (get_nth s 0 zero) by lia. cbn [obind]. rewrite S0, (proj2 (EQ zero zero) eq_refl). cbn [guard obind].
  destruct (Nat.leb_spec n LIM); [|lia]. cbn [guard obind]. rewrite (get_nth x 0 zero) by lia. cbn [obind]. rewrite set_some by (rewrite repeat_length; lia). cbn [obind].
  destruct (Nat.eqb_spec n 0) as [E0|N0].
  { eexists. split; [reflexivity|]. rewrite lset_length, repeat_length. split; auto. intros k Hk. assert (k = 0)%nat by lia. subst k. rewrite nth_lset_eq by (rewrite repeat_length; lia). now rewrite proj_0. }
  destruct (block_ok 0 (2 ^ n) x) as (f & Ef & Lf & Vf); [lia|]. rewrite Ef. cbn [obind].
  destruct (zeta_all T zero one add mul sub opp eqb RT EQ LIM s n) as (zs & Ez & M & B); auto; try lia. rewrite Ez. cbn [obind].
  destruct (@for_up_rule _ (fun k '(f, y) => length f = 2 ^ n /\ length y = (n + 1)%nat /\ (forall v, 2 ^ (n - k) <= v < 2 ^ n -> nth v f zero = zero) /\
     (forall j, proj (vec x) (k + j) = proj (vec f) j) /\ forall j, j <= k -> nth j y zero = proj (vec x) j)
     (project_step zero add sub mul LIM n zs) n 0 (f, lset (repeat zero (n + 1)) 0 (nth 0 x zero))) as ((f' & y) & E & _ & Ly & _ & _ & Vy).
  - split; [auto|]. split; [rewrite lset_length; apply repeat_length|]. split; [intros v Hv; rewrite Nat.sub_0_r in Hv; lia|]. split.
    + intros j. cbn [Nat.add]. apply sum_ext. intros v Hv. apply in_seq in Hv. rewrite Vf by lia. reflexivity.
    + intros j Hj. assert (j = 0)%nat by lia. subst j. rewrite nth_lset_eq by (rewrite repeat_length; lia). now rewrite proj_0.
  - intros k (fk & y) Hk (Lk & Ly & Zk & Pk & Vy). unfold project_step. rewrite set_some by lia. cbn [obind].
    destruct (blocks_ok (n - k) zs (lset fk 0 zero)) as (g & Eg & Lg & V0 & V1 & V2); auto; [lia|now rewrite lset_length|]. rewrite Eg. cbn [obind].
    destruct (folds_ok (n - k) g) as (h & Eh & Lh & W1 & W2); auto; [lia|]. rewrite Eh. cbn [obind]. rewrite (get_nth h 0 zero) by lia. cbn [obind]. rewrite set_some by lia. cbn [obind].
    eexists. split; [reflexivity|]. cbv beta iota. rewrite lset_length. split; [auto|]. split; [auto|].
    assert (GG : forall i u, i < n - k -> u < 2 ^ i -> nth (2 ^ i + u) g zero = G (vec fk) i u).
    { intros i u Hi Hu. rewrite V1 by auto. apply tconv_ext; auto. intros t Ht. unfold SpsAlg.hi. pose proof (pow2_pos i). now rewrite nth_lset_neq by lia. }
    assert (HH : forall u, u < 2 ^ (n - k) -> nth u h zero = sum (seq 0 (n - k)) (fun i => if u <? 2 ^ i then G (vec fk) i u else zero)).
    { intros u Hu. rewrite W1 by auto. rewrite V0, nth_lset_eq by lia.
      rewrite (sum_ext _ _ _ (seq 0 (n - k)) (fun i => if u <? 2 ^ i then nth (2 ^ i + u) g zero else zero) (fun i => if u <? 2 ^ i then G (vec fk) i u else zero)).
      - destruct (u =? 0); ring.
      - intros i Hi. apply in_seq in Hi. destruct (Nat.ltb_spec u (2 ^ i)); auto. apply GG; [lia|auto]. }
    assert (HZ : forall u, 2 ^ (n - k) <= u < 2 ^ n -> nth u h zero = zero).
    { intros u Hu. pose proof (pow2_pos (n - k)). rewrite W2, V2, nth_lset_neq by lia. apply Zk. lia. }
    assert (PS : forall j, proj (vec fk) (S j) = proj (vec h) j) by (intros j; apply (proj_step (n - k)); auto; lia).
    split; [|split].
    + intros v Hv. destruct (Nat.lt_ge_cases v (2 ^ (n - k))); [|apply HZ; lia]. rewrite HH by auto. apply (sum_zero_ext _ _ _ _ _ SR). intros i Hi. apply in_seq in Hi.
      pose proof (Nat.pow_le_mono_r 2 i (n - S k) ltac:(lia) ltac:(lia)). destruct (Nat.ltb_spec v (2 ^ i)); [lia|auto].
    + intros j. replace (S k + j)%nat with (k + S j)%nat by lia. rewrite Pk. apply PS.
    + intros j Hj. destruct (Nat.eq_dec j (k + 1)) as [->|Ne].
      * rewrite nth_lset_eq by lia. rewrite Pk, PS. now rewrite proj_0.
      * rewrite nth_lset_neq by lia. apply Vy. lia.
  - rewrite E. cbn [obind]. exists y. split; [auto|]. split; [auto|]. intros k Hk. apply Vy. lia.
Qed.
End Project.
End Proof.
