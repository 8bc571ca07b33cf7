From Verif Require Import Base BaseLemmas ListExtra NthExtra BitModel BitProof BmapModel BmapProof BvModel BvSel BvBlock BvProof BvOps BvProp FenwickModel FenwickProof FbmModel FbmProof.
Set Implicit Arguments.

Definition bm (s : fbm) (l : list bool) : bmap := Bm (f_bv s) (length l).
Definition finv (s : fbm) (l : list bool) : Prop :=
  binv (bm s l) l /\ clean (bm s l) /\ FenwickProof.rep Z.add 0%Z (f_rsq s) (map popcnt (f_bv s)).

Lemma map_lset A B (f : A -> B) l i x : map f (lset l i x) = lset (map f l) i (f x).
Proof. revert i. induction l as [|y l IH]; intros [|i]; cbn [lset map]; auto. now rewrite IH. Qed.
Lemma lset_end A (s1 s2 : list A) x : lset (s1 ++ s2) (length s1) x = s1 ++ lset s2 0 x.
Proof. induction s1 as [|y s1 IH]; cbn [app length lset]; auto. now rewrite IH. Qed.
Lemma ones_lset l i b : i < length l -> ones_count (lset l i b) = (ones_count l + (Z.b2z b - Z.b2z (nth i l false)))%Z.
Proof.
  revert i. induction l as [|c l IH]; intros [|i] L; cbn [length] in L; try lia.
  - destruct b, c; cbn [lset ones_count nth Z.b2z]; lia.
  - cbn [lset ones_count nth]. rewrite IH by lia. lia.
Qed.
Lemma new_inv n : (Z.of_nat n < 2 ^ 31)%Z -> finv (fbm_new n false) (repeat false n).
Proof.
  intros Hn. destruct (new_ok n false) as (B & C). specialize (C eq_refl). unfold finv, bm, fbm_new. cbn [f_bv f_rsq]. rewrite repeat_length.
  assert (E : fword_size n = req n) by (unfold fword_size, req; now replace (n + 64 - 1) with (n + 63) by lia). rewrite E. split; [exact B|]. split; [exact C|].
  replace (map popcnt (repeat (wfill false) (req n))) with (repeat 0%Z (req n)).
  - apply (rep_new Z_group). unfold FenwickProof.small. assert (req n <= n + 63) by (unfold req; apply Nat.div_le_upper_bound; lia). lia.
  - generalize (req n). induction n0 as [|k IH]; cbn [repeat map]; auto. rewrite <- IH. reflexivity.
Qed.
Section I.
Variables (s : fbm) (l : list bool).
Hypothesis I : finv s l.
Lemma word_at q : q < length (f_bv s) -> exists w, get (f_bv s) q = Some w /\ word64 w.
Proof. intros L. destruct I as (B & _). exact (get_word_ok B L). Qed.
Lemma words_for i : i < length l -> i / 64 < length (f_bv s).
Proof. intros L. destruct I as ((E & _) & _). cbn [bm arr bsz] in E. rewrite E. now apply req_lt. Qed.
Lemma get_ok i : i < length l -> fbm_get s i = Some (nth i l false).
Proof.
  intros L. destruct (word_at (words_for L)) as (w & E & W). unfold fbm_get. rewrite E. cbn [obind]. f_equal. change 1%Z with (one_at 0). rewrite land_one by lia. rewrite Z.shiftr_spec by lia. cbn [Z.of_nat Z.add].
  destruct I as ((_ & _ & _ & B) & _). rewrite <- B by auto. cbn [bm arr]. now rewrite (@bitf_get _ _ _ E).
Qed.
Lemma set_ok i b : i < length l -> exists s', fbm_set s i b = Some s' /\ finv s' (lset l i b).
Proof.
  intros L. unfold fbm_set. rewrite get_ok by auto. cbn [obind]. pose proof (words_for L) as Lq. destruct (word_at Lq) as (w & E & W). destruct I as (B & C & T).
  set (q := i / 64) in *. set (r := i mod 64). assert (Hr : r < 64) by apply m64. assert (Ew : get (map popcnt (f_bv s)) q = Some (popcnt w)) by (rewrite get_map, E; reflexivity).
  destruct (add_correct Z_group q (Z.b2z b - Z.b2z (nth i l false))%Z T Ew) as (t & Et & Rt). rewrite Et. cbn [obind]. rewrite E. cbn [obind]. rewrite set_some by auto. cbn [obind]. eexists. split; [reflexivity|].
  destruct (put_ok b B L) as (m' & Em & Bm' & Cm'). unfold bm_put, bm_word in Em. cbn [bm arr bsz] in Em. fold q r in Em. rewrite E in Em. cbn [obind] in Em. rewrite set_some in Em by auto. cbn [obind] in Em.
  assert (m' = bm (Fbm t (lset (f_bv s) q (if b then Z.lor w (one_at r) else Z.land w (not64 (one_at r))))) (lset l i b)) by (unfold bm; cbn [f_bv]; rewrite lset_length; congruence). subst m'. split; [exact Bm'|]. split; [apply Cm'; exact C|]. cbn [f_rsq f_bv]. rewrite map_lset.
  replace (popcnt (if b then Z.lor w (one_at r) else Z.land w (not64 (one_at r)))) with (popcnt w + (Z.b2z b - Z.b2z (nth i l false)))%Z; [exact Rt|].
  rewrite !popcnt_ok by (auto; now apply put_word). destruct B as (_ & _ & _ & Hb). rewrite <- Hb by auto. cbn [bm arr]. rewrite (@bitf_get _ _ _ E). fold r.
  replace (Z.testbit w (Z.of_nat r)) with (nth r (bits 64 w) false) by (rewrite bits_nth; destruct (Nat.ltb_spec r 64); [reflexivity|lia]).
  rewrite <- ones_lset by (rewrite bits_length; auto). f_equal. apply nth_ext with false false; [now rewrite lset_length, !bits_length|]. intros j. rewrite lset_length, bits_length. intros Hj. rewrite bits_nth, put_bit by auto.
  destruct (Nat.ltb_spec j 64); [|lia]. cbn [andb]. destruct (Nat.eqb_spec j r) as [->|N0]; [rewrite nth_lset_eq; auto; rewrite bits_length; auto|]. rewrite nth_lset_neq by auto. rewrite bits_nth. destruct (Nat.ltb_spec j 64); [reflexivity|lia].
Qed.

Notation v := (bm_vec (bm s l)).
Notation NN := (N l true).
Lemma vr : vrep 64 v l.
Proof. destruct I as (B & C & _). now apply bitmap_rep. Qed.
Lemma sums b : b <= length (f_bv s) -> lsum Z.add 0%Z (slice 0 b (map popcnt (f_bv s))) = Z.of_nat (NN (64 * b)).
Proof.
  induction b as [|b IH]; intros Lb; [reflexivity|]. rewrite (@S_split Z Z.add Z.sub 0%Z Z_group _ 0 b (S b)) by lia. rewrite IH by lia. destruct (@word_at b) as (w & E & W); [lia|].
  rewrite (@S_one Z Z.add Z.sub 0%Z Z_group _ b (popcnt w)) by (rewrite get_map, E; reflexivity). rewrite (@popcnt_num 64 ltac:(lia) v l vr b w E). replace (64 * S b) with (64 * (b + 1)) by lia. pose proof (@num_le true (fb l) (64 * b) (64 * (b + 1)) ltac:(lia)). unfold N. lia.
Qed.
Lemma before_ok b : b <= length (f_bv s) -> fbefore s b = Some (Z.of_nat (NN (64 * b))).
Proof.
  intros Lb. unfold fbefore. destruct (Nat.ltb_spec 0 b); [|replace b with 0 by lia; reflexivity]. destruct I as (_ & _ & T). rewrite (sum_correct Z_group T) by (rewrite map_length; lia). f_equal. replace (S (b - 1)) with b by lia. now apply sums.
Qed.
Lemma bits_mask w r : r < 64 -> word64 w -> popcnt (Z.land w (one_at r - 1)) = Z.of_nat (cnt true (bits r w)).
Proof.
  intros Hr W. rewrite one_at_eq by auto. rewrite <- (mask_val (w := r)) by lia. rewrite popcnt_ok by (apply land_word; auto; apply mask_word). rewrite cnt_ones. f_equal.
  replace 64 with (r + (64 - r)) at 1 by lia. rewrite bits_app, cnt_app. replace (cnt true (bits (64 - r) _)) with 0.
  - rewrite Nat.add_0_r. f_equal. unfold bits. apply map_ext_in. intros j Hj. apply in_seq in Hj. rewrite Z.land_spec, mask_bit by lia. destruct (Nat.ltb_spec j r); [apply andb_true_r|lia].
  - replace (bits (64 - r) _) with (repeat false (64 - r)); [now rewrite cnt_repeat_false|]. apply nth_ext with false false; [now rewrite repeat_length, bits_length|]. intros j. rewrite repeat_length. intros Hj. rewrite bits_nth, repeat_nth. rewrite Z.shiftr_spec by lia. replace (Z.of_nat j + Z.of_nat r)%Z with (Z.of_nat (j + r)) by lia. rewrite Z.land_spec, mask_bit by lia. destruct (Nat.ltb_spec (j + r) r); [lia|]. rewrite andb_false_r. destruct (j <? 64 - r); reflexivity.
Qed.
Lemma rank_ok i : i <= length l -> i < 64 * length (f_bv s) \/ i = 0 -> fbm_rank s i = Some (Z.of_nat (cnt true (firstn i l))).
Proof.
  intros Li Hi. unfold fbm_rank. destruct (Nat.eqb_spec i 0) as [->|Ne]; [reflexivity|]. destruct Hi as [Hi|Hi]; [|lia]. assert (Lq : i / 64 < length (f_bv s)) by (apply Nat.div_lt_upper_bound; lia).
  rewrite before_ok by lia. cbn [obind]. destruct (word_at Lq) as (w & E & W). rewrite E. cbn [obind]. f_equal. pose proof (m64 i). rewrite bits_mask by auto. rewrite <- Nat2Z.inj_add. f_equal.
  rewrite <- (@bits_num 64 ltac:(lia) v l vr true (i / 64) w (i mod 64) E) by lia. rewrite <- (Nat.div_mod i 64) by lia. unfold N. now apply num_firstn.
Qed.
Lemma all_ones : NN (64 * length (f_bv s)) = cnt true l.
Proof.
  assert (L : length l <= 64 * length (f_bv s)). { destruct (Nat.le_gt_cases (length l) (64 * length (f_bv s))) as [|G]; auto. apply (@words_lt 64 ltac:(lia) v l vr) in G. cbn [bm_vec vwords bm arr] in G. lia. }
  unfold N. rewrite (num_false_tail (fb l) L); [|intros k Hk; apply nth_overflow; auto]. unfold fb. rewrite num_firstn by auto. now rewrite firstn_all.
Qed.
Lemma select_ok n : n < cnt true l -> fbm_select s n = Some (Z.of_nat (kth true n l)).
Proof.
  intros Hn. unfold fbm_select. destruct I as (_ & _ & T). pose proof all_ones as Al.
  destruct (lower_bound_correct (Z.of_nat (n + 1)) T) as (q & Eq & Lq & Q1 & Q2).
  { intros x Ix. apply in_map_iff in Ix. destruct Ix as (w & <- & Iw). apply In_get in Iw. destruct Iw as (j & _ & Ej). rewrite (@popcnt_num 64 ltac:(lia) v l vr j w Ej). lia. }
  rewrite map_length in Lq, Q2. rewrite Eq. cbn [obind].
  assert (Q1' : forall j, j < q -> NN (64 * S j) < n + 1) by (intros j Hj; specialize (Q1 j Hj); rewrite sums in Q1 by lia; lia).
  assert (Lt : q < length (f_bv s)). { destruct (Nat.eq_dec q (length (f_bv s))) as [K|]; [|lia]. exfalso. destruct q as [|q]; [rewrite <- K in Al; cbn [Nat.mul] in Al; cbn in Al; lia|]. specialize (Q1' q ltac:(lia)). rewrite K, Al in Q1'. lia. }
  specialize (Q2 Lt). rewrite sums in Q2 by lia. rewrite before_ok by lia. cbn [obind]. destruct (word_at Lt) as (w & E & W). rewrite E. cbn [obind].
  assert (Lo : NN (64 * q) <= n). { destruct q as [|q]; [cbn; lia|]. specialize (Q1' q ltac:(lia)). lia. }
  pose proof (@bits_num 64 ltac:(lia) v l vr true q w 64 E ltac:(lia)) as Bn. replace (64 * q + 64) with (64 * S q) in Bn by lia.
  destruct (@fword_sel_ok w (n - NN (64 * q)) W) as (p & Lp & Ep & Tp & Cp); [lia|]. replace (Z.of_nat (n + 1) - Z.of_nat (NN (64 * q)))%Z with (Z.of_nat (n - NN (64 * q)) + 1)%Z by lia. rewrite Ep. cbn [obind]. f_equal.
  assert (Np : nth (64 * q + p) l false = true). { pose proof vr as (_ & _ & _ & K). specialize (K q w p E Lp). rewrite Tp in K. destruct (Nat.ltb_spec p 64); [|lia]. now rewrite K. }
  assert (Ll : 64 * q + p < length l). { destruct (Nat.lt_ge_cases (64 * q + p) (length l)) as [|G]; auto. rewrite nth_overflow in Np by auto. discriminate. }
  rewrite (@kth_char true l n (64 * q + p)); auto; [lia|]. rewrite <- num_firstn by lia. change (NN (64 * q + p) = n). rewrite (@bits_num 64 ltac:(lia) v l vr true q w p E) by lia. lia.
Qed.
End I.
Lemma sets_ok h : forall s l, finv s l -> (forall i b, In (i, b) h -> i < length l) -> exists s', fbm_sets s h = Some s' /\ finv s' (bits_after l h).
Proof.
  unfold fbm_sets, bits_after. induction h as [|(i & b) h IH]; intros s l I H; cbn [for_each fold_left]; [eauto|]. destruct (set_ok I (i := i) b) as (s' & E & I'); [apply (H i b); now left|]. rewrite E. cbn [obind]. apply IH; auto. intros j c Hj. rewrite lset_length. apply (H j c). now right.
Qed.
Lemma of_ok l : (Z.of_nat (length l) < 2 ^ 31)%Z -> exists s, fbm_of l = Some s /\ finv s l.
Proof.
  intros Hl. unfold fbm_of. match goal with |- context [for_each _ ?bd _] => set (body := bd) end.
  assert (G : forall k done s, finv s (done ++ repeat false (length k)) -> exists s', for_each k body (s, length done) = Some (s', length done + length k) /\ finv s' (done ++ k)).
  { induction k as [|b k IH]; intros done s I; cbn [for_each length]; [exists s; rewrite Nat.add_0_r; auto|]. unfold body at 1. destruct (set_ok I (i := length done) b) as (s' & E & I'); [rewrite app_length; cbn; lia|]. rewrite E. cbn [obind].
    specialize (IH (done ++ [b]) s'). rewrite app_length in IH. cbn [length] in IH. destruct IH as (s2 & E2 & I2).
    - cbn [length repeat] in I'. rewrite lset_end in I'. cbn [lset] in I'. rewrite <- app_assoc. exact I'.
    - exists s2. rewrite E2. rewrite <- app_assoc in I2. split; [do 2 f_equal; lia|exact I2]. }
  destruct (G l [] (fbm_new (length l) false) (new_inv _ Hl)) as (s' & E & I'). cbn [length] in E. rewrite E. cbn [obind]. exists s'. auto.
Qed.
Lemma select_past s l n : finv s l -> cnt true l <= n -> fbm_select s n = None.
Proof.
  intros I Hn. unfold fbm_select. pose proof (all_ones I) as Al. pose proof I as (_ & _ & T).
  destruct (lower_bound_correct (Z.of_nat (n + 1)) T) as (q & Eq & Lq & _ & Q2).
  { intros x Ix. apply in_map_iff in Ix. destruct Ix as (w & <- & Iw). apply In_get in Iw. destruct Iw as (j & _ & Ej). rewrite (@popcnt_num 64 ltac:(lia) _ l (vr I) j w Ej). lia. }
  rewrite map_length in Lq, Q2. rewrite Eq. cbn [obind]. rewrite (before_ok I) by lia. cbn [obind]. destruct (Nat.eq_dec q (length (f_bv s))) as [->|Ne]; [now rewrite get_none by lia|].
  exfalso. assert (Lt : q < length (f_bv s)) by lia. specialize (Q2 Lt). rewrite (sums I) in Q2 by lia. pose proof (@num_le true (fb l) (64 * S q) (64 * length (f_bv s)) ltac:(lia)) as K. change (num true (fb l) (64 * length (f_bv s))) with (N l true (64 * length (f_bv s))) in K. rewrite Al in K. unfold N in Q2. lia.
Qed.
