(** Proofs for BmapModel.v *)
From Verif Require Import Base BaseLemmas ListExtra NthExtra BitModel BitProof BmapModel.
Set Implicit Arguments.

Definition bitf (a : list Z) (i : nat) : bool := Z.testbit (nth (i / 64) a 0%Z) (Z.of_nat (i mod 64)).
Definition binv (m : bmap) (l : list bool) : Prop :=
  length (arr m) = req (bsz m) /\ Forall word64 (arr m) /\ bsz m = length l /\
  forall i, i < length l -> bitf (arr m) i = nth i l false.
Definition clean (m : bmap) : Prop := forall i, bsz m <= i -> bitf (arr m) i = false.

Lemma m64 i : i mod 64 < 64. Proof. apply Nat.mod_upper_bound. lia. Qed.
Lemma one_at_eq r : r < 64 -> one_at r = (2 ^ Z.of_nat r)%Z.
Proof. intros. unfold one_at. rewrite Z.shiftl_1_l. apply Z.mod_small. split; [apply Z.pow_nonneg; lia|apply Z.pow_lt_mono_r; lia]. Qed.
Lemma one_at_word r : r < 64 -> word64 (one_at r).
Proof. intros. unfold word64, one_at, u64. apply Z.mod_pos_bound. lia. Qed.
Lemma one_at_bit r i : r < 64 -> Z.testbit (one_at r) (Z.of_nat i) = (i =? r).
Proof.
  intros. rewrite one_at_eq by auto. destruct (Nat.eqb_spec i r) as [->|].
  - apply Z.pow2_bits_true. lia.
  - apply Z.pow2_bits_false. lia.
Qed.
Lemma not64_bit x i : i < 64 -> Z.testbit (not64 x) (Z.of_nat i) = negb (Z.testbit x (Z.of_nat i)).
Proof.
  intros. replace (not64 x) with (Z.lnot x + 1 * 2 ^ 64)%Z by (unfold not64, Z.lnot; lia).
  rewrite <- (@Z.mod_pow2_bits_low _ 64) by lia. rewrite Z_mod_plus_full. rewrite Z.mod_pow2_bits_low by lia. apply Z.lnot_spec. lia.
Qed.
Lemma u64_word x : word64 (u64 x). Proof. unfold word64, u64. apply Z.mod_pos_bound. lia. Qed.
Lemma lor_word x y : word64 x -> word64 y -> word64 (Z.lor x y).
Proof. intros. apply (@lor_bound 64); auto; lia. Qed.
Lemma land_word x y : word64 x -> word64 y -> word64 (Z.land x y).
Proof. intros. apply (@land_bound 64); auto; lia. Qed.
Lemma shr_word x r : word64 x -> word64 (shr x r).
Proof.
  unfold word64, shr. intros. rewrite Z.shiftr_div_pow2 by lia. split; [apply Z.div_pos; [lia|apply Z.pow_pos_nonneg; lia]|].
  apply Z.div_lt_upper_bound; [apply Z.pow_pos_nonneg; lia|]. assert (1 <= 2 ^ Z.of_nat r)%Z by (change 1%Z with (2 ^ 0)%Z; apply Z.pow_le_mono_r; lia). nia.
Qed.
Lemma shl_bit x r i : i < 64 -> Z.testbit (shl x r) (Z.of_nat i) = (r <=? i) && Z.testbit x (Z.of_nat (i - r)).
Proof.
  intros. unfold shl. rewrite u64_bits by lia. rewrite Z.shiftl_spec by lia. destruct (Nat.leb_spec r i); cbn [andb].
  - f_equal. lia.
  - apply Z.testbit_neg_r. lia.
Qed.
Lemma shr_bit x r i : Z.testbit (shr x r) (Z.of_nat i) = Z.testbit x (Z.of_nat (i + r)).
Proof. unfold shr. rewrite Z.shiftr_spec by lia. f_equal. lia. Qed.
Lemma mask_bit w i : i < 64 -> Z.testbit (bm_mask w) (Z.of_nat i) = (i <? w).
Proof.
  intros. unfold bm_mask. destruct (Nat.ltb_spec w 64).
  - rewrite one_at_eq by auto. replace (2 ^ Z.of_nat w - 1)%Z with (Z.ones (Z.of_nat w)) by (rewrite Z.ones_equiv; lia).
    rewrite Z.testbit_ones_nonneg by lia. destruct (Nat.ltb_spec i w); lia.
  - change 0xFFFFFFFFFFFFFFFF%Z with (Z.ones 64). rewrite Z.testbit_ones_nonneg by lia. destruct (Nat.ltb_spec i w); lia.
Qed.
Lemma mask_word w : word64 (bm_mask w).
Proof.
  unfold bm_mask. destruct (Nat.ltb_spec w 64); [|unfold word64; lia]. rewrite one_at_eq by auto.
  pose proof (Z.pow_pos_nonneg 2 (Z.of_nat w)). assert (2 ^ Z.of_nat w < 2 ^ 64)%Z by (apply Z.pow_lt_mono_r; lia). unfold word64. lia.
Qed.
Lemma mask_val w : w <= 64 -> bm_mask w = (2 ^ Z.of_nat w - 1)%Z.
Proof. intros. unfold bm_mask. destruct (Nat.ltb_spec w 64); [now rewrite one_at_eq|]. replace w with 64 by lia. reflexivity. Qed.
Lemma word_high x i : word64 x -> 64 <= i -> Z.testbit x (Z.of_nat i) = false.
Proof.
  unfold word64. intros Hx Hi. destruct (Z.eq_dec x 0) as [->|]; [apply Z.bits_0|]. apply Z.bits_above_log2; [lia|].
  assert (Z.log2 x < 64)%Z by (apply Z.log2_lt_pow2; lia). lia.
Qed.
Lemma wfill_word b : word64 (wfill b). Proof. destruct b; unfold word64, wfill; lia. Qed.
Lemma wfill_bit b i : i < 64 -> Z.testbit (wfill b) (Z.of_nat i) = b.
Proof. intros. destruct b; unfold wfill; [|apply Z.bits_0]. change 0xFFFFFFFFFFFFFFFF%Z with (Z.ones 64). rewrite Z.testbit_ones_nonneg by lia. lia. Qed.
Lemma land_one w r : r < 64 -> negb (Z.land w (one_at r) =? 0)%Z = Z.testbit w (Z.of_nat r).
Proof.
  intros. rewrite one_at_eq by auto. destruct (Z.testbit w (Z.of_nat r)) eqn:T.
  - apply negb_true_iff, Z.eqb_neq. intros E. assert (B : Z.testbit (Z.land w (2 ^ Z.of_nat r)) (Z.of_nat r) = true).
    { rewrite Z.land_spec, T, Z.pow2_bits_true by lia. auto. } rewrite E, Z.bits_0 in B. discriminate.
  - apply negb_false_iff, Z.eqb_eq. apply Z.bits_inj'. intros n Hn. rewrite Z.land_spec, Z.bits_0.
    destruct (Z.eq_dec n (Z.of_nat r)) as [->|]; [now rewrite T|]. rewrite Z.pow2_bits_false by lia. apply andb_false_r.
Qed.

(** ** words and bits *)
Lemma req_lt n i : i < n -> i / 64 < req n.
Proof. intros. unfold req. apply Nat.div_lt_upper_bound; [lia|]. pose proof (Nat.div_mod (n + 63) 64). pose proof (m64 (n + 63)). lia. Qed.
Lemma req_ge n i : req n <= i / 64 -> n <= i.
Proof. intros H. destruct (Nat.le_gt_cases n i); auto. apply req_lt in H0. lia. Qed.
Lemma idx_eq i q r : r < 64 -> i = 64 * q + r -> i / 64 = q /\ i mod 64 = r.
Proof.
  intros. pose proof (Nat.div_mod i 64). pose proof (m64 i).
  assert (i / 64 = q) by lia. lia.
Qed.
Lemma bitf_lset a q v i : q < length a -> bitf (lset a q v) i = if i / 64 =? q then Z.testbit v (Z.of_nat (i mod 64)) else bitf a i.
Proof.
  intros. unfold bitf. destruct (Nat.eqb_spec (i / 64) q) as [->|]; [rewrite nth_lset_eq; auto|rewrite nth_lset_neq; auto].
Qed.
Lemma bitf_out a i : length a <= i / 64 -> bitf a i = false.
Proof. intros. unfold bitf. rewrite nth_overflow by auto. apply Z.bits_0. Qed.
Lemma bitf_get a i w : get a (i / 64) = Some w -> bitf a i = Z.testbit w (Z.of_nat (i mod 64)).
Proof. intros E. unfold bitf. now rewrite (@nth_get _ _ _ _ 0%Z E). Qed.
Lemma Forall_lset A (P : A -> Prop) l i x : Forall P l -> P x -> Forall P (lset l i x).
Proof. intros F Hx. revert i. induction F as [|y l Hy F IH]; intros [|i]; cbn [lset]; constructor; auto. Qed.
Lemma get_word_ok m l q : binv m l -> q < length (arr m) -> exists w, get (arr m) q = Some w /\ word64 w.
Proof.
  intros (_ & F & _) L. destruct (@get_lt _ (arr m) q L) as [w E]. exists w. split; auto. rewrite Forall_forall in F. apply F. eapply get_In; eauto.
Qed.
Lemma bm_word_ok m l q f : binv m l -> q < length (arr m) ->
  exists w, get (arr m) q = Some w /\ word64 w /\ bm_word m q f = Some (Bm (lset (arr m) q (f w)) (bsz m)).
Proof.
  intros I L. destruct (get_word_ok I L) as (w & E & W). exists w. repeat split; try apply W; auto.
  unfold bm_word. rewrite E. cbn [obind]. rewrite set_some by auto. reflexivity.
Qed.
Lemma bm_get_ok m l i : binv m l -> i < length l -> bm_get m i = Some (nth i l false).
Proof.
  intros I L. pose proof I as (El & F & Es & Hb). destruct (@get_word_ok m l (i / 64) I) as (w & E & W).
  { rewrite El, Es. now apply req_lt. } unfold bm_get. rewrite E. cbn [obind]. rewrite land_one by apply m64.
  f_equal. rewrite <- Hb by auto. symmetry. now apply bitf_get.
Qed.

(** ** one step *)
Definition nofill (c : bcmd) : bool := match c with BResize _ b => negb b | BAssign _ b => negb b | BPop | BShrink _ => false | _ => true end.

Lemma put_core m l i b v : binv m l -> i < length l -> (forall w, word64 w -> word64 (v w)) ->
  (forall w j, word64 w -> j < 64 -> Z.testbit (v w) (Z.of_nat j) = if j =? i mod 64 then b else Z.testbit w (Z.of_nat j)) ->
  exists m', bm_word m (i / 64) v = Some m' /\ binv m' (lset l i b) /\ (clean m -> clean m').
Proof.
  intros I L V1 V2. pose proof I as (El & F & Es & Hb). assert (Lq : i / 64 < length (arr m)) by (rewrite El, Es; now apply req_lt).
  destruct (bm_word_ok v I Lq) as (w & E & W & ->). eexists. split; [reflexivity|].
  assert (B : forall j, bitf (lset (arr m) (i / 64) (v w)) j = if j =? i then b else bitf (arr m) j).
  { intros j. rewrite bitf_lset by auto. destruct (Nat.eqb_spec (j / 64) (i / 64)) as [Ej|].
    - rewrite V2 by (auto; apply m64). pose proof (Nat.div_mod i 64). pose proof (Nat.div_mod j 64).
      destruct (Nat.eqb_spec (j mod 64) (i mod 64)); destruct (Nat.eqb_spec j i); auto; try lia; try (subst; lia).
      symmetry. apply bitf_get. now rewrite Ej.
    - destruct (Nat.eqb_spec j i) as [->|]; [lia|]. auto. }
  split.
  - repeat split; cbn [arr bsz]; [now rewrite lset_length|apply Forall_lset; auto|now rewrite lset_length|].
    rewrite lset_length. intros j Lj. rewrite B. destruct (Nat.eqb_spec j i) as [->|]; [now rewrite nth_lset_eq|rewrite nth_lset_neq by auto; auto].
  - intros C j Lj. cbn [arr bsz] in *. rewrite B. destruct (Nat.eqb_spec j i) as [->|]; [lia|now apply C].
Qed.
Lemma set_bit_ok r w j : r < 64 -> j < 64 -> Z.testbit (Z.lor w (one_at r)) (Z.of_nat j) = if j =? r then true else Z.testbit w (Z.of_nat j).
Proof. intros. rewrite Z.lor_spec, one_at_bit by auto. destruct (j =? r); [apply orb_true_r|apply orb_false_r]. Qed.
Lemma clear_bit_ok r w j : r < 64 -> j < 64 -> Z.testbit (Z.land w (not64 (one_at r))) (Z.of_nat j) = if j =? r then false else Z.testbit w (Z.of_nat j).
Proof. intros. rewrite Z.land_spec, not64_bit, one_at_bit by auto. destruct (j =? r); [apply andb_false_r|apply andb_true_r]. Qed.
Lemma put_word r b w : r < 64 -> word64 w -> word64 (if b : bool then Z.lor w (one_at r) else Z.land w (not64 (one_at r))).
Proof. intros R W. destruct b; [apply lor_word|apply land_word]; auto; [apply one_at_word|apply not64_word, one_at_word]; auto. Qed.
Lemma put_bit r b w j : r < 64 -> j < 64 ->
  Z.testbit (if b : bool then Z.lor w (one_at r) else Z.land w (not64 (one_at r))) (Z.of_nat j) = if j =? r then b else Z.testbit w (Z.of_nat j).
Proof. intros. destruct b; [apply set_bit_ok|apply clear_bit_ok]; auto. Qed.
Lemma put_ok m l i b : binv m l -> i < length l -> exists m', bm_put m i b = Some m' /\ binv m' (lset l i b) /\ (clean m -> clean m').
Proof.
  intros I L. apply put_core; auto.
  - intros w W. apply put_word; auto. apply m64.
  - intros w j W Lj. apply put_bit; auto. apply m64.
Qed.
Lemma lset_self A (l : list A) i x : get l i = Some x -> lset l i x = l.
Proof. revert i; induction l as [|y l IH]; intros [|i] E; try discriminate; cbn in *; [now injection E as ->|f_equal; auto]. Qed.
Lemma or_ok m l i b c : binv m l -> get l i = Some c -> exists m', bm_or m i b = Some m' /\ binv m' (lset l i (c || b)) /\ (clean m -> clean m').
Proof.
  intros I E. pose proof (get_some_lt _ _ E) as L. unfold bm_or. destruct b.
  - rewrite orb_true_r. destruct (put_ok true I L) as (m' & E' & R). exists m'. auto.
  - rewrite orb_false_r, lset_self by auto. eauto.
Qed.
Lemma and_ok m l i b c : binv m l -> get l i = Some c -> exists m', bm_and m i b = Some m' /\ binv m' (lset l i (c && b)) /\ (clean m -> clean m').
Proof.
  intros I E. pose proof (get_some_lt _ _ E) as L. unfold bm_and. destruct b.
  - rewrite andb_true_r, lset_self by auto. eauto.
  - rewrite andb_false_r. destruct (put_ok false I L) as (m' & E' & R). exists m'. auto.
Qed.
Lemma req_add n : req (n + 1) = if n mod 64 =? 0 then req n + 1 else req n.
Proof.
  unfold req. pose proof (Nat.div_mod n 64). pose proof (m64 n). destruct (Nat.eqb_spec (n mod 64) 0).
  - replace (n + 1 + 63) with (64 * (n / 64 + 1)) by lia. rewrite Nat.mul_comm, Nat.div_mul by lia.
    assert (A : (n + 63) / 64 = n / 64) by (symmetry; apply (Nat.div_unique _ _ _ 63); lia). lia.
  - assert (A : (n + 63) / 64 = n / 64 + 1) by (symmetry; apply (Nat.div_unique _ _ _ (n mod 64 - 1)); lia).
    assert (B : (n + 1 + 63) / 64 = n / 64 + 1) by (symmetry; apply (Nat.div_unique _ _ _ (n mod 64)); lia). lia.
Qed.
Lemma req_last n : n mod 64 <> 0 -> req n - 1 = n / 64 /\ n / 64 < req n.
Proof.
  intros H. unfold req. pose proof (Nat.div_mod n 64). pose proof (m64 n).
  assert (A : (n + 63) / 64 = n / 64 + 1) by (symmetry; apply (Nat.div_unique _ _ _ (n mod 64 - 1)); lia). lia.
Qed.
Lemma push_ok m l b : binv m l -> exists m', bm_push m b = Some m' /\ binv m' (l ++ [b]) /\ (clean m -> clean m').
Proof.
  intros I. pose proof I as (El & F & Es & Hb). unfold bm_push. pose proof (req_add (bsz m)) as Q. pose proof (Nat.div_mod (bsz m) 64) as DM.
  destruct (Nat.eqb_spec (bsz m mod 64) 0) as [R0|R0].
  - eexists. split; [reflexivity|].
    assert (Rq : req (bsz m) = bsz m / 64). { unfold req. symmetry. apply (Nat.div_unique _ _ _ 63); lia. }
    assert (B : forall j, bitf (arr m ++ [if b then 1 else 0]%Z) j = if j =? bsz m then b else if j <? bsz m then bitf (arr m) j else false).
    { intros j. unfold bitf. pose proof (Nat.div_mod j 64). pose proof (m64 j). destruct (Nat.ltb_spec (j / 64) (length (arr m))).
      - rewrite app_nth1 by auto. destruct (Nat.eqb_spec j (bsz m)); [lia|]. destruct (Nat.ltb_spec j (bsz m)); [auto|]. lia.
      - rewrite app_nth2 by auto. destruct (Nat.eqb_spec j (bsz m)) as [->|Nj].
        + rewrite R0. replace (bsz m / 64 - length (arr m)) with 0 by lia. destruct b; reflexivity.
        + destruct (Nat.ltb_spec j (bsz m)); [lia|]. destruct (j / 64 - length (arr m)) as [|k] eqn:K; cbn [nth].
          * destruct b; [|apply Z.bits_0]. change 1%Z with (2 ^ 0)%Z. apply Z.pow2_bits_false. lia.
          * destruct k; apply Z.bits_0. }
    split.
    + repeat split; cbn [arr bsz]; [rewrite app_length, El; cbn [length]; lia|apply Forall_app; split; auto; constructor; [destruct b; unfold word64; lia|constructor]|rewrite app_length; cbn [length]; lia|].
      rewrite app_length. cbn [length]. intros j Lj. rewrite B. destruct (Nat.eqb_spec j (bsz m)) as [->|].
      * rewrite Es, app_nth2, Nat.sub_diag by lia. reflexivity.
      * destruct (Nat.ltb_spec j (bsz m)); [|lia]. rewrite app_nth1 by lia. apply Hb. lia.
    + intros C j Lj. cbn [arr bsz] in *. rewrite B. destruct (Nat.eqb_spec j (bsz m)); [lia|]. destruct (Nat.ltb_spec j (bsz m)); [lia|auto].
  - destruct (req_last _ R0) as [RL RL']. destruct (@get_word_ok m l (length (arr m) - 1) I) as (w & E & W); [lia|]. rewrite E. cbn [obind]. rewrite set_some by lia. cbn [obind]. eexists. split; [reflexivity|].
    rewrite El, RL in *. set (v := if b then _ else _). assert (Wv : word64 v) by (apply put_word; auto; apply m64).
    assert (B : forall j, bitf (lset (arr m) (bsz m / 64) v) j = if j =? bsz m then b else bitf (arr m) j).
    { intros j. rewrite bitf_lset by lia. pose proof (Nat.div_mod j 64). destruct (Nat.eqb_spec (j / 64) (bsz m / 64)) as [Ej|].
      - unfold v. rewrite put_bit by apply m64. destruct (Nat.eqb_spec (j mod 64) (bsz m mod 64)); destruct (Nat.eqb_spec j (bsz m)); auto; try lia; try (subst; lia).
        symmetry. apply bitf_get. now rewrite Ej.
      - destruct (Nat.eqb_spec j (bsz m)) as [->|]; [lia|]. auto. }
    split.
    + repeat split; cbn [arr bsz]; [rewrite lset_length; lia|apply Forall_lset; auto|rewrite app_length; cbn [length]; lia|].
      rewrite app_length. cbn [length]. intros j Lj. rewrite B. destruct (Nat.eqb_spec j (bsz m)) as [->|].
      * rewrite Es, app_nth2, Nat.sub_diag by lia. reflexivity.
      * rewrite app_nth1 by lia. apply Hb. lia.
    + intros C j Lj. cbn [arr bsz] in *. rewrite B. destruct (Nat.eqb_spec j (bsz m)); [lia|]. apply C. lia.
Qed.
Lemma req_mono a b : a <= b -> req a <= req b.
Proof. intros. unfold req. apply Nat.div_le_mono; lia. Qed.
Lemma repeat_nth A (x d : A) n i : nth i (repeat x n) d = if i <? n then x else d.
Proof. revert i; induction n as [|n IH]; intros [|i]; cbn [nth repeat]; auto. rewrite IH. destruct (Nat.ltb_spec i n), (Nat.ltb_spec (S i) (S n)); auto; lia. Qed.
Lemma new_ok n b : binv (bm_new n b) (repeat b n) /\ (b = false -> clean (bm_new n b)).
Proof.
  assert (B : forall i, bitf (repeat (wfill b) (req n)) i = (i / 64 <? req n) && b).
  { intros i. unfold bitf. rewrite repeat_nth. destruct (Nat.ltb_spec (i / 64) (req n)); cbn [andb]; [apply wfill_bit, m64|apply Z.bits_0]. }
  split.
  - repeat split; cbn [bm_new arr bsz]; rewrite ?repeat_length; auto; [apply Forall_forall; intros x Hx; apply repeat_spec in Hx as ->; apply wfill_word|].
    intros i Hi. rewrite B, repeat_nth. pose proof (req_lt Hi). destruct (Nat.ltb_spec (i / 64) (req n)); [|lia]. destruct (Nat.ltb_spec i n); [auto|lia].
  - intros -> i _. cbn [bm_new arr]. rewrite B. apply andb_false_r.
Qed.
Lemma resize_ok m l n b : binv m l -> length l <= n -> exists m', bm_resize m n b = Some m' /\ binv m' (l ++ repeat b (n - length l)) /\ (b = false -> clean m').
Proof.
  intros I L. pose proof I as (El & F & Es & Hb). unfold bm_resize. destruct (Nat.ltb_spec n (bsz m)); [lia|].
  pose proof (@req_mono (bsz m) n ltac:(lia)) as RM. set (a := vresize (arr m) (req n) (wfill b)).
  assert (Ea : a = arr m ++ repeat (wfill b) (req n - req (bsz m))). { unfold a, vresize. rewrite firstn_all2 by lia. now rewrite El. }
  assert (La : length a = req n) by (rewrite Ea, app_length, repeat_length; lia).
  assert (Fa : Forall word64 a). { rewrite Ea. apply Forall_app. split; auto. apply Forall_forall. intros x Hx. apply repeat_spec in Hx as ->. apply wfill_word. }
  assert (Ba : forall i, bitf a i = if i / 64 <? req (bsz m) then bitf (arr m) i else (i / 64 <? req n) && b).
  { intros i. unfold bitf. rewrite Ea. destruct (Nat.ltb_spec (i / 64) (req (bsz m))); [rewrite app_nth1 by lia; auto|]. rewrite app_nth2 by lia. rewrite repeat_nth.
    destruct (Nat.ltb_spec (i / 64 - length (arr m)) (req n - req (bsz m))); destruct (Nat.ltb_spec (i / 64) (req n)); try lia; cbn [andb]; [apply wfill_bit, m64|apply Z.bits_0]. }
  assert (G : forall a', length a' = req n -> Forall word64 a' -> (forall i, bitf a' i = if i <? bsz m then bitf (arr m) i else (i / 64 <? req n) && b) ->
    binv (Bm a' n) (l ++ repeat b (n - length l)) /\ (b = false -> clean (Bm a' n))).
  { intros a' La' Fa' Ba'. split.
    - repeat split; cbn [arr bsz]; auto; [rewrite app_length, repeat_length; lia|]. rewrite app_length, repeat_length. intros i Hi. rewrite Ba'. destruct (Nat.ltb_spec i (bsz m)).
      + rewrite app_nth1 by lia. apply Hb. lia.
      + rewrite app_nth2, repeat_nth by lia. destruct (Nat.ltb_spec (i - length l) (n - length l)); [|lia]. pose proof (@req_lt n i ltac:(lia)). destruct (Nat.ltb_spec (i / 64) (req n)); [auto|lia].
    - intros -> i Hi. cbn [arr bsz] in *. rewrite Ba'. destruct (Nat.ltb_spec i (bsz m)); [lia|]. apply andb_false_r. }
  pose proof (Nat.div_mod (bsz m) 64) as DM. destruct (Nat.eqb_spec (bsz m mod 64) 0) as [R0|R0].
  - eexists. split; [reflexivity|]. apply G; auto. intros i. rewrite Ba. assert (Rq : req (bsz m) = bsz m / 64). { unfold req. symmetry. apply (Nat.div_unique _ _ _ 63); lia. }
    pose proof (Nat.div_mod i 64). pose proof (m64 i). destruct (Nat.ltb_spec (i / 64) (req (bsz m))), (Nat.ltb_spec i (bsz m)); auto; lia.
  - destruct (req_last _ R0) as [RL RL']. destruct (@get_lt _ a (bsz m / 64)) as [w E]; [lia|]. rewrite E. cbn [obind]. rewrite set_some by lia. cbn [obind].
    assert (W : word64 w). { rewrite Forall_forall in Fa. apply Fa. eapply get_In; eauto. }
    set (mk := (one_at (bsz m mod 64) - 1)%Z). assert (Mk : mk = bm_mask (bsz m mod 64)). { unfold mk, bm_mask. destruct (Nat.ltb_spec (bsz m mod 64) 64); [auto|]. pose proof (m64 (bsz m)). lia. }
    rewrite Mk. eexists. split; [reflexivity|]. apply G.
    + now rewrite lset_length.
    + apply Forall_lset; auto. destruct b; [apply lor_word|apply land_word]; auto; try apply not64_word; apply mask_word.
    + intros i. rewrite bitf_lset by lia. pose proof (Nat.div_mod i 64). pose proof (m64 i). destruct (Nat.eqb_spec (i / 64) (bsz m / 64)) as [Ei|].
      * assert (T : Z.testbit w (Z.of_nat (i mod 64)) = bitf (arr m) i). { rewrite <- (@bitf_get a i w) by now rewrite Ei. rewrite Ba. destruct (Nat.ltb_spec (i / 64) (req (bsz m))); [auto|lia]. }
        destruct (Nat.ltb_spec (i / 64) (req n)); [|lia].
        destruct b; [rewrite Z.lor_spec, not64_bit by auto|rewrite Z.land_spec]; rewrite mask_bit by auto; rewrite T;
          destruct (Nat.ltb_spec (i mod 64) (bsz m mod 64)), (Nat.ltb_spec i (bsz m)); try lia; cbn [negb andb]; now rewrite ?orb_false_r, ?orb_true_r, ?andb_false_r, ?andb_true_r.
      * rewrite Ba. destruct (Nat.ltb_spec (i / 64) (req (bsz m))), (Nat.ltb_spec i (bsz m)); auto; try lia.
Qed.
Lemma set_ok m l i b l' : binv m l -> bstep l (BSet i b) l' -> exists m', bm_set m i b = Some m' /\ binv m' l' /\ (clean m -> clean m').
Proof.
  intros I S. pose proof I as (El & F & Es & Hb). unfold bm_set. inversion S as [| | | | | |? ? Li|? ? Li| | |]; subst.
  - destruct (Nat.leb_spec (bsz m) i); [lia|]. cbn [obind]. now apply put_ok.
  - destruct (Nat.leb_spec (bsz m) i); [|lia]. destruct (@resize_ok m l (i + 1) false I) as (m1 & -> & I1 & C1); [lia|]. cbn [obind].
    destruct (@put_ok m1 _ i b I1) as (m2 & E2 & I2 & C2); [rewrite app_length, repeat_length; lia|]. exists m2. split; auto. split; auto.
    replace (lset _ i b) with (l ++ repeat false (i - length l) ++ [b]) in I2; auto.
    replace (i + 1 - length l) with (i - length l + 1) by lia. rewrite repeat_app, app_assoc. cbn [repeat].
    set (p := l ++ repeat false (i - length l)). assert (Lp : length p = i) by (unfold p; rewrite app_length, repeat_length; lia). rewrite app_assoc. fold p. rewrite <- Lp.
    clear. induction p; cbn; [auto|now f_equal].
Qed.
Lemma bits_nth n x i : nth i (bits n x) false = (i <? n) && Z.testbit x (Z.of_nat i).
Proof.
  unfold bits. destruct (Nat.ltb_spec i n); cbn [andb].
  - rewrite (nth_indep _ _ (Z.testbit x (Z.of_nat 0))) by (rewrite map_length, seq_length; auto). rewrite (map_nth (fun i => Z.testbit x (Z.of_nat i))). now rewrite seq_nth.
  - apply nth_overflow. rewrite map_length, seq_length. auto.
Qed.
Lemma bits_length n x : length (bits n x) = n. Proof. unfold bits. now rewrite map_length, seq_length. Qed.
Lemma nth_skipn A (l : list A) n i d : nth i (skipn n l) d = nth (n + i) l d.
Proof. revert n; induction l as [|x l IH]; intros [|n]; cbn [skipn nth Nat.add]; auto. now destruct i. Qed.
Lemma nth_firstn_lt A (l : list A) n i d : i < n -> nth i (firstn n l) d = nth i l d.
Proof. revert n i; induction l as [|x l IH]; intros [|n] [|i] L; cbn [firstn nth]; auto; try lia. apply IH. lia. Qed.
Lemma small_bit x n i : (0 <= x < 2 ^ Z.of_nat n)%Z -> n <= i -> Z.testbit x (Z.of_nat i) = false.
Proof.
  intros Hx Hi. destruct (Z.eq_dec x 0) as [->|]; [apply Z.bits_0|]. apply Z.bits_above_log2; [lia|].
  assert (Z.log2 x < Z.of_nat n)%Z by (apply Z.log2_lt_pow2; lia). lia.
Qed.
Lemma range_set_ok m l b e x : binv m l -> b <= e <= length l -> e - b <= 64 -> (0 <= x < 2 ^ Z.of_nat (e - b))%Z ->
  exists m', bm_range_set m b e x = Some m' /\ binv m' (firstn b l ++ bits (e - b) x ++ skipn e l) /\ (clean m -> clean m').
Proof.
  intros I R W X. pose proof I as (El & F & Es & Hb). unfold bm_range_set. destruct (Nat.leb_spec e b).
  { exists m. split; auto. split; auto. replace e with b by lia. rewrite Nat.sub_diag. cbn [bits seq map app]. unfold bits. cbn [seq map app]. now rewrite firstn_skipn. }
  set (w := e - b) in *. set (r := b mod 64). pose proof (m64 b) as Rr. pose proof (Nat.div_mod b 64) as DM. fold r in Rr, DM.
  rewrite mask_val by auto. destruct (Z.leb_spec x (2 ^ Z.of_nat w - 1)); [|lia]. cbn [guard obind]. rewrite <- mask_val by auto.
  assert (Lq : b / 64 < length (arr m)) by (rewrite El, Es; apply req_lt; lia).
  assert (Wx : word64 x). { unfold word64. assert (2 ^ Z.of_nat w <= 2 ^ 64)%Z by (apply Z.pow_le_mono_r; lia). lia. }
  destruct (bm_word_ok (fun v => Z.lor (Z.land v (not64 (shl (bm_mask w) r))) (shl x r)) I Lq) as (v & E & Wv & ->). cbn [obind].
  set (v1 := Z.lor _ _). assert (W1 : word64 v1) by (apply lor_word; [apply land_word; auto; apply not64_word|]; apply u64_word).
  assert (B1 : forall j, bitf (lset (arr m) (b / 64) v1) j = if (b <=? j) && (j <? e) && (j / 64 =? b / 64) then Z.testbit x (Z.of_nat (j - b)) else bitf (arr m) j).
  { intros j. rewrite bitf_lset by auto. pose proof (Nat.div_mod j 64). pose proof (m64 j). destruct (Nat.eqb_spec (j / 64) (b / 64)) as [Ej|]; [|now rewrite andb_false_r].
    rewrite andb_true_r. unfold v1. rewrite Z.lor_spec, Z.land_spec, not64_bit, !shl_bit, mask_bit by lia. replace (j mod 64 - r) with (j - b) by lia.
    assert (Tj : Z.testbit v (Z.of_nat (j mod 64)) = bitf (arr m) j) by (symmetry; apply bitf_get; now rewrite Ej). rewrite Tj.
    destruct (Nat.leb_spec r (j mod 64)), (Nat.leb_spec b j); try lia; cbn [andb negb]; [|now rewrite andb_true_r, orb_false_r].
    destruct (Nat.ltb_spec (j - b) w), (Nat.ltb_spec j e); try lia; cbn [andb negb]; [now rewrite andb_false_r|]. rewrite andb_true_r, (@small_bit x w) by lia. apply orb_false_r. }
  assert (I1 : binv (Bm (lset (arr m) (b / 64) v1) (bsz m)) (map (fun j => bitf (lset (arr m) (b / 64) v1) j) (seq 0 (length l)))).
  { repeat split; cbn [arr bsz]; rewrite ?lset_length, ?map_length, ?seq_length; auto; [apply Forall_lset; auto|]. intros j Lj.
    rewrite (nth_indep _ _ (bitf (lset (arr m) (b / 64) v1) 0)) by (rewrite map_length, seq_length; auto). rewrite (map_nth (bitf (lset (arr m) (b / 64) v1))). now rewrite seq_nth. }
  assert (G : forall a', length a' = length (arr m) -> Forall word64 a' -> (forall j, bitf a' j = if (b <=? j) && (j <? e) then Z.testbit x (Z.of_nat (j - b)) else bitf (arr m) j) ->
     binv (Bm a' (bsz m)) (firstn b l ++ bits w x ++ skipn e l) /\ (clean m -> clean (Bm a' (bsz m)))).
  { intros a' La Fa Ba. split.
    - repeat split; cbn [arr bsz]; auto; [now rewrite La|rewrite !app_length, firstn_length, bits_length, skipn_length; lia|].
      intros j Lj. rewrite Ba. destruct (Nat.leb_spec b j); cbn [andb].
      + rewrite app_nth2 by (rewrite firstn_length; lia). rewrite firstn_length, Nat.min_l by lia. destruct (Nat.ltb_spec j e).
        * rewrite app_nth1 by (rewrite bits_length; lia). rewrite bits_nth. destruct (Nat.ltb_spec (j - b) w); [auto|lia].
        * rewrite app_nth2 by (rewrite bits_length; lia). rewrite bits_length. rewrite nth_skipn. replace (e + (j - b - w)) with j by lia. apply Hb.
          rewrite !app_length, firstn_length, bits_length, skipn_length in Lj. lia.
      + rewrite app_nth1 by (rewrite firstn_length; lia). rewrite nth_firstn_lt by auto. apply Hb. lia.
    - intros C j Lj. cbn [arr bsz] in *. rewrite Ba. destruct (Nat.leb_spec b j), (Nat.ltb_spec j e); cbn [andb]; try lia; now apply C. }
  destruct (Nat.ltb_spec 64 (w + r)) as [Wr|Wr].
  - assert (Lq' : b / 64 + 1 < length (lset (arr m) (b / 64) v1)). { rewrite lset_length, El, Es. pose proof (@req_lt (length l) (e - 1) ltac:(lia)). assert ((b / 64 + 1) <= (e - 1) / 64) by (apply Nat.div_le_lower_bound; lia). lia. }
    destruct (bm_word_ok (fun v => Z.lor (Z.land v (not64 (shr (bm_mask w) (64 - r)))) (shr x (64 - r))) I1 Lq') as (v' & E' & Wv' & ->). eexists. split; [reflexivity|]. cbn [arr bsz] in *.
    set (v2 := Z.lor _ _). assert (W2 : word64 v2) by (apply lor_word; [apply land_word; auto; apply not64_word|]; apply shr_word; auto; apply mask_word).
    apply G; [now rewrite !lset_length|apply Forall_lset; auto; apply Forall_lset; auto|]. intros j. rewrite bitf_lset by auto. pose proof (Nat.div_mod j 64). pose proof (m64 j).
    destruct (Nat.eqb_spec (j / 64) (b / 64 + 1)) as [Ej|Nj].
    + unfold v2. rewrite Z.lor_spec, Z.land_spec, not64_bit, !shr_bit by lia. replace (j mod 64 + (64 - r)) with (j - b) by lia.
      assert (Tj : Z.testbit v' (Z.of_nat (j mod 64)) = bitf (arr m) j). { rewrite <- (@bitf_get (lset (arr m) (b / 64) v1) j v') by now rewrite Ej. rewrite B1. destruct (Nat.eqb_spec (j / 64) (b / 64)); [lia|]. now rewrite andb_false_r. }
      rewrite Tj. destruct (Nat.leb_spec b j); [cbn [andb]|lia].
      destruct (Nat.ltb_spec j e); [rewrite mask_bit by lia; destruct (Nat.ltb_spec (j - b) w); [cbn [negb]; now rewrite andb_false_r|lia]|].
      rewrite (@small_bit x w) by lia. rewrite orb_false_r. destruct (Nat.ltb_spec (j - b) 64); [rewrite mask_bit by lia; destruct (Nat.ltb_spec (j - b) w); [lia|]|rewrite word_high by (auto; apply mask_word)]; cbn [negb]; apply andb_true_r.
    + rewrite B1. destruct (Nat.leb_spec b j), (Nat.ltb_spec j e), (Nat.eqb_spec (j / 64) (b / 64)); cbn [andb]; auto. exfalso. assert (j / 64 <= (e - 1) / 64) by (apply Nat.div_le_mono; lia).
      assert (b / 64 <= j / 64) by (apply Nat.div_le_mono; lia). assert ((e - 1) / 64 < b / 64 + 2) by (apply Nat.div_lt_upper_bound; lia). lia.
  - eexists. split; [reflexivity|]. apply G; [now rewrite lset_length|apply Forall_lset; auto|]. intros j. rewrite B1. pose proof (Nat.div_mod j 64). pose proof (m64 j).
    destruct (Nat.leb_spec b j), (Nat.ltb_spec j e); cbn [andb]; auto. destruct (Nat.eqb_spec (j / 64) (b / 64)); auto. exfalso. assert (j / 64 = b / 64); [|lia]. symmetry. apply (Nat.div_unique _ _ _ (j - b + r)); lia.
Qed.
Lemma step_ok m l c l' : binv m l -> bstep l c l' -> exists m', bm_do m c = Some m' /\ binv m' l' /\ (nofill c = true -> clean m -> clean m').
Proof.
  intros I St. destruct c; cbn [bm_do].
  - inversion St; subst. destruct (push_ok b I) as (m' & E & I' & C). eauto 6.
  - inversion St as [|? ? L| | | | | | | | |]; subst. destruct (resize_ok b I L) as (m' & E & I' & C). exists m'. repeat split; auto; try apply I'. cbn [nofill]. intros N _. destruct b; [discriminate|auto].
  - inversion St; subst. exists (bm_assign m n b). destruct (new_ok n b) as [A B]. repeat split; auto; try apply A. cbn [nofill]. intros N _. destruct b; [discriminate|auto].
  - inversion St as [| | |? ? L| | | | | | |]; subst. destruct (put_ok b I L) as (m' & E & I' & C). eauto 6.
  - inversion St as [| | | |? ? ? L| | | | | |]; subst. destruct (@or_ok _ _ _ b _ I L) as (m' & E & I' & C). eauto 6.
  - inversion St as [| | | | |? ? ? L| | | | |]; subst. destruct (@and_ok _ _ _ b _ I L) as (m' & E & I' & C). eauto 6.
  - destruct (set_ok I St) as (m' & E & I' & C). eauto 6.
  - inversion St as [| | | | | | | |? ? ? A B C| |]; subst. destruct (@range_set_ok _ _ _ _ _ I A B C) as (m' & E' & I' & D). eauto 6.
  - inversion St as [| | | | | | | | |? b E R|]; subst. pose proof I as (El & F & Es & Hb). rewrite app_length in *. cbn [length] in *. unfold bm_pop. destruct (Nat.ltb_spec 0 (bsz m)); [|lia]. cbn [guard obind]. eexists. split; [reflexivity|]. split; [|discriminate].
    repeat split; cbn [arr bsz]; auto; [|lia|]. 
    + rewrite El, Es. replace (length l' + 1 - 1) with (length l') by lia. rewrite req_add. destruct (Nat.eqb_spec (length l' mod 64) 0); lia.
    + intros i Li. rewrite Hb by lia. now rewrite app_nth1.
  - inversion St as [| | | | | | | | | |? L E]; subst. pose proof I as (El & F & Es & Hb). unfold bm_resize. destruct (Nat.ltb_spec n (bsz m)).
    + eexists. split; [reflexivity|]. split; [|discriminate]. repeat split; cbn [arr bsz]; auto; [now rewrite El, Es|rewrite firstn_length; lia|].
      rewrite firstn_length. intros i Li. rewrite nth_firstn_lt by lia. apply Hb. lia.
    + destruct (@resize_ok m l n false I) as (m' & E' & I' & C'); [lia|]. unfold bm_resize in E'. destruct (Nat.ltb_spec n (bsz m)); [lia|]. exists m'. split; [auto|]. split; [|discriminate].
      rewrite firstn_all2 by lia. replace (n - length l) with 0 in I' by lia. cbn [repeat] in I'. now rewrite app_nil_r in I'.
Qed.
Lemma steps_ok cs : forall m l l', binv m l -> bsteps l cs l' -> exists m', bm_run cs m = Some m' /\ binv m' l' /\ (forallb nofill cs = true -> clean m -> clean m').
Proof.
  induction cs as [|c cs IH]; intros m l l' I S; inversion S as [|? ? l1 ? ? S1 S2]; subst.
  - exists m. split; [reflexivity|]. auto.
  - destruct (step_ok I S1) as (m1 & E1 & I1 & C1). destruct (IH _ _ _ I1 S2) as (m2 & E2 & I2 & C2). exists m2. unfold bm_run in *. cbn [for_each]. rewrite E1. cbn [obind]. rewrite E2. split; auto. split; auto.
    cbn [forallb]. intros N. apply andb_true_iff in N as [N1 N2]. auto.
Qed.

(** ** reading *)
Lemma bin_bits n x : (0 <= x < 2 ^ Z.of_nat n)%Z -> bin (bits n x) = x.
Proof.
  revert x; induction n as [|n IH]; intros x H; [unfold bits; cbn in *; lia|]. change (S n) with (1 + n). rewrite bits_app. unfold bits at 1. cbn [seq map app bin]. rewrite IH.
  - change (Z.of_nat 0) with 0%Z. change (Z.of_nat 1) with 1%Z. rewrite Z.bit0_odd. pose proof (Z.div2_odd x). rewrite <- Z.div2_spec. unfold Z.b2z in *. destruct (Z.odd x); lia.
  - change (Z.of_nat 1) with 1%Z. rewrite <- Z.div2_spec, Z.div2_div. rewrite Nat2Z.inj_succ, Z.pow_succ_r in H by lia. split; [apply Z.div_pos; lia|apply Z.div_lt_upper_bound; lia].
Qed.
Lemma range_get_ok m l b e : binv m l -> b <= e <= length l -> e - b <= 64 -> bm_range_get m b e = Some (bin (slice b e l)).
Proof.
  intros I R W. pose proof I as (El & F & Es & Hb). unfold bm_range_get. destruct (Nat.leb_spec e b).
  { unfold slice. replace (e - b) with 0 by lia. reflexivity. }
  destruct (Nat.leb_spec (e - b) 64); [cbn [guard obind]|lia]. set (w := e - b) in *. set (r := b mod 64). pose proof (m64 b) as Rr. pose proof (Nat.div_mod b 64) as DM. fold r in Rr, DM.
  destruct (@get_word_ok m l (b / 64) I) as (v & E & Wv); [rewrite El, Es; apply req_lt; lia|]. rewrite E. cbn [obind].
  assert (K : forall x, word64 x -> (forall j, j < w -> Z.testbit x (Z.of_nat j) = bitf (arr m) (b + j)) -> Z.land x (bm_mask w) = bin (slice b e l)).
  { intros x Wx T. rewrite <- (@bin_bits w (Z.land x (bm_mask w))).
    - f_equal. apply nth_ext with false false; [rewrite bits_length; unfold slice; rewrite firstn_length, skipn_length; lia|]. rewrite bits_length. intros j Lj. rewrite bits_nth, Z.land_spec, mask_bit by lia. destruct (Nat.ltb_spec j w); [|lia]. cbn [andb]. rewrite andb_true_r, T by auto.
      unfold slice. rewrite nth_firstn_lt by auto. rewrite nth_skipn. apply Hb. lia.
    - rewrite mask_val by auto. replace (2 ^ Z.of_nat w - 1)%Z with (Z.ones (Z.of_nat w)) by (rewrite Z.ones_equiv; lia). rewrite Z.land_ones by lia. apply Z.mod_pos_bound. apply Z.pow_pos_nonneg; lia. }
  destruct (Nat.ltb_spec 64 (w + r)) as [Wr|Wr].
  - destruct (@get_word_ok m l (b / 64 + 1) I) as (v' & E' & Wv').
    { rewrite El, Es. pose proof (@req_lt (length l) (e - 1) ltac:(lia)). assert ((b / 64 + 1) <= (e - 1) / 64) by (apply Nat.div_le_lower_bound; lia). lia. }
    rewrite E'. cbn [obind]. f_equal. apply K; [apply lor_word; [now apply shr_word|apply u64_word]|]. intros j Lj. rewrite Z.lor_spec, shr_bit, shl_bit by lia. destruct (Nat.leb_spec (64 - r) j); cbn [andb].
    + rewrite word_high by (auto; lia). cbn [orb]. unfold bitf. destruct (@idx_eq (b + j) (b / 64 + 1) (j - (64 - r))) as [-> ->]; [lia|lia|]. now rewrite (@nth_get _ _ _ _ 0%Z E').
    + rewrite orb_false_r. unfold bitf. destruct (@idx_eq (b + j) (b / 64) (j + r)) as [-> ->]; [lia|lia|]. now rewrite (@nth_get _ _ _ _ 0%Z E).
  - cbn [obind]. f_equal. apply K; [now apply shr_word|]. intros j Lj. rewrite shr_bit. unfold bitf. destruct (@idx_eq (b + j) (b / 64) (j + r)) as [-> ->]; [lia|lia|]. now rewrite (@nth_get _ _ _ _ 0%Z E).
Qed.

(** ** iterators *)
Definition it_at (i : nat) : biter := (Z.of_nat (i / 64), Z.of_nat (i mod 64)).
Lemma at_add i j q r : r < 64 -> i + j = 64 * q + r -> it_at (i + j) = (Z.of_nat q, Z.of_nat r).
Proof. intros R E. destruct (@idx_eq (i + j) q r R E) as [A B]. unfold it_at. now rewrite A, B. Qed.
Lemma incr_ok i : it_incr (it_at i) = it_at (i + 1).
Proof.
  pose proof (Nat.div_mod i 64). pose proof (m64 i). unfold it_incr, it_at at 1. rewrite Z.mod_small by lia. destruct (Z.ltb_spec (Z.of_nat (i mod 64)) 63).
  - rewrite (@at_add i 1 (i / 64) (i mod 64 + 1)) by lia. f_equal. lia.
  - rewrite (@at_add i 1 (i / 64 + 1) 0) by lia. f_equal. lia.
Qed.
Lemma decr_ok i : it_decr (it_at (i + 1)) = it_at i.
Proof.
  pose proof (Nat.div_mod i 64). pose proof (m64 i). unfold it_decr. destruct (Nat.ltb_spec (i mod 64) 63).
  - rewrite (@at_add i 1 (i / 64) (i mod 64 + 1)) by lia. rewrite Z.mod_small by lia. destruct (Z.ltb_spec 0 (Z.of_nat (i mod 64 + 1))); [|lia]. unfold it_at. f_equal. lia.
  - rewrite (@at_add i 1 (i / 64 + 1) 0) by lia. change (Z.of_nat 0 mod 64)%Z with 0%Z. cbn [Z.ltb Z.compare]. unfold it_at. f_equal; lia.
Qed.
Lemma fwd_ok i d : it_fwd (it_at i) (Z.of_nat d) = it_at (i + d).
Proof.
  pose proof (Nat.div_mod i 64). pose proof (m64 i). pose proof (Nat.div_mod d 64). pose proof (m64 d).
  unfold it_fwd, it_at at 1. change 64%Z with (Z.of_nat 64) at 1 3 4. rewrite <- Nat2Z.inj_mod, <- Nat2Z.inj_div by lia.
  destruct (Z.ltb_spec (Z.of_nat (i mod 64) + Z.of_nat (d mod 64)) 64).
  - rewrite (@at_add i d (i / 64 + d / 64) (i mod 64 + d mod 64)) by lia. f_equal; lia.
  - rewrite (@at_add i d (i / 64 + d / 64 + 1) (i mod 64 + d mod 64 - 64)) by lia. f_equal; lia.
Qed.
Lemma back_ok i d : d <= i -> d mod 64 <= i mod 64 -> it_back (it_at i) (Z.of_nat d) = it_at (i - d).
Proof.
  intros L M. pose proof (Nat.div_mod i 64). pose proof (m64 i). pose proof (Nat.div_mod d 64). pose proof (m64 d).
  unfold it_back, it_at at 1. change 64%Z with (Z.of_nat 64) at 1 2 3 4. rewrite <- Nat2Z.inj_mod, <- Nat2Z.inj_div by lia.
  destruct (Z.leb_spec (Z.of_nat (d mod 64)) (Z.of_nat (i mod 64))); [|lia]. assert (d / 64 <= i / 64) by lia.
  destruct (@idx_eq (i - d) (i / 64 - d / 64) (i mod 64 - d mod 64)) as [A B]; [lia|lia|]. unfold it_at. rewrite A, B. f_equal; lia.
Qed.
Lemma deref_ok m l i : binv m l -> i < length l -> it_deref m (it_at i) = Some (nth i l false).
Proof.
  intros I L. unfold it_deref, it_at. pose proof (m64 i). destruct (Z.leb_spec 0 (Z.of_nat (i / 64))); [|lia]. destruct (Z.ltb_spec (Z.of_nat (i mod 64)) 64); [|lia]. cbn [andb guard obind].
  rewrite !Nat2Z.id. exact (bm_get_ok I L).
Qed.
Lemma it_at_inj i j : it_eqb (it_at i) (it_at j) = (i =? j).
Proof.
  unfold it_eqb, it_at. cbn [fst snd]. pose proof (Nat.div_mod i 64). pose proof (Nat.div_mod j 64). destruct (Nat.eqb_spec i j) as [->|]; [now rewrite !Z.eqb_refl|].
  destruct (Z.eqb_spec (Z.of_nat (i / 64)) (Z.of_nat (j / 64))), (Z.eqb_spec (Z.of_nat (i mod 64)) (Z.of_nat (j mod 64))); auto. lia.
Qed.
Lemma iterate_ok m l : binv m l -> bm_iterate m = Some l.
Proof.
  intros I. pose proof I as (El & F & Es & Hb). unfold bm_iterate. change it_begin with (it_at 0). change (it_end m) with (it_at (bsz m)). rewrite Es.
  match goal with |- loop _ ?bd _ = _ => set (body := bd) end.
  assert (K : forall k i, i + k = length l -> loop (k + 1) body (it_at i, firstn i l) = Some l).
  { induction k as [|k IH]; intros i Ei; cbn [Nat.add loop]; unfold body at 1; rewrite it_at_inj.
    - replace i with (length l) by lia. rewrite Nat.eqb_refl, firstn_all. reflexivity.
    - destruct (Nat.eqb_spec i (length l)); [lia|]. rewrite (deref_ok I) by lia. cbn [obind]. rewrite incr_ok.
      replace (firstn i l ++ [nth i l false]) with (firstn (i + 1) l); [apply IH; lia|]. rewrite Nat.add_1_r. assert (L : i < length l) by lia. clear - L. revert i L. induction l as [|x l IHl]; intros [|i] L; cbn in *; try lia; auto. f_equal. apply IHl. lia. }
  apply (K (length l) 0). lia.
Qed.
