(** Minima of the excess over a range: blocks and [lca]. *)
From Verif Require Import Base BaseLemmas ListExtra NthExtra Order SparseModel BitModel BitProof BmapModel BmapProof BvModel BvSel BvOps BvProp RmqModel RmqWord RmqParens RmqExc.
Set Implicit Arguments.

Lemma tot_exc l : 0 < length l -> exc l (length l - 1) = tot l.
Proof. intros H. unfold exc, tot. replace (S (length l - 1)) with (length l) by lia. now rewrite firstn_all. Qed.
Lemma exc_ones n : forall i, i < n -> exc (repeat true n) i = Z.of_nat (S i).
Proof. induction n as [|n IH]; intros i H; [lia|]. cbn [repeat]. destruct i as [|i]; [unfold exc; cbn; lia|]. rewrite exc_cons, IH by lia. lia. Qed.
Lemma leftmin_join f x y z m m' : leftmin f x y m -> leftmin f y z m' -> leftmin f x z (if (f m' <? f m)%Z then m' else m).
Proof.
  intros (H1 & H2 & H3) (K1 & K2 & K3). destruct (Z.ltb_spec (f m') (f m)).
  - split; [lia|]. split; intros i Hi; [|apply K3; lia]. destruct (Nat.lt_ge_cases i y); [|apply K2; lia].
    destruct (Nat.lt_ge_cases i m); [specialize (H2 i ltac:(lia))|specialize (H3 i ltac:(lia))]; lia.
  - split; [lia|]. split; intros i Hi; [apply H2; lia|]. destruct (Nat.lt_ge_cases i y); [apply H3; lia|].
    destruct (Nat.lt_ge_cases i m'); [specialize (K2 i ltac:(lia))|specialize (K3 i ltac:(lia))]; lia.
Qed.
(** ones after the range do not matter *)
Lemma leftmin_pad l n a : 0 < length l -> leftmin (exc (l ++ repeat true n)) 0 (length l + n) a -> leftmin (exc l) 0 (length l) a.
Proof.
  intros Hl (H1 & H2 & H3). assert (Ha : a < length l).
  { destruct (Nat.lt_ge_cases a (length l)) as [|C]; auto. specialize (H2 (length l - 1) ltac:(lia)).
    replace a with (length l + (a - length l)) in H2 by lia. rewrite exc_app_r, exc_app_l, tot_exc in H2 by lia. rewrite exc_ones in H2 by lia. lia. }
  split; [lia|]. split; intros i Hi; [specialize (H2 i ltac:(lia))|specialize (H3 i ltac:(lia))]; rewrite !exc_app_l in * by lia; auto.
Qed.

Section Vec.
Variable b : bmap.
Variable d : bv.
Variable B : list bool.
Hypothesis BI : binv b B.
Hypothesis R1 : forall i, rank1 64 (bm_vec b) d i = Some (cnt true (firstn i B)).
Hypothesis R0 : forall i, i <= length B -> rank0 64 (bm_vec b) d i = Some (cnt false (firstn i B)).
Hypothesis SE : forall k, select 64 (bm_vec b) d false k = Some (kth false k B).
Hypothesis NN : forall i, i < length B -> (0 <= exc B i)%Z.

Lemma bsz_eq : bsz b = length B. Proof. now destruct BI as (_ & _ & H & _). Qed.
Lemma get_e_ok i : i < length B -> get_e b d i = Some (Z.to_nat (exc B i)).
Proof.
  intros H. unfold get_e. rewrite R1. cbn [obind]. specialize (NN H). unfold exc in *. replace (i + 1) with (S i) by lia.
  destruct (Nat.leb_spec (S i) (cnt true (firstn (S i) B) * 2)); [|lia]. cbn [guard obind]. f_equal. lia.
Qed.
Lemma slice_exc l r i : l <= r <= length B -> i < r - l -> exc B (l + i) = (tot (firstn l B) + exc (slice l r B) i)%Z.
Proof.
  intros H Hi. rewrite <- (firstn_skipn l B) at 1. assert (Lf : length (firstn l B) = l) by (rewrite firstn_length; lia).
  rewrite <- Lf at 3. rewrite exc_app_r. f_equal. unfold slice. rewrite <- (firstn_skipn (r - l) (skipn l B)) at 1. apply exc_app_l. rewrite firstn_length, skipn_length. lia.
Qed.
Lemma slice_leftmin l r a : l <= r <= length B -> leftmin (exc (slice l r B)) 0 (r - l) a -> leftmin (exc B) l r (a + l).
Proof.
  intros H (H1 & H2 & H3). assert (Q : forall i, l <= i < r -> exc B i = (tot (firstn l B) + exc (slice l r B) (i - l))%Z). { intros i Hi. rewrite <- (@slice_exc l r) by lia. f_equal. lia. }
  split; [lia|]. split; intros i Hi; rewrite !Q by lia; replace (a + l - l) with a by lia; [specialize (H2 (i - l) ltac:(lia))|specialize (H3 (i - l) ltac:(lia))]; lia.
Qed.
(** the padded word *)
Lemma mask_ok l r : l < r <= length B -> r - l <= 64 ->
  let mask := bin (slice l r B) in let rem := 64 - (r - l) in
  let w := if rem =? 0 then mask else Z.lor mask (shl (one_at rem - 1) (r - l)) in
  word64 w /\ bits 64 w = slice l r B ++ repeat true rem.
Proof.
  intros H H64 mask rem w. assert (Ls : length (slice l r B) = r - l) by (apply slice_length; lia).
  assert (Wm : word64 mask).
  { unfold mask. pose proof (bin_bound (slice l r B)) as K. rewrite Ls in K. assert (2 ^ Z.of_nat (r - l) <= 2 ^ 64)%Z by (apply Z.pow_le_mono_r; lia). unfold word64. lia. }
  split. { unfold w. destruct (rem =? 0); auto. apply lor_word; auto. apply u64_word. }
  apply nth_ext_len with false. { rewrite bits_length, app_length, repeat_length, Ls. unfold rem. lia. }
  intros i Hi. rewrite bits_length in Hi. rewrite bits_nth. destruct (Nat.ltb_spec i 64); [|lia]. cbn [andb].
  assert (Tm : Z.testbit mask (Z.of_nat i) = nth i (slice l r B) false) by apply bin_bit.
  unfold w. destruct (Nat.eqb_spec rem 0) as [E|E].
  - rewrite app_nth1 by (rewrite Ls; lia). exact Tm.
  - rewrite Z.lor_spec, Tm, shl_bit by auto. destruct (Nat.leb_spec (r - l) i) as [C|C]; cbn [andb].
    + rewrite nth_overflow by lia. rewrite app_nth2 by lia. rewrite Ls, repeat_nth. destruct (Nat.ltb_spec (i - (r - l)) rem); [|lia]. cbn [orb].
      rewrite one_at_eq by lia. replace (2 ^ Z.of_nat rem - 1)%Z with (Z.ones (Z.of_nat rem)) by (rewrite Z.ones_equiv; lia). apply Z.ones_spec_low. lia.
    + rewrite orb_false_r. now rewrite app_nth1 by lia.
Qed.
Lemma part_min_ok l r : l < r <= length B -> r - l <= 64 -> exists m, part_min b d l r = Some (m, Z.to_nat (exc B m)) /\ leftmin (exc B) l r m.
Proof.
  intros H H64. unfold part_min. rewrite (@range_get_ok b B l r BI) by lia. cbn [obind].
  destruct (mask_ok H H64) as [Ww Wb]. cbv zeta in *. destruct (rmq64_ok Ww) as (a & -> & L). cbn [obind].
  rewrite Wb in L. assert (Ls : length (slice l r B) = r - l) by (apply slice_length; lia).
  assert (L' : leftmin (exc (slice l r B)) 0 (r - l) a). { rewrite <- Ls. apply (@leftmin_pad _ (64 - (r - l))); [lia|]. rewrite Ls. replace (r - l + (64 - (r - l))) with 64 by lia. exact L. }
  apply slice_leftmin in L'; [|lia]. rewrite get_e_ok by (destruct L'; lia). cbn [obind]. eauto.
Qed.

(** the minima of the blocks *)
Definition nb : nat := (length B + 63) / 64.
Lemma nb_bounds : (nb - 1) * 64 <= length B /\ (0 < nb -> (nb - 1) * 64 < length B) /\ length B <= nb * 64.
Proof. unfold nb. pose proof (Nat.div_mod (length B + 63) 64 ltac:(lia)). pose proof (Nat.mod_upper_bound (length B + 63) 64 ltac:(lia)). lia. Qed.
Lemma blocks_ok : exists A, blocks b = Some A /\ length A = nb /\
  forall q m, q * 64 + 64 < length B -> leftmin (exc B) (q * 64) (q * 64 + 64) m -> get A q = Some (Z.to_nat (exc B m)).
Proof.
  unfold blocks. rewrite bsz_eq. fold nb. destruct nb_bounds as (N1 & N2 & N3).
  apply (@loop_rule _ _ (fun '(A, s, ei, bi) => length A = nb /\ ei = bi * 64 /\ (ei < length B \/ ei = 0) /\ s = tot (firstn ei B) /\
      forall q m, q < bi -> leftmin (exc B) (q * 64) (q * 64 + 64) m -> get A q = Some (Z.to_nat (exc B m)))
    (fun '(A, s, ei, bi) => nb - bi)
    (fun A => length A = nb /\ forall q m, q * 64 + 64 < length B -> leftmin (exc B) (q * 64) (q * 64 + 64) m -> get A q = Some (Z.to_nat (exc B m)))).
  - intros (((A & s) & ei) & bi) (LA & Ee & He & Es & Q). unfold block_step. rewrite bsz_eq. destruct (Nat.ltb_spec (ei + 64) (length B)) as [C|C].
    + replace (Nat.min 64 (length B - ei)) with 64 by lia. rewrite (@range_get_ok b B ei (ei + 64) BI) by lia. cbn [obind]. destruct (Nat.ltb_spec 64 64); [lia|].
      destruct (@mask_ok ei (ei + 64)) as [Ww Wb]; try lia. cbv zeta in Ww, Wb. replace (64 - (ei + 64 - ei)) with 0 in Ww, Wb by lia. cbn [Nat.eqb repeat] in Ww, Wb. rewrite app_nil_r in Wb.
      destruct (rmq64_ok Ww) as (a & -> & L). cbn [obind]. rewrite Wb in L |- *.
      assert (L' : leftmin (exc B) ei (ei + 64) (a + ei)). { apply slice_leftmin; [lia|]. replace (ei + 64 - ei) with 64 by lia. exact L. }
      assert (X : (exc (slice ei (ei + 64) B) a + s)%Z = exc B (a + ei)). { destruct L as (La & _). rewrite (Nat.add_comm a), (@slice_exc ei (ei + 64)) by lia. lia. }
      rewrite X. pose proof (NN (i := a + ei) ltac:(destruct L'; lia)). destruct (Z.leb_spec 0 (exc B (a + ei))); [|lia]. cbn [guard obind].
      assert (Hb : bi < nb) by lia. rewrite set_some by lia. cbn [obind]. rewrite popcnt_ok, Wb, cnt_ones by auto.
      assert (Ls : length (slice ei (ei + 64) B) = 64) by (rewrite slice_length by lia; lia).
      assert (S' : (s + Z.of_nat (cnt true (slice ei (ei + 64) B)) * 2 - 64)%Z = tot (firstn (ei + 64) B)).
      { rewrite <- slice_firstn, (@slice_app _ 0 ei (ei + 64)), tot_app by lia. rewrite slice_firstn. rewrite Es. unfold tot at 3. rewrite Ls. lia. }
      rewrite S'. assert (P : (0 <= tot (firstn (ei + 64) B))%Z). { rewrite <- tot_exc by (rewrite firstn_length; lia). rewrite firstn_length. replace (Nat.min (ei + 64) (length B) - 1) with (ei + 63) by lia.
        rewrite <- (@exc_app_l _ (skipn (ei + 64) B)) by (rewrite firstn_length; lia). rewrite firstn_skipn. apply NN. lia. }
      destruct (Z.leb_spec 0 (tot (firstn (ei + 64) B))); [|lia]. cbn [guard obind]. eexists. split; [reflexivity|]. split; [|lia].
      rewrite lset_length. split; auto. split; [lia|]. split; [lia|]. split; auto.
      intros q m Hq Lm. destruct (Nat.eq_dec q bi) as [->|].
      * rewrite get_lset_eq by lia. do 3 f_equal. apply (@leftmin_unique (exc B) ei (ei + 64)); auto. now rewrite Ee.
      * rewrite get_lset_neq by lia. apply Q; auto. lia.
    + eexists. split; [reflexivity|]. split; auto. intros q m Hq. apply Q. lia.
  - rewrite repeat_length. split; auto. split; auto. split; auto. split; [reflexivity|]. intros; lia.
  - lia.
Qed.

Section Inner.
Variable A : list nat.
Hypothesis AL : length A = nb.
Hypothesis AB : forall q m, q * 64 + 64 < length B -> leftmin (exc B) (q * 64) (q * 64 + 64) m -> get A q = Some (Z.to_nat (exc B m)).
Variable inner : nat -> nat -> option nat.
Hypothesis IN : 3 <= nb -> forall l r, l < r <= nb - 2 -> exists k, inner l r = Some k /\ first_min Nat.ltb (slice 1 (nb - 1) A) l r k.

Lemma middle_ok i j : i + 2 <= j -> j < nb -> exists k m e, inner i (j - 1) = Some k /\ part_min b d ((k + 1) * 64) ((k + 1 + 1) * 64) = Some (m, e) /\
  e = Z.to_nat (exc B m) /\ leftmin (exc B) ((i + 1) * 64) (j * 64) m.
Proof.
  intros Hij Hj. destruct nb_bounds as (N1 & N2 & N3). destruct (IN ltac:(lia) (l := i) (r := j - 1) ltac:(lia)) as (k & Ek & (Hk & x & Gx & F1 & F2)).
  assert (BM : forall q, q + 1 < nb -> exists m, part_min b d (q * 64) ((q + 1) * 64) = Some (m, Z.to_nat (exc B m)) /\ leftmin (exc B) (q * 64) ((q + 1) * 64) m /\ get A q = Some (Z.to_nat (exc B m))).
  { intros q Hq. destruct (@part_min_ok (q * 64) ((q + 1) * 64)) as (m & E & L); try lia. exists m. split; auto. split; auto. apply AB; [lia|]. replace (q * 64 + 64) with ((q + 1) * 64) by lia. auto. }
  destruct (BM (k + 1) ltac:(lia)) as (m & E & L & G). exists k, m, (Z.to_nat (exc B m)). split; auto. split; auto. split; auto.
  rewrite get_slice in Gx by lia. replace (1 + k) with (k + 1) in Gx by lia. rewrite G in Gx. injection Gx as Ex.
  assert (Lm : m < length B) by (destruct L; lia). pose proof (NN Lm) as Pm.
  assert (P : forall i0, (i + 1) * 64 <= i0 < j * 64 -> (i0 < (k + 1) * 64 -> (exc B m < exc B i0)%Z) /\ ((k + 1 + 1) * 64 <= i0 -> (exc B m <= exc B i0)%Z)).
  { intros p Hp. pose proof (Nat.div_mod p 64 ltac:(lia)) as D1. pose proof (Nat.mod_upper_bound p 64 ltac:(lia)) as D2. set (q := p / 64) in *.
    destruct (BM q ltac:(lia)) as (mq & _ & (Q1 & Q2 & Q3) & Gq).
    assert (Le : (exc B mq <= exc B p)%Z). { destruct (Nat.lt_ge_cases p mq); [specialize (Q2 p ltac:(lia))|specialize (Q3 p ltac:(lia))]; lia. }
    assert (Lq : mq < length B) by lia. pose proof (NN Lq) as Pq.
    assert (Gs : get (slice 1 (nb - 1) A) (q - 1) = Some (Z.to_nat (exc B mq))). { rewrite get_slice by lia. replace (1 + (q - 1)) with q by lia. exact Gq. }
    split; intros Hc.
    - specialize (F1 (q - 1) _ ltac:(lia) Gs). apply Nat.ltb_lt in F1. lia.
    - specialize (F2 (q - 1) _ ltac:(lia) Gs). apply Nat.ltb_ge in F2. lia. }
  destruct L as (L1 & L2 & L3). split; [lia|]. split; intros p Hp.
  - destruct (Nat.lt_ge_cases p ((k + 1) * 64)); [apply P; lia|apply L2; lia].
  - destruct (Nat.lt_ge_cases p ((k + 1 + 1) * 64)); [apply L3; lia|apply P; lia].
Qed.

Lemma ltb_exc m m' : m < length B -> m' < length B -> (Z.to_nat (exc B m') <? Z.to_nat (exc B m)) = (exc B m' <? exc B m)%Z.
Proof. intros H H'. pose proof (NN H). pose proof (NN H'). destruct (Z.ltb_spec (exc B m') (exc B m)), (Nat.ltb_spec (Z.to_nat (exc B m')) (Z.to_nat (exc B m))); auto; lia. Qed.

Lemma lca_ok x y : x < y -> y < cnt false B -> exists m, leftmin (exc B) (kth false x B) (S (kth false y B)) m /\
  lca b d inner x y = Some (if m =? kth false x B then x else cnt false (firstn m B)).
Proof.
  intros Hxy Hy. unfold lca. destruct (Nat.eqb_spec x y); [lia|]. rewrite !SE. cbn [obind].
  destruct (@kth_inv false B x ltac:(lia)) as (X1 & _ & X3). destruct (@kth_inv false B y Hy) as (Y1 & _ & Y3). pose proof (@kth_mono false B x y ltac:(lia)) as M.
  assert (Lt : kth false x B < kth false y B). { destruct (Nat.eq_dec (kth false x B) (kth false y B)) as [E|]; [rewrite E in X3; lia|lia]. }
  set (xx := kth false x B) in *. set (yy := kth false y B) in *. destruct (Nat.ltb_spec yy xx); [lia|].
  pose proof (Nat.div_mod xx 64 ltac:(lia)) as Dx. pose proof (Nat.mod_upper_bound xx 64 ltac:(lia)) as Dx'.
  pose proof (Nat.div_mod yy 64 ltac:(lia)) as Dy. pose proof (Nat.mod_upper_bound yy 64 ltac:(lia)) as Dy'.
  set (i := xx / 64) in *. set (j := yy / 64) in *. destruct nb_bounds as (N1 & N2 & N3).
  destruct (@part_min_ok xx (Nat.min (yy + 1) ((i + 1) * 64))) as (m1 & -> & L1); try lia. cbn [obind].
  assert (L2 : exists m2 e2, (if i + 2 <=? j then
      let* k := inner i (j - 1) in let k := k + 1 in
      let* (idx, e) := part_min b d (k * 64) ((k + 1) * 64) in Some (if e <? Z.to_nat (exc B m1) then (idx, e) else (m1, Z.to_nat (exc B m1)))
    else Some (m1, Z.to_nat (exc B m1))) = Some (m2, e2) /\ e2 = Z.to_nat (exc B m2) /\ leftmin (exc B) xx (if i <? j then j * 64 else S yy) m2).
  { destruct (Nat.leb_spec (i + 2) j) as [C|C].
    - destruct (@middle_ok i j) as (k & m & e & -> & Ep & -> & L); [lia|lia|]. cbn [obind]. cbv zeta. rewrite Ep. cbn [obind].
      replace (Nat.min (yy + 1) ((i + 1) * 64)) with ((i + 1) * 64) in L1 by lia. rewrite ltb_exc by (destruct L, L1; lia).
      pose proof (leftmin_join L1 L) as J. destruct (Nat.ltb_spec i j); [|lia]. destruct (exc B m <? exc B m1)%Z; eauto.
    - do 2 eexists. split; [reflexivity|]. split; auto. destruct (Nat.ltb_spec i j).
      + replace (j * 64) with (Nat.min (yy + 1) ((i + 1) * 64)) by lia. exact L1.
      + replace (S yy) with (Nat.min (yy + 1) ((i + 1) * 64)) by lia. exact L1. }
  destruct L2 as (m2 & e2 & Q2 & -> & L2). cbv zeta in Q2. rewrite Q2. cbn [obind]. clear Q2.
  assert (L3 : exists m3 e3, (if i <? j then
      let* (idx, e) := part_min b d (j * 64) (yy + 1) in Some (if e <? Z.to_nat (exc B m2) then (idx, e) else (m2, Z.to_nat (exc B m2)))
    else Some (m2, Z.to_nat (exc B m2))) = Some (m3, e3) /\ leftmin (exc B) xx (S yy) m3).
  { destruct (Nat.ltb_spec i j) as [C|C].
    - destruct (@part_min_ok (j * 64) (yy + 1)) as (m & -> & L); try lia. cbn [obind]. rewrite ltb_exc by (destruct L, L2; lia).
      pose proof (leftmin_join L2 L) as J. replace (yy + 1) with (S yy) in J by lia. destruct (exc B m <? exc B m2)%Z; eauto.
    - eauto. }
  destruct L3 as (m3 & e3 & Q3 & L3). rewrite Q3. cbn [obind]. exists m3. split; auto. destruct (m3 =? xx); auto. apply R0. destruct L3. lia.
Qed.
End Inner.
End Vec.
