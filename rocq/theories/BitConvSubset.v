From Coq Require Import Lia Ring_theory Ring.
From Verif Require Import Base BaseLemmas ListExtra NthExtra RSum BitConvModel BitConvSweep BitConvProof.

Lemma lset_lset {A} (l : list A) i x y : lset (lset l i x) i y = lset l i y.
Proof. revert i. induction l as [|z l IH]; intros [|i]; cbn [lset]; auto. now rewrite IH. Qed.

Section Subset.
Variable T : Type.
Variables (zero one : T) (add mul sub : T -> T -> T) (opp : T -> T).
Hypothesis RT : ring_theory zero one add mul sub opp eq.
Add Ring Tring : RT.
Variable LIM : nat.
Notation sum := (sum T zero add).
Let SR := SRT T zero one add mul sub opp RT.
Infix "+" := add. Infix "*" := mul. Infix "-" := sub.
Definition row_ok (r : list T) : Prop := length r = (LIM + 1)%nat.
Definition frow (op : T -> T -> T) (a b : list T) : list T * list T := (a, zipw op b a).

Lemma frow_ok op a b : row_ok a -> row_ok b -> row_ok (fst (frow op a b)) /\ row_ok (snd (frow op a b)).
Proof. intros Ha Hb. split; auto. unfold row_ok in *. cbn [frow snd]. now apply zipw_length. Qed.
Lemma ranked_step_ok op w t Z d : Forall row_ok Z -> w <= t -> 0 < w -> t < length Z ->
  ranked_step LIM op w t Z = Some (lset (lset Z (t - w) (fst (frow op (nth (t - w) Z d) (nth t Z d)))) t (snd (frow op (nth (t - w) Z d) (nth t Z d)))).
Proof.
  intros G H1 H2 H3. cbn [frow fst snd]. rewrite lset_self by lia.
  set (a := nth (t - w) Z d). set (b := nth t Z d).
  assert (Ga : get Z (t - w) = Some a) by (apply get_nth; lia). assert (Gb : get Z t = Some b) by (apply get_nth; lia).
  rewrite Forall_forall in G. assert (Ra : row_ok a) by (apply G, nth_In; lia). assert (Rb : row_ok b) by (apply G, nth_In; lia).
  unfold row_ok in *. unfold ranked_step.
  match goal with |- for_up _ _ ?bd _ = _ => set (body := bd) end.
  destruct (@for_up_rule _ (fun k Z' => exists r, Z' = lset Z t r /\ length r = (LIM + 1)%nat /\
    forall e, nth e r zero = if e <? k then nth e (zipw op b a) zero else nth e b zero) body (LIM + 1) 0 Z) as (Z' & E & r & -> & Lr & Nr).
  - exists b. split; [unfold b; now rewrite lset_self|]. split; auto.
  - intros k Z' Hk (r & -> & Lr & Nr). unfold body. unfold get2, set2.
    rewrite !get_lset_eq, get_lset_neq, Ga by lia. cbn [obind].
    rewrite (get_nth r k zero), (get_nth a k zero) by lia. cbn [obind].
    rewrite set_some by lia. cbn [obind]. rewrite set_some by (rewrite lset_length; lia). eexists. split; [reflexivity|].
    exists (lset r k (op (nth k r zero) (nth k a zero))). split.
    + apply lset_lset.
    + split; [now rewrite lset_length|]. intros e. rewrite nth_lset, Lr, !Nr. destruct (Nat.ltb_spec k (LIM + 1)); [|lia].
      destruct (Nat.ltb_spec k k); [lia|].
      destruct (Nat.eqb_spec k e), (Nat.ltb_spec e k), (Nat.ltb_spec e (S k)); cbn [andb]; try lia; auto. subst.
      symmetry. apply (zipw_nth op); lia.
  - rewrite E. do 2 f_equal. apply (nth_ext_len _ _ zero); [rewrite (zipw_length _ _ _ (LIM + 1)%nat); lia|]. intros e He. rewrite Nr.
    destruct (Nat.ltb_spec e (0 + (LIM + 1))%nat); [auto|lia].
Qed.
Lemma sweep_rows op n Z : length Z = 2 ^ n -> Forall row_ok Z -> sweep (ranked_step LIM op) n Z = Some (trans (frow op) n Z).
Proof.
  intros H G. apply (@sweep_trans _ (frow op) row_ok); auto.
  - intros a b. apply frow_ok.
  - intros w t A d GA. now apply ranked_step_ok.
Qed.
Definition slot (d : nat) (Z : list (list T)) : list T := map (fun r => nth d r zero) Z.
Lemma slot_nth d Z i : i < length Z -> nth i (slot d Z) zero = nth d (nth i Z []) zero.
Proof. intros H. unfold slot. rewrite (nth_indep _ zero (nth d [] zero)) by now rewrite map_length. apply (map_nth (fun r => nth d r zero)). Qed.
Lemma slot_trans op d n Z : d <= LIM -> length Z = 2 ^ n -> Forall row_ok Z ->
  slot d (trans (frow op) n Z) = trans (fun a b => (a, op b a)) n (slot d Z).
Proof.
  intros Hd H G. unfold slot. apply (trans_map (frow op) (fun a b => (a, op b a)) (fun r => nth d r zero) (good := row_ok)); auto.
  - intros a b. apply frow_ok.
  - intros a b Ha Hb. unfold row_ok in *. cbn [frow fst snd]. split; auto. apply (zipw_nth op); lia.
Qed.

(** The part of [A] on the indices with [d] bits. *)
Definition part n (A : list T) (d : nat) : list T := map (fun i => if popcount i =? d then nth i A zero else zero) (seq 0 (2 ^ n)).
Lemma part_length n A d : length (part n A d) = 2 ^ n.
Proof. unfold part. now rewrite map_length, seq_length. Qed.
Lemma pop_le n i : i < 2 ^ n -> popcount i <= n.
Proof. intros H. rewrite (popcount_cnt n) by auto. apply cnt_le. Qed.
Lemma ranked_init_ok n A : n <= LIM -> length A <= 2 ^ n ->
  exists Z, ranked_init zero LIM A (repeat (repeat zero (LIM + 1)) (2 ^ n)) = Some Z /\ length Z = 2 ^ n /\ Forall row_ok Z /\ forall d, slot d Z = part n A d.
Proof.
  intros Hn HA. unfold ranked_init. match goal with |- context [for_up _ _ ?bd _] => set (body := bd) end.
  destruct (@for_up_rule _ (fun k Z => length Z = 2 ^ n /\ Forall row_ok Z /\ forall i d, i < 2 ^ n ->
      nth d (nth i Z []) zero = if (i <? k) && (popcount i =? d) then nth i A zero else zero) body (length A) 0 (repeat (repeat zero (LIM + 1)) (2 ^ n))) as (Z & E & L & G & V).
  - rewrite repeat_length. split; [auto|]. split.
    + apply Forall_forall. intros r Hr. apply repeat_spec in Hr. subst. apply repeat_length.
    + intros i d Hi. rewrite (nth_indep _ [] (repeat zero (LIM + 1))) by now rewrite repeat_length. rewrite nth_repeat. cbn [Nat.ltb Nat.leb andb].
      replace (i <? 0) with false by (symmetry; apply Nat.ltb_ge; lia). cbn [andb]. apply nth_repeat.
  - intros k Z Hk (L & G & V). unfold body. rewrite (get_nth A k zero) by lia. cbn [obind].
    rewrite set_some by lia. cbn [obind]. unfold set2. rewrite get_lset_eq by lia. cbn [obind].
    assert (P : popcount k <= n) by (apply pop_le; lia).
    rewrite set_some by (rewrite repeat_length; lia). cbn [obind]. rewrite set_some by (rewrite lset_length; lia). eexists. split; [reflexivity|].
    rewrite !lset_length. split; [auto|]. split.
    + apply Forall_forall. intros r Hr. apply (In_nth _ _ []) in Hr as (i & Hi & <-). rewrite !lset_length in Hi.
      rewrite nth_lset, lset_length. destruct ((k =? i) && (k <? length Z)); [unfold row_ok; rewrite lset_length; apply repeat_length|].
      rewrite nth_lset. destruct ((k =? i) && (k <? length Z)); [apply repeat_length|]. rewrite Forall_forall in G. apply G, nth_In. auto.
    + intros i d Hi. rewrite nth_lset, lset_length. destruct (Nat.ltb_spec k (length Z)); [|lia]. rewrite andb_true_r.
      destruct (Nat.eqb_spec k i) as [->|Ne].
      * rewrite nth_lset, repeat_length. destruct (Nat.ltb_spec (popcount i) (LIM + 1)); [|lia]. rewrite andb_true_r.
        destruct (Nat.ltb_spec i (S i)); [|lia]. cbn [andb]. destruct (popcount i =? d); auto. apply nth_repeat.
      * rewrite nth_lset_neq by auto. rewrite V by auto. destruct (Nat.ltb_spec i k), (Nat.ltb_spec i (S k)); auto; lia.
  - exists Z. split; [exact E|]. split; [auto|]. split; [auto|]. intros d. apply (nth_ext_len _ _ zero); [unfold slot; now rewrite map_length, part_length|].
    unfold slot at 1. rewrite map_length, L. intros i Hi. rewrite slot_nth by lia. rewrite V by auto. unfold part. rewrite map_seq_nth by auto.
    cbn [Nat.add]. destruct (Nat.ltb_spec i (length A)); auto. cbn [andb]. rewrite nth_overflow by auto. now destruct (popcount i =? d).
Qed.
Lemma ranked_zeta_ok n A : n <= LIM -> length A <= 2 ^ n ->
  exists Z, ranked_zeta zero add LIM n A = Some Z /\ length Z = 2 ^ n /\ Forall row_ok Z /\
    forall d, d <= LIM -> slot d Z = trans (fz T add) n (part n A d).
Proof.
  intros Hn HA. unfold ranked_zeta. destruct (Nat.leb_spec n LIM); [|lia]. cbn [guard obind].
  destruct (ranked_init_ok n A Hn HA) as (Z & E & L & G & V). rewrite E. cbn [obind]. rewrite sweep_rows by auto. eexists. split; [reflexivity|].
  split; [now apply trans_length|]. split; [apply trans_good; auto; intros a b; apply frow_ok|]. intros d Hd. rewrite slot_trans by auto. now rewrite V.
Qed.

(** * The pointwise product *)

Definition at2 (Z : list (list T)) i j : T := nth j (nth i Z []) zero.
Lemma get2_at Z i j : i < length Z -> Forall row_ok Z -> j <= LIM -> get2 Z i j = Some (at2 Z i j).
Proof.
  intros Hi G Hj. unfold get2, at2. rewrite (get_nth Z i []) by auto. cbn [obind]. apply get_nth.
  rewrite Forall_forall in G. assert (R : row_ok (nth i Z [])) by (apply G, nth_In; auto). unfold row_ok in R. lia.
Qed.
Lemma set2_at Z i j x : i < length Z -> Forall row_ok Z -> j <= LIM -> exists Z', set2 Z i j x = Some Z' /\ length Z' = length Z /\ Forall row_ok Z' /\
  forall i' j', at2 Z' i' j' = if (i =? i') && (j =? j') then x else at2 Z i' j'.
Proof.
  intros Hi G Hj. unfold set2. rewrite (get_nth Z i []) by auto. cbn [obind].
  assert (R : row_ok (nth i Z [])) by (rewrite Forall_forall in G; apply G, nth_In; auto). unfold row_ok in R.
  rewrite set_some by lia. cbn [obind]. rewrite set_some by auto. eexists. split; [reflexivity|]. split; [apply lset_length|]. split.
  - apply Forall_forall. intros r Hr. apply (In_nth _ _ []) in Hr as (k & Hk & <-). rewrite lset_length in Hk. rewrite nth_lset.
    destruct ((i =? k) && (i <? length Z)); [unfold row_ok; now rewrite lset_length|]. rewrite Forall_forall in G. apply G, nth_In. auto.
  - intros i' j'. unfold at2. rewrite nth_lset. destruct (Nat.ltb_spec i (length Z)); [|lia]. rewrite andb_true_r.
    destruct (Nat.eqb_spec i i'); auto. subst. cbn [andb]. rewrite nth_lset. destruct (Nat.ltb_spec j (length (nth i' Z []))); [|lia]. now rewrite andb_true_r.
Qed.
Definition cauchy (a b : nat -> T) (d : nat) : T := sum (seq 0 (d + 1)) (fun j => a j * b (d - j)%nat).
Definition cauchy_upto (J : nat) (a b : nat -> T) (d : nat) : T := sum (seq 0 J) (fun j => if j <=? d then a j * b (d - j)%nat else zero).
Lemma cauchy_full n a b d : d <= n -> cauchy_upto (n + 1) a b d = cauchy a b d.
Proof.
  intros H. unfold cauchy_upto, cauchy. rewrite (sum_seq_le T zero one add mul sub opp RT _ (d + 1) (n + 1)); [|lia|].
  - apply sum_ext. intros j Hj. apply in_seq in Hj. destruct (Nat.leb_spec j d); [auto|lia].
  - intros j Hj. destruct (Nat.leb_spec j d); [lia|auto].
Qed.

Lemma ranked_pointwise_ok same n zA zB : n <= LIM -> length zA = 2 ^ n -> length zB = 2 ^ n -> Forall row_ok zA -> Forall row_ok zB -> (same = true -> zB = zA) ->
  exists Z, ranked_pointwise zero add mul LIM same n zA zB = Some Z /\ length Z = 2 ^ n /\ Forall row_ok Z /\
    forall i d, i < 2 ^ n -> d <= n -> at2 Z i d = cauchy (at2 zA i) (at2 zB i) d.
Proof.
  intros Hn HA HB GA GB Hs. unfold ranked_pointwise. destruct (Nat.leb_spec n LIM); [|lia]. rewrite HA, HB, Nat.eqb_refl. cbn [guard obind].
  match goal with |- context [for_up (2 ^ n) _ ?bd _] => set (body := bd) end.
  destruct (@for_up_rule _ (fun i '(Z, tmp) => length Z = 2 ^ n /\ Forall row_ok Z /\ length tmp = (LIM + 1)%nat /\
     forall i', i' < 2 ^ n -> (i' < i -> forall d, d <= n -> at2 Z i' d = cauchy (at2 zA i') (at2 zB i') d) /\ (i <= i' -> nth i' Z [] = nth i' zA []))
     body (2 ^ n) 0 (zA, repeat zero (LIM + 1))) as ((Z & tmp) & E & L & G & _ & V).
  - rewrite repeat_length. repeat split; auto. lia.
  - intros i (Z & tmp) Hi (L & G & Lt & V). unfold body. cbn [Nat.add] in Hi.
    destruct (V i) as [_ Vi]; [lia|]. specialize (Vi (le_n i)).
    assert (Ai : forall j, at2 Z i j = at2 zA i j) by (intros j; unfold at2; now rewrite Vi).
    assert (Rd : forall k, k <= LIM -> get2 (if same then Z else zB) i k = Some (at2 zB i k)).
    { intros k Hk. destruct same.
      - rewrite get2_at by (auto; lia). rewrite Ai. now rewrite Hs.
      - apply get2_at; auto; lia. }
    match goal with |- context [for_up (n + 1) 0 ?bd tmp] => set (b1 := bd) end.
    destruct (@for_up_rule _ (fun d t => length t = (LIM + 1)%nat /\ forall e, e < d -> nth e t zero = zero) b1 (n + 1) 0 tmp) as (t1 & E1 & L1 & V1).
    + split; auto. lia.
    + intros d t Hd (Lt' & Vt). unfold b1. rewrite set_some by lia. eexists. split; [reflexivity|]. rewrite lset_length. split; auto.
      intros e He. rewrite nth_lset, Lt'. destruct (Nat.ltb_spec d (LIM + 1)); [|lia]. rewrite andb_true_r. destruct (Nat.eqb_spec d e); auto. apply Vt. lia.
    + rewrite E1. cbn [obind]. match goal with |- context [for_up (n + 1) 0 ?bd t1] => set (b2 := bd) end.
      destruct (@for_up_rule _ (fun J t => length t = (LIM + 1)%nat /\ forall e, e <= n -> nth e t zero = cauchy_upto J (at2 zA i) (at2 zB i) e) b2 (n + 1) 0 t1) as (t2 & E2 & L2 & V2).
      * split; auto. intros e He. apply V1. lia.
      * intros j t Hj (Lt' & Vt). unfold b2. rewrite get2_at by (auto; lia). cbn [obind]. rewrite Ai.
        match goal with |- context [for_up (n - j + 1) 0 ?bd t] => set (b3 := bd) end.
        destruct (@for_up_rule _ (fun k u => length u = (LIM + 1)%nat /\ forall e, e <= n -> nth e u zero =
          cauchy_upto j (at2 zA i) (at2 zB i) e + (if (j <=? e) && (e <? j + k) then at2 zA i j * at2 zB i (e - j)%nat else zero)) b3 (n - j + 1) 0 t) as (u & E3 & L3 & V3).
        -- split; auto. intros e He. rewrite Vt by auto. rewrite Nat.add_0_r. destruct (Nat.leb_spec j e), (Nat.ltb_spec e j); try lia; cbn [andb]; ring.
        -- intros k u Hk (Lu & Vu). unfold b3. rewrite (get_nth u (j + k) zero) by lia. cbn [obind]. rewrite Rd by lia. cbn [obind].
           rewrite set_some by lia. eexists. split; [reflexivity|]. rewrite lset_length. split; auto. intros e He. rewrite nth_lset, Lu.
           destruct (Nat.ltb_spec (j + k) (LIM + 1)); [|lia]. rewrite andb_true_r.
           destruct (Nat.eqb_spec (j + k) e) as [<-|Ne].
           ++ rewrite Vu by auto. destruct (Nat.leb_spec j (j + k)), (Nat.ltb_spec (j + k) (j + k)), (Nat.ltb_spec (j + k) (j + S k)); try lia. cbn [andb].
              replace (j + k - j)%nat with k by lia. ring.
           ++ rewrite Vu by auto. destruct (Nat.leb_spec j e), (Nat.ltb_spec e (j + k)), (Nat.ltb_spec e (j + S k)); try lia; reflexivity.
        -- rewrite E3. eexists. split; [reflexivity|]. split; auto. intros e He. rewrite V3 by auto. unfold cauchy_upto. rewrite seq_S, (sum_app _ _ _ _ _ SR).
           cbn [Nat.add]. rewrite sum_cons, sum_nil. destruct (Nat.leb_spec j e), (Nat.ltb_spec e (j + (n - j + 1))); try lia; cbn [andb]; ring.
      * rewrite E2. cbn [obind]. match goal with |- context [for_up (n + 1) 0 ?bd Z] => set (b4 := bd) end.
        destruct (@for_up_rule _ (fun d Y => length Y = 2 ^ n /\ Forall row_ok Y /\ (forall i', i' <> i -> nth i' Y [] = nth i' Z []) /\
          forall e, e < d -> at2 Y i e = cauchy (at2 zA i) (at2 zB i) e) b4 (n + 1) 0 Z) as (Y & E4 & L4 & G4 & N4 & V4).
        -- repeat split; auto. lia.
        -- intros d Y Hd (LY & GY & NY & VY). unfold b4. rewrite (get_nth t2 d zero) by lia. cbn [obind].
           assert (R : row_ok (nth i Y [])) by (rewrite Forall_forall in GY; apply GY, nth_In; lia). unfold row_ok in R.
           destruct (set2_at Y i d (nth d t2 zero)) as (Y' & EY & LY' & GY' & VY'); auto; try lia.
           exists Y'. split; [exact EY|]. split; [lia|]. split; [auto|]. split.
           ++ intros i' Hi'. rewrite <- NY by auto. unfold set2 in EY. rewrite (get_nth Y i []) in EY by lia. cbn [obind] in EY.
              rewrite set_some in EY by lia. cbn [obind] in EY. rewrite set_some in EY by lia. injection EY as <-. now rewrite nth_lset_neq by auto.
           ++ intros e He. rewrite VY', Nat.eqb_refl. cbn [andb]. destruct (Nat.eqb_spec d e).
              ** subst. rewrite V2 by lia. apply cauchy_full. lia.
              ** apply VY. lia.
        -- rewrite E4. cbn [obind]. eexists. split; [reflexivity|]. split; [auto|]. split; [auto|]. split; [auto|]. intros i' Hi'. destruct (V i' Hi') as [Va Vb]. split.
           ++ intros Hl d Hd. destruct (Nat.eq_dec i' i) as [->|Ne]; [apply V4; lia|]. unfold at2 at 1. rewrite N4 by auto. apply Va; lia.
           ++ intros Hl. rewrite N4 by lia. apply Vb. lia.
  - rewrite E. cbn [obind]. exists Z. repeat split; auto. intros i d Hi Hd. apply (V i Hi); auto.
Qed.

(** * The convolution *)

Definition Dk n A B d k : T := sum (seq 0 (d + 1)) (fun j => conv zero add mul Nat.lor (part n A j) (part n B (d - j)) k).
Lemma pointwise_zeta n A B d zA zB Z : d <= n -> n <= LIM -> length Z = 2 ^ n -> length zA = 2 ^ n -> length zB = 2 ^ n ->
  (forall d, d <= LIM -> slot d zA = trans (fz T add) n (part n A d)) ->
  (forall d, d <= LIM -> slot d zB = trans (fz T add) n (part n B d)) ->
  (forall i d, i < 2 ^ n -> d <= n -> at2 Z i d = cauchy (at2 zA i) (at2 zB i) d) ->
  slot d Z = trans (fz T add) n (map (Dk n A B d) (seq 0 (2 ^ n))).
Proof.
  intros Hd Hn L LA LB SA SB V. set (C := map (Dk n A B d) (seq 0 (2 ^ n))).
  assert (LC : length C = 2 ^ n) by (unfold C; now rewrite map_length, seq_length).
  apply (nth_ext_len _ _ zero); [unfold slot; rewrite map_length, trans_length; auto|].
  unfold slot at 1. rewrite map_length, L. intros s Hs. rewrite slot_nth by lia. fold (at2 Z s d). rewrite V by auto.
  rewrite (zeta_sem T zero one add mul sub opp RT n C s LC Hs). unfold cauchy, ksum. rewrite LC.
  rewrite (sum_ext _ _ _ (seq 0 (2 ^ n)) (fun t => ez T zero one s t * nth t C zero)
     (fun t => sum (seq 0 (d + 1)) (fun j => ez T zero one s t * conv zero add mul Nat.lor (part n A j) (part n B (d - j)) t))).
  2: { intros t Ht. apply in_seq in Ht. unfold C. rewrite map_seq_nth by lia. unfold Dk. now rewrite (sum_mul _ _ _ _ _ SR). }
  rewrite (sum_swap _ _ _ _ _ SR). apply sum_ext. intros j Hj. apply in_seq in Hj.
  assert (EA : at2 zA s j = ksum T zero add mul (ez T zero one s) (part n A j)).
  { unfold at2. rewrite <- slot_nth by lia. rewrite SA by lia. apply (zeta_sem T zero one add mul sub opp RT); auto using part_length. }
  assert (EB : at2 zB s (d - j) = ksum T zero add mul (ez T zero one s) (part n B (d - j))).
  { unfold at2. rewrite <- slot_nth by lia. rewrite SB by lia. apply (zeta_sem T zero one add mul sub opp RT); auto using part_length. }
  rewrite EA, EB.
  rewrite (kernel_conv T zero one add mul sub opp RT Nat.lor n (ez T zero one s) _ _ (conv_list T zero add mul Nat.lor n (part n A j) (part n B (d - j)))); auto using part_length, conv_list_length.
  - unfold ksum. rewrite conv_list_length. apply sum_ext. intros t Ht. apply in_seq in Ht. now rewrite conv_list_nth by lia.
  - intros. now apply lor_lt.
  - intros. apply (ez_lor T zero one add mul sub opp RT).
  - intros. now apply conv_list_nth.
Qed.
Lemma disjoint_union n i j s : i < 2 ^ n -> j < 2 ^ n -> s < 2 ^ n ->
  (Nat.lor i j =? s) && (popcount i + popcount j =? popcount s)%nat = subset i s && (j =? Nat.ldiff s i).
Proof.
  intros Hi Hj Hs. rewrite !(popcount_cnt n) by auto. apply bool_iff. rewrite !andb_true_iff, !Nat.eqb_eq, subset_spec. split.
  - intros [<- E]. rewrite cnt_or_and in E. assert (Z : Nat.land i j = 0%nat) by (apply (cnt_0 n); [now apply land_lt|lia]). split.
    + intros b Hb. now rewrite Nat.lor_spec, Hb.
    + apply Nat.bits_inj. intros b. rewrite Nat.ldiff_spec, Nat.lor_spec.
      assert (Zb : Nat.testbit (Nat.land i j) b = false) by now rewrite Z, Nat.bits_0. rewrite Nat.land_spec in Zb.
      destruct (Nat.testbit i b), (Nat.testbit j b); auto.
  - intros [Hsub ->]. assert (O : Nat.lor i (Nat.ldiff s i) = s).
    { apply Nat.bits_inj. intros b. rewrite Nat.lor_spec, Nat.ldiff_spec. specialize (Hsub b).
      destruct (Nat.testbit i b), (Nat.testbit s b); auto. now specialize (Hsub eq_refl). }
    split; auto. rewrite cnt_or_and, O. replace (Nat.land i (Nat.ldiff s i)) with 0%nat.
    + replace (cnt n 0) with 0%nat; [lia|]. clear. induction n as [|n IH]; auto. rewrite cnt_S, <- IH. now rewrite Nat.bits_0.
    + symmetry. apply Nat.bits_inj. intros b. rewrite Nat.land_spec, Nat.ldiff_spec, Nat.bits_0. now destruct (Nat.testbit i b), (Nat.testbit s b).
Qed.
Lemma subset_le t s : subset t s = true -> t <= s.
Proof.
  intros H. rewrite subset_spec in H. assert (E : (t + Nat.ldiff s t)%nat = s); [|lia]. rewrite Nat.add_nocarry_lxor.
  - apply Nat.bits_inj. intros b. rewrite Nat.lxor_spec, Nat.ldiff_spec. specialize (H b). destruct (Nat.testbit t b), (Nat.testbit s b); auto. now discriminate H.
  - apply Nat.bits_inj. intros b. rewrite Nat.land_spec, Nat.ldiff_spec, Nat.bits_0. now destruct (Nat.testbit t b), (Nat.testbit s b).
Qed.
Lemma Dk_final n A B s : s < 2 ^ n -> Dk n A B (popcount s) s = subset_conv zero add mul A B s.
Proof.
  intros Hs. unfold Dk. set (d := popcount s). set (Q := seq 0 (2 ^ n)). assert (HQ : forall x, In x Q -> x < 2 ^ n) by (intros x Hx; apply in_seq in Hx; lia).
  rewrite (sum_ext _ _ _ (seq 0 (d + 1)) _ (fun j => sum Q (fun i => sum Q (fun i' => if Nat.lor i i' =? s then
     (if (popcount i =? j) && (popcount i' =? d - j)%nat then nth i A zero * nth i' B zero else zero) else zero)))).
  2: { intros j Hj. rewrite (conv_sum T zero one add mul sub opp RT), !part_length. apply sum_ext. intros i Hi. apply sum_ext. intros i' Hi'.
       destruct (Nat.lor i i' =? s); auto. unfold part. rewrite !map_seq_nth by auto. destruct (popcount i =? j), (popcount i' =? d - j)%nat; cbn [andb]; ring. }
  rewrite (sum_swap _ _ _ _ _ SR).
  transitivity (sum Q (fun i => if subset i s then nth i A zero * nth (Nat.ldiff s i) B zero else zero)).
  - apply sum_ext. intros i Hi. rewrite (sum_swap _ _ _ _ _ SR).
    rewrite (sum_ext _ _ _ Q _ (fun i' => if i' =? Nat.ldiff s i then (if subset i s then nth i A zero * nth (Nat.ldiff s i) B zero else zero) else zero)).
    + apply (sum_delta T zero one add mul sub opp RT); [apply seq_NoDup|]. apply in_seq. split; [lia|]. cbn [Nat.add]. apply lt_tb. intros b Hb.
      rewrite Nat.ldiff_spec. now rewrite (tb_lt s n).
    + intros i' Hi'. pose proof (disjoint_union n i i' s (HQ i Hi) (HQ i' Hi') Hs) as DU. fold d in DU.
      transitivity (if (Nat.lor i i' =? s) && (popcount i + popcount i' =? d)%nat then nth i A zero * nth i' B zero else zero).
      * destruct (Nat.lor i i' =? s); cbn [andb]; [|apply (sum_zero _ _ _ _ _ SR)].
        destruct (Nat.eqb_spec (popcount i + popcount i') d) as [E|E].
        -- rewrite (sum_ext _ _ _ _ _ (fun j => if j =? popcount i then nth i A zero * nth i' B zero else zero)).
           ++ apply (sum_delta T zero one add mul sub opp RT); [apply seq_NoDup|]. apply in_seq. lia.
           ++ intros j Hj. apply in_seq in Hj. rewrite (Nat.eqb_sym j). destruct (Nat.eqb_spec (popcount i) j); auto.
              destruct (Nat.eqb_spec (popcount i') (d - j)); auto. lia.
        -- apply (sum_zero_ext _ _ _ _ _ SR). intros j Hj. apply in_seq in Hj.
           destruct (Nat.eqb_spec (popcount i) j), (Nat.eqb_spec (popcount i') (d - j)); auto. lia.
      * rewrite DU. destruct (subset i s); cbn [andb]; [|now destruct (i' =? Nat.ldiff s i)].
        destruct (Nat.eqb_spec i' (Nat.ldiff s i)); auto. now subst.
  - unfold subset_conv. etransitivity; [|symmetry; apply (sum_filter _ _ _ _ _ SR)]. apply (sum_seq_le T zero one add mul sub opp RT); [lia|].
    intros i Hi. destruct (subset i s) eqn:E; auto. apply subset_le in E. lia.
Qed.
Lemma ranked_mobius_ok n Z (D : nat -> nat -> T) : n <= LIM -> length Z = 2 ^ n -> Forall row_ok Z ->
  (forall d, d <= n -> slot d Z = trans (fz T add) n (map (D d) (seq 0 (2 ^ n)))) ->
  ranked_mobius sub LIM n Z = Some (map (fun i => D (popcount i) i) (seq 0 (2 ^ n))).
Proof.
  intros Hn L G S. unfold ranked_mobius. destruct (Nat.leb_spec n LIM); [|lia]. rewrite L, Nat.eqb_refl. cbn [guard obind].
  rewrite sweep_rows by auto. cbn [obind]. set (Y := trans (frow sub) n Z).
  assert (LY : length Y = 2 ^ n) by now apply trans_length.
  assert (GY : Forall row_ok Y) by (apply trans_good; auto; intros a b; apply frow_ok).
  match goal with |- for_up _ _ ?bd _ = _ => set (body := bd) end.
  destruct (@for_up_rule _ (fun i out => out = map (fun i => D (popcount i) i) (seq 0 i)) body (2 ^ n) 0 []) as (out & E & ->); auto.
  intros i out Hi ->. unfold body. assert (P : popcount i <= n) by (apply pop_le; lia). rewrite get2_at by (auto; lia). cbn [obind].
  eexists. split; [reflexivity|]. rewrite seq_S, map_app. f_equal. cbn [map Nat.add]. f_equal.
  unfold at2. rewrite <- slot_nth by lia. unfold Y. rewrite slot_trans by (auto; lia). rewrite S by auto.
  change (fun a b : T => (a, b - a)) with (fm T sub). rewrite (mobius_zeta T zero one add mul sub opp RT) by now rewrite map_length, seq_length.
  apply map_seq_nth. lia.
Qed.
Definition conv_out n A B := map (subset_conv zero add mul A B) (seq 0 (2 ^ n)).
Lemma subset_common same n A B zA zB : n <= LIM -> length A <= 2 ^ n -> length B <= 2 ^ n ->
  ranked_zeta zero add LIM n A = Some zA -> ranked_zeta zero add LIM n B = Some zB -> (same = true -> zB = zA) ->
  (let* zA := ranked_pointwise zero add mul LIM same n zA zB in ranked_mobius sub LIM n zA) = Some (conv_out n A B).
Proof.
  intros Hn HA HB EA EB Hs. destruct (ranked_zeta_ok n A Hn HA) as (zA' & EA' & LA & GA & SA). destruct (ranked_zeta_ok n B Hn HB) as (zB' & EB' & LB & GB & SB).
  rewrite EA in EA'. rewrite EB in EB'. injection EA' as <-. injection EB' as <-.
  destruct (ranked_pointwise_ok same n zA zB) as (Z & E & L & G & V); auto. rewrite E. cbn [obind].
  rewrite (ranked_mobius_ok n Z (Dk n A B)); auto.
  - f_equal. unfold conv_out. apply map_ext_in. intros s Hs'. apply in_seq in Hs'. apply Dk_final. lia.
  - intros d Hd. now apply (pointwise_zeta n A B d zA zB Z).
Qed.
Lemma subset_convolution_ok A B : 0 < max (length A) (length B) -> bitlen (max (length A) (length B) - 1) <= LIM ->
  subset_convolution zero add sub mul LIM A B = Some (conv_out (bitlen (max (length A) (length B) - 1)) A B).
Proof.
  intros H0 Hn. unfold subset_convolution. destruct (Nat.ltb_spec 0 (max (length A) (length B))); [|lia]. cbn [guard obind].
  set (n := bitlen (max (length A) (length B) - 1)) in *. pose proof (bitlen_bound (max (length A) (length B) - 1)) as Hb. fold n in Hb.
  destruct (ranked_zeta_ok n A) as (zA & EA & _); auto; [lia|]. destruct (ranked_zeta_ok n B) as (zB & EB & _); auto; [lia|].
  rewrite EA, EB. cbn [obind]. apply subset_common; auto; try lia.
Qed.
Lemma subset_square_ok A : 0 < length A -> bitlen (length A - 1) <= LIM ->
  subset_convolution_square zero add sub mul LIM A = Some (conv_out (bitlen (length A - 1)) A A).
Proof.
  intros H0 Hn. unfold subset_convolution_square. destruct (Nat.ltb_spec 0 (length A)); [|lia]. cbn [guard obind].
  set (n := bitlen (length A - 1)) in *. pose proof (bitlen_bound (length A - 1)) as Hb. fold n in Hb.
  destruct (ranked_zeta_ok n A) as (zA & EA & _); auto; [lia|].
  rewrite EA. cbn [obind]. apply subset_common; auto; lia.
Qed.
End Subset.
