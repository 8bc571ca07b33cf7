(** Proofs for the directory of BvModel.v: what [bv_build] stores, [rank1] *)
From Verif Require Import Base BaseLemmas ListExtra NthExtra BitModel BitProof BmapModel BmapProof BvModel BvSel BvBlock.
Set Implicit Arguments.

(** the number of [j < i] with [f j = B] *)
Fixpoint num (B : bool) (f : nat -> bool) (i : nat) : nat :=
  match i with O => 0 | S i => num B f i + (if Bool.eqb (f i) B then 1 else 0) end.
Lemma num_le B f i j : i <= j -> num B f i <= num B f j <= num B f i + (j - i).
Proof.
  intros L. replace j with (i + (j - i)) at 1 2 by lia. generalize (j - i) as d. clear. induction d as [|d IH]; [rewrite Nat.add_0_r; lia|].
  replace (i + S d) with (S (i + d)) by lia. cbn [num]. destruct (Bool.eqb _ _); lia.
Qed.
Lemma num_sum f i : num true f i + num false f i = i.
Proof. induction i as [|i IH]; cbn [num]; auto. destruct (f i); cbn [Bool.eqb]; lia. Qed.
Lemma num_cnt B f i : num B f i = cnt B (map f (seq 0 i)).
Proof. induction i as [|i IH]; auto. rewrite seq_S, map_app, cnt_app, <- IH. cbn [num map cnt Nat.add]. now destruct (Bool.eqb (f i) B). Qed.
Lemma num_add B f i j : num B f (i + j) = num B f i + num B (fun k => f (i + k)) j.
Proof. induction j as [|j IH]; [cbn; now rewrite Nat.add_0_r|]. replace (i + S j) with (S (i + j)) by lia. cbn [num]. rewrite IH. lia. Qed.
Lemma num_ext B f g i : (forall j, j < i -> f j = g j) -> num B f i = num B g i.
Proof. induction i as [|i IH]; intros K; auto. cbn [num]. rewrite IH by (intros; apply K; lia). rewrite K by lia. reflexivity. Qed.
Lemma num_firstn B l i : i <= length l -> num B (fun j => nth j l false) i = cnt B (firstn i l).
Proof.
  intros L. rewrite num_cnt. f_equal. apply nth_ext with false false; [rewrite map_length, seq_length, firstn_length; lia|].
  intros n. rewrite map_length, seq_length. intros Hn. rewrite nth_firstn_lt by auto. rewrite (@nth_indep _ (map _ (seq 0 i)) n false (nth 0 l false)) by (rewrite map_length, seq_length; lia). rewrite (@map_nth nat bool (fun j => nth j l false) (seq 0 i) 0 n), seq_nth by auto. reflexivity.
Qed.
Lemma num_false_tail f i j : i <= j -> (forall k, i <= k -> f k = false) -> num true f j = num true f i.
Proof. intros L K. replace j with (i + (j - i)) by lia. generalize (j - i) as d. induction d as [|d IH]; [now rewrite Nat.add_0_r|]. replace (i + S d) with (S (i + d)) by lia. cbn [num]. rewrite K by lia. cbn [Bool.eqb]. lia. Qed.
Lemma num_all_false f j : (forall k, k < j -> f k = false) -> num true f j = 0.
Proof. induction j as [|j IH]; intros K; auto. cbn [num]. rewrite IH by (intros; apply K; lia). rewrite K by lia. reflexivity. Qed.

Section Dir.
Variable W : nat.
Hypothesis HW : 1 <= W <= 64.

(** the words of a list of bits, [W] bits each, zeros behind the end *)
Definition vrep (v : bvec) (l : list bool) : Prop :=
  vsize v = length l /\ length (vwords v) = (length l + W - 1) / W /\ Forall word64 (vwords v) /\
  forall q w j, get (vwords v) q = Some w -> j < 64 -> Z.testbit w (Z.of_nat j) = (j <? W) && nth (W * q + j) l false.

Variable v : bvec.
Variable l : list bool.
Hypothesis R : vrep v l.
Definition fb : nat -> bool := fun i => nth i l false.
Definition N (B : bool) (i : nat) : nat := num B fb i.

Lemma words_lt q : W * q < length l <-> q < length (vwords v).
Proof.
  destruct R as (_ & -> & _). split; intros Hq.
  - apply Nat.div_le_lower_bound; [lia|]. lia.
  - pose proof (Nat.div_mod (length l + W - 1) W ltac:(lia)) as E. pose proof (Nat.mod_upper_bound (length l + W - 1) W ltac:(lia)).
    assert (S q <= (length l + W - 1) / W) by lia. assert (W * S q <= W * ((length l + W - 1) / W)) by (apply Nat.mul_le_mono_l; auto). lia.
Qed.
Lemma bits_num B q w j : get (vwords v) q = Some w -> j <= W -> N B (W * q + j) = N B (W * q) + cnt B (bits j w).
Proof.
  intros G Hj. unfold N. rewrite num_add. f_equal. rewrite num_cnt. unfold bits. f_equal. apply map_ext_in. intros k Hk. apply in_seq in Hk.
  destruct R as (_ & _ & _ & K). rewrite (K _ _ _ G) by lia. destruct (Nat.ltb_spec k W); [reflexivity|lia].
Qed.
Lemma word_of q w : get (vwords v) q = Some w -> word64 w.
Proof. intros G. destruct R as (_ & _ & F & _). rewrite Forall_forall in F. apply F. eapply get_In; eauto. Qed.
Lemma bits_tail q w : get (vwords v) q = Some w -> bits 64 w = bits W w ++ repeat false (64 - W).
Proof.
  intros G. apply nth_ext with false false; [rewrite app_length, repeat_length, !bits_length; lia|]. intros j. rewrite bits_length. intros Hj.
  rewrite bits_nth. destruct R as (_ & _ & _ & K). rewrite (K _ _ _ G) by lia. destruct (Nat.ltb_spec j 64); [|lia]. cbn [andb].
  destruct (Nat.ltb_spec j W).
  - rewrite app_nth1 by (rewrite bits_length; lia). rewrite bits_nth, (K _ _ _ G) by lia. destruct (Nat.ltb_spec j W); [reflexivity|lia].
  - rewrite app_nth2 by (rewrite bits_length; lia). rewrite repeat_nth. destruct (_ <? _); reflexivity.
Qed.
Lemma cnt_repeat_false n : cnt true (repeat false n) = 0.
Proof. induction n; auto. Qed.
Lemma popcnt_num q w : get (vwords v) q = Some w -> popcnt w = Z.of_nat (N true (W * (q + 1)) - N true (W * q)).
Proof.
  intros G. rewrite popcnt_ok by (eapply word_of; eauto). rewrite (bits_tail _ G), cnt_ones, cnt_app, cnt_repeat_false. f_equal.
  replace (W * (q + 1)) with (W * q + W) by lia. rewrite (bits_num _ _ G) by lia. lia.
Qed.
Lemma past q : length (vwords v) <= q -> N true (W * (q + 1)) = N true (W * q).
Proof.
  intros Hq. unfold N. apply num_false_tail; [lia|]. intros k Hk. unfold fb. apply nth_overflow. assert (~ W * q < length l) by (rewrite words_lt; lia). lia.
Qed.
(** ones of [d] words from word [q] *)
Definition dn (q d : nat) : nat := N true (W * (q + d)) - N true (W * q).
Lemma dn_le q d : dn q d <= W * d.
Proof. unfold dn. pose proof (@num_le true fb (W * q) (W * (q + d)) ltac:(nia)). unfold N in *. lia. Qed.
Lemma dn_S q d : dn q (S d) = dn q d + dn (q + d) 1 .
Proof.
  unfold dn, N. pose proof (@num_le true fb (W * q) (W * (q + d)) ltac:(nia)). pose proof (@num_le true fb (W * (q + d)) (W * (q + d + 1)) ltac:(nia)).
  replace (q + S d) with (q + d + 1) by lia. lia.
Qed.
Lemma word_step q (s : Z) : (if q <? length (vwords v) then let* w := get (vwords v) q in Some (s + popcnt w)%Z else Some s) = Some (s + Z.of_nat (dn q 1))%Z.
Proof.
  destruct (Nat.ltb_spec q (length (vwords v))) as [Hq|Hq].
  - destruct (@get_lt _ (vwords v) q Hq) as (w & G). rewrite G. cbn [obind]. rewrite (popcnt_num _ G). reflexivity.
  - unfold dn. rewrite past by auto. f_equal. lia.
Qed.

(** the packed counts *)
Definition pref (q k : nat) : list Z := map (fun d => Z.of_nat (dn q d)) (seq 1 k).
Lemma fields_snoc xs x : fields (xs ++ [x]) = (x + 2 ^ 9 * fields xs)%Z.
Proof. unfold fields. now rewrite fold_left_app. Qed.
Lemma pref_S q k : pref q (S k) = pref q k ++ [Z.of_nat (dn q (S k))].
Proof. unfold pref. rewrite seq_S, map_app. cbn [map Nat.add]. now replace (1 + k) with (S k) by lia. Qed.
Lemma fields_bound xs : Forall (fun x => 0 <= x < 512)%Z xs -> (0 <= fields xs < 2 ^ (9 * Z.of_nat (length xs)))%Z.
Proof.
  induction xs as [|x xs IH] using rev_ind; intros F; [cbn; lia|]. apply Forall_app in F. destruct F as (F & F1). apply Forall_inv in F1. specialize (IH F).
  rewrite fields_snoc, app_length. cbn [length]. rewrite Nat2Z.inj_add, Z.mul_add_distr_l, Z.pow_add_r by lia. change (2 ^ (9 * Z.of_nat 1))%Z with 512%Z. change (2 ^ 9)%Z with 512%Z. nia.
Qed.
Lemma pref_bound q k : k <= 7 -> Forall (fun x => 0 <= x < 512)%Z (pref q k).
Proof.
  intros Hk. apply Forall_forall. intros x Hx. apply in_map_iff in Hx. destruct Hx as (d & <- & Hd). apply in_seq in Hd. pose proof (dn_le q d). nia.
Qed.
Lemma pref_length q k : length (pref q k) = k. Proof. unfold pref. now rewrite map_length, seq_length. Qed.
Lemma lor_shift F A k : (0 <= A < 512)%Z -> (0 <= k)%Z -> Z.lor (F * 2 ^ (k + 9)) (A * 2 ^ k) = ((A + 2 ^ 9 * F) * 2 ^ k)%Z.
Proof.
  intros HA Hk. rewrite <- !Z.shiftl_mul_pow2 by lia. replace (Z.shiftl F (k + 9)) with (Z.shiftl (Z.shiftl F 9) k) by (rewrite Z.shiftl_shiftl by lia; f_equal; lia).
  rewrite <- Z.shiftl_lor. f_equal. rewrite Z.shiftl_mul_pow2 by lia. replace (F * 2 ^ 9)%Z with (0 + 2 ^ 9 * F)%Z by lia. replace A with (A + 2 ^ 9 * 0)%Z at 1 by lia.
  rewrite lor_cat by lia. rewrite Z.lor_0_l, Z.lor_0_r. reflexivity.
Qed.
Definition accw (q k : nat) : Z := (fields (pref q k) * 2 ^ Z.of_nat ((7 - k) * 9))%Z.
Lemma accw_step q k : k < 7 -> Z.lor (accw q k) (u64 (Z.shiftl (Z.of_nat (dn q (S k))) (Z.of_nat ((7 - (k + 1)) * 9)))) = accw q (S k).
Proof.
  intros Hk. pose proof (dn_le q (S k)). assert (Hd : (0 <= Z.of_nat (dn q (S k)) < 512)%Z) by nia.
  rewrite Z.shiftl_mul_pow2 by lia. unfold u64. rewrite Z.mod_small.
  2:{ split; [lia|]. apply Z.lt_le_trans with (512 * 2 ^ Z.of_nat ((7 - (k + 1)) * 9))%Z; [apply Z.mul_lt_mono_pos_r; [apply Z.pow_pos_nonneg|]; lia|].
      change 512%Z with (2 ^ 9)%Z. rewrite <- Z.pow_add_r by lia. apply Z.pow_le_mono_r; lia. }
  unfold accw. rewrite pref_S, fields_snoc. replace (7 - k) with (7 - (k + 1) + 1) by lia. replace (7 - S k) with (7 - (k + 1)) by lia.
  rewrite Nat.mul_add_distr_r, Nat2Z.inj_add. change (Z.of_nat (1 * 9)) with 9%Z. rewrite lor_shift by lia. reflexivity.
Qed.
Lemma block_ok b r : b * 2 + 1 < length r -> get r (b * 2 + 1) = Some 0%Z ->
  bv_block v b r = Some (Z.of_nat (dn (b * 8) 8), lset r (b * 2 + 1) (fields (pref (b * 8) 7))).
Proof.
  intros Hb G. unfold bv_block. match goal with |- for_up _ _ ?bd _ = _ => set (body := bd) end.
  destruct (@for_up_rule _ (fun s st => st = (Z.of_nat (dn (b * 8) s), lset r (b * 2 + 1) (accw (b * 8) (min s 7)))) body 8 0 (0%Z, r)) as (st & E & ->).
  - unfold dn. rewrite Nat.add_0_r, Nat.sub_diag. f_equal. cbn [min]. unfold accw. cbn [pref seq map fields fold_left]. rewrite Z.mul_0_l. symmetry. apply lset_self. auto.
  - intros s st Hs ->. unfold body. cbv beta iota. rewrite word_step. cbn [obind].
    replace (Z.of_nat (dn (b * 8) s) + Z.of_nat (dn (b * 8 + s) 1))%Z with (Z.of_nat (dn (b * 8) (S s))) by (rewrite dn_S; lia).
    destruct (Nat.ltb_spec s 7) as [H7|H7].
    + rewrite get_lset_eq by auto. cbn [obind]. rewrite set_some by (rewrite lset_length; auto). cbn [obind]. rewrite lset_lset. eexists; split; [reflexivity|].
      replace (min s 7) with s by lia. replace (min (S s) 7) with (S s) by lia. rewrite accw_step by auto. reflexivity.
    + eexists; split; [reflexivity|]. do 3 f_equal; lia.
  - rewrite E. cbn [Nat.add min]. unfold accw. cbn [Nat.sub Nat.mul Z.of_nat]. now rewrite Z.mul_1_r.
Qed.

(** sampled blocks: entry [k] is the block in which the [k*L]th element falls *)
Definition samp (G : nat -> Z) (L : Z) (s : list nat) (t : nat) : Prop :=
  Z.of_nat (length s) = (G t / L + 1)%Z /\ get s 0 = Some 0 /\
  forall k b, 1 <= k -> get s k = Some b -> b < t /\ (G b < Z.of_nat k * L <= G (S b))%Z.
Lemma samp_step G L s t : (0 < L)%Z -> (0 <= G t)%Z -> (G t <= G (S t) <= G t + L)%Z -> samp G L s t ->
  samp G L (if negb (G t / L =? G (S t) / L)%Z then s ++ [t] else s) (S t).
Proof.
  intros HL H0 Hg (Ls & S0 & Sk). pose proof (Z.div_mod (G t) L ltac:(lia)) as D1. pose proof (Z.div_mod (G (S t)) L ltac:(lia)) as D2.
  pose proof (Z.mod_pos_bound (G t) L HL). pose proof (Z.mod_pos_bound (G (S t)) L HL).
  set (q1 := (G t / L)%Z) in *. set (q2 := (G (S t) / L)%Z) in *. assert (Q : q2 = q1 \/ q2 = (q1 + 1)%Z) by nia.
  destruct (Z.eqb_spec q1 q2) as [E|E]; cbn [negb].
  - split; [fold q2; lia|]. split; auto. intros k b Hk Gk. destruct (Sk k b Hk Gk). split; auto.
  - assert (q2 = (q1 + 1)%Z) by lia. split; [rewrite app_length; cbn [length]; fold q2; lia|]. assert (0 < length s) by (apply get_some_lt in S0; auto). split; [now rewrite get_app_l by auto|].
    intros k b Hk Gk. destruct (Nat.lt_ge_cases k (length s)) as [K|K].
    + rewrite get_app_l in Gk by auto. destruct (Sk k b Hk Gk). split; auto.
    + rewrite get_app_r in Gk by auto. destruct (k - length s) as [|z] eqn:Ez; [|destruct z; discriminate]. injection Gk as <-. assert (Hk2 : Z.of_nat k = q2) by lia. split; [lia|]. rewrite Hk2. nia.
Qed.

Definition nl : nat := (length l + LB W - 1) / LB W.
Lemma LBp : 0 < LB W. Proof. unfold LB. lia. Qed.
Definition G (B : bool) (b : nat) : Z := Z.of_nat (N B (b * LB W)).
Lemma G_step B b : (G B b <= G B (S b) <= G B b + Z.of_nat (LB W))%Z.
Proof. unfold G, N. pose proof (@num_le B fb (b * LB W) (S b * LB W) ltac:(nia)). nia. Qed.
Lemma G_dn b : (G true b + Z.of_nat (dn (b * 8) 8) = G true (S b))%Z.
Proof.
  unfold G, dn. unfold LB. replace (W * (b * 8 + 8)) with (S b * (W * 8)) by lia. replace (W * (b * 8)) with (b * (W * 8)) by lia. pose proof (G_step true b) as K. unfold G, LB in K. lia.
Qed.
Lemma G_false b : (Z.of_nat (LB W) * Z.of_nat b - G true b = G false b)%Z.
Proof. unfold G, N. pose proof (num_sum fb (b * LB W)). lia. Qed.
Record dir (d : bv) : Prop := {
  d_len : length (v_r d) = (nl + 1) * 2;
  d_r : forall b, b <= nl -> get (v_r d) (b * 2) = Some (G true b);
  d_f : forall b, b < nl -> get (v_r d) (b * 2 + 1) = Some (fields (pref (b * 8) 7));
  d_s : exists s, v_s d = s ++ [nl] /\ samp (G true) (Z.of_nat (LB W)) s nl;
  d_zs : exists s, v_zs d = s ++ [nl] /\ samp (G false) (Z.of_nat (LB W)) s nl }.
Lemma build_ok : exists d, bv_build W v = Some d /\ dir d.
Proof.
  unfold bv_build. destruct R as (-> & _). fold nl. match goal with |- context [for_up _ _ ?bd _] => set (body := bd) end.
  destruct (@for_up_rule _ (fun t '(sum, r, s, zs) => sum = G true t /\ length r = (nl + 1) * 2 /\ (forall b, b <= t -> get r (b * 2) = Some (G true b)) /\
     (forall b, b < t -> get r (b * 2 + 1) = Some (fields (pref (b * 8) 7))) /\ (forall b, t <= b <= nl -> get r (b * 2 + 1) = Some 0%Z) /\
     samp (G true) (Z.of_nat (LB W)) s t /\ samp (G false) (Z.of_nat (LB W)) zs t) body nl 0 (0%Z, repeat 0%Z ((nl + 1) * 2), [0], [0])) as ((((sum & r) & s) & zs) & E & I).
  - assert (S0 : forall B, samp (G B) (Z.of_nat (LB W)) [0] 0). { intros B. split; [reflexivity|]. split; [reflexivity|]. intros k b Hk Gk. apply get_some_lt in Gk. cbn in Gk. lia. }
    split; [reflexivity|]. split; [apply repeat_length|]. split; [intros b Hb; assert (b = 0) by lia; subst; rewrite get_repeat by lia; reflexivity|]. split; [intros; lia|]. split; [intros; apply get_repeat; lia|]. auto.
  - intros t (((sum & r) & s) & zs) Ht (-> & Lr & I1 & I2 & I3 & I4 & I5). unfold body. cbv beta iota. rewrite block_ok by (try apply I3; lia). cbn [obind]. rewrite G_dn.
    rewrite set_some by (rewrite lset_length; lia). cbn [obind]. eexists; split; [reflexivity|]. cbv beta iota. split; [reflexivity|]. split; [now rewrite !lset_length|].
    split; [|split; [|split; [|split]]].
    + intros b Hb. destruct (Nat.eq_dec b (S t)) as [->|Nb]; [replace ((t + 1) * 2) with (S t * 2) by lia; apply get_lset_eq; rewrite lset_length; lia|]. rewrite !get_lset_neq by lia. apply I1. lia.
    + intros b Hb. rewrite get_lset_neq by lia. destruct (Nat.eq_dec b t) as [->|Nb]; [apply get_lset_eq; lia|]. rewrite get_lset_neq by lia. apply I2. lia.
    + intros b Hb. rewrite !get_lset_neq by lia. apply I3. lia.
    + apply samp_step; auto; [pose proof LBp; lia|unfold G; lia|apply G_step].
    + rewrite G_false. replace (Z.of_nat (t + 1)) with (Z.of_nat (S t)) by lia. rewrite G_false. apply samp_step; auto; [pose proof LBp; lia|unfold G; lia|apply G_step].
  - destruct I as (-> & Lr & I1 & I2 & I3 & I4 & I5). rewrite E. cbn [obind]. eexists; split; [reflexivity|]. cbn [Nat.add] in *. constructor; cbn [v_r v_s v_zs]; auto; eauto.
Qed.
End Dir.
