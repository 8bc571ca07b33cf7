(** Proofs about [IntVecModel]: the array seen as a sequence of bits. *)
From Verif Require Import Base BaseLemmas NthExtra IntVecModel.
Local Open Scope Z_scope.
Ltac Zify.zify_post_hook ::= idtac.

Definition wok (x : Z) : Prop := 0 <= x < word.
Lemma wok_bits x : 0 <= x -> (forall r, 64 <= r -> Z.testbit x r = false) -> wok x.
Proof.
  intros H0 H. split; [auto|]. assert (E : x = x mod 2 ^ 64).
  { apply Z.bits_inj'. intros r Hr. destruct (Z.lt_ge_cases r 64); [now rewrite Z.mod_pow2_bits_low by lia|]. rewrite Z.mod_pow2_bits_high by lia. apply H. lia. }
  rewrite E. unfold word. apply Z.mod_pos_bound. lia.
Qed.
Lemma wok_high x r : wok x -> 64 <= r -> Z.testbit x r = false.
Proof. intros [H0 H] Hr. unfold word in H. rewrite <- (Z.mod_small x (2 ^ 64)) by lia. apply Z.mod_pow2_bits_high. lia. Qed.
Lemma wok_lor a b : wok a -> wok b -> wok (Z.lor a b).
Proof. intros Ha Hb. apply wok_bits; [apply Z.lor_nonneg; split; [apply Ha|apply Hb]|]. intros r Hr. rewrite Z.lor_spec, !wok_high; auto. Qed.
Lemma wok_land a b : wok a -> wok b -> wok (Z.land a b).
Proof. intros Ha Hb. apply wok_bits; [apply Z.land_nonneg; left; apply Ha|]. intros r Hr. rewrite Z.land_spec, !wok_high; auto. Qed.
Lemma wok_0 : wok 0.
Proof. unfold wok, word. lia. Qed.
Lemma shl_ok x l : (l < 64)%nat -> exists y, shl x l = Some y /\ wok y /\ forall r, 0 <= r < 64 -> Z.testbit y r = Z.testbit x (r - Z.of_nat l).
Proof.
  intros Hl. unfold shl. destruct (Nat.ltb_spec l 64); [|lia]. cbn [guard obind]. eexists. split; [reflexivity|]. split; [apply Z.mod_pos_bound; unfold word; lia|].
  intros r Hr. unfold word. rewrite Z.mod_pow2_bits_low by lia. apply Z.shiftl_spec. lia.
Qed.
Lemma shr_ok x l : (l < 64)%nat -> 0 <= x -> exists y, shr x l = Some y /\ 0 <= y /\ (wok x -> wok y) /\ forall r, 0 <= r -> Z.testbit y r = Z.testbit x (r + Z.of_nat l).
Proof.
  intros Hl Hx. unfold shr. destruct (Nat.ltb_spec l 64); [|lia]. cbn [guard obind]. eexists. split; [reflexivity|]. assert (P : 0 <= Z.shiftr x (Z.of_nat l)) by (now apply Z.shiftr_nonneg).
  assert (B : forall r, 0 <= r -> Z.testbit (Z.shiftr x (Z.of_nat l)) r = Z.testbit x (r + Z.of_nat l)) by (intros r Hr; apply Z.shiftr_spec; lia).
  split; [auto|]. split; [|auto]. intros W. apply wok_bits; auto. intros r Hr. rewrite B by lia. apply wok_high; auto. lia.
Qed.
Lemma ones_bits r : 0 <= r < 64 -> Z.testbit ones r = true.
Proof. intros Hr. unfold ones, word. replace (2 ^ 64 - 1) with (Z.ones 64) by reflexivity. rewrite Z.ones_spec_low; auto. Qed.
Lemma ones_neg r : r < 0 -> Z.testbit ones r = false.
Proof. intros Hr. now apply Z.testbit_neg_r. Qed.
Lemma wnot_ok m : wok m -> wok (wnot m) /\ forall r, 0 <= r < 64 -> Z.testbit (wnot m) r = negb (Z.testbit m r).
Proof.
  intros W. split; [unfold wok, wnot in *; lia|]. intros r Hr. assert (E : wnot m = (Z.lnot m) mod 2 ^ 64).
  { unfold wnot, Z.lnot, wok, word in *. apply (Z.mod_unique _ _ (-1)); [left; lia|lia]. }
  rewrite E, Z.mod_pow2_bits_low by lia. apply Z.lnot_spec. lia.
Qed.

Definition bit (arr : list Z) (p : nat) : bool :=
  match get arr (p / 64) with Some w => Z.testbit w (Z.of_nat (p mod 64)) | None => false end.
Definition words_ok (arr : list Z) : Prop := forall k w, get arr k = Some w -> wok w.
Lemma bit_word arr k w r : get arr k = Some w -> (r < 64)%nat -> bit arr (64 * k + r) = Z.testbit w (Z.of_nat r).
Proof.
  intros E Hr. unfold bit. replace ((64 * k + r) / 64)%nat with k by (rewrite Nat.mul_comm, Nat.div_add_l, Nat.div_small by lia; lia).
  rewrite E. replace ((64 * k + r) mod 64)%nat with r; auto. rewrite Nat.add_comm, Nat.mul_comm, Nat.mod_add, Nat.mod_small by lia. auto.
Qed.
Lemma split64 p : p = (64 * (p / 64) + p mod 64)%nat /\ (p mod 64 < 64)%nat.
Proof. split; [apply Nat.div_mod; lia|apply Nat.mod_upper_bound; lia]. Qed.

Section IV.
Variable es : nat.
Hypothesis Hes : (1 <= es <= 64)%nat.

Lemma set_bits s i v : words_ok (iv_arr s) -> 0 <= v < 2 ^ Z.of_nat es -> (i * es + es <= 64 * length (iv_arr s))%nat ->
  exists s', iv_set es s i v = Some s' /\ iv_size s' = iv_size s /\ length (iv_arr s') = length (iv_arr s) /\ words_ok (iv_arr s') /\
    forall p, bit (iv_arr s') p =
      if (p <? i * es)%nat then bit (iv_arr s) p
      else if (p <? i * es + es)%nat then Z.testbit v (Z.of_nat (p - i * es))
      else if (p <? 64 * (i * es / 64 + 1))%nat then false
      else bit (iv_arr s) p.
Proof.
  intros W Hv Hi. unfold iv_set. destruct (split64 (i * es)) as [Ej Hl]. set (j := (i * es)%nat) in *. set (k := (j / 64)%nat) in *. set (l := (j mod 64)%nat) in *. clearbody j k l.
  assert (Hv64 : forall r, Z.of_nat es <= r -> Z.testbit v r = false). { intros r Hr. rewrite <- (Z.mod_small v (2 ^ Z.of_nat es)) by lia. apply Z.mod_pow2_bits_high. lia. }
  destruct (@get_lt _ (iv_arr s) k) as [w Ew]; [lia|]. rewrite Ew. cbn [obind]. destruct (shl_ok ones l Hl) as (m & -> & Wm & Bm). cbn [obind].
  destruct (shl_ok v l Hl) as (x & -> & Wx & Bx). cbn [obind]. rewrite set_some by lia. cbn [obind]. destruct (wnot_ok m Wm) as [Wn Bn]. set (w' := Z.lor (Z.land w (wnot m)) x).
  assert (Ww : wok w') by (apply wok_lor; [apply wok_land; [eapply W; eauto|auto]|auto]).
  assert (Bw : forall r, (r < 64)%nat -> Z.testbit w' (Z.of_nat r) = if (r <? l)%nat then Z.testbit w (Z.of_nat r) else Z.testbit v (Z.of_nat (r - l))).
  { intros r Hr. unfold w'. rewrite Z.lor_spec, Z.land_spec, Bn, Bm, Bx by lia. destruct (Nat.ltb_spec r l).
    - rewrite ones_neg, (Z.testbit_neg_r v) by lia. cbn [negb andb orb]. now rewrite andb_true_r, orb_false_r.
    - rewrite ones_bits by lia. cbn [negb andb orb]. rewrite andb_false_r. cbn [negb andb orb]. f_equal. lia. }
  destruct (Nat.ltb_spec 64 (l + es)) as [Hx|Hx].
  - rewrite get_lset_neq by lia. destruct (@get_lt _ (iv_arr s) (k + 1)%nat) as [u Eu]; [lia|]. rewrite Eu. cbn [obind].
    destruct (shl_ok ones (l + es - 64)) as (m2 & -> & Wm2 & Bm2); [lia|]. cbn [obind]. destruct (shr_ok v (64 - l)) as (x2 & -> & P2 & Wx2 & Bx2); [lia|lia|]. cbn [obind].
    rewrite set_some by (rewrite lset_length; lia). cbn [obind]. set (u' := Z.lor (Z.land u m2) x2). assert (Vw : wok v) by (unfold wok, word; assert (2 ^ Z.of_nat es <= 2 ^ 64) by (apply Z.pow_le_mono_r; lia); lia).
    assert (Wu : wok u') by (apply wok_lor; [apply wok_land; [eapply W; eauto|auto]|auto]).
    assert (Bu : forall r, (r < 64)%nat -> Z.testbit u' (Z.of_nat r) = if (r <? l + es - 64)%nat then Z.testbit v (Z.of_nat (r + 64 - l)) else Z.testbit u (Z.of_nat r)).
    { intros r Hr. unfold u'. rewrite Z.lor_spec, Z.land_spec, Bm2, Bx2 by lia. destruct (Nat.ltb_spec r (l + es - 64)).
      - rewrite ones_neg by lia. rewrite andb_false_r. cbn [orb]. f_equal. lia.
      - rewrite ones_bits by lia. rewrite andb_true_r, Hv64 by lia. apply orb_false_r. }
    eexists. split; [reflexivity|]. cbn [iv_size iv_arr]. split; [auto|]. split; [now rewrite !lset_length|]. split.
    + intros q y Eq. rewrite !get_lset, lset_length in Eq. destruct (_ && _) in Eq; [injection Eq as <-; auto|]. destruct (_ && _) in Eq; [injection Eq as <-; auto|eauto].
    + intros p. destruct (split64 p) as [Ep Hr]. unfold bit. set (q := (p / 64)%nat) in *. set (r := (p mod 64)%nat) in *. clearbody q r. rewrite !get_lset, lset_length.
      destruct (Nat.eqb_spec (k + 1) q) as [Eq|Nq].
      * destruct (Nat.ltb_spec (k + 1) (length (iv_arr s))); [|lia]. cbn [andb]. rewrite Bu by auto. destruct (Nat.ltb_spec p j); [lia|]. destruct (Nat.ltb_spec r (l + es - 64)).
        -- destruct (Nat.ltb_spec p (j + es)); [|lia]. f_equal. lia.
        -- destruct (Nat.ltb_spec p (j + es)); [lia|]. destruct (Nat.ltb_spec p (64 * (k + 1))); [lia|]. rewrite <- Eq, Eu. auto.
      * cbn [andb]. destruct (Nat.eqb_spec k q) as [Eq|Nq2].
        -- destruct (Nat.ltb_spec k (length (iv_arr s))); [|lia]. cbn [andb]. rewrite Bw by auto. destruct (Nat.ltb_spec r l).
           ++ destruct (Nat.ltb_spec p j); [|lia]. rewrite <- Eq, Ew. auto.
           ++ destruct (Nat.ltb_spec p j); [lia|]. destruct (Nat.ltb_spec p (j + es)); [|lia]. f_equal. lia.
        -- cbn [andb]. destruct (Nat.ltb_spec p j); [auto|]. destruct (Nat.ltb_spec p (j + es)); [lia|]. destruct (Nat.ltb_spec p (64 * (k + 1))); [lia|auto].
  - eexists. split; [reflexivity|]. cbn [iv_size iv_arr]. split; [auto|]. split; [now rewrite !lset_length|]. split.
    + intros q y Eq. rewrite !get_lset in Eq. destruct (_ && _) in Eq; [injection Eq as <-; auto|eauto].
    + intros p. destruct (split64 p) as [Ep Hr]. unfold bit. set (q := (p / 64)%nat) in *. set (r := (p mod 64)%nat) in *. clearbody q r. rewrite !get_lset.
      destruct (Nat.eqb_spec k q) as [Eq|Nq2].
      * destruct (Nat.ltb_spec k (length (iv_arr s))); [|lia]. cbn [andb]. rewrite Bw by auto. destruct (Nat.ltb_spec r l).
        -- destruct (Nat.ltb_spec p j); [|lia]. rewrite <- Eq, Ew. auto.
        -- destruct (Nat.ltb_spec p j); [lia|]. destruct (Nat.ltb_spec p (j + es)); [f_equal; lia|]. rewrite Hv64 by lia. destruct (Nat.ltb_spec p (64 * (k + 1))); [auto|lia].
      * cbn [andb]. destruct (Nat.ltb_spec p j); [auto|]. destruct (Nat.ltb_spec p (j + es)); [lia|]. destruct (Nat.ltb_spec p (64 * (k + 1))); [lia|auto].
Qed.

Lemma get_bits s i : words_ok (iv_arr s) -> (i * es + es <= 64 * length (iv_arr s))%nat ->
  exists x, iv_get es s i = Some x /\ 0 <= x /\ forall b : nat, Z.testbit x (Z.of_nat b) = ((b <? Nat.max es (64 * (i * es / 64 + 1) - i * es))%nat && bit (iv_arr s) (i * es + b)).
Proof.
  intros W Hi. unfold iv_get. destruct (split64 (i * es)) as [Ej Hl]. set (j := (i * es)%nat) in *. set (k := (j / 64)%nat) in *. set (l := (j mod 64)%nat) in *. clearbody j k l.
  destruct (@get_lt _ (iv_arr s) k) as [w Ew]; [lia|]. rewrite Ew. cbn [obind]. assert (Ww : wok w) by eauto. destruct (shr_ok w l Hl (proj1 Ww)) as (x & -> & P & Wx & Bx). cbn [obind].
  assert (Low : forall b, (l + b < 64)%nat -> bit (iv_arr s) (j + b) = Z.testbit w (Z.of_nat (l + b))).
  { intros b Hb. rewrite <- (bit_word _ _ _ _ Ew Hb). f_equal. lia. }
  destruct (Nat.ltb_spec 64 (l + es)) as [Hx|Hx].
  - destruct (@get_lt _ (iv_arr s) (k + 1)%nat) as [u Eu]; [lia|]. rewrite Eu. cbn [obind]. assert (Wu : wok u) by eauto.
    destruct (shl_ok ones (l + es - 64)) as (m2 & -> & Wm2 & Bm2); [lia|]. cbn [obind]. destruct (wnot_ok m2 Wm2) as [Wn Bn].
    destruct (shl_ok (Z.land u (wnot m2)) (64 - l)) as (y & -> & Wy & By); [lia|]. cbn [obind].
    eexists. split; [reflexivity|]. split; [apply Z.lor_nonneg; split; [auto|apply Wy]|]. intros b. rewrite Z.lor_spec, Bx by lia.
    assert (High : forall b, (64 <= l + b < 128)%nat -> bit (iv_arr s) (j + b) = Z.testbit u (Z.of_nat (l + b - 64))).
    { intros c Hc. rewrite <- (bit_word _ _ _ (l + c - 64) Eu) by lia. f_equal. lia. }
    destruct (Nat.lt_ge_cases b 64) as [Hb|Hb].
    + rewrite By by lia. destruct (Nat.lt_ge_cases (l + b) 64) as [Hlb|Hlb].
      * rewrite (Z.testbit_neg_r _ (Z.of_nat b - _)) by lia. rewrite orb_false_r, Low by auto. destruct (Nat.ltb_spec b (Nat.max es (64 * (k + 1) - j))); [|lia]. cbn [andb]. f_equal. lia.
      * rewrite (wok_high w) by (auto; lia). cbn [orb]. rewrite Z.land_spec, Bn, Bm2 by lia. rewrite High by lia. replace (Z.of_nat b - Z.of_nat (64 - l)) with (Z.of_nat (l + b - 64)) by lia.
        destruct (Nat.ltb_spec b (Nat.max es (64 * (k + 1) - j))); cbn [andb].
        -- rewrite ones_neg by lia. apply andb_true_r.
        -- rewrite ones_bits by lia. apply andb_false_r.
    + rewrite (wok_high w) by (auto; lia). rewrite (wok_high y) by (auto; lia). destruct (Nat.ltb_spec b (Nat.max es (64 * (k + 1) - j))); [lia|auto].
  - eexists. split; [reflexivity|]. split; [auto|]. intros b. rewrite Bx by lia. destruct (Nat.ltb_spec b (Nat.max es (64 * (k + 1) - j))); cbn [andb].
    + rewrite Low by lia. f_equal. lia.
    + apply wok_high; auto. lia.
Qed.

(** ** Histories *)
Definition inv (s : intvec) (vs : list Z) : Prop :=
  iv_size s = length vs /\ length (iv_arr s) = needs_size es (length vs) /\ words_ok (iv_arr s) /\ (forall v, In v vs -> 0 <= v < 2 ^ Z.of_nat es) /\
  (forall i v, get vs i = Some v -> forall b, (b < es)%nat -> bit (iv_arr s) (i * es + b) = Z.testbit v (Z.of_nat b)) /\
  (forall p, (length vs * es <= p)%nat -> bit (iv_arr s) p = false).
(** Index [i] can be written without harm: nothing behind it lives in the word where it starts. *)
Definition free_after (n i : nat) : Prop := (i + 1 = n)%nat \/ (64 * (i * es / 64 + 1) <= (i + 1) * es)%nat.
Lemma needs_ok n : (n * es <= 64 * needs_size es n)%nat.
Proof. unfold needs_size. pose proof (Nat.div_mod (n * es + 64 - 1) 64 ltac:(lia)). pose proof (Nat.mod_upper_bound (n * es + 64 - 1) 64 ltac:(lia)). lia. Qed.
Lemma needs_mono n m : (n <= m)%nat -> (needs_size es n <= needs_size es m)%nat.
Proof. intros H. unfold needs_size. apply Nat.div_le_mono; [lia|]. nia. Qed.
Lemma bit_app arr m p : bit (arr ++ repeat 0 m) p = bit arr p.
Proof.
  unfold bit. destruct (Nat.lt_ge_cases (p / 64) (length arr)) as [H|H]; [now rewrite get_app_l|]. rewrite get_app_r by auto. rewrite (get_none arr) by auto.
  destruct (Nat.lt_ge_cases (p / 64 - length arr) m) as [H2|H2]; [rewrite get_repeat by auto; apply Z.testbit_0_l|rewrite get_none by (rewrite repeat_length; auto); auto].
Qed.
Lemma bit_zero m p : bit (repeat 0 m) p = false.
Proof. rewrite <- (app_nil_l (repeat 0 m)), bit_app. unfold bit. now destruct (p / 64)%nat. Qed.
Lemma inv_new n : inv (iv_new es n) (repeat 0 n).
Proof.
  unfold iv_new, inv. cbn [iv_size iv_arr]. rewrite !repeat_length. split; [auto|]. split; [auto|]. split.
  - intros k w E. assert (k < needs_size es n)%nat by (apply get_some_lt in E; rewrite repeat_length in E; auto). rewrite get_repeat in E by auto. injection E as <-. apply wok_0.
  - split; [intros v Hv; apply repeat_spec in Hv; subst; split; [lia|apply Z.pow_pos_nonneg; lia]|]. split; [|intros; apply bit_zero].
    intros i v Ev b Hb. assert (i < n)%nat by (apply get_some_lt in Ev; rewrite repeat_length in Ev; auto). rewrite get_repeat in Ev by auto. injection Ev as <-. now rewrite bit_zero, Z.testbit_0_l.
Qed.
Lemma set_inv_ok s vs i v : inv s vs -> 0 <= v < 2 ^ Z.of_nat es -> (i < length vs)%nat -> free_after (length vs) i ->
  exists s', iv_set es s i v = Some s' /\ inv s' (lset vs i v).
Proof.
  intros (H1 & H2 & H3 & H4 & H5 & H6) Hv Hi Hf. pose proof (needs_ok (length vs)) as Hn. destruct (set_bits s i v H3 Hv) as (s' & E & S1 & S2 & S3 & S4); [nia|]. exists s'. split; [exact E|].
  unfold inv. rewrite lset_length. split; [lia|]. split; [lia|]. split; [auto|]. split; [intros x Hx; apply In_lset in Hx as [->|Hx]; auto|]. split.
  - intros q x Ex b Hb. rewrite S4. rewrite get_lset in Ex. destruct (Nat.eqb_spec i q) as [<-|Nq].
    + destruct (Nat.ltb_spec i (length vs)); [|lia]. cbn in Ex. injection Ex as <-. destruct (Nat.ltb_spec (i * es + b) (i * es)); [lia|]. destruct (Nat.ltb_spec (i * es + b) (i * es + es)); [|lia]. f_equal. lia.
    + cbn in Ex. rewrite <- (H5 q x Ex b Hb). pose proof (get_some_lt _ _ Ex). destruct (Nat.lt_ge_cases q i).
      * destruct (Nat.ltb_spec (q * es + b) (i * es)); [auto|nia].
      * destruct (Nat.ltb_spec (q * es + b) (i * es)); [nia|]. destruct (Nat.ltb_spec (q * es + b) (i * es + es)); [nia|]. destruct Hf as [Hf|Hf]; [lia|].
        destruct (Nat.ltb_spec (q * es + b) (64 * (i * es / 64 + 1))); [nia|auto].
  - intros p Hp. rewrite S4. destruct (Nat.ltb_spec p (i * es)); [nia|]. destruct (Nat.ltb_spec p (i * es + es)); [nia|]. destruct (p <? _)%nat; auto.
Qed.
Lemma push_inv_ok s vs v : inv s vs -> 0 <= v < 2 ^ Z.of_nat es -> exists s', iv_push_back es s v = Some s' /\ inv s' (vs ++ [v]).
Proof.
  intros (H1 & H2 & H3 & H4 & H5 & H6) Hv. unfold iv_push_back. set (s1 := iv_resize es s (iv_size s + 1)).
  assert (I1 : inv s1 (vs ++ [0])).
  { unfold s1, iv_resize, inv. cbn [iv_size iv_arr]. rewrite H1, H2, app_length. cbn [length]. pose proof (needs_mono (length vs) (length vs + 1) ltac:(lia)).
    rewrite firstn_all2 by lia. rewrite app_length, repeat_length, H2. split; [auto|]. split; [lia|]. split; [|split; [|split]].
    - intros k w E. destruct (Nat.lt_ge_cases k (length (iv_arr s))); [rewrite get_app_l in E by auto; eauto|]. rewrite get_app_r in E by auto.
      pose proof (get_some_lt _ _ E) as Hk. rewrite repeat_length in Hk. rewrite get_repeat in E by auto. injection E as <-. apply wok_0.
    - intros x Hx. apply in_app_or in Hx as [Hx|[<-|[]]]; [auto|]. split; [lia|apply Z.pow_pos_nonneg; lia].
    - intros i x Ex b Hb. rewrite bit_app. destruct (Nat.lt_ge_cases i (length vs)); [rewrite get_app_l in Ex by auto; eauto|]. rewrite get_app_r in Ex by auto.
      destruct (i - length vs)%nat as [|d] eqn:Ed; [|destruct d; discriminate]. injection Ex as <-. rewrite Z.testbit_0_l. apply H6. nia.
    - intros p Hp. rewrite bit_app. apply H6. nia. }
  destruct (set_inv_ok s1 (vs ++ [0]) (iv_size s) v I1 Hv) as (s' & E & I'); [rewrite app_length; cbn; lia|left; rewrite app_length; cbn; lia|].
  exists s'. split; [exact E|]. replace (vs ++ [v]) with (lset (vs ++ [0]) (iv_size s) v); [auto|]. apply get_ext. intros q. rewrite get_lset, app_length. cbn [length]. destruct (Nat.eqb_spec (iv_size s) q) as [<-|N].
  - destruct (Nat.ltb_spec (iv_size s) (length vs + 1)); [|lia]. cbn. rewrite get_app_r by lia. now rewrite H1, Nat.sub_diag.
  - cbn. destruct (Nat.lt_ge_cases q (length vs)); [now rewrite !get_app_l by auto|]. rewrite !get_none; auto; rewrite app_length; cbn; lia.
Qed.
Lemma get_inv s vs i v : inv s vs -> get vs i = Some v -> exists x, iv_get es s i = Some x /\ x mod 2 ^ Z.of_nat es = v /\ (free_after (length vs) i -> x = v).
Proof.
  intros (H1 & H2 & H3 & H4 & H5 & H6) Ev. pose proof (get_some_lt _ _ Ev) as Hi. pose proof (needs_ok (length vs)) as Hn. destruct (get_bits s i H3) as (x & E & P & B); [nia|].
  pose proof (H4 v (get_In _ _ Ev)) as Hv. exists x. split; [exact E|]. assert (VH : forall b, Z.of_nat es <= b -> Z.testbit v b = false). { intros b Hb. rewrite <- (Z.mod_small v (2 ^ Z.of_nat es)) by lia. apply Z.mod_pow2_bits_high. lia. }
  assert (Low : forall b, (b < es)%nat -> Z.testbit x (Z.of_nat b) = Z.testbit v (Z.of_nat b)).
  { intros b Hb. rewrite B, (H5 i v Ev b Hb). destruct (Nat.ltb_spec b (Nat.max es (64 * (i * es / 64 + 1) - i * es))); [auto|lia]. }
  split.
  - apply Z.bits_inj'. intros b Hb. destruct (Z.lt_ge_cases b (Z.of_nat es)).
    + rewrite Z.mod_pow2_bits_low by lia. specialize (Low (Z.to_nat b) ltac:(lia)). rewrite Z2Nat.id in Low by lia. auto.
    + rewrite Z.mod_pow2_bits_high, VH by lia. auto.
  - intros F. apply Z.bits_inj'. intros b Hb. destruct (Z.lt_ge_cases b (Z.of_nat es)).
    + specialize (Low (Z.to_nat b) ltac:(lia)). rewrite Z2Nat.id in Low by lia. auto.
    + rewrite VH by lia. rewrite <- (Z2Nat.id b) by lia. rewrite B. destruct (Nat.ltb_spec (Z.to_nat b) (Nat.max es (64 * (i * es / 64 + 1) - i * es))); [|auto]. cbn [andb].
      destruct F as [F|F]; [apply H6; nia|nia].
Qed.
Fixpoint safe (n : nat) (h : list iv_op) : Prop :=
  match h with
  | [] => True
  | Set_ i v :: h => free_after n i /\ safe n h
  | Push v :: h => safe (S n) h
  end.
Lemma run_inv h : forall s vs, inv s vs -> iv_legal es (length vs) h -> safe (length vs) h -> exists s', iv_run es h s = Some s' /\ inv s' (vals h vs).
Proof.
  induction h as [|o h IH]; intros s vs I L S; [exists s; auto|]. unfold iv_run, vals. cbn [for_each fold_left]. destruct o as [i v|v]; cbn [iv_apply vals_apply iv_legal safe] in *.
  - destruct L as (Hi & Hv & L). destruct S as [Hf S]. destruct (set_inv_ok s vs i v I Hv Hi Hf) as (s1 & E & I1). rewrite E. cbn [obind]. apply IH; auto; now rewrite lset_length.
  - destruct L as (Hv & L). destruct (push_inv_ok s vs v I Hv) as (s1 & E & I1). rewrite E. cbn [obind]. apply IH; auto; rewrite app_length, Nat.add_1_r; auto.
Qed.
End IV.
