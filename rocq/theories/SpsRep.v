(** Ranked arrays that represent a set power series: the ranks above the size of an index
    may hold anything. *)
From Coq Require Import Lia Ring_theory Ring.
From Verif Require Import Base BaseLemmas ListExtra NthExtra RSum BitConvModel BitConvSweep BitConvProof BitConvSubset SpsModel SpsAlg.

Lemma pop_lor n i j : i < 2 ^ n -> j < 2 ^ n -> popcount (Nat.lor i j) <= popcount i + popcount j.
Proof. intros Hi Hj. rewrite !(popcount_cnt n) by auto using lor_lt. pose proof (cnt_or_and n i j). lia. Qed.
Lemma pop_hi n s : s < 2 ^ n -> popcount (2 ^ n + s) = S (popcount s).
Proof.
  intros H. rewrite (popcount_cnt (S n)) by (rewrite Nat.pow_succ_r'; lia). rewrite cnt_S, tb_add, Nat.eqb_refl by auto. cbn [orb].
  rewrite (cnt_ext n _ s), (popcount_cnt n s); auto; [lia|]. intros i Hi. rewrite tb_add by auto. destruct (Nat.eqb_spec n i); [lia|auto].
Qed.

Section Rep.
Variable T : Type.
Variables (zero one : T) (add mul sub : T -> T -> T) (opp : T -> T).
Hypothesis RT : ring_theory zero one add mul sub opp eq.
Add Ring Tring : RT.
Variable LIM : nat.
Notation sum := (sum T zero add).
Notation row_ok := (row_ok T LIM).
Notation at2 := (at2 T zero).
Notation cauchy := (cauchy T zero add mul).
Notation cauchy_upto := (cauchy_upto T zero add mul).
Notation sconv := (sconv T zero add mul).
Notation hi := (hi T).
Let SR := SRT T zero one add mul sub opp RT.
Infix "+" := add. Infix "*" := mul. Infix "-" := sub.

(** * The zeta transform *)

Definition zs (n : nat) (D : nat -> T) (s : nat) : T := sum (seq 0 (2 ^ n)) (fun t => if subset t s then D t else zero).
Lemma zs_ext n D D' s : (forall t, t < 2 ^ n -> D t = D' t) -> zs n D s = zs n D' s.
Proof. intros H. apply sum_ext. intros t Ht. apply in_seq in Ht. now rewrite H by lia. Qed.
Lemma zs_lo n D s : s < 2 ^ n -> zs (S n) D s = zs n D s.
Proof.
  intros Hs. unfold zs. rewrite Nat.pow_succ_r'. apply (sum_seq_le T zero one add mul sub opp RT); [lia|]. intros i Hi.
  destruct (subset i s) eqn:E; auto. apply subset_le in E. lia.
Qed.
Lemma zs_hi n D s : s < 2 ^ n -> zs (S n) D (2 ^ n + s) = zs n D s + zs n (hi n D) s.
Proof.
  intros Hs. unfold zs. rewrite seq_pow2, (sum_app _ _ _ _ _ SR), sum_map. f_equal; apply sum_ext; intros t Ht; apply in_seq in Ht.
  - now rewrite subset_lo_hi by lia.
  - now rewrite subset_hi_hi by lia.
Qed.
Lemma zs_0 D : zs 0 D 0 = D 0%nat.
Proof. unfold zs. cbn. ring. Qed.
Lemma zs_sum {X} (l : list X) n D s : zs n (fun t => sum l (fun x => D x t)) s = sum l (fun x => zs n (D x) s).
Proof.
  unfold zs. rewrite (sum_swap _ _ _ _ _ SR). apply sum_ext. intros t _. destruct (subset t s); auto. symmetry. apply (sum_zero _ _ _ _ _ SR).
Qed.
Definition lorc n (D D' : nat -> T) (k : nat) : T :=
  sum (seq 0 (2 ^ n)) (fun i => sum (seq 0 (2 ^ n)) (fun j => if Nat.lor i j =? k then D i * D' j else zero)).
Lemma zs_mul n D D' s : zs n D s * zs n D' s = zs n (lorc n D D') s.
Proof.
  unfold lorc. rewrite zs_sum. unfold zs at 1. rewrite <- (sum_mul_r _ _ _ _ _ SR). apply sum_ext. intros i Hi. apply in_seq in Hi.
  rewrite zs_sum. unfold zs at 1. rewrite <- (sum_mul _ _ _ _ _ SR). apply sum_ext. intros j Hj. apply in_seq in Hj.
  unfold zs. rewrite (sum_ext _ _ _ _ _ (fun t => if t =? Nat.lor i j then (if subset (Nat.lor i j) s then D i * D' j else zero) else zero)).
  - rewrite (sum_delta T zero one add mul sub opp RT); [|apply seq_NoDup|apply in_seq; split; [lia|apply lor_lt; lia]].
    rewrite subset_lor. destruct (subset i s), (subset j s); cbn [andb]; ring.
  - intros t _. rewrite Nat.eqb_sym. destruct (Nat.eqb_spec t (Nat.lor i j)); [now subst|now destruct (subset t s)].
Qed.
Lemma zs_onto n : forall z : nat -> T, exists D, forall s, s < 2 ^ n -> z s = zs n D s.
Proof.
  induction n as [|n IH]; intros z.
  - exists z. intros s Hs. assert (s = 0)%nat by (cbn in Hs; lia). subst. now rewrite zs_0.
  - destruct (IH z) as (Dl & Hl). destruct (IH (fun s => z (2 ^ n + s)%nat - z s)) as (Dh & Hh).
    exists (fun t => if t <? 2 ^ n then Dl t else Dh (t - 2 ^ n)%nat). intros s Hs. set (D := fun t => _).
    assert (El : forall r, r < 2 ^ n -> zs n D r = z r).
    { intros r Hr. rewrite Hl by auto. apply zs_ext. intros t Ht. unfold D. destruct (Nat.ltb_spec t (2 ^ n)); [auto|lia]. }
    destruct (split_lt n s Hs) as [H|(r & -> & H)]; [rewrite zs_lo by auto; symmetry; auto|]. rewrite zs_hi, El by auto.
    rewrite (zs_ext n (hi n D) Dh).
    + rewrite <- Hh by auto. ring.
    + intros t Ht. unfold D, SpsAlg.hi. destruct (Nat.ltb_spec (2 ^ n + t) (2 ^ n)); [lia|]. f_equal. lia.
Qed.
Lemma zs_inj n : forall D D', (forall s, s < 2 ^ n -> zs n D s = zs n D' s) -> forall t, t < 2 ^ n -> D t = D' t.
Proof.
  induction n as [|n IH]; intros D D' H t Ht.
  - assert (t = 0)%nat by (cbn in Ht; lia). subst. rewrite <- (zs_0 D), <- (zs_0 D'). auto.
  - assert (HL : forall s, s < 2 ^ n -> zs n D s = zs n D' s).
    { intros s Hs. rewrite <- (zs_lo n D), <- (zs_lo n D') by auto. apply H. rewrite Nat.pow_succ_r'. lia. }
    destruct (split_lt n t Ht) as [Hl|(r & -> & Hl)]; [now apply (IH D D')|].
    apply (IH (hi n D) (hi n D')); auto. intros s Hs.
    assert (E : zs (S n) D (2 ^ n + s) = zs (S n) D' (2 ^ n + s)) by (apply H; rewrite Nat.pow_succ_r'; lia).
    rewrite !zs_hi, (HL s) in E by auto. transitivity (zs n D' s + zs n (hi n D) s - zs n D' s); [ring|]. rewrite E. ring.
Qed.

(** * Representation *)

Definition rep (n : nat) (v : nat -> nat -> T) (f : nat -> T) : Prop := exists D : nat -> nat -> T,
  (forall d s, d <= n -> s < 2 ^ n -> v s d = zs n (D d) s) /\
  (forall d t, d <= n -> t < 2 ^ n -> (d < popcount t)%nat -> D d t = zero) /\
  (forall t, t < 2 ^ n -> D (popcount t) t = f t).
Lemma rep_ext n v v' f f' : rep n v f -> (forall s d, s < 2 ^ n -> d <= n -> v s d = v' s d) -> (forall t, t < 2 ^ n -> f t = f' t) -> rep n v' f'.
Proof.
  intros (D & H1 & H2 & H3) Hv Hf. exists D. split; [|split]; auto.
  - intros d s Hd Hs. rewrite <- Hv by auto. auto.
  - intros t Ht. rewrite <- Hf by auto. auto.
Qed.
Lemma rep_unique n v f g : rep n v f -> rep n v g -> forall t, t < 2 ^ n -> f t = g t.
Proof.
  intros (D & H1 & H2 & H3) (E & K1 & K2 & K3) t Ht. rewrite <- H3, <- K3 by auto. assert (P := pop_le n t Ht).
  apply (zs_inj n); auto. intros s Hs. rewrite <- H1, <- K1 by auto. auto.
Qed.
Lemma rep_conv_diag n (DA DB : nat -> nat -> T) f g k : k < 2 ^ n ->
  (forall d t, d <= n -> t < 2 ^ n -> (d < popcount t)%nat -> DA d t = zero) -> (forall t, t < 2 ^ n -> DA (popcount t) t = f t) ->
  (forall d t, d <= n -> t < 2 ^ n -> (d < popcount t)%nat -> DB d t = zero) -> (forall t, t < 2 ^ n -> DB (popcount t) t = g t) ->
  sum (seq 0 (popcount k + 1)) (fun j => lorc n (DA j) (DB (popcount k - j)%nat) k) = sconv f g k.
Proof.
  intros Hk HA FA HB FB. set (A := map f (seq 0 (2 ^ n))). set (B := map g (seq 0 (2 ^ n))).
  transitivity (subset_conv zero add mul A B k).
  - rewrite <- (Dk_final T zero one add mul sub opp RT n) by auto. unfold Dk. apply sum_ext. intros j Hj. apply in_seq in Hj.
    rewrite (conv_sum T zero one add mul sub opp RT), !part_length. unfold lorc. apply sum_ext. intros i Hi. apply in_seq in Hi. apply sum_ext. intros i' Hi'. apply in_seq in Hi'.
    destruct (Nat.eqb_spec (Nat.lor i i') k) as [E|]; auto. unfold part. rewrite !map_seq_nth by lia. unfold A, B. rewrite !map_seq_nth by lia.
    pose proof (pop_lor n i i') as PL. rewrite E in PL. assert (P := pop_le n k Hk).
    destruct (Nat.eqb_spec (popcount i) j) as [Ei|Ni].
    + rewrite <- Ei at 1. rewrite FA by lia. destruct (Nat.eqb_spec (popcount i') (popcount k - j)) as [Ej|Nj].
      * rewrite <- Ej, FB by lia. reflexivity.
      * rewrite HB by lia. ring.
    + destruct (Nat.lt_ge_cases j (popcount i)); [rewrite HA by lia; ring|]. rewrite (HB (popcount k - j)%nat i') by lia. ring.
  - change (subset_conv zero add mul A B k) with (sconv (fun t => nth t A zero) (fun t => nth t B zero) k).
    apply (sconv_ext T zero one add mul sub opp RT n); auto; intros t Ht; unfold A, B; now rewrite map_seq_nth.
Qed.
Lemma rep_mul n vA vB f g v : rep n vA f -> rep n vB g -> (forall s d, s < 2 ^ n -> d <= n -> v s d = cauchy (vA s) (vB s) d) -> rep n v (sconv f g).
Proof.
  intros (DA & A1 & A2 & A3) (DB & B1 & B2 & B3) Hv.
  exists (fun d k => sum (seq 0 (d + 1)) (fun j => lorc n (DA j) (DB (d - j)%nat) k)). split; [|split].
  - intros d s Hd Hs. rewrite Hv by auto. unfold BitConvSubset.cauchy. rewrite zs_sum. apply sum_ext. intros j Hj. apply in_seq in Hj.
    rewrite A1, B1 by lia. apply zs_mul.
  - intros d k Hd Hk Hp. apply (sum_zero_ext _ _ _ _ _ SR). intros j Hj. apply in_seq in Hj. apply (sum_zero_ext _ _ _ _ _ SR). intros i Hi. apply in_seq in Hi.
    apply (sum_zero_ext _ _ _ _ _ SR). intros i' Hi'. apply in_seq in Hi'. destruct (Nat.eqb_spec (Nat.lor i i') k) as [E|]; auto.
    pose proof (pop_lor n i i') as PL. rewrite E in PL. destruct (Nat.lt_ge_cases j (popcount i)); [rewrite A2 by lia; ring|]. rewrite (B2 (d - j)%nat i') by lia. ring.
  - intros k Hk. now apply rep_conv_diag.
Qed.
Lemma rep_merge n v f g : (forall t, g t = f (2 ^ n + t)%nat) -> rep n v f ->
  forall u, rep n u g -> rep (S n) (fun s d => if s <? 2 ^ n then v s d else (if d =? 0 then zero else u (s - 2 ^ n)%nat (d - 1)%nat) + v (s - 2 ^ n)%nat d) f.
Proof.
  intros Hg (D & H1 & H2 & H3) u (E & K1 & K2 & K3). destruct (zs_onto n (fun s => v s (S n))) as (X & HX).
  set (DD := fun d t => if t <? 2 ^ n then (if d =? S n then X t else D d t) else if d =? 0 then zero else E (d - 1)%nat (t - 2 ^ n)%nat).
  assert (Lo : forall d s, d <= S n -> s < 2 ^ n -> zs n (DD d) s = v s d).
  { intros d s Hd Hs. destruct (Nat.eqb_spec d (S n)) as [->|].
    - rewrite HX by auto. apply zs_ext. intros t Ht. unfold DD. rewrite Nat.eqb_refl. destruct (Nat.ltb_spec t (2 ^ n)); [auto|lia].
    - rewrite H1 by lia. apply zs_ext. intros t Ht. unfold DD. destruct (Nat.ltb_spec t (2 ^ n)); [|lia]. destruct (Nat.eqb_spec d (S n)); [lia|auto]. }
  exists DD. split; [|split].
  - intros d s Hd Hs. destruct (split_lt n s Hs) as [H|(r & -> & H)].
    + rewrite zs_lo, Lo by auto. destruct (Nat.ltb_spec s (2 ^ n)); [auto|lia].
    + rewrite zs_hi, Lo by auto. destruct (Nat.ltb_spec (2 ^ n + r) (2 ^ n)); [lia|]. replace (2 ^ n + r - 2 ^ n)%nat with r by lia. rewrite (add_comm _ _ _ _ _ SR). f_equal.
      destruct (Nat.eqb_spec d 0) as [->|].
      * symmetry. apply (sum_zero_ext _ _ _ _ _ SR). intros t Ht. unfold hi, SpsAlg.hi, DD. destruct (Nat.ltb_spec (2 ^ n + t) (2 ^ n)); [lia|]. cbn [Nat.eqb]. now destruct (subset t r).
      * rewrite K1 by lia. apply zs_ext. intros t Ht. unfold SpsAlg.hi, DD. destruct (Nat.ltb_spec (2 ^ n + t) (2 ^ n)); [lia|]. destruct (Nat.eqb_spec d 0); [lia|]. f_equal. lia.
  - intros d t Hd Ht Hp. unfold DD. destruct (split_lt n t Ht) as [H|(r & -> & H)].
    + destruct (Nat.ltb_spec t (2 ^ n)); [|lia]. pose proof (pop_le n t H). destruct (Nat.eqb_spec d (S n)); [lia|]. apply H2; auto. lia.
    + destruct (Nat.ltb_spec (2 ^ n + r) (2 ^ n)); [lia|]. destruct (Nat.eqb_spec d 0); auto. rewrite pop_hi in Hp by auto. replace (2 ^ n + r - 2 ^ n)%nat with r by lia. apply K2; lia.
  - intros t Ht. unfold DD. destruct (split_lt n t Ht) as [H|(r & -> & H)].
    + destruct (Nat.ltb_spec t (2 ^ n)); [|lia]. pose proof (pop_le n t H). destruct (Nat.eqb_spec (popcount t) (S n)); [lia|]. auto.
    + destruct (Nat.ltb_spec (2 ^ n + r) (2 ^ n)); [lia|]. rewrite pop_hi by auto. cbn [Nat.eqb]. replace (2 ^ n + r - 2 ^ n)%nat with r by lia.
      replace (S (popcount r) - 1)%nat with (popcount r) by lia. rewrite K3 by auto. auto.
Qed.
Lemma rep_lo n v f : rep (S n) v f -> rep n v f.
Proof.
  intros (D & H1 & H2 & H3). exists D. pose proof (Nat.pow_succ_r' 2 n). split; [|split].
  - intros d s Hd Hs. rewrite H1, zs_lo by lia. auto.
  - intros. apply H2; auto; lia.
  - intros. apply H3. lia.
Qed.
Lemma rep_hi n v f : rep (S n) v f -> rep n (fun s d => v (2 ^ n + s)%nat (S d) - v s (S d)) (hi n f).
Proof.
  intros (D & H1 & H2 & H3). exists (fun d t => D (S d) (2 ^ n + t)%nat). pose proof (Nat.pow_succ_r' 2 n). split; [|split].
  - intros d s Hd Hs. rewrite !H1 by lia. rewrite zs_hi by lia. rewrite (zs_lo n _ s) by lia. unfold SpsAlg.hi. ring.
  - intros d t Hd Ht Hp. apply H2; try lia. rewrite pop_hi by auto. lia.
  - intros t Ht. rewrite <- (pop_hi n t) by auto. apply H3. lia.
Qed.
Lemma rep_0 v f : v 0%nat 0%nat = f 0%nat -> rep 0 v f.
Proof.
  intros H. exists (fun d t => v t d). split; [|split].
  - intros d s Hd Hs. assert (s = 0)%nat by (cbn in Hs; lia). subst. now rewrite zs_0.
  - intros d t Hd Ht Hp. assert (t = 0)%nat by (cbn in Ht; lia). subst. cbn in Hp. lia.
  - intros t Ht. assert (t = 0)%nat by (cbn in Ht; lia). subst. exact H.
Qed.

(** * The transforms *)

Lemma ksum_zs n X s : length X = 2 ^ n -> ksum T zero add mul (ez T zero one s) X = zs n (fun t => nth t X zero) s.
Proof. intros H. unfold ksum, zs. rewrite H. apply sum_ext. intros t _. unfold ez. destruct (subset t s); ring. Qed.
Lemma rep_zeta n A : n <= LIM -> length A <= 2 ^ n -> exists Z, ranked_zeta zero add LIM n A = Some Z /\ length Z = 2 ^ n /\ Forall row_ok Z /\
  rep n (at2 Z) (fun t => nth t A zero).
Proof.
  intros Hn HA. destruct (ranked_zeta_ok T zero one add LIM n A Hn HA) as (Z & E & L & G & S). exists Z. repeat (split; [auto|]).
  exists (fun d t => nth t (part T zero n A d) zero). split; [|split].
  - intros d s Hd Hs. unfold BitConvSubset.at2. rewrite <- slot_nth by lia. rewrite S by lia. rewrite (zeta_sem T zero one add mul sub opp RT) by auto using part_length.
    apply ksum_zs, part_length.
  - intros d t Hd Ht Hp. unfold part. rewrite map_seq_nth by auto. destruct (Nat.eqb_spec (popcount t) d); [lia|auto].
  - intros t Ht. unfold part. rewrite map_seq_nth by auto. now rewrite Nat.eqb_refl.
Qed.
Lemma rep_mobius n Z f : n <= LIM -> length Z = 2 ^ n -> Forall row_ok Z -> rep n (at2 Z) f -> ranked_mobius sub LIM n Z = Some (map f (seq 0 (2 ^ n))).
Proof.
  intros Hn L G (D & H1 & H2 & H3). rewrite (ranked_mobius_ok T zero one add mul sub opp RT LIM n Z D); auto.
  - f_equal. apply map_ext_in. intros t Ht. apply in_seq in Ht. apply H3. lia.
  - intros d Hd. assert (LM : length (map (D d) (seq 0 (2 ^ n))) = 2 ^ n) by now rewrite map_length, seq_length.
    apply (nth_ext_len _ _ zero); [unfold slot; rewrite map_length, trans_length; auto|]. unfold slot at 1. rewrite map_length, L. intros s Hs.
    rewrite slot_nth by lia. rewrite (zeta_sem T zero one add mul sub opp RT) by auto. rewrite (ksum_zs n) by auto.
    change (nth d (nth s Z []) zero) with (at2 Z s d). rewrite H1 by auto. apply zs_ext. intros t Ht. now rewrite map_seq_nth.
Qed.

(** * Memory *)

Lemma pointwise_to_ok alias n zA zB out : n <= LIM -> length zA = 2 ^ n -> length zB = 2 ^ n -> length out = 2 ^ n -> Forall row_ok zA -> Forall row_ok zB -> Forall row_ok out ->
  (alias = true -> zB = out) ->
  exists Z, pointwise_to zero add mul LIM alias n zA zB out = Some Z /\ length Z = 2 ^ n /\ Forall row_ok Z /\
    forall i d, i < 2 ^ n -> d <= n -> at2 Z i d = cauchy (at2 zA i) (at2 zB i) d.
Proof.
  intros Hn HA HB HO GA GB GO Hs. unfold pointwise_to. destruct (Nat.leb_spec n LIM); [|lia]. rewrite HA, HB, Nat.eqb_refl. cbn [guard obind].
  match goal with |- context [for_up (2 ^ n) _ ?bd _] => set (body := bd) end.
  destruct (@for_up_rule _ (fun i '(Z, tmp) => length Z = 2 ^ n /\ Forall row_ok Z /\ length tmp = (LIM + 1)%nat /\
     forall i', i' < 2 ^ n -> (i' < i -> forall d, d <= n -> at2 Z i' d = cauchy (at2 zA i') (at2 zB i') d) /\ (i <= i' -> nth i' Z [] = nth i' out []))
     body (2 ^ n) 0 (out, repeat zero (LIM + 1))) as ((Z & tmp) & E & L & G & _ & V).
  - rewrite repeat_length. repeat split; auto. lia.
  - intros i (Z & tmp) Hi (L & G & Lt & V). unfold body. cbn [Nat.add] in Hi.
    destruct (V i) as [_ Vi]; [lia|]. specialize (Vi (le_n i)).
    assert (Rd : forall k, k <= LIM -> get2 (if alias then Z else zB) i k = Some (at2 zB i k)).
    { intros k Hk. destruct alias.
      - rewrite (get2_at T zero LIM) by (auto; lia). unfold BitConvSubset.at2. rewrite Vi. now rewrite Hs.
      - apply (get2_at T zero LIM); auto; lia. }
    match goal with |- context [for_up (n + 1) 0 ?bd tmp] => set (b1 := bd) end.
    destruct (@for_up_rule _ (fun d t => length t = (LIM + 1)%nat /\ forall e, e < d -> nth e t zero = zero) b1 (n + 1) 0 tmp) as (t1 & E1 & L1 & V1).
    + split; auto. lia.
    + intros d t Hd (Lt' & Vt). unfold b1. rewrite set_some by lia. eexists. split; [reflexivity|]. rewrite lset_length. split; auto.
      intros e He. rewrite nth_lset, Lt'. destruct (Nat.ltb_spec d (LIM + 1)); [|lia]. rewrite andb_true_r. destruct (Nat.eqb_spec d e); auto. apply Vt. lia.
    + rewrite E1. cbn [obind]. match goal with |- context [for_up (n + 1) 0 ?bd t1] => set (b2 := bd) end.
      destruct (@for_up_rule _ (fun J t => length t = (LIM + 1)%nat /\ forall e, e <= n -> nth e t zero = cauchy_upto J (at2 zA i) (at2 zB i) e) b2 (n + 1) 0 t1) as (t2 & E2 & L2 & V2).
      * split; auto. intros e He. apply V1. lia.
      * intros j t Hj (Lt' & Vt). unfold b2. rewrite (get2_at T zero LIM) by (auto; lia). cbn [obind].
        match goal with |- context [for_up (n - j + 1) 0 ?bd t] => set (b3 := bd) end.
        destruct (@for_up_rule _ (fun k u => length u = (LIM + 1)%nat /\ forall e, e <= n -> nth e u zero =
          cauchy_upto j (at2 zA i) (at2 zB i) e + (if (j <=? e) && (e <? j + k) then at2 zA i j * at2 zB i (e - j)%nat else zero)) b3 (n - j + 1) 0 t) as (u & E3 & L3 & V3).
        -- split; auto. intros e He. rewrite Vt by auto. rewrite Nat.add_0_r. destruct (Nat.leb_spec j e), (Nat.ltb_spec e j); try lia; cbn [andb]; ring.
        -- intros k u Hk (Lu & Vu). unfold b3. rewrite (get_nth u (j + k) zero) by lia. cbn [obind]. rewrite Rd by lia. cbn [obind].
           rewrite set_some by lia. eexists. split; [reflexivity|]. rewrite lset_length. split; auto. intros e He. rewrite nth_lset, Lu.
           destruct (Nat.ltb_spec (j + k) (LIM + 1)); [|lia]. rewrite andb_true_r.
           destruct (Nat.eqb_spec (j + k) e) as [<-|Ne].
           ++ rewrite Vu by auto. destruct (Nat.leb_spec j (j + k)), (Nat.ltb_spec (j + k) (j + k)), (Nat.ltb_spec (j + k) (j + S k)); try lia. cbn [andb].
              replace (j + k - j)%nat with k by lia. ring.
           ++ rewrite Vu by auto. destruct (Nat.leb_spec j e), (Nat.ltb_spec e (j + k)), (Nat.ltb_spec e (j + S k)); try lia; reflexivity.
        -- rewrite E3. eexists. split; [reflexivity|]. split; auto. intros e He. rewrite V3 by auto. unfold BitConvSubset.cauchy_upto. rewrite seq_S, (sum_app _ _ _ _ _ SR).
           cbn [Nat.add]. rewrite sum_cons, sum_nil. destruct (Nat.leb_spec j e), (Nat.ltb_spec e (j + (n - j + 1))); try lia; cbn [andb]; ring.
      * rewrite E2. cbn [obind]. match goal with |- context [for_up (n + 1) 0 ?bd Z] => set (b4 := bd) end.
        destruct (@for_up_rule _ (fun d Y => length Y = 2 ^ n /\ Forall row_ok Y /\ (forall i', i' <> i -> nth i' Y [] = nth i' Z []) /\
          forall e, e < d -> at2 Y i e = cauchy (at2 zA i) (at2 zB i) e) b4 (n + 1) 0 Z) as (Y & E4 & L4 & G4 & N4 & V4).
        -- repeat split; auto. lia.
        -- intros d Y Hd (LY & GY & NY & VY). unfold b4. rewrite (get_nth t2 d zero) by lia. cbn [obind].
           assert (R : row_ok (nth i Y [])) by (rewrite Forall_forall in GY; apply GY, nth_In; lia). unfold BitConvSubset.row_ok in R.
           destruct (set2_at T zero LIM Y i d (nth d t2 zero)) as (Y' & EY & LY' & GY' & VY'); auto; try lia.
           exists Y'. split; [exact EY|]. split; [lia|]. split; [auto|]. split.
           ++ intros i' Hi'. rewrite <- NY by auto. unfold set2 in EY. rewrite (get_nth Y i []) in EY by lia. cbn [obind] in EY.
              rewrite set_some in EY by lia. cbn [obind] in EY. rewrite set_some in EY by lia. injection EY as <-. now rewrite nth_lset_neq by auto.
           ++ intros e He. rewrite VY', Nat.eqb_refl. cbn [andb]. destruct (Nat.eqb_spec d e).
              ** subst. rewrite V2 by lia. apply (cauchy_full T zero one add mul sub opp RT). lia.
              ** apply VY. lia.
        -- rewrite E4. cbn [obind]. eexists. split; [reflexivity|]. split; [auto|]. split; [auto|]. split; [auto|]. intros i' Hi'. destruct (V i' Hi') as [Va Vb]. split.
           ++ intros Hl d Hd. destruct (Nat.eq_dec i' i) as [->|Ne]; [apply V4; lia|]. unfold BitConvSubset.at2 at 1. rewrite N4 by auto. apply Va; lia.
           ++ intros Hl. rewrite N4 by lia. apply Vb. lia.
  - rewrite E. cbn [obind]. exists Z. repeat split; auto. intros i d Hi Hd. apply (V i Hi); auto.
Qed.

Definition mem (w : nat) (Z : list (list T)) : Prop := length Z = w /\ Forall row_ok Z.
Lemma get2_mem w Z i j : mem w Z -> i < w -> j <= LIM -> get2 Z i j = Some (at2 Z i j).
Proof. intros (L & G) Hi Hj. apply (get2_at T zero LIM); auto. lia. Qed.
Lemma set2_mem w Z i j x : mem w Z -> i < w -> j <= LIM -> exists Z', set2 Z i j x = Some Z' /\ mem w Z' /\
  forall i' j', at2 Z' i' j' = if (i =? i') && (j =? j') then x else at2 Z i' j'.
Proof.
  intros (L & G) Hi Hj. destruct (set2_at T zero LIM Z i j x) as (Z' & E & L' & G' & V); auto; [lia|]. exists Z'. split; [auto|]. split; [split; [lia|auto]|auto].
Qed.
Lemma mem_new w : mem w (ranked_new zero LIM w).
Proof.
  unfold ranked_new. split; [apply repeat_length|]. apply Forall_forall. intros r Hr. apply repeat_spec in Hr. subst. apply repeat_length.
Qed.
Lemma at2_new w i j : at2 (ranked_new zero LIM w) i j = zero.
Proof.
  unfold BitConvSubset.at2, ranked_new. destruct (Nat.lt_ge_cases i w).
  - rewrite (nth_indep _ [] (repeat zero (LIM + 1))) by now rewrite repeat_length. rewrite nth_repeat. apply nth_repeat.
  - rewrite (nth_overflow _ []) by now rewrite repeat_length. now destruct j.
Qed.

Lemma merge_row_ok W w s Z : mem W Z -> 0 < w -> s < w -> (s + w < W)%nat -> exists Z', merge_row zero add LIM w s Z = Some Z' /\ mem W Z' /\
  forall i d, d <= LIM -> at2 Z' i d = if i =? (s + w)%nat then (if d =? 0 then zero else at2 Z i (d - 1)%nat) + at2 Z s d else at2 Z i d.
Proof.
  intros M Hw Hs Ht. unfold merge_row. cbv zeta. set (t := (s + w)%nat) in *.
  match goal with |- context [for_down _ _ ?bd _] => set (b1 := bd) end.
  destruct (@for_down_rule _ (fun k Y => mem W Y /\ forall i d, d <= LIM -> at2 Y i d = if (i =? t) && (k <=? d) then at2 Z i (d - 1)%nat else at2 Z i d) b1 1 LIM Z) as (Y & E & MY & VY).
  - split; auto. intros i d Hd. destruct (Nat.leb_spec (1 + LIM) d); [lia|]. now rewrite andb_false_r.
  - intros k Y Hk (MY & VY). unfold b1. rewrite (get2_mem W) by (auto; lia). cbn [obind].
    destruct (set2_mem W Y t k (at2 Y t (k - 1))) as (Y' & E' & M' & V'); auto; [lia|]. exists Y'. split; [auto|]. split; [auto|]. intros i d Hd.
    rewrite V', !VY by lia. rewrite Nat.eqb_refl. rewrite (Nat.eqb_sym t i).
    destruct (Nat.eqb_spec i t); cbn [andb]; auto. subst. destruct (Nat.leb_spec (S k) (k - 1)); [lia|].
    destruct (Nat.eqb_spec k d), (Nat.leb_spec k d), (Nat.leb_spec (S k) d); subst; auto; lia.
  - rewrite E. cbn [obind]. destruct (set2_mem W Y t 0 zero) as (Y0 & E0 & M0 & V0); auto; [lia|]. rewrite E0. cbn [obind].
    match goal with |- context [for_up _ _ ?bd _] => set (b2 := bd) end.
    assert (V0' : forall i d, d <= LIM -> at2 Y0 i d = if i =? t then (if d =? 0 then zero else at2 Z i (d - 1)%nat) else at2 Z i d).
    { intros i d Hd. rewrite V0, VY by auto. rewrite (Nat.eqb_sym t i), (Nat.eqb_sym 0 d). destruct (Nat.eqb_spec i t); cbn [andb]; auto.
      destruct (Nat.eqb_spec d 0), (Nat.leb_spec 1 d); auto; lia. }
    destruct (@for_up_rule _ (fun k Y' => mem W Y' /\ forall i d, d <= LIM -> at2 Y' i d = if (i =? t) && (d <? k) then at2 Y0 i d + at2 Z s d else at2 Y0 i d) b2 (LIM + 1) 0 Y0) as (Y2 & E2 & M2 & V2).
    + split; auto. intros i d Hd. destruct (Nat.ltb_spec d 0); [lia|]. now rewrite andb_false_r.
    + intros k Y' Hk (MY' & VY'). unfold b2. rewrite (get2_mem W) by (auto; lia). cbn [obind]. rewrite (get2_mem W) by (auto; lia). cbn [obind].
      destruct (set2_mem W Y' t k (at2 Y' t k + at2 Y' s k)) as (Y3 & E3 & M3 & V3); auto; [lia|]. exists Y3. split; [auto|]. split; [auto|]. intros i d Hd.
      rewrite V3, !VY' by lia. rewrite Nat.eqb_refl, (Nat.eqb_sym t i). destruct (Nat.ltb_spec k k); [lia|]. destruct (Nat.eqb_spec s t); [lia|]. cbn [andb].
      rewrite (V0' s k) by lia. destruct (Nat.eqb_spec s t); [lia|]. destruct (Nat.eqb_spec i t); cbn [andb]; auto. subst i.
      destruct (Nat.eqb_spec k d), (Nat.ltb_spec d k), (Nat.ltb_spec d (S k)); subst; auto; lia.
    + exists Y2. split; [auto|]. split; [auto|]. intros i d Hd. rewrite V2, V0' by auto. destruct (Nat.ltb_spec d (0 + (LIM + 1))%nat); [|lia].
      destruct (Nat.eqb_spec i t); reflexivity.
Qed.
Lemma zeta_merge_ok W n Z : mem W Z -> S n <= LIM -> 2 ^ S n <= W -> exists Z', zeta_merge zero add LIM (S n) Z = Some Z' /\ mem W Z' /\
  forall i d, d <= LIM -> at2 Z' i d = if (2 ^ n <=? i) && (i <? 2 ^ S n) then (if d =? 0 then zero else at2 Z i (d - 1)%nat) + at2 Z (i - 2 ^ n)%nat d else at2 Z i d.
Proof.
  intros M Hn HW. unfold zeta_merge. destruct (Nat.leb_spec (S n) LIM); [|lia]. cbn [guard obind Nat.eqb]. replace (S n - 1)%nat with n by lia.
  rewrite Nat.pow_succ_r' in *. pose proof (pow2_pos n).
  destruct (@for_up_rule _ (fun k Y => mem W Y /\ forall i d, d <= LIM -> at2 Y i d = if (2 ^ n <=? i) && (i <? 2 ^ n + k) then (if d =? 0 then zero else at2 Z i (d - 1)%nat) + at2 Z (i - 2 ^ n)%nat d else at2 Z i d)
    (merge_row zero add LIM (2 ^ n)) (2 ^ n) 0 Z) as (Y & E & MY & VY).
  - split; auto. intros i d Hd. rewrite Nat.add_0_r. destruct (Nat.leb_spec (2 ^ n) i), (Nat.ltb_spec i (2 ^ n)); cbn [andb]; auto; lia.
  - intros k Y Hk (MY & VY). destruct (merge_row_ok W (2 ^ n) k Y) as (Y' & E' & M' & V'); auto; try lia. exists Y'. split; [auto|]. split; [auto|].
    intros i d Hd. rewrite V' by auto. rewrite !VY by lia. replace ((2 ^ n <=? k) && (k <? 2 ^ n + k)) with false by (destruct (Nat.leb_spec (2 ^ n) k); [lia|auto]).
    destruct (Nat.eqb_spec i (k + 2 ^ n)).
    + subst i. replace ((2 ^ n <=? k + 2 ^ n) && (k + 2 ^ n <? 2 ^ n + k)) with false by (symmetry; apply andb_false_iff; right; apply Nat.ltb_ge; lia).
      replace ((2 ^ n <=? k + 2 ^ n) && (k + 2 ^ n <? 2 ^ n + S k)) with true by (symmetry; apply andb_true_iff; split; [apply Nat.leb_le|apply Nat.ltb_lt]; lia).
      replace (k + 2 ^ n - 2 ^ n)%nat with k by lia. reflexivity.
    + destruct (Nat.leb_spec (2 ^ n) i), (Nat.ltb_spec i (2 ^ n + k)), (Nat.ltb_spec i (2 ^ n + S k)); cbn [andb]; auto; lia.
  - exists Y. split; [auto|]. split; [auto|]. intros i d Hd. rewrite VY by auto. replace (2 * 2 ^ n)%nat with (2 ^ n + (0 + 2 ^ n))%nat by lia. reflexivity.
Qed.

Lemma split_row_ok W n w s Z : mem W Z -> S n <= LIM -> 0 < w -> s < w -> (s + w < W)%nat -> exists Z', split_row zero sub LIM (S n) w s Z = Some Z' /\ mem W Z' /\
  (forall i d, d <= LIM -> i <> (s + w)%nat -> at2 Z' i d = at2 Z i d) /\ forall d, d <= n -> at2 Z' (s + w) d = at2 Z (s + w) (d + 1) - at2 Z s (d + 1).
Proof.
  intros M Hn Hw Hs Ht. unfold split_row. cbv zeta. set (t := (s + w)%nat) in *.
  match goal with |- context [for_up (LIM + 1) _ ?bd _] => set (b1 := bd) end.
  destruct (@for_up_rule _ (fun k Y => mem W Y /\ forall i d, d <= LIM -> at2 Y i d = if (i =? t) && (d <? k) then at2 Z i d - at2 Z s d else at2 Z i d) b1 (LIM + 1) 0 Z) as (Y & E & MY & VY).
  - split; auto. intros i d Hd. destruct (Nat.ltb_spec d 0); [lia|]. now rewrite andb_false_r.
  - intros k Y' Hk (MY' & VY'). unfold b1. rewrite (get2_mem W) by (auto; lia). cbn [obind]. rewrite (get2_mem W) by (auto; lia). cbn [obind].
    destruct (set2_mem W Y' t k (at2 Y' t k - at2 Y' s k)) as (Y3 & E3 & M3 & V3); auto; [lia|]. exists Y3. split; [auto|]. split; [auto|]. intros i d Hd.
    rewrite V3, !VY' by lia. rewrite Nat.eqb_refl, (Nat.eqb_sym t i). destruct (Nat.ltb_spec k k); [lia|]. destruct (Nat.eqb_spec s t); [lia|]. cbn [andb].
    destruct (Nat.eqb_spec i t); cbn [andb]; auto. subst i.
    destruct (Nat.eqb_spec k d), (Nat.ltb_spec d k), (Nat.ltb_spec d (S k)); subst; auto; lia.
  - rewrite E. cbn [obind]. match goal with |- context [for_up LIM _ ?bd _] => set (b2 := bd) end.
    destruct (@for_up_rule _ (fun k Y' => mem W Y' /\ forall i d, d <= LIM -> at2 Y' i d = if (i =? t) && (d <? k) then at2 Y i (d + 1) else at2 Y i d) b2 LIM 0 Y) as (Y2 & E2 & M2 & V2).
    + split; auto. intros i d Hd. destruct (Nat.ltb_spec d 0); [lia|]. now rewrite andb_false_r.
    + intros k Y' Hk (MY' & VY'). unfold b2. rewrite (get2_mem W) by (auto; lia). cbn [obind].
      destruct (set2_mem W Y' t k (at2 Y' t (k + 1))) as (Y3 & E3 & M3 & V3); auto; [lia|]. exists Y3. split; [auto|]. split; [auto|]. intros i d Hd.
      rewrite V3, !VY' by lia. rewrite Nat.eqb_refl, (Nat.eqb_sym t i). destruct (Nat.ltb_spec (k + 1) k); [lia|]. cbn [andb].
      destruct (Nat.eqb_spec i t); cbn [andb]; auto. subst i.
      destruct (Nat.eqb_spec k d), (Nat.ltb_spec d k), (Nat.ltb_spec d (S k)); subst; auto; lia.
    + rewrite E2. cbn [obind]. destruct (set2_mem W Y2 t (S n) zero) as (Y3 & E3 & M3 & V3); auto. exists Y3. split; [auto|]. split; [auto|]. split.
      * intros i d Hd Hi. rewrite V3, V2 by auto. destruct (Nat.eqb_spec t i); [lia|]. destruct (Nat.eqb_spec i t) as [|Ni]; [lia|]. cbn [andb]. rewrite VY by auto.
        destruct (Nat.eqb_spec i t); [lia|]. reflexivity.
      * intros d Hd. rewrite V3, V2 by lia. rewrite Nat.eqb_refl. destruct (Nat.eqb_spec (S n) d); [lia|]. cbn [andb].
        destruct (Nat.ltb_spec d (0 + LIM)%nat); [|lia]. rewrite VY by lia. rewrite Nat.eqb_refl. cbn [andb]. destruct (Nat.ltb_spec (d + 1) (0 + (LIM + 1))%nat); [|lia]. reflexivity.
Qed.
Lemma mobius_split_ok W n Z : mem W Z -> S n <= LIM -> 2 ^ S n <= W -> exists Z', mobius_split zero sub LIM (S n) Z = Some Z' /\ mem W Z' /\
  (forall i d, d <= LIM -> i < 2 ^ n -> at2 Z' i d = at2 Z i d) /\
  forall i d, d <= n -> i < 2 ^ n -> at2 Z' (2 ^ n + i) d = at2 Z (2 ^ n + i) (d + 1) - at2 Z i (d + 1).
Proof.
  intros M Hn HW. unfold mobius_split. destruct (Nat.leb_spec (S n) LIM); [|lia]. cbn [guard obind Nat.eqb]. replace (S n - 1)%nat with n by lia.
  rewrite Nat.pow_succ_r' in *. pose proof (pow2_pos n).
  destruct (@for_up_rule _ (fun k Y => mem W Y /\ (forall i d, d <= LIM -> i < 2 ^ n -> at2 Y i d = at2 Z i d) /\ 
    forall i, i < 2 ^ n -> (i < k -> forall d, d <= n -> at2 Y (2 ^ n + i) d = at2 Z (2 ^ n + i) (d + 1) - at2 Z i (d + 1)) /\ (k <= i -> forall d, d <= LIM -> at2 Y (2 ^ n + i) d = at2 Z (2 ^ n + i) d))
    (split_row zero sub LIM (S n) (2 ^ n)) (2 ^ n) 0 Z) as (Y & E & MY & VL & VY).
  - split; auto. split; auto. intros i Hi. split; auto. lia.
  - intros k Y Hk (MY & VL & VY). destruct (split_row_ok W n (2 ^ n) k Y) as (Y' & E' & M' & V1 & V2); auto; try lia. exists Y'. split; [auto|]. split; [auto|]. split.
    + intros i d Hd Hi. rewrite V1 by lia. auto.
    + intros i Hi. destruct (VY i Hi) as [Va Vb]. split.
      * intros Hl d Hd. destruct (Nat.eq_dec i k) as [->|Ne].
        -- rewrite (Nat.add_comm (2 ^ n) k). rewrite V2 by auto. rewrite (Nat.add_comm k). rewrite Vb, VL by lia. reflexivity.
        -- rewrite V1 by lia. apply Va; lia.
      * intros Hl d Hd. rewrite V1 by lia. apply Vb; lia.
  - exists Y. split; [auto|]. split; [auto|]. split; auto. intros i d Hd Hi. apply (VY i Hi); auto.
Qed.
End Rep.
