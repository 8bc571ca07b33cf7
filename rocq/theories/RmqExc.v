(** The first minimum of the sequence and the first minimum of the excess of the parentheses. *)
From Verif Require Import Base BaseLemmas ListExtra NthExtra Order BitModel BmapModel BvModel BvSel BvOps BvProp RmqModel RmqParens.
Set Implicit Arguments.

Definition tot (l : list bool) : Z := (2 * Z.of_nat (cnt true l) - Z.of_nat (length l))%Z.
Lemma exc_app_l l l' i : i < length l -> exc (l ++ l') i = exc l i.
Proof. intros H. unfold exc. rewrite firstn_app. replace (S i - length l) with 0 by lia. cbn [firstn]. now rewrite app_nil_r. Qed.
Lemma exc_app_r l l' i : exc (l ++ l') (length l + i) = (tot l + exc l' i)%Z.
Proof. unfold exc, tot. rewrite firstn_app, firstn_all2 by lia. replace (S (length l + i) - length l) with (S i) by lia. rewrite cnt_app. lia. Qed.
Lemma exc_cons b l i : exc (b :: l) (S i) = ((if b then 1 else -1) + exc l i)%Z.
Proof. unfold exc. cbn [firstn cnt]. destruct b; cbn [Bool.eqb]; lia. Qed.
Lemma kth_app B l l' : forall k, kth B k (l ++ l') = if k <? cnt B l then kth B k l else length l + kth B (k - cnt B l) l'.
Proof.
  induction l as [|b l IH]; intros k; cbn [app kth cnt length].
  - destruct (Nat.ltb_spec k 0); [lia|]. now rewrite Nat.sub_0_r.
  - destruct (Bool.eqb b B).
    + destruct k as [|k]; [reflexivity|]. rewrite IH. destruct (Nat.ltb_spec k (cnt B l)), (Nat.ltb_spec (S k) (S (cnt B l))); try lia; reflexivity.
    + rewrite IH. destruct (Nat.ltb_spec k (cnt B l)); reflexivity.
Qed.
Lemma cnt_false_pbits t : cnt false (pbits t) = length (inord t).
Proof. induction t as [|l IHl v r IHr]; cbn [pbits inord length]; auto. cbn [cnt Bool.eqb]. rewrite cnt_app, app_length. cbn [cnt Bool.eqb length]. lia. Qed.
Lemma tot_pbits t : tot (pbits t) = 0%Z.
Proof. unfold tot. pose proof (cnt_two (pbits t)). rewrite pbits_length, cnt_false_pbits in *. lia. Qed.
Lemma tot_app l l' : tot (l ++ l') = (tot l + tot l')%Z.
Proof. unfold tot. rewrite cnt_app, app_length. lia. Qed.
(** inside a node *)
Lemma exc_nd l v r i : exc (pbits (Nd l v r)) i =
  if i =? 0 then 1%Z else if i <? S (length (pbits l)) then (1 + exc (pbits l) (i - 1)%nat)%Z
  else if i =? S (length (pbits l)) then 0%Z else exc (pbits r) (i - (2 + length (pbits l))).
Proof.
  cbn [pbits]. destruct i as [|i]; [reflexivity|]. cbn [Nat.eqb]. rewrite exc_cons. replace (S i - 1) with i by lia.
  destruct (Nat.ltb_spec (S i) (S (length (pbits l)))).
  - now rewrite exc_app_l by lia.
  - replace i with (length (pbits l) + (i - length (pbits l))) at 1 by lia. rewrite exc_app_r, tot_pbits. destruct (Nat.eqb_spec i (length (pbits l))) as [->|].
    + rewrite Nat.sub_diag. unfold exc. cbn. lia.
    + replace (i - length (pbits l)) with (S (S i - (2 + length (pbits l)))) by lia. rewrite exc_cons. lia.
Qed.
Lemma exc_nonneg t : forall i, i < length (pbits t) -> (0 <= exc (pbits t) i)%Z.
Proof.
  induction t as [|l IHl v r IHr]; intros i Hi; [cbn in Hi; lia|]. rewrite exc_nd. cbn [pbits length] in Hi. rewrite app_length in Hi. cbn [length] in Hi.
  destruct (Nat.eqb_spec i 0); [lia|]. destruct (Nat.ltb_spec i (S (length (pbits l)))); [specialize (IHl (i - 1) ltac:(lia)); lia|]. destruct (Nat.eqb_spec i (S (length (pbits l)))); [lia|]. apply IHr. lia.
Qed.
Lemma kth_nd l v r k : kth false k (pbits (Nd l v r)) =
  if k <? length (inord l) then S (kth false k (pbits l)) else if k =? length (inord l) then S (length (pbits l))
  else 2 + length (pbits l) + kth false (k - S (length (inord l))) (pbits r).
Proof.
  cbn [pbits kth Bool.eqb]. rewrite kth_app, cnt_false_pbits. destruct (Nat.ltb_spec k (length (inord l))); auto. cbn [kth Bool.eqb].
  destruct (Nat.eqb_spec k (length (inord l))) as [->|]; [rewrite Nat.sub_diag; lia|]. destruct (k - length (inord l)) as [|q] eqn:E; [lia|]. replace (k - S (length (inord l))) with q by lia. lia.
Qed.
Lemma kth_lt t k : k < length (inord t) -> kth false k (pbits t) < length (pbits t).
Proof. intros H. apply kth_inv. now rewrite cnt_false_pbits. Qed.
Lemma kth_mono B l : forall j k, j <= k -> kth B j l <= kth B k l.
Proof.
  induction l as [|b l IH]; intros j k H; cbn [kth]; auto. destruct (Bool.eqb b B); [|specialize (IH j k H); lia].
  destruct j as [|j]; [lia|]. destruct k as [|k]; [lia|]. specialize (IH j k ltac:(lia)). lia.
Qed.

Lemma app_inj_len {A} (l l' : list A) : forall m m', length l = length l' -> l ++ m = l' ++ m' -> l = l' /\ m = m'.
Proof.
  revert l'. induction l as [|x l IH]; intros [|y l'] m m' L E; cbn in *; try discriminate; auto. injection E as -> E. destruct (IH l' m m' ltac:(lia) E) as [-> ->]. auto.
Qed.
Lemma leftmin_unique f x y m m' : leftmin f x y m -> leftmin f x y m' -> m = m'.
Proof.
  intros (H1 & H2 & H3) (K1 & K2 & K3). destruct (Nat.lt_trichotomy m m') as [C|[C|C]]; auto.
  - specialize (K2 m ltac:(lia)). specialize (H3 m' ltac:(lia)). lia.
  - specialize (H2 m' ltac:(lia)). specialize (K3 m ltac:(lia)). lia.
Qed.

(** the whole sequence of parentheses *)
Definition bp (t : tree) : list bool := true :: pbits t ++ [false].
Lemma bp_exc t i : i < length (pbits t) -> exc (bp t) (S i) = (1 + exc (pbits t) i)%Z.
Proof. intros H. unfold bp. rewrite exc_cons. now rewrite exc_app_l. Qed.
Lemma bp_nonneg t i : i < length (bp t) -> (0 <= exc (bp t) i)%Z.
Proof.
  unfold bp. cbn [length]. rewrite app_length. cbn [length]. intros H. destruct i as [|i]; [unfold exc; cbn; lia|]. rewrite exc_cons.
  destruct (Nat.lt_ge_cases i (length (pbits t))); [rewrite exc_app_l by auto; pose proof (@exc_nonneg t i ltac:(lia)); lia|].
  replace i with (length (pbits t) + 0) by lia. rewrite exc_app_r, tot_pbits. unfold exc. cbn. lia.
Qed.
Lemma bp_kth t k : k < length (inord t) -> kth false k (bp t) = S (kth false k (pbits t)).
Proof. intros H. unfold bp. cbn [kth Bool.eqb]. rewrite kth_app, cnt_false_pbits. destruct (Nat.ltb_spec k (length (inord t))); auto. lia. Qed.

Section Order.
Variable T : Type.
Variable ltb : T -> T -> bool.
Hypothesis W : weak_order ltb.
Variable f : nat -> T.
(** the first minimum between [x] and [y - 1] *)
Definition fmin (x y k : nat) : Prop := x <= k < y /\ (forall i, x <= i < k -> ltb (f k) (f i) = true) /\ (forall i, k <= i < y -> ltb (f i) (f k) = false).
Lemma fmin_ex x n : exists k, fmin x (x + S n) k.
Proof.
  induction n as [|n (k & K1 & K2 & K3)].
  - exists x. split; [lia|]. split; [intros; lia|]. intros i Hi. replace i with x by lia. apply (wo_irrefl _ W).
  - destruct (ltb (f (x + S n)) (f k)) eqn:E.
    + exists (x + S n). split; [lia|]. split.
      * intros i Hi. destruct (Nat.lt_ge_cases i k); [exact (wo_trans _ W _ _ _ E (K2 i ltac:(lia)))|].
        destruct (wo_split _ W (f (x + S n)) (f i) (f k) E) as [Q|Q]; auto. rewrite K3 in Q by lia. discriminate.
      * intros i Hi. replace i with (x + S n) by lia. apply (wo_irrefl _ W).
    + exists k. split; [lia|]. split; auto. intros i Hi. destruct (Nat.eq_dec i (x + S n)) as [->|]; auto. apply K3. lia.
Qed.

Lemma key t : forall s x y k, inord t = seq s (length (inord t)) -> heap ltb f t -> s <= x -> x <= y -> y < s + length (inord t) -> fmin x (S y) k ->
  leftmin (exc (pbits t)) (kth false (x - s) (pbits t)) (S (kth false (y - s) (pbits t))) (kth false (k - s) (pbits t)).
Proof.
  induction t as [|l IHl v r IHr]; intros s x y k E H Hx Hxy Hy F; [cbn in Hy; lia|].
  cbn [inord heap] in E, H, Hy. destruct H as (H1 & H2 & H3 & H4). rewrite app_length in E, Hy. cbn [length] in E, Hy.
  rewrite seq_app in E. cbn [seq] in E.
  assert (El : inord l = seq s (length (inord l)) /\ v :: inord r = (s + length (inord l)) :: seq (S (s + length (inord l))) (length (inord r))).
  { apply app_inj_len in E; auto. now rewrite seq_length. }
  destruct El as [El Er]. injection Er as Ev Er. clear E.
  set (nl := length (inord l)) in *. set (nr := length (inord r)) in *.
  assert (Il : forall i, s <= i < v -> In i (inord l)) by (intros i Hi; rewrite El; apply in_seq; lia).
  assert (Ir : forall i, v < i < v + 1 + nr -> In i (inord r)) by (intros i Hi; rewrite Er; apply in_seq; lia).
  pose proof F as (F1 & F2 & F3).
  destruct (Nat.lt_ge_cases y v) as [C|C]; [|destruct (Nat.lt_ge_cases v x) as [C'|C']].
  - destruct (IHl s x y k El H3 Hx Hxy ltac:(lia) F) as (L1 & L2 & L3).
    pose proof (@kth_lt l (y - s) ltac:(fold nl; lia)) as By.
    assert (Q : forall i, i < length (pbits l) -> exc (pbits (Nd l v r)) (S i) = (1 + exc (pbits l) i)%Z).
    { intros i Hi. rewrite exc_nd. cbn [Nat.eqb]. destruct (Nat.ltb_spec (S i) (S (length (pbits l)))); [|lia]. do 2 f_equal. lia. }
    rewrite !kth_nd. fold nl. destruct (Nat.ltb_spec (x - s) nl); [|lia]. destruct (Nat.ltb_spec (y - s) nl); [|lia]. destruct (Nat.ltb_spec (k - s) nl); [|lia].
    split; [lia|]. split; intros i Hi; (destruct i as [|i]; [lia|]); rewrite !Q by lia; [specialize (L2 i ltac:(lia))|specialize (L3 i ltac:(lia))]; lia.
  - destruct (IHr (S v) x y k) as (L1 & L2 & L3); auto; try lia. { rewrite Ev. exact Er. }
    pose proof (@kth_lt r (y - S v) ltac:(fold nr; lia)) as By.
    assert (Q : forall i, i < length (pbits r) -> exc (pbits (Nd l v r)) (2 + length (pbits l) + i) = exc (pbits r) i).
    { intros i Hi. rewrite exc_nd. destruct (Nat.eqb_spec (2 + length (pbits l) + i) 0); [lia|]. destruct (Nat.ltb_spec (2 + length (pbits l) + i) (S (length (pbits l)))); [lia|].
      destruct (Nat.eqb_spec (2 + length (pbits l) + i) (S (length (pbits l)))); [lia|]. f_equal. lia. }
    assert (P : forall z, v < z -> kth false (z - s) (pbits (Nd l v r)) = 2 + length (pbits l) + kth false (z - S v) (pbits r)).
    { intros z Hz. rewrite kth_nd. fold nl. destruct (Nat.ltb_spec (z - s) nl); [lia|]. destruct (Nat.eqb_spec (z - s) nl); [lia|]. do 2 f_equal. lia. }
    rewrite !P by lia. split; [lia|]. split; intros i Hi; replace i with (2 + length (pbits l) + (i - (2 + length (pbits l)))) by lia; rewrite !Q by lia; [apply L2|apply L3]; lia.
  - assert (Ek : k = v).
    { destruct (Nat.lt_trichotomy k v) as [D|[D|D]]; auto.
      - specialize (F3 v ltac:(lia)). rewrite H1 in F3 by (apply Il; lia). discriminate.
      - specialize (F2 v ltac:(lia)). rewrite H2 in F2 by (apply Ir; lia). discriminate. }
    subst k.
    assert (Pv : kth false (v - s) (pbits (Nd l v r)) = S (length (pbits l))).
    { rewrite kth_nd. fold nl. destruct (Nat.ltb_spec (v - s) nl); [lia|]. destruct (Nat.eqb_spec (v - s) nl); [auto|lia]. }
    assert (Ve : exc (pbits (Nd l v r)) (S (length (pbits l))) = 0%Z).
    { rewrite exc_nd. cbn [Nat.eqb]. destruct (Nat.ltb_spec (S (length (pbits l))) (S (length (pbits l)))); [lia|]. now rewrite Nat.eqb_refl. }
    pose proof (@kth_mono false (pbits (Nd l v r)) (x - s) (v - s) ltac:(lia)) as M1. pose proof (@kth_mono false (pbits (Nd l v r)) (v - s) (y - s) ltac:(lia)) as M2.
    assert (By : kth false (y - s) (pbits (Nd l v r)) < length (pbits (Nd l v r))). { apply kth_lt. cbn [inord]. rewrite app_length. cbn [length]. fold nl nr. lia. }
    rewrite Pv in *. split; [lia|]. rewrite Ve. split; intros i Hi.
    + assert (Pos : 1 <= kth false (x - s) (pbits (Nd l v r))). { rewrite kth_nd. destruct (_ <? _); [lia|]. destruct (_ =? _); lia. }
      rewrite exc_nd. destruct (Nat.eqb_spec i 0); [lia|]. destruct (Nat.ltb_spec i (S (length (pbits l)))); [|lia]. pose proof (@exc_nonneg l (i - 1) ltac:(lia)). lia.
    + apply exc_nonneg. lia.
Qed.

Lemma bp_key t x y k : inord t = seq 0 (length (inord t)) -> heap ltb f t -> x <= y -> y < length (inord t) -> fmin x (S y) k ->
  leftmin (exc (bp t)) (kth false x (bp t)) (S (kth false y (bp t))) (kth false k (bp t)).
Proof.
  intros E H Hxy Hy F. destruct (@key t 0 x y k E H) as (L1 & L2 & L3); auto; try lia. rewrite !Nat.sub_0_r in *. destruct F as (F1 & _).
  pose proof (@kth_lt t y ltac:(lia)). rewrite !bp_kth by lia. split; [lia|].
  split; intros i Hi; (destruct i as [|i]; [lia|]); rewrite !bp_exc by lia; [specialize (L2 i ltac:(lia))|specialize (L3 i ltac:(lia))]; lia.
Qed.
End Order.
