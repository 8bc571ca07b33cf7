(** The cache-oblivious loop order is the recursive one. *)
From Coq Require Import Lia.
From Verif Require Import Base BaseLemmas ListExtra NthExtra BitConvModel.

(** * Events *)

Fixpoint tones (fuel m : nat) : nat :=
  match fuel with 0 => 0 | S f => if Nat.odd m then S (tones f (Nat.div2 m)) else 0 end.
Definition level (k top : nat) : list (nat * nat) := map (fun t => (2 ^ k, t)) (seq (top + 1 - 2 ^ k) (2 ^ k)).
Definition ev_mask (c mask : nat) : list (nat * nat) := flat_map (fun k => level k mask) (seq 0 c).
Definition shift (off : nat) (l : list (nat * nat)) : list (nat * nat) := map (fun '(w, t) => (w, off + t)) l.
Fixpoint rec_events (n : nat) : list (nat * nat) :=
  match n with
  | 0 => []
  | S m => rec_events m ++ shift (2 ^ m) (rec_events m) ++ level m (2 ^ S m - 1)
  end.

Lemma half m : m = 2 * Nat.div2 m + (if Nat.odd m then 1 else 0).
Proof. rewrite (Nat.div2_odd m) at 1. unfold Nat.b2n. now destruct (Nat.odd m). Qed.
Lemma odd_split n m : Nat.odd (2 ^ S n + m) = Nat.odd m.
Proof. rewrite Nat.pow_succ_r', Nat.odd_add. rewrite Nat.odd_mul. cbn [Nat.odd]. now destruct (Nat.odd m). Qed.
Lemma div2_split n m : Nat.div2 (2 ^ S n + m) = 2 ^ n + Nat.div2 m.
Proof.
  pose proof (half (2 ^ S n + m)) as H1. pose proof (half m) as H2. rewrite odd_split in H1.
  rewrite Nat.pow_succ_r' in *. destruct (Nat.odd m); lia.
Qed.
Lemma pow2_pos n : 0 < 2 ^ n.
Proof. apply Nat.neq_0_lt_0, Nat.pow_nonzero. lia. Qed.
Lemma tones_bound f n m : m < 2 ^ n -> tones f m <= n.
Proof.
  revert n m. induction f as [|f IH]; intros n m H; cbn [tones]; [lia|].
  pose proof (half m) as Hm. destruct (Nat.odd m); [|lia].
  destruct n as [|n]; [cbn in H; lia|]. rewrite Nat.pow_succ_r' in H. specialize (IH n (Nat.div2 m) ltac:(lia)). lia.
Qed.
Lemma tones_fuel f g n m : m < 2 ^ n -> n < f -> n < g -> tones f m = tones g m.
Proof.
  revert g n m. induction f as [|f IH]; intros g n m H Hf Hg; [lia|]. destruct g as [|g]; [lia|]. cbn [tones].
  pose proof (half m) as Hm. destruct (Nat.odd m); [|lia].
  destruct n as [|n]; [cbn in H; lia|]. rewrite Nat.pow_succ_r' in H. f_equal. apply (IH g n); lia.
Qed.
Lemma tones_full f n : n < f -> tones f (2 ^ n - 1) = n.
Proof.
  revert f. induction n as [|n IH]; intros f H; destruct f as [|f]; try lia; [reflexivity|].
  cbn [tones]. pose proof (half (2 ^ S n - 1)) as Hm. pose proof (pow2_pos n) as P. rewrite Nat.pow_succ_r' in *.
  assert (O : Nat.odd (2 * 2 ^ n - 1) = true).
  { replace (2 * 2 ^ n - 1) with (1 + 2 * (2 ^ n - 1)) by lia. now rewrite Nat.odd_add_mul_2. }
  rewrite O in *. f_equal. replace (Nat.div2 (2 * 2 ^ n - 1)) with (2 ^ n - 1) by lia. apply IH. lia.
Qed.
Lemma tones_split n : forall f m, m < 2 ^ n -> S n < f ->
  tones f (2 ^ n + m) = if m =? 2 ^ n - 1 then S (tones f m) else tones f m.
Proof.
  induction n as [|n IH]; intros f m H Hf; destruct f as [|f]; try lia.
  - cbn in H. assert (m = 0) as -> by lia. destruct f as [|f]; [lia|]. reflexivity.
  - cbn [tones]. rewrite odd_split, div2_split. pose proof (half m) as Hm. pose proof (pow2_pos n) as P. rewrite Nat.pow_succ_r' in *.
    destruct (Nat.odd m) eqn:O.
    + rewrite IH by lia.
      destruct (Nat.eqb_spec (Nat.div2 m) (2 ^ n - 1)), (Nat.eqb_spec m (2 * 2 ^ n - 1)); try lia.
    + destruct (Nat.eqb_spec m (2 * 2 ^ n - 1)); lia.
Qed.

Lemma shift_app off a b : shift off (a ++ b) = shift off a ++ shift off b.
Proof. apply map_app. Qed.
Lemma shift_shift p q l : shift p (shift q l) = shift (p + q) l.
Proof. unfold shift. rewrite map_map. apply map_ext. intros [w t]. f_equal. lia. Qed.
Lemma shift_0 l : shift 0 l = l.
Proof. unfold shift. rewrite <- (map_id l) at 2. apply map_ext. now intros [w t]. Qed.
Lemma shift_level off k top : 2 ^ k <= top + 1 -> shift off (level k top) = level k (off + top).
Proof.
  intros H. unfold shift, level. rewrite map_map. replace (off + top + 1 - 2 ^ k) with (off + (top + 1 - 2 ^ k)) by lia.
  generalize (top + 1 - 2 ^ k) as b. generalize (2 ^ k) at 2 4 as c. induction c as [|c IH]; intros b; auto.
  cbn [seq map]. f_equal. rewrite IH. f_equal. f_equal. lia.
Qed.
Lemma tones_le f m : 2 ^ tones f m <= m + 1.
Proof.
  revert m. induction f as [|f IH]; intros m; cbn [tones]; [cbn; lia|]. pose proof (half m) as Hm.
  destruct (Nat.odd m); [|cbn; lia]. specialize (IH (Nat.div2 m)). rewrite Nat.pow_succ_r'. lia.
Qed.
Lemma shift_ev off c mask : 2 ^ c <= mask + 1 -> shift off (ev_mask c mask) = ev_mask c (off + mask).
Proof.
  intros H. unfold ev_mask. induction c as [|c IH]; auto. rewrite seq_S, !flat_map_app, shift_app.
  rewrite Nat.pow_succ_r' in H. rewrite IH by lia. f_equal. cbn [flat_map]. rewrite !app_nil_r. apply shift_level. cbn [Nat.add]. lia.
Qed.

(** All the masks below [2^n], the even ones contributing nothing. *)
Definition all_events (f n : nat) : list (nat * nat) := flat_map (fun m => ev_mask (tones f m) m) (seq 0 (2 ^ n)).
Lemma flat_map_ext' {A B} (f g : A -> list B) l : (forall x, In x l -> f x = g x) -> flat_map f l = flat_map g l.
Proof. induction l as [|x l IH]; intros H; auto. cbn. rewrite H, IH; auto; [intros; apply H; now right|now left]. Qed.
Lemma seq_shift_map off n b : seq (off + b) n = map (fun x => off + x) (seq b n).
Proof. revert b. induction n as [|n IH]; intros b; auto. cbn [seq map]. f_equal. rewrite <- IH. f_equal. lia. Qed.
Lemma shift_flat_map {A} off (f : A -> list (nat * nat)) l : shift off (flat_map f l) = flat_map (fun x => shift off (f x)) l.
Proof. induction l as [|x l IH]; auto. cbn [flat_map]. now rewrite shift_app, IH. Qed.
Lemma all_rec f n : n < f -> all_events f n = rec_events n.
Proof.
  induction n as [|n IH]; intros Hf.
  - destruct f; [lia|]. reflexivity.
  - cbn [rec_events]. rewrite <- IH by lia. pose proof (pow2_pos n) as P.
    unfold all_events at 1. replace (2 ^ S n) with (2 ^ n + 2 ^ n) by (rewrite Nat.pow_succ_r'; lia).
    rewrite seq_app, flat_map_app. f_equal. change (0 + 2 ^ n) with (2 ^ n).
    unfold all_events. rewrite shift_flat_map.
    replace (seq (2 ^ n) (2 ^ n)) with (map (fun x => 2 ^ n + x) (seq 0 (2 ^ n))) by (rewrite <- seq_shift_map; f_equal; lia).
    rewrite flat_map_concat_map, map_map, <- flat_map_concat_map.
    replace (seq 0 (2 ^ n)) with (seq 0 (2 ^ n - 1) ++ [2 ^ n - 1]).
    2: { change [2 ^ n - 1] with [0 + (2 ^ n - 1)]. rewrite <- seq_S. f_equal. lia. }
    rewrite !flat_map_app, <- app_assoc. f_equal.
    + apply flat_map_ext'. intros m Hm. apply in_seq in Hm. rewrite tones_split by lia.
      destruct (Nat.eqb_spec m (2 ^ n - 1)); [lia|]. symmetry. apply shift_ev, tones_le.
    + cbn [flat_map]. rewrite !app_nil_r, tones_split, Nat.eqb_refl by lia.
      rewrite shift_ev by apply tones_le. unfold ev_mask at 1. rewrite seq_S, flat_map_app. fold (ev_mask (tones f (2 ^ n - 1)) (2 ^ n + (2 ^ n - 1))).
      f_equal. cbn [flat_map]. rewrite app_nil_r, tones_full by lia. cbn [Nat.add]. f_equal. lia.
Qed.

(** * The loops run the events in order *)

Section Run.
Variable St : Type.
Variable step : nat -> nat -> St -> option St.
Definition run (l : list (nat * nat)) (s : St) : option St := for_each l (fun '(w, t) s => step w t s) s.
Lemma run_app a b s : run (a ++ b) s = obind (run a s) (run b).
Proof.
  unfold run. revert s. induction a as [|[w t] a IH]; intros s; cbn [app for_each obind]; auto.
  destruct (step w t s); cbn [obind]; auto.
Qed.
Lemma run_level w n t s : for_up n t (fun t s => step w t s) s = run (map (fun t => (w, t)) (seq t n)) s.
Proof.
  unfold run. revert t s. induction n as [|n IH]; intros t s; auto. cbn [for_up seq map for_each].
  destruct (step w t s); cbn [obind]; auto.
Qed.
Lemma levels_run mask f : forall m k s, tones f m < f ->
  loop f (fun '(m, w, s) =>
    if Nat.odd m then
      let* s := for_up w (mask + 1 - w) (fun t s => step w t s) s in
      Some (inl (Nat.div2 m, 2 * w, s))
    else Some (inr s)) (m, 2 ^ k, s) = run (flat_map (fun k => level k mask) (seq k (tones f m))) s.
Proof.
  induction f as [|f IH]; intros m k s H; [lia|]. cbn [loop]. cbn [tones] in *. destruct (Nat.odd m); [|reflexivity].
  cbn [seq flat_map]. rewrite run_app, run_level. fold (level k mask). destruct (run (level k mask) s) as [s'|]; cbn [obind]; auto.
  rewrite <- Nat.pow_succ_r'. apply IH. lia.
Qed.
Lemma sweep_levels_run n mask s : mask < 2 ^ n -> sweep_levels step n mask s = run (ev_mask (tones (n + 1) mask) mask) s.
Proof.
  intros H. unfold sweep_levels. change 1 with (2 ^ 0) at 4. rewrite levels_run; auto.
  pose proof (tones_bound (n + 1) n mask H). lia.
Qed.
Lemma sweep_loop n f : forall mask s, Nat.odd mask = true -> mask <= 2 ^ n + 1 -> 2 ^ n + 2 <= mask + 2 * f ->
  loop f (fun '(mask, s) =>
    if mask <? 2 ^ n then
      let* s := sweep_levels step n mask s in
      Some (inl (mask + 2, s))
    else Some (inr s)) (mask, s) = run (flat_map (fun m => ev_mask (tones (n + 1) m) m) (seq mask (2 ^ n - mask))) s.
Proof.
  induction f as [|f IH]; intros mask s O Hm H; [lia|]. cbn [loop]. destruct (Nat.ltb_spec mask (2 ^ n)).
  - rewrite sweep_levels_run by lia. replace (2 ^ n - mask) with (S (2 ^ n - (mask + 1))) by lia. cbn [seq flat_map]. rewrite run_app.
    destruct (run _ s) as [s'|]; cbn [obind]; auto.
    assert (O' : Nat.odd (mask + 2) = true) by now rewrite <- O, Nat.add_comm.
    assert (E : Nat.odd (S mask) = false) by (rewrite Nat.odd_succ, <- Nat.negb_odd, O; reflexivity).
    rewrite IH by (auto; lia). destruct (Nat.eq_dec (2 ^ n - (mask + 1)) 0) as [Z|Z].
    + rewrite Z. replace (2 ^ n - (mask + 2)) with 0 by lia. reflexivity.
    + replace (2 ^ n - (mask + 1)) with (S (2 ^ n - (mask + 2))) by lia. cbn [seq flat_map].
      replace (tones (n + 1) (S mask)) with 0; [now replace (mask + 2) with (S (S mask)) by lia|].
      rewrite Nat.add_1_r. cbn [tones]. now rewrite E.
  - replace (2 ^ n - mask) with 0 by lia. reflexivity.
Qed.
Lemma sweep_run n s : sweep step n s = run (rec_events n) s.
Proof.
  unfold sweep. pose proof (pow2_pos n) as P. rewrite sweep_loop by (auto; lia).
  rewrite <- (all_rec (n + 1) n) by lia. unfold all_events. f_equal.
  replace (2 ^ n) with (S (2 ^ n - 1)) at 2 by lia. cbn [seq flat_map].
  replace (tones (n + 1) 0) with 0; [reflexivity|]. rewrite Nat.add_1_r. reflexivity.
Qed.
End Run.
Arguments run {St} step l s.

(** * The recursive transform *)

Set Implicit Arguments.

Lemma lset_app_r {T} (P X : list T) i x : lset (P ++ X) (length P + i) x = P ++ lset X i x.
Proof. induction P as [|p P IH]; cbn [app length Nat.add lset]; auto. now rewrite IH. Qed.
Lemma lset_app_l {T} (P X : list T) i x : i < length P -> lset (P ++ X) i x = lset P i x ++ X.
Proof. revert i. induction P as [|p P IH]; intros [|i] H; cbn [length app lset] in *; try lia; auto. rewrite IH by lia. auto. Qed.
Lemma lset_mid {T} (P X : list T) y x : lset (P ++ y :: X) (length P) x = P ++ x :: X.
Proof. replace (length P) with (length P + 0) at 1 by lia. now rewrite lset_app_r. Qed.
Section Rec.
Variable T : Type.
Variable f : T -> T -> T * T.
Fixpoint trans (n : nat) (X : list T) : list T :=
  match n with
  | 0 => X
  | S m => let L := trans m (firstn (2 ^ m) X) in
           let R := trans m (skipn (2 ^ m) X) in
           map (fun p => fst (f (fst p) (snd p))) (combine L R) ++ map (fun p => snd (f (fst p) (snd p))) (combine L R)
  end.
Lemma trans_length n : forall X, length X = 2 ^ n -> length (trans n X) = 2 ^ n.
Proof.
  induction n as [|n IH]; intros X H; auto. cbn [trans]. rewrite Nat.pow_succ_r' in *.
  rewrite app_length, !map_length, combine_length, !IH; rewrite ?firstn_length, ?skipn_length; lia.
Qed.
Variable good : T -> Prop.
Hypothesis good_ok : forall a b, good a -> good b -> good (fst (f a b)) /\ good (snd (f a b)).

Lemma trans_good n : forall X, length X = 2 ^ n -> Forall good X -> Forall good (trans n X).
Proof.
  induction n as [|n IH]; intros X H G; auto. cbn [trans]. rewrite Nat.pow_succ_r' in *.
  assert (G1 : Forall good (trans n (firstn (2 ^ n) X))).
  { apply IH; [rewrite firstn_length; lia|]. rewrite <- (firstn_skipn (2 ^ n) X) in G. now apply Forall_app in G. }
  assert (G2 : Forall good (trans n (skipn (2 ^ n) X))).
  { apply IH; [rewrite skipn_length; lia|]. rewrite <- (firstn_skipn (2 ^ n) X) in G. now apply Forall_app in G. }
  rewrite Forall_forall in G1, G2. apply Forall_app. split; apply Forall_forall; intros x Hx; apply in_map_iff in Hx as ([a b] & <- & Hx);
    pose proof (in_combine_l _ _ _ _ Hx); pose proof (in_combine_r _ _ _ _ Hx); cbn [fst snd]; apply good_ok; auto.
Qed.

Variable step : nat -> nat -> list T -> option (list T).
Hypothesis step_ok : forall w t A d, Forall good A -> w <= t -> 0 < w -> t < length A ->
  step w t A = Some (lset (lset A (t - w) (fst (f (nth (t - w) A d) (nth t A d)))) t (snd (f (nth (t - w) A d) (nth t A d)))).
Lemma level_run : forall L R P M Q w, w = length L + length M -> length L = length R -> Forall good (P ++ L ++ M ++ R ++ Q) -> 0 < w ->
  run step (map (fun t => (w, t)) (seq (length P + length L + length M) (length L))) (P ++ L ++ M ++ R ++ Q) =
  Some (P ++ map (fun p => fst (f (fst p) (snd p))) (combine L R) ++ M ++ map (fun p => snd (f (fst p) (snd p))) (combine L R) ++ Q).
Proof.
  induction L as [|a L IH]; intros [|b R] P M Q w Hw HL G W; try discriminate; [reflexivity|].
  cbn [length seq map]. unfold run. cbn [for_each]. cbn [length] in *.
  assert (Wt : length P + S (length L) + length M - w = length P) by lia.
  rewrite (fun w t A => @step_ok w t A a) by (auto; rewrite ?app_length; cbn [length app]; rewrite ?app_length; cbn [length]; lia).
  rewrite Wt. cbn [app].
  replace (nth (length P) (P ++ a :: L ++ M ++ b :: R ++ Q) a) with a by (rewrite app_nth2, Nat.sub_diag; auto).
  assert (E : P ++ a :: L ++ M ++ b :: R ++ Q = (P ++ a :: L ++ M) ++ b :: R ++ Q) by (rewrite <- app_assoc; cbn; now rewrite <- app_assoc).
  assert (Len : length P + S (length L) + length M = length (P ++ a :: L ++ M)) by (rewrite !app_length; cbn; rewrite app_length; lia).
  replace (nth (length P + S (length L) + length M) (P ++ a :: L ++ M ++ b :: R ++ Q) a) with b.
  2: { rewrite Len, E, app_nth2, Nat.sub_diag by lia. reflexivity. }
  rewrite lset_mid.
  assert (E' : forall x, P ++ x :: L ++ M ++ b :: R ++ Q = (P ++ x :: L ++ M) ++ b :: R ++ Q) by (intros x; rewrite <- app_assoc; cbn; now rewrite <- app_assoc).
  rewrite E', Len.
  replace (length (P ++ a :: L ++ M)) with (length (P ++ fst (f a b) :: L ++ M)) at 1 by (rewrite !app_length; reflexivity).
  rewrite lset_mid. cbn [obind].
  fold (run step). rewrite <- Len.
  specialize (IH R (P ++ [fst (f a b)]) (M ++ [snd (f a b)]) Q w).
  rewrite !app_length in IH. cbn [length] in IH.
  replace ((P ++ fst (f a b) :: L ++ M) ++ snd (f a b) :: R ++ Q) with ((P ++ [fst (f a b)]) ++ L ++ (M ++ [snd (f a b)]) ++ R ++ Q)
    by (rewrite <- !app_assoc; cbn [app]; now rewrite <- !app_assoc).
  replace (S (length P + S (length L) + length M)) with (length P + 1 + length L + (length M + 1)) by lia.
  unfold run in IH. rewrite IH; [|lia|lia| |lia].
  2: { rewrite !Forall_app, !Forall_cons_iff in G. destruct (@good_ok a b); try tauto.
       rewrite !Forall_app. repeat split; try tauto; repeat constructor; auto. }
  cbn [combine map fst snd]. rewrite <- !app_assoc. reflexivity.
Qed.

Lemma run_rec n : forall P X Q, length X = 2 ^ n -> Forall good (P ++ X ++ Q) ->
  run step (shift (length P) (rec_events n)) (P ++ X ++ Q) = Some (P ++ trans n X ++ Q).
Proof.
  induction n as [|n IH]; intros P X Q HX G; [reflexivity|].
  cbn [rec_events]. rewrite !shift_app, shift_shift, !run_app.
  pose proof (pow2_pos n) as Pp. rewrite Nat.pow_succ_r' in HX.
  set (L := firstn (2 ^ n) X). set (R := skipn (2 ^ n) X).
  assert (HL : length L = 2 ^ n) by (unfold L; rewrite firstn_length; lia).
  assert (HR : length R = 2 ^ n) by (unfold R; rewrite skipn_length; lia).
  assert (E : X = L ++ R) by (symmetry; apply firstn_skipn).
  assert (GX : Forall good P /\ Forall good L /\ Forall good R /\ Forall good Q).
  { rewrite E in G. rewrite !Forall_app in G. tauto. }
  destruct GX as (GP & GL & GR & GQ).
  replace (P ++ X ++ Q) with (P ++ L ++ (R ++ Q)) by (rewrite E, <- app_assoc; auto).
  rewrite (IH P L (R ++ Q) HL) by (rewrite !Forall_app; tauto). cbn [obind].
  assert (TL : length (trans n L) = 2 ^ n) by now apply trans_length.
  assert (TR : length (trans n R) = 2 ^ n) by now apply trans_length.
  assert (TGL : Forall good (trans n L)) by now apply trans_good.
  assert (TGR : Forall good (trans n R)) by now apply trans_good.
  replace (P ++ trans n L ++ R ++ Q) with ((P ++ trans n L) ++ R ++ Q) by now rewrite <- app_assoc.
  replace (length P + 2 ^ n) with (length (P ++ trans n L)) by (rewrite app_length; lia).
  rewrite run_app. rewrite (IH (P ++ trans n L) R Q HR) by (rewrite !Forall_app; tauto). cbn [obind].
  rewrite Nat.pow_succ_r'. rewrite shift_level by lia. unfold level.
  pose proof (@level_run (trans n L) (trans n R) P [] Q (2 ^ n)) as H. cbn [length app] in H.
  rewrite Nat.add_0_r, TL in H.
  replace (length P + (2 * 2 ^ n - 1) + 1 - 2 ^ n) with (length P + 2 ^ n) by lia.
  rewrite Nat.add_0_r in H.
  rewrite <- app_assoc. rewrite H; [|lia|lia| |lia].
  2: rewrite !Forall_app; tauto.
  cbn [trans]. fold L R. now rewrite <- !app_assoc.
Qed.
Lemma sweep_trans n X : length X = 2 ^ n -> Forall good X -> sweep step n X = Some (trans n X).
Proof.
  intros H G. rewrite sweep_run. pose proof (@run_rec n [] X [] H) as R. cbn [app length] in R. rewrite shift_0, !app_nil_r in R. auto.
Qed.
End Rec.

(** A homomorphism of the butterfly commutes with the transform. *)
Lemma trans_map {T U} (f : T -> T -> T * T) (g : U -> U -> U * U) (h : T -> U) (good : T -> Prop) :
  (forall a b, good a -> good b -> good (fst (f a b)) /\ good (snd (f a b))) ->
  (forall a b, good a -> good b -> h (fst (f a b)) = fst (g (h a) (h b)) /\ h (snd (f a b)) = snd (g (h a) (h b))) ->
  forall n X, length X = 2 ^ n -> Forall good X -> map h (trans f n X) = trans g n (map h X).
Proof.
  intros Hg Hh. induction n as [|n IH]; intros X HX G; auto. cbn [trans]. rewrite Nat.pow_succ_r' in HX.
  rewrite firstn_map, skipn_map. rewrite <- (firstn_skipn (2 ^ n) X) in G. apply Forall_app in G as [GL GR].
  rewrite <- !IH; auto; try (rewrite ?firstn_length, ?skipn_length; lia).
  assert (TL : Forall good (trans f n (firstn (2 ^ n) X))) by (apply trans_good; auto; rewrite firstn_length; lia).
  assert (TR : Forall good (trans f n (skipn (2 ^ n) X))) by (apply trans_good; auto; rewrite skipn_length; lia).
  revert TL TR. generalize (trans f n (firstn (2 ^ n) X)) as L. generalize (trans f n (skipn (2 ^ n) X)) as R. intros R L TL TR.
  rewrite map_app, !map_map. f_equal.
  - revert R TR. induction TL as [|a L Ga TL IHL]; intros R TR; auto. destruct TR as [|b R Gb TR]; auto.
    cbn [combine map fst snd]. rewrite IHL by auto. f_equal. now apply Hh.
  - revert R TR. induction TL as [|a L Ga TL IHL]; intros R TR; auto. destruct TR as [|b R Gb TR]; auto.
    cbn [combine map fst snd]. rewrite IHL by auto. f_equal. now apply Hh.
Qed.
