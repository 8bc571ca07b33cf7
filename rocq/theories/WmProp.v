(** * C66: queries of the wavelet matrix ([WaveletMatrix] of wavelet_matrix.hpp over a [Bitmap]) *)
From Coq Require Import Permutation Sorted.
From Verif Require Import Base BaseLemmas ListExtra BitModel BitProof BmapModel BmapProof BvModel BvProof WmModel WmProof WmPath WmTree.
Set Implicit Arguments.

(** A matrix built over a non-empty list [xs] whose values have [h] bits; [H] is the height given
    by the type, or none, when the height comes from the greatest value. *)
Definition built (H : option nat) (xs : list Z) (h : nat) (m : wm) : Prop :=
  xs <> [] /\ wm_height H xs = Some h /\ 1 <= h <= 64 /\ (forall x, In x xs -> (0 <= x < 2 ^ Z.of_nat h)%Z) /\ wm_build H xs = Some m.

(** What the lists of the answers are. [exact ys R]: every pair is a value of [ys] with its number
    of occurrences. *)
Definition exact (ys : list Z) (R : list (Z * nat)) : Prop := forall v f, In (v, f) R -> f = howmany (Z.eqb v) ys /\ 0 < f.
(** At most [k] most frequent values, the more frequent ones first. *)
Definition most_frequent (k : nat) (ys : list Z) (R : list (Z * nat)) : Prop :=
  NoDup (map fst R) /\ StronglySorted (fun a b => b <= a) (map snd R) /\ exact ys R /\ length R <= k /\
  forall x, In x ys -> In x (map fst R) \/ (length R = k /\ forall v f, In (v, f) R -> howmany (Z.eqb x) ys <= f).
(** The first [k] in the order [lt] of the distinct values of [ys] with [keep]. *)
Definition first_values (lt : Z -> Z -> Prop) (keep : Z -> bool) (k : nat) (ys : list Z) (R : list (Z * nat)) : Prop :=
  StronglySorted lt (map fst R) /\ exact ys R /\ (forall v, In v (map fst R) -> keep v = true) /\ length R <= k /\
  forall x, In x ys -> keep x = true -> In x (map fst R) \/ (length R = k /\ forall v, In v (map fst R) -> lt v x).
(** All distinct values of [ys] with [keep], ascending, with their numbers of occurrences. *)
Definition all_values (keep : Z -> bool) (ys : list Z) (R : list (Z * nat)) : Prop :=
  StronglySorted Z.lt (map fst R) /\ exact ys R /\ forall x, In x (map fst R) <-> In x ys /\ keep x = true.

Lemma max_ge xs : forall a x, In x xs \/ x = a -> (x <= fold_left Z.max xs a)%Z.
Proof.
  induction xs as [|y xs IH]; intros a x K; cbn [fold_left]; [destruct K as [[]| ->]; lia|].
  assert (G : (Z.max a y <= fold_left Z.max xs (Z.max a y))%Z) by (apply IH; auto). destruct K as [[<-|I]| ->]; [lia|apply IH; auto|lia].
Qed.
Lemma max_word xs : (forall x, In x xs -> (0 <= x < 2 ^ 64)%Z) -> forall a, (0 <= a < 2 ^ 64)%Z -> (0 <= fold_left Z.max xs a < 2 ^ 64)%Z.
Proof. induction xs as [|y xs IH]; intros Hx a Ha; cbn [fold_left]; auto. apply IH; [intros; apply Hx; now right|]. specialize (Hx y (or_introl eq_refl)). lia. Qed.

(** The constructor works on every non-empty list of 64-bit values when the height comes from the
    greatest value, and on values of the given number of bits otherwise. *)
Theorem C66_build xs : xs <> [] -> (forall x, In x xs -> (0 <= x < 2 ^ 64)%Z) ->
  (exists h m, built None xs h m) /\
  (forall h, 1 <= h <= 64 -> (forall x, In x xs -> (x < 2 ^ Z.of_nat h)%Z) -> exists m, built (Some h) xs h m).
Proof.
  intros Ne Hx. assert (Hl : 0 < length xs) by (destruct xs; [congruence|cbn; lia]). assert (Hf : Forall (fun x => 0 <= x)%Z xs) by (apply Forall_forall; intros x Ix; apply Hx; auto). split.
  - pose proof (@max_word xs Hx 0%Z ltac:(lia)) as Mw. set (M := fold_left Z.max xs 0%Z) in *. assert (Hh : exists h, wm_height None xs = Some h /\ 1 <= h <= 64 /\ (M < 2 ^ Z.of_nat h)%Z).
    { unfold wm_height. fold M. destruct (Z.eq_dec M 0) as [->|N0].
      - exists 1. change (clz 0) with (Some 64%Z). cbn. repeat split; lia.
      - rewrite clz_log2 by (unfold word64; auto; lia). cbn [obind]. assert (0 < M)%Z by lia. pose proof (Z.log2_spec M ltac:(lia)) as Ls. assert (Z.log2 M < 64)%Z by (apply Z.log2_lt_pow2; lia). pose proof (Z.log2_nonneg M). eexists; split; [reflexivity|]. split; [lia|]. eapply Z.lt_le_trans; [apply Ls|]. apply Z.pow_le_mono_r; lia. }
    destruct Hh as (h & Eh & Hh & Hm). destruct (@build_wm h xs Hl ltac:(lia) None Eh Hf) as (m & Em & _). exists h, m. repeat split; auto; try lia; try (apply Hx; auto; fail). eapply Z.le_lt_trans; [|exact Hm]. apply max_ge. auto.
  - intros h Hh Hb. destruct (@build_wm h xs Hl ltac:(lia) (Some h) eq_refl Hf) as (m & Em & _). exists m. repeat split; auto; try lia; apply Hx; auto.
Qed.

Section Built.
Variable H : option nat.
Variable xs : list Z.
Variable h : nat.
Variable m : wm.
Hypothesis B : built H xs h m.
Notation n := (length xs).
Lemma b_n : 0 < n. Proof. destruct B as (Ne & _). destruct xs; [congruence|cbn; lia]. Qed.
Lemma b_h : 0 < h. Proof. destruct B as (_ & _ & A & _). lia. Qed.
Lemma b_v x : In x xs -> (0 <= x < 2 ^ Z.of_nat h)%Z. Proof. destruct B as (_ & _ & _ & A & _). apply A. Qed.
Lemma b_m : wmi h xs m.
Proof. destruct B as (_ & Eh & _ & A & E). destruct (@build_wm h xs b_n b_h H Eh) as (m' & E' & W); [apply Forall_forall; intros x Ix; apply A; auto|]. congruence. Qed.
Lemma b_64 : h <= 64. Proof. destruct B as (_ & _ & A & _). lia. Qed.

(** [get] gives back the list. *)
Theorem C66_get i x : get xs i = Some x -> wm_get m i = Some x.
Proof. apply (get_ok b_n b_h b_v b_m _ b_64). Qed.

(** Counting: equal to [c], smaller, greater, and between two bounds. *)
Theorem C66_counts l r : l <= r <= n -> let ys := slice l r xs in
  (forall c, (0 <= c < 2 ^ Z.of_nat h)%Z -> range_rank m c l r = Some (howmany (Z.eqb c) ys) /\
    rank_3way m c l r = Some (howmany (fun x => x <? c)%Z ys, howmany (Z.eqb c) ys, howmany (fun x => c <? x)%Z ys)) /\
  (forall x y, h < 64 -> range_freq m l r x y = Some (howmany (fun v => (x <=? v) && (v <? y))%Z ys)).
Proof.
  intros Hr ys. split.
  - intros c Hc. split; [apply (range_rank_ok b_n b_h b_v b_m Hc Hr)|apply (rank_3way_ok b_n b_h b_v b_m Hc Hr)].
  - intros x y H64. apply (range_freq_ok b_n b_h b_v b_m Hr x y H64).
Qed.
Theorem C66_rank c i : (0 <= c < 2 ^ Z.of_nat h)%Z -> i <= n -> wm_rank m c i = Some (howmany (Z.eqb c) (firstn i xs)).
Proof. intros Hc Hi. unfold wm_rank. rewrite (range_rank_ok b_n b_h b_v b_m Hc (l := 0) (r := i)) by lia. unfold slice. now rewrite Nat.sub_0_r. Qed.

(** The position of the [i]th occurrence, or the size. *)
Theorem C66_select c : (0 <= c < 2 ^ Z.of_nat h)%Z ->
  (forall l r i, l <= r <= n -> range_select m c l r i = Some (match nth_occ c i (slice l r xs) with Some q => l + q | None => n end)) /\
  (forall i, wm_select m c i = Some (match nth_occ c i xs with Some q => q | None => n end)).
Proof.
  intros Hc. split; [intros l r i Hr; apply (range_select_ok b_n b_h b_v b_m Hc Hr)|]. intros i. unfold wm_select. rewrite (w_n b_m). rewrite (range_select_ok b_n b_h b_v b_m Hc (l0 := 0) (r0 := n)) by lia. rewrite slice_full. reflexivity.
Qed.

(** The [k]th of a sorted range. *)
Theorem C66_quantile l r k s : l <= r <= n -> k < r - l -> Permutation s (slice l r xs) -> StronglySorted Z.le s -> quantile m l r k = Some (nth k s 0%Z).
Proof.
  intros Hr Hk Pm Ss. destruct (quantile_ok b_n b_h b_v b_m b_64 Hr Hk) as (c & -> & C). f_equal.
  assert (HP : forall p, howmany p (slice l r xs) = howmany p s). { intros p. unfold howmany. clear - Pm. induction Pm; cbn [filter]; auto; repeat destruct (p _); cbn [length]; lia. }
  rewrite !HP in C. assert (Ls : k < length s) by (rewrite (Permutation_length Pm), slice_length; lia). clear - C Ls Ss.
  revert k C Ls. induction Ss as [|x s Ss IH Fx]; intros k C Ls; [cbn in Ls; lia|]. rewrite Forall_forall in Fx. unfold howmany in *. cbn [filter] in C. destruct k as [|k]; cbn [nth].
  - destruct (Z.ltb_spec x c); [cbn [length] in C; lia|]. destruct (Z.leb_spec x c); [lia|]. rewrite (@filter_none _ (fun x => (x <=? c)%Z) s) in C; [cbn [length] in C; lia|]. intros y Iy. specialize (Fx y Iy). apply Z.leb_gt. lia.
  - cbn [length] in Ls. assert (N1 : (c <= x)%Z -> filter (fun x => (x <? c)%Z) s = []) by (intros; apply filter_none; intros y Iy; specialize (Fx y Iy); apply Z.ltb_ge; lia). assert (N2 : (c < x)%Z -> filter (fun x => (x <=? c)%Z) s = []) by (intros; apply filter_none; intros y Iy; specialize (Fx y Iy); apply Z.leb_gt; lia).
    apply IH; [|lia]. destruct (Z.ltb_spec x c), (Z.leb_spec x c); cbn [length] in C; try lia.
    + rewrite N1 in * by lia. cbn [length] in *. lia.
    + rewrite N2 in C by lia. cbn [length] in C. lia.
Qed.

Lemma exact_of l r R : sound xs l r R -> exact (slice l r xs) R.
Proof. intros K v f I. unfold sound in K. rewrite Forall_forall in K. apply (K (v, f) I). Qed.
(** The [k >= 1] most frequent values of a range, and the sum of a range. *)
Theorem C66_top l r : l <= r <= n -> l < n ->
  (forall k, 1 <= k -> exists R, top_k m l r k = Some R /\ most_frequent k (slice l r xs) R) /\
  wm_sum m l r = Some (fold_right Z.add 0%Z (slice l r xs)).
Proof.
  intros Hr Hl. split; [|exact (sum_ok b_n b_h b_v b_m Hr Hl)]. intros k Hk. destruct (top_k_ok b_n b_h b_v b_m Hr k Hl) as (R & E & A & C & D & F & G). exists R. split; auto. split; [auto|split; [auto|split; [now apply exact_of|split; [lia|auto]]]].
Qed.
(** The least and the greatest [k >= 1] distinct values of a range, and all its values from [x] to
    below [y]. *)
Theorem C66_lists l r : l <= r <= n -> l < n -> let ys := slice l r xs in
  (forall k, 1 <= k -> exists R, range_min_k m l r k = Some R /\ first_values Z.lt (fun _ => true) k ys R) /\
  (forall k, 1 <= k -> exists R, range_max_k m l r k = Some R /\ first_values (fun a b => b < a)%Z (fun _ => true) k ys R) /\
  (forall k x y, 1 <= k -> (0 <= x)%Z -> (0 < y)%Z -> exists R, range_list_k true true m l r k x y = Some R /\ first_values Z.lt (fun v => (x <=? v) && (v <? y))%Z k ys R) /\
  (forall x y, (0 <= x)%Z -> (0 < y)%Z -> exists R, range_list m l r x y = Some R /\ all_values (fun v => (x <=? v) && (v <? y))%Z ys R).
Proof.
  intros Hr Hl ys. assert (V : forall asc vr X Y k, 1 <= k -> (vr = true -> (0 <= X /\ 0 < Y)%Z) -> exists R, range_list_k asc vr m l r k X Y = Some R /\ first_values (ordr asc) (inr_ vr X Y) k ys R).
  { intros asc vr X Y k Hk HXY. destruct (range_list_k_ok b_n b_h b_v b_m Hr asc HXY k Hl) as (R & E & A & C & D & F & G). exists R. split; auto. split; [auto|split; [now apply exact_of|split; [auto|split; [lia|auto]]]]. }
  split; [|split; [|split]].
  - intros k Hk. apply (V true false 0%Z 0%Z k Hk). discriminate.
  - intros k Hk. apply (V false false 0%Z 0%Z k Hk). discriminate.
  - intros k x y Hk Hx Hy. apply (V true true x y k Hk). auto.
  - intros x y Hx Hy. unfold range_list. rewrite usub_ok by lia. cbn [obind]. destruct (range_list_k_ok b_n b_h b_v b_m Hr true (vr := true) (X := x) (Y := y) (fun _ => conj Hx Hy) (r - l) Hl) as (R & E & A & C & D & F & G).
    exists R. split; auto. split; [exact A|]. split; [now apply exact_of|]. intros v. split; [intros Iv; split; [exact (sound_in b_n b_h b_v b_m Hr v C Iv)|now apply D]|]. intros (Iv & Kv). destruct (F v Iv Kv) as [I|(El & _)]; auto.
    apply (all_in b_n b_h b_v b_m Hr); auto; [exact (ordr_irrefl b_n b_h b_v b_m Hr true A)|intros z Iz; exact (sound_in b_n b_h b_v b_m Hr z C Iz)|]. rewrite map_length, slice_length; lia.
Qed.
(** With the height 64 [range_freq] shifts a 64-bit one by 64, whatever it is asked. *)
Theorem C66_freq64_refuted l r x y : h = 64 -> l < r -> r <= n -> range_freq m l r x y = None.
Proof.
  intros E64 Hl Hr. unfold range_freq. rewrite (w_h b_m), (w_n b_m). destruct (Nat.eqb_spec l r) as [|Nlr]; [lia|]. replace ((r - l) * (h + 1) + 2) with (S ((r - l) * (h + 1) + 1)) by lia. cbn [loop]. destruct (Nat.ltb_spec l r); [|lia]. destruct (Nat.ltb_spec 0 n); [|lia]. cbn [andb guard obind]. rewrite Nat.div_small by lia. rewrite usub_ok by lia. cbn [obind]. rewrite E64. reflexivity.
Qed.
End Built.

(** Outside these conditions: a value with more bits than the matrix is taken modulo [2^h]; [k = 0]
    gives every value; an empty range at the very end of a one-bit matrix gives a pair with the
    frequency 0; an empty matrix divides by zero. *)
Theorem C66_edges_refuted :
  (let* m := wm_build None [1; 0; 1]%Z in range_rank m 3 0 3) = Some 2 /\
  (let* m := wm_build None [1; 0; 1]%Z in range_select m 3 0 3 1) = Some 2 /\
  (let* m := wm_build None [1; 0; 1]%Z in top_k m 0 3 0) = Some [(1%Z, 2); (0%Z, 1)] /\
  (let* m := wm_build None [1; 0; 1]%Z in top_k m 3 3 1) = Some [(0%Z, 0)] /\
  (let* m := wm_build None [] in top_k m 0 0 1) = None.
Proof. vm_compute. repeat split. Qed.

Definition digits : list Z := [3; 1; 4; 1; 5; 9; 2; 6; 5; 3; 5]%Z.
Example C66_example :
  (let* m := wm_build None digits in Some (wh m)) = Some 4 /\
  (let* m := wm_build None digits in wm_get m 5) = Some 9%Z /\
  (let* m := wm_build None digits in rank_3way m 5 1 9) = Some (4, 2, 2) /\
  (let* m := wm_build None digits in range_freq m 1 10 2 6) = Some 5 /\
  (let* m := wm_build None digits in wm_select m 5 2) = Some 10 /\
  (let* m := wm_build None digits in wm_select m 5 3) = Some 11 /\
  (let* m := wm_build None digits in quantile m 2 9 3) = Some 5%Z /\
  (let* m := wm_build None digits in top_k m 0 11 3) = Some [(5%Z, 3); (3%Z, 2); (1%Z, 2)] /\
  (let* m := wm_build None digits in wm_sum m 2 7) = Some 21%Z /\
  (let* m := wm_build None digits in range_max_k m 0 11 2) = Some [(9%Z, 1); (6%Z, 1)] /\
  (let* m := wm_build (Some 8) digits in range_list m 1 10 2 6) = Some [(2%Z, 1); (3%Z, 1); (4%Z, 1); (5%Z, 2)].
Proof. vm_compute. repeat split. Qed.

Print Assumptions C66_build.
Print Assumptions C66_get.
Print Assumptions C66_counts.
Print Assumptions C66_rank.
Print Assumptions C66_select.
Print Assumptions C66_quantile.
Print Assumptions C66_top.
Print Assumptions C66_lists.
Print Assumptions C66_freq64_refuted.
Print Assumptions C66_edges_refuted.
