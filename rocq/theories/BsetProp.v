(** * C76, C77: [BinarySet] and [BinaryMultiset] over a [Bitmap] *)
From Coq Require Import Permutation Sorted.
From Verif Require Import Base BaseLemmas ListExtra NthExtra StdAlgo BitModel BmapModel BmapProof BmapProp BvModel BvSel BvBlock BvProof BvOps BvProp BsetModel BsetProof.
Set Implicit Arguments.

(** After any history of [insert] and [build] that ends with a [build], the queries are about the
    set of inserted values. [contains] and [lower_bound] read the words of the bitmap without a
    check: they are defined only up to the end of the last word. *)
Theorem C76_set cs : exists s, bs_run (cs ++ [SBuild]) bs_new = Some s /\
  let l := inserted cs in
  bs_size s = Some (below l (limit l)) /\
  (forall x, bs_rank s x = Some (below l x)) /\
  (forall x, x / 64 < (limit l + 63) / 64 -> bs_contains s x = Some (mem x l)) /\
  ((Z.of_nat (limit l) < 2 ^ 32)%Z ->
    (forall i, exists r, bs_get s i = Some r /\ ((In r l /\ below l r = i) \/ (below l (limit l) <= i /\ r = limit l))) /\
    (forall x, x / 64 < (limit l + 63) / 64 -> exists r, bs_lower s x = Some r /\ nearest l x (limit l) r) /\
    (forall x, (x + 1) / 64 < (limit l + 63) / 64 -> (Z.of_nat x + 1 < 2 ^ 32)%Z -> exists r, bs_upper s x = Some r /\ nearest l (x + 1) (limit l) r)).
Proof.
  destruct (reach_ok cs) as (s & E & H). exists s. split; [exact E|]. intros l. split; [exact (q_size H)|]. split; [exact (q_rank H)|]. split.
  { intros x Hx. rewrite (q_contains H). fold l. now rewrite (proj2 (Nat.ltb_lt _ _) Hx). }
  intros L32. split; [intros i; exact (q_get H i L32)|]. split; [intros x Hx; exact (q_lower H _ L32 Hx)|].
  intros x Hx H32. unfold bs_upper. replace (Z.of_nat x + 1)%Z with (Z.of_nat (x + 1)) in * by lia. rewrite w32_small by auto. exact (q_lower H _ L32 Hx).
Qed.
(** Beyond the last word these queries read outside the bitmap: for every set there are values
    (all those from the next multiple of 64) for which they are undefined. *)
Theorem C76_beyond_refuted cs x : (limit (inserted cs) + 63) / 64 <= x / 64 ->
  exists s, bs_run (cs ++ [SBuild]) bs_new = Some s /\ bs_contains s x = None /\ bs_lower s x = None.
Proof.
  intros Hx. destruct (reach_ok cs) as (s & E & H). exists s. split; [exact E|]. assert (K : bs_contains s x = None).
  { rewrite (q_contains H). destruct (Nat.ltb_spec (x / 64) ((limit (inserted cs) + 63) / 64)); auto. lia. }
  split; auto. unfold bs_lower. now rewrite K.
Qed.
(** In particular the successor of the greatest value 63. *)
Example C76_beyond_63 : (let* s := bs_run [SIns 63; SBuild] bs_new in Some (bs_upper s 62, bs_upper s 63)) = Some (Some 63, None).
Proof. vm_compute. reflexivity. Qed.
Example C76_ex : (let* s := bs_run [SIns 70; SIns 3; SBuild; SIns 3; SIns 65; SBuild] bs_new in
  let* n := bs_size s in let* a := bs_lower s 4 in let* b := bs_rank s 70 in let* c := bs_get s 2 in let* d := bs_upper s 70 in Some (n, a, b, c, d)) = Some (3, 65, 2, 70, 71).
Proof. vm_compute. reflexivity. Qed.

(** ** The multiset *)
Definition less (l : list nat) (x : nat) : nat := length (filter (fun v => v <? x) l).
Definition occ (l : list nat) (x : nat) : nat := length (filter (fun v => v =? x) l).

Lemma filter_perm (f : nat -> bool) l l' : Permutation l l' -> length (filter f l) = length (filter f l').
Proof. intros P. induction P; cbn [filter]; auto; [destruct (f x); cbn; auto|destruct (f x), (f y); cbn; auto|congruence]. Qed.
Lemma upto_less vs x : upto vs x = less vs (x + 1).
Proof. unfold upto, less. f_equal. apply filter_ext. intros v. destruct (Nat.leb_spec v x), (Nat.ltb_spec v (x + 1)); auto; lia. Qed.
Lemma occ_less vs x : less vs (x + 1) = less vs x + occ vs x.
Proof.
  unfold less, occ. induction vs as [|v vs IH]; auto. cbn [filter]. destruct (Nat.ltb_spec v (x + 1)), (Nat.ltb_spec v x), (Nat.eqb_spec v x); cbn [length]; lia.
Qed.
Lemma less_0 vs : less vs 0 = 0.
Proof. unfold less. induction vs as [|v vs IH]; auto. Qed.
Lemma less_le vs x : less vs x <= length vs.
Proof. unfold less. induction vs as [|v vs IH]; auto. cbn [filter]. destruct (v <? x); cbn [length]; lia. Qed.
Lemma less_all vs x : (forall v, In v vs -> v < x) -> less vs x = length vs.
Proof.
  unfold less. induction vs as [|v vs IH]; intros H; auto. cbn [filter]. destruct (Nat.ltb_spec v x) as [L|L]; [|specialize (H v (or_introl eq_refl)); lia]. cbn [length]. f_equal. apply IH. intros; apply H; now right.
Qed.
Lemma less_mono vs x y : x <= y -> less vs x <= less vs y.
Proof. intros H. induction H; auto. replace (S m) with (m + 1) by lia. rewrite occ_less. lia. Qed.
Lemma occ_in vs x : In x vs -> 1 <= occ vs x.
Proof. intros H. unfold occ. destruct (filter (fun v => v =? x) vs) eqn:E; [|cbn; lia]. assert (In x (filter (fun v => v =? x) vs)) by (apply filter_In; split; auto; apply Nat.eqb_refl). rewrite E in *. now destruct H0. Qed.
Lemma occ_notin vs x : ~ In x vs -> occ vs x = 0.
Proof. intros H. unfold occ. induction vs as [|v vs IH]; auto. cbn [filter]. destruct (Nat.eqb_spec v x) as [->|]; [destruct H; now left|]. apply IH. intros K. apply H. now right. Qed.
Lemma nth_upto vs : forall a i x, sorted_from a vs -> i < length vs -> (nth i vs 0 <= x <-> i < upto vs x).
Proof.
  induction vs as [|v vs IH]; intros a i x S Hi; [cbn in Hi; lia|]. apply sorted_from_cons in S. destruct S as (L & S). unfold upto. cbn [filter]. destruct (Nat.leb_spec v x) as [Lx|Lx].
  - destruct i as [|i]; cbn [nth length] in *; [lia|]. rewrite (IH v) by (auto; lia). unfold upto. lia.
  - assert (E : filter (fun w => w <=? x) vs = []).
    { destruct S as (_ & F). clear - F Lx. induction vs as [|w vs IH]; auto. apply Forall_cons_iff in F. destruct F as (L & F). cbn [filter]. destruct (Nat.leb_spec w x); [lia|]. auto. }
    rewrite E. cbn [length]. assert (v <= nth i (v :: vs) 0); [|lia]. destruct i as [|i]; [cbn; lia|]. cbn [nth length] in *. destruct S as (_ & F). rewrite Forall_forall in F. apply F. apply nth_In. lia.
Qed.
Lemma top_limit l vs : Permutation l vs -> sorted_from 0 vs -> top 0 vs = limit l - 1.
Proof.
  intros P S. destruct vs as [|v vs].
  { apply Permutation_sym, Permutation_nil in P. now subst. }
  assert (Hl : l <> []) by (intros ->; apply Permutation_nil in P; discriminate). pose proof (limit_in Hl) as I1.
  assert (I2 : In (top 0 (v :: vs)) (v :: vs)). { unfold top. rewrite (app_removelast_last (l := v :: vs) 0) at 2 by discriminate. apply in_or_app. right. now left. }
  assert (T : forall ws a, sorted_from a ws -> forall w, In w ws -> w <= top a ws).
  { induction ws as [|u ws IH]; intros a Sa w Hw; [destruct Hw|]. rewrite top_cons. apply sorted_from_cons in Sa. destruct Sa as (L & Sa). destruct Hw as [->|Hw]; [now apply top_ge|eauto]. }
  pose proof (T _ _ S _ (Permutation_in _ P I1)). pose proof (limit_lt _ _ (Permutation_in _ (Permutation_sym P) I2)). lia.
Qed.

Section M.
Variables (s : mset) (l : list nat).
Hypothesis H : ms_built s l.
Lemma sel_zero vs x : Permutation l vs -> sorted_from 0 vs -> kth false x (code 0 vs) = if x <? limit l then x + less l (x + 1) else limit l - 1 + length l.
Proof.
  intros P S. pose proof (top_limit P S) as T. pose proof (code_cnt false S) as C. pose proof (code_len S) as Ln. cbn [Nat.sub] in *. rewrite Nat.sub_0_r in C, Ln.
  destruct (Nat.lt_ge_cases x (top 0 vs)) as [Lx|Lx].
  - destruct (Nat.ltb_spec x (limit l)); [|lia]. rewrite code_zero by (auto; lia). rewrite upto_less. cbn [Nat.add]. unfold less. now rewrite (filter_perm _ P).
  - rewrite kth_none by lia. rewrite Ln, <- (Permutation_length P). destruct (Nat.ltb_spec x (limit l)); [|lia]. rewrite less_all; [lia|]. intros v Hv. pose proof (limit_lt _ _ Hv). lia.
Qed.
Lemma m_sel vs d : ms_rs s = Some (d, length l) -> Permutation l vs -> sorted_from 0 vs -> (forall b k, ms_sel s b k = Some (kth b k (code 0 vs))) ->
  forall x, ms_sel s false x = Some (if x <? limit l then x + less l (x + 1) else limit l - 1 + length l).
Proof. intros E P S Hs x. rewrite Hs. now rewrite sel_zero. Qed.
Lemma m_bsz : bsz (ms_bm s) = limit l - 1 + length l.
Proof. destruct H as (vs & d & P & S & I & E & Hs). destruct I as (_ & _ & -> & _). rewrite (code_len S), (top_limit P S), (Permutation_length P). lia. Qed.
Lemma m_rank x : ms_rank s x = Some (less l x).
Proof.
  pose proof m_bsz as Bz. destruct H as (vs & d & P & S & I & E & Hs). unfold ms_rank, ms_size. rewrite E. cbn [obind]. rewrite Bz. destruct (Nat.leb_spec (length l) (limit l - 1 + length l)); [|lia]. cbn [guard obind].
  replace (limit l - 1 + length l - length l) with (limit l - 1) by lia. destruct (Nat.leb_spec x (limit l - 1)) as [Lx|Lx].
  - destruct (Nat.eqb_spec x 0) as [->|N0]; [now rewrite less_0|]. rewrite (m_sel E P S Hs). cbn [obind]. destruct (Nat.ltb_spec (x - 1) (limit l)); [|lia]. replace (x - 1 + 1) with x by lia.
    destruct (Nat.leb_spec (x - 1) (x - 1 + less l x)); [|lia]. cbn [guard obind]. f_equal. lia.
  - f_equal. symmetry. apply less_all. intros v Hv. pose proof (limit_lt _ _ Hv). lia.
Qed.
Lemma m_get i : (Z.of_nat (limit l) < 2 ^ 32)%Z -> i < length l -> exists r, ms_get s i = Some r /\ In r l /\ less l r <= i < less l (r + 1).
Proof.
  intros L32 Hi. destruct H as (vs & d & P & S & I & E & Hs). unfold ms_get. rewrite Hs. cbn [obind]. rewrite code_one by (auto; rewrite <- (Permutation_length P); auto). rewrite Nat.sub_0_r.
  assert (Hi' : i < length vs) by (rewrite <- (Permutation_length P); auto). assert (Ir : In (nth i vs 0) l) by (apply (Permutation_in _ (Permutation_sym P)), nth_In; auto). pose proof (limit_lt _ _ Ir).
  exists (nth i vs 0). split; [f_equal; replace (Z.of_nat (nth i vs O + i) - Z.of_nat i)%Z with (Z.of_nat (nth i vs 0)) by lia; apply w32_small; lia|]. split; auto.
  assert (Pl : forall x, less l x = less vs x) by (intros; unfold less; now apply filter_perm). rewrite !Pl. split.
  - destruct (Nat.eq_dec (nth i vs 0) 0) as [->|N0]; [rewrite less_0; lia|]. pose proof (@nth_upto vs 0 i (nth i vs 0 - 1) S Hi') as K. rewrite upto_less in K. replace (nth i vs 0 - 1 + 1) with (nth i vs 0) in K by lia. lia.
  - pose proof (@nth_upto vs 0 i (nth i vs 0) S Hi') as K. rewrite upto_less in K. lia.
Qed.
Lemma m_lower x : (Z.of_nat (limit l) < 2 ^ 32)%Z -> exists r, ms_lower s x = Some r /\ nearest l x (limit l - 1) r.
Proof.
  intros L32. unfold ms_lower. rewrite m_rank. cbn [obind]. destruct (Nat.lt_ge_cases (less l x) (length l)) as [Lt|Ge].
  - destruct (m_get L32 Lt) as (r & -> & Ir & L1 & L2). exists r. split; auto. left. split; auto. split.
    + destruct (Nat.lt_ge_cases r x); auto. pose proof (@less_mono l (r + 1) x ltac:(lia)). lia.
    + intros y Iy Hy. destruct (Nat.lt_ge_cases y r); auto. pose proof (@less_mono l (y + 1) r ltac:(lia)). rewrite occ_less in H1. pose proof (occ_in _ _ Iy). pose proof (@less_mono l x y Hy). lia.
  - destruct H as (vs & d & P & S & I & E & Hs). unfold ms_get. rewrite Hs. cbn [obind]. pose proof (less_le l x). assert (El : less l x = length l) by lia. rewrite El.
    rewrite kth_none by (rewrite (code_cnt true S), (Permutation_length P); lia). rewrite (code_len S), (top_limit P S), <- (Permutation_length P).
    exists (limit l - 1). split; [f_equal; replace (Z.of_nat (limit l - 1 - 0 + length l) - Z.of_nat (length l))%Z with (Z.of_nat (limit l - 1)) by lia; apply w32_small; lia|]. right. split; auto.
    intros y Iy. destruct (Nat.lt_ge_cases y x); auto. pose proof (@less_mono l x y ltac:(lia)). pose proof (occ_in _ _ Iy). pose proof (occ_less l y). pose proof (less_le l (y + 1)). lia.
Qed.
Lemma m_count x : (Z.of_nat (length l) < 2 ^ 64)%Z -> x < limit l \/ x = 0 -> ms_count s x = Some (Z.of_nat (occ l x)).
Proof.
  intros L64 Hx. destruct H as (vs & d & P & S & I & E & Hs). unfold ms_count. rewrite (m_sel E P S Hs). cbn [obind].
  assert (Ho : (Z.of_nat (occ l x) < 2 ^ 64)%Z). { pose proof (occ_less l x). pose proof (less_le l (x + 1)). lia. }
  destruct (Nat.eqb_spec x 0) as [->|N0].
  - cbn [obind]. f_equal. rewrite <- (Z.mod_small (Z.of_nat (occ l 0)) (2 ^ 64)) by lia. unfold u64. f_equal. pose proof (occ_less l 0) as K. rewrite less_0 in K. cbn [Nat.add] in *. destruct (Nat.ltb_spec 0 (limit l)); [lia|].
    destruct l as [|y r]; [reflexivity|]. pose proof (limit_lt (y :: r) y (or_introl eq_refl)). lia.
  - rewrite (m_sel E P S Hs). cbn [obind]. destruct (Nat.ltb_spec x (limit l)); [|lia]. destruct (Nat.ltb_spec (x - 1) (limit l)); [|lia]. f_equal. replace (x - 1 + 1) with x by lia.
    pose proof (occ_less l x) as K. rewrite K. rewrite <- (Z.mod_small (Z.of_nat (occ l x)) (2 ^ 64)) by lia. unfold u64. f_equal. lia.
Qed.
Lemma m_count_out x : limit l <= x -> x <> 0 -> ms_count s x = Some (2 ^ 64 - 1)%Z.
Proof.
  intros Hx N0. destruct H as (vs & d & P & S & I & E & Hs). unfold ms_count. rewrite (m_sel E P S Hs). cbn [obind]. destruct (Nat.eqb_spec x 0); [lia|]. rewrite (m_sel E P S Hs). cbn [obind]. destruct (Nat.ltb_spec x (limit l)); [lia|].
  f_equal. destruct (Nat.ltb_spec (x - 1) (limit l)).
  - assert (x = limit l) by lia. subst x. rewrite less_all by (intros v Hv; pose proof (limit_lt _ _ Hv); lia). replace (Z.of_nat (limit l - 1 + length l) - Z.of_nat (limit l - 1 + length l + 1))%Z with (-1)%Z by lia. reflexivity.
  - replace (Z.of_nat (limit l - 1 + length l) - Z.of_nat (limit l - 1 + length l + 1))%Z with (-1)%Z by lia. reflexivity.
Qed.
Lemma m_contains x : x < limit l -> ms_contains s x = Some (mem x l).
Proof.
  intros Hx. pose proof m_bsz as Bz. destruct H as (vs & d & P & S & I & E & Hs). unfold ms_contains. rewrite (m_sel E P S Hs). cbn [obind]. destruct (Nat.ltb_spec x (limit l)); [|lia].
  assert (Lc : length (code 0 vs) = limit l - 1 + length l) by (rewrite <- Bz; symmetry; apply I).
  pose proof (less_le l (x + 1)). assert (Pl : forall y, less l y = less vs y) by (intros; unfold less; now apply filter_perm).
  destruct (Nat.eqb_spec (x + less l (x + 1)) 0) as [E0|N0].
  - f_equal. symmetry. apply not_true_iff_false. intros M. apply mem_In in M. pose proof (occ_in _ _ M). pose proof (occ_less l x). lia.
  - rewrite (bm_get_ok I) by lia. f_equal. destruct (mem x l) eqn:M.
    + apply mem_In in M. pose proof (occ_in _ _ M). pose proof (occ_less l x). set (k := less l (x + 1) - 1). assert (Hk : k < length vs) by (rewrite <- (Permutation_length P); lia).
      pose proof (@nth_upto vs 0 k x S Hk) as K1. rewrite upto_less, <- Pl in K1. assert (Kx : nth k vs 0 = x).
      { assert (nth k vs 0 <= x) by (apply K1; lia). destruct (Nat.eq_dec x 0); [lia|]. pose proof (@nth_upto vs 0 k (x - 1) S Hk) as K2. rewrite upto_less, <- Pl in K2. replace (x - 1 + 1) with x in K2 by lia. lia. }
      pose proof (@code_one vs 0 k S Hk) as Ko. rewrite Kx in Ko. replace (x + less l (x + 1) - 1) with (x - 0 + k) by lia. rewrite <- Ko. apply kth_inv. now rewrite (code_cnt true S).
    + assert (Nx : ~ In x l) by (intros K; apply mem_In in K; congruence). pose proof (occ_less l x) as Ol. rewrite (occ_notin _ _ Nx) in Ol.
      assert (x <> 0) by (intros ->; rewrite less_0 in Ol; cbn in *; lia). pose proof (sel_zero (x - 1) P S) as Z1. destruct (Nat.ltb_spec (x - 1) (limit l)); [|lia]. replace (x - 1 + 1) with x in Z1 by lia.
      replace (x + less l (x + 1) - 1) with (x - 1 + less l x) by lia. rewrite <- Z1. apply kth_inv. rewrite (code_cnt false S), (top_limit P S). lia.
Qed.
Lemma m_contains_out x : limit l <= x -> ms_contains s x = Some (match l with [] => false | _ => true end).
Proof.
  intros Hx. pose proof m_bsz as Bz. destruct H as (vs & d & P & S & I & E & Hs). unfold ms_contains. rewrite (m_sel E P S Hs). cbn [obind]. destruct (Nat.ltb_spec x (limit l)); [lia|].
  destruct l as [|y r] eqn:El; [reflexivity|]. rewrite <- El in *. assert (Hn : 0 < length l) by (rewrite El; cbn; lia). destruct (Nat.eqb_spec (limit l - 1 + length l) 0); [lia|].
  assert (Lc : length (code 0 vs) = limit l - 1 + length l) by (rewrite <- Bz; symmetry; apply I). rewrite (bm_get_ok I) by lia. f_equal.
  assert (Hk : length l - 1 < length vs) by (rewrite <- (Permutation_length P); lia). pose proof (@code_one vs 0 _ S Hk) as Ko.
  assert (Kx : nth (length l - 1) vs 0 = limit l - 1). { rewrite <- (top_limit P S). unfold top. rewrite (Permutation_length P). clear. induction vs as [|v [|w vs] IH]; auto. change (last (v :: w :: vs) 0) with (last (w :: vs) 0). rewrite <- IH. cbn [length]. now replace (S (S (length vs)) - 1) with (S (S (length vs) - 1)) by lia. }
  rewrite Kx in Ko. replace (limit l - 1 + length l - 1) with (limit l - 1 - 0 + (length l - 1)) by lia. rewrite <- Ko. apply kth_inv. rewrite (code_cnt true S). auto.
Qed.
End M.

(** After any insertions (in any order) and one [build]. *)
Theorem C77_multiset l : exists s, ms_build (fold_left ms_insert l ms_new) = Some s /\
  ms_size s = Some (length l) /\
  (forall x, ms_rank s x = Some (less l x)) /\
  (forall x, x < limit l -> ms_contains s x = Some (mem x l)) /\
  ((Z.of_nat (length l) < 2 ^ 64)%Z -> forall x, x < limit l \/ x = 0 -> ms_count s x = Some (Z.of_nat (occ l x))) /\
  ((Z.of_nat (limit l) < 2 ^ 32)%Z ->
    (forall i, i < length l -> exists r, ms_get s i = Some r /\ In r l /\ less l r <= i < less l (r + 1)) /\
    (forall x, exists r, ms_lower s x = Some r /\ nearest l x (limit l - 1) r) /\
    (forall x, (Z.of_nat x + 1 < 2 ^ 32)%Z -> exists r, ms_upper s x = Some r /\ nearest l (x + 1) (limit l - 1) r)).
Proof.
  destruct (msbuild_ok l) as (s & E & H). exists s. split; [exact E|]. split.
  { destruct H as (vs & d & _ & _ & _ & Er & _). unfold ms_size. now rewrite Er. }
  split; [exact (m_rank H)|]. split; [intros x; exact (@m_contains _ _ H x)|]. split; [intros L x; exact (m_count H L)|]. intros L32.
  split; [intros i; exact (@m_get _ _ H i L32)|]. split; [intros x; exact (m_lower H x L32)|]. intros x Hx. unfold ms_upper. replace (Z.of_nat x + 1)%Z with (Z.of_nat (x + 1)) in * by lia. rewrite w32_small by auto. exact (m_lower H (x + 1) L32).
Qed.
(** Above the greatest value, [contains] answers true and [count] answers 2^64 - 1. *)
Theorem C77_above_refuted l x : l <> [] -> limit l <= x ->
  exists s, ms_build (fold_left ms_insert l ms_new) = Some s /\ ~ In x l /\ ms_contains s x = Some true /\ ms_count s x = Some (2 ^ 64 - 1)%Z.
Proof.
  intros Hl Hx. destruct (msbuild_ok l) as (s & E & H). exists s. split; [exact E|]. split; [intros I; apply limit_lt in I; lia|]. split.
  - rewrite (m_contains_out H Hx). destruct l; [congruence|auto].
  - apply (m_count_out H Hx). destruct l as [|y r]; [congruence|]. pose proof (limit_lt (y :: r) y (or_introl eq_refl)). lia.
Qed.
(** A second [build] writes the new values over the old ones. *)
Theorem C77_rebuild_refuted : (let* s := ms_build (fold_left ms_insert [5] ms_new) in let* s := ms_build (ms_insert s 7) in
  let* n := ms_size s in let* a := ms_get s 0 in let* b := ms_get s 1 in let* c := ms_rank s 7 in Some (n, a, b, c)) = Some (1, 5, 6, 2).
Proof. vm_compute. reflexivity. Qed.
Example C77_ex : (let* s := ms_build (fold_left ms_insert [9; 4; 70; 4] ms_new) in
  let* a := ms_count s 4 in let* b := ms_contains s 5 in let* c := ms_contains s 9 in let* d := ms_upper s 4 in let* e := ms_get s 3 in let* r := ms_rank s 70 in Some (a, b, c, d, e, r)) = Some (2%Z, false, true, 9, 70, 3).
Proof. vm_compute. reflexivity. Qed.
Print Assumptions C76_set.
Print Assumptions C76_beyond_refuted.
Print Assumptions C77_multiset.
Print Assumptions C77_above_refuted.
Print Assumptions C77_rebuild_refuted.
