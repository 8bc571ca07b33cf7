From Coq Require Import Permutation Sorted.
From Verif Require Import Base BaseLemmas ListExtra StdAlgo BitModel BitProof BmapModel BmapProof BvModel BvProof BsetModel BsetProof BsetProp WmModel WmProof WmPath WmTree WmProp OrsModel.
Set Implicit Arguments.

Lemma point_lt_so : strict_order point_lt.
Proof.
  unfold point_lt. constructor; [intros (a, b)|intros (a, b) (c, d) (e, f)|intros (a, b) (c, d)]; cbn [fst snd].
  - rewrite Nat.eqb_refl. apply Nat.ltb_irrefl.
  - destruct (Nat.eqb_spec a c), (Nat.eqb_spec c e), (Nat.eqb_spec a e); rewrite ?Nat.ltb_lt; lia.
  - destruct (Nat.eqb_spec a c), (Nat.eqb_spec c a); rewrite ?Nat.ltb_ge; intros; try (f_equal; lia); lia.
Qed.
Lemma sorted_x l : StronglySorted (StdAlgo.le point_lt) l -> StronglySorted (fun p q : point => fst p <= fst q) l.
Proof.
  induction 1 as [|p l S IH F]; constructor; auto. eapply Forall_impl; [|exact F]. intros q. unfold StdAlgo.le, point_lt. destruct (Nat.eqb_spec (fst q) (fst p)); [lia|]. rewrite Nat.ltb_ge. lia.
Qed.
(** In a list sorted by a key, the elements with keys from [xl] to below [xh] are a slice. *)
Lemma slice_key A (key : A -> nat) l : StronglySorted (fun p q => key p <= key q) l -> forall xl xh, xl <= xh ->
  slice (less (map key l) xl) (less (map key l) xh) l = filter (fun p => (xl <=? key p) && (key p <? xh)) l.
Proof.
  induction 1 as [|p l S IH F]; intros xl xh Hx; [reflexivity|]. unfold less in *. cbn [map filter]. destruct (Nat.ltb_spec (key p) xl) as [L|L].
  - destruct (Nat.ltb_spec (key p) xh); [|lia]. destruct (Nat.leb_spec xl (key p)); [lia|]. cbn [andb length]. rewrite <- IH by auto. reflexivity.
  - destruct (Nat.leb_spec xl (key p)); [|lia]. cbn [andb]. rewrite Forall_forall in F. assert (E : filter (fun v => v <? xl) (map key l) = []).
    { apply filter_none. intros v Hv. apply in_map_iff in Hv. destruct Hv as (q & <- & Hq). specialize (F q Hq). apply Nat.ltb_ge. lia. }
    specialize (IH xl xh Hx). rewrite E in *. cbn [length] in *. destruct (Nat.ltb_spec (key p) xh) as [Lh|Lh].
    + cbn [length]. rewrite <- IH. unfold slice. rewrite !Nat.sub_0_r. reflexivity.
    + assert (E2 : filter (fun v => v <? xh) (map key l) = []).
      { apply filter_none. intros v Hv. apply in_map_iff in Hv. destruct Hv as (q & <- & Hq). specialize (F q Hq). apply Nat.ltb_ge. lia. }
      rewrite E2 in *. cbn [length] in *. now rewrite <- IH.
Qed.

Lemma below_S l x : below l (S x) = below l x + (if mem x l then 1 else 0).
Proof. unfold below. rewrite seq_S, filter_app, app_length. cbn [filter Nat.add]. now destruct (mem x l). Qed.
Lemma below_mono l x y : x <= y -> below l x <= below l y.
Proof. induction 1 as [|y L IH]; auto. rewrite below_S. lia. Qed.
Lemma below_strict l x y : In x l -> x < y -> below l x < below l y.
Proof. intros I L. pose proof (@below_mono l (S x) y L). rewrite below_S in H. rewrite (proj2 (mem_In x l) I) in H. lia. Qed.
Lemma below_le_len l x : below l x <= length l.
Proof.
  unfold below. apply (NoDup_incl_length (l := filter (fun y => mem y l) (seq 0 x))); [apply NoDup_filter, seq_NoDup|]. intros y Hy. apply filter_In in Hy. now apply mem_In.
Qed.
Lemma below_in l y z : In y l -> ((below l z <= below l y) <-> z <= y) /\ ((below l y < below l z) <-> y < z).
Proof.
  intros I. destruct (Nat.lt_ge_cases y z) as [L|L].
  - pose proof (@below_strict l y z I L). lia.
  - pose proof (@below_mono l z y L). lia.
Qed.

Lemma coord_small x : (Z.of_nat x < 2 ^ 32)%Z -> coord x = x.
Proof. apply w32_small. Qed.
Lemma as_int_ok v : (Z.of_nat v < 2 ^ 31)%Z -> as_int v = Some (Z.of_nat v).
Proof. intros H. unfold as_int. now rewrite (proj2 (Z.ltb_lt _ _) H). Qed.

Definition small (ps : list point) : Prop := forall x y, In (x, y) ps -> (Z.of_nat x < 2 ^ 32)%Z /\ (Z.of_nat y < 2 ^ 32)%Z.
(** What [build] sets up. *)
Definition ors_ok (ps : list point) (o : ors) : Prop :=
  let ss := std_sort point_lt ps in
  let ys := map (fun p => Z.of_nat (below (map snd ss) (snd p))) ss in
  ms_built (oX o) (map fst ss) /\ bs_built (oY o) (map snd ss) /\
  wm_build None ys = Some (oW o) /\ (ps <> [] -> exists h, h < 64 /\ built None ys h (oW o)).

Lemma inserts ss : small ss -> forall X Y Y',
  bs_run (map SIns (map snd ss)) Y = Some Y' ->
  for_each ss (fun '(x, y) '(X, Y) => let* Y := bs_insert Y (coord y) in Some (ms_insert X (coord x), Y)) (X, Y)
  = Some (fold_left ms_insert (map fst ss) X, Y').
Proof.
  induction ss as [|(x, y) ss IH]; intros Sm X Y Y' R.
  - cbn in *. congruence.
  - destruct (Sm x y (or_introl eq_refl)) as (Sx & Sy). unfold bs_run in *. cbn [map for_each fst snd bs_do] in *. rewrite !coord_small by auto. destruct (bs_insert Y y) as [Y1|]; [|discriminate]. cbn [obind fold_left] in *. apply IH; auto. intros a b I. apply Sm. now right.
Qed.
Lemma inserted_map l : inserted (map SIns l) = l.
Proof. induction l as [|x l IH]; auto. cbn. f_equal. exact IH. Qed.

Lemma index_ok ss : small ss -> (Z.of_nat (length ss) < 2 ^ 31)%Z -> exists X Y,
  ors_index ss = Some (X, Y, map (fun p => Z.of_nat (below (map snd ss) (snd p))) ss) /\ ms_built X (map fst ss) /\ bs_built Y (map snd ss).
Proof.
  intros Sm' Ln'. unfold ors_index. 
  destruct (reach_ok (map SIns (map snd ss))) as (Y & E & HY). rewrite run_app in E. destruct (bs_run (map SIns (map snd ss)) bs_new) as [Y1|] eqn:EY; [|discriminate]. cbn [obind] in E. rewrite inserted_map in HY.
  assert (EB : bs_build Y1 = Some Y). { unfold bs_run in E. cbn [for_each bs_do] in E. destruct (bs_build Y1); cbn [obind] in E; congruence. }
  rewrite (@inserts ss Sm' ms_new bs_new Y1 EY). cbn [obind]. destruct (msbuild_ok (map fst ss)) as (X & EX & HX). rewrite EX. cbn [obind]. rewrite EB. cbn [obind].
  set (ys := map (fun p => Z.of_nat (below (map snd ss) (snd p))) ss). match goal with |- context [for_up _ _ ?bd _] => set (body := bd) end.
  assert (EF : for_up (length ss) 0 body (repeat 0%Z (length ss)) = Some ys).
  { destruct (@for_up_rule _ (fun i s => length s = length ss /\ forall j, j < i -> get s j = get ys j) body (length ss) 0 (repeat 0%Z (length ss))) as (s & E1 & L1 & G1).
    - split; [apply repeat_length|lia].
    - intros i s Hi (L & G). unfold body. destruct (@get_lt _ ss i (proj2 Hi)) as ((x & y) & Ep). rewrite Ep. cbn [obind]. unfold lower_y. destruct (Sm' x y (get_In _ _ Ep)) as (_ & Sy). rewrite coord_small by auto. rewrite (q_rank HY). cbn [obind].
      assert (Hb : below (map snd ss) y <= length ss) by (pose proof (below_le_len (map snd ss) y) as K; rewrite map_length in K; exact K). rewrite as_int_ok by (eapply Z.le_lt_trans; [|exact Ln']; now apply Nat2Z.inj_le). cbn [obind]. rewrite set_some by lia. eexists. split; [reflexivity|]. split; [now rewrite lset_length|]. intros j Hj. destruct (Nat.eq_dec j i) as [->|Nj].
      + rewrite get_lset_eq by lia. unfold ys. rewrite get_map, Ep. reflexivity.
      + rewrite get_lset_neq by lia. apply G. lia.
    - rewrite E1. f_equal. apply get_ext_len; [unfold ys; now rewrite map_length|]. intros j Hj. apply G1. lia. }
  rewrite EF. cbn [obind]. exists X, Y. auto.
Qed.
Lemma matrix_ok (ss : list point) : let ys := map (fun p => Z.of_nat (below (map snd ss) (snd p))) ss in (Z.of_nat (length ss) < 2 ^ 31)%Z ->
  exists m, wm_build None ys = Some m /\ (ss = [] -> wn m = 0 /\ wh m = 1) /\ (ss <> [] -> exists h, h < 64 /\ built None ys h m).
Proof.
  intros ys Ln'. destruct ss as [|p0 ss'] eqn:Es.
  - exists (Wm 0 1 (Bm [] 0) (Bv [] [] []) (repeat 0 2) (repeat 0 1)). split; [|split; [auto|congruence]]. assert (Ey : ys = []) by reflexivity. rewrite Ey. clear. reflexivity.
  - rewrite <- Es in *. assert (Ne : ys <> []). { unfold ys. intros K. apply map_eq_nil in K. congruence. }
    assert (By : forall x, In x ys -> (0 <= x < 2 ^ 31)%Z). { intros x I. unfold ys in I. apply in_map_iff in I. destruct I as (q & <- & _). rewrite <- Es. pose proof (below_le_len (map snd ss) (snd q)) as K. rewrite map_length in K. lia. }
    destruct (@C66_build ys Ne) as ((h & m & Bt) & _); [intros x I; specialize (By x I); lia|]. exists m. split; [apply Bt|]. split; [congruence|]. intros _. exists h. split; auto.
    destruct Bt as (_ & Eh & Hh & _). unfold wm_height in Eh. assert (Mx : (0 <= fold_left Z.max ys 0 < 2 ^ 31)%Z).
    { clear - By. assert (G : forall a, (0 <= a < 2 ^ 31)%Z -> (0 <= fold_left Z.max ys a < 2 ^ 31)%Z); [|apply G; lia]. revert By. induction ys as [|y l IH]; intros By a Ha; cbn [fold_left]; auto. apply IH; [intros; apply By; now right|]. specialize (By y (or_introl eq_refl)). lia. }
    destruct (Z.eq_dec (fold_left Z.max ys 0%Z) 0) as [E0|N0]; [rewrite E0 in Eh; change (clz 0) with (Some 64%Z) in Eh; cbn in Eh; injection Eh as <-; lia|]. rewrite clz_log2 in Eh by (unfold word64; lia). cbn [obind] in Eh. assert (Z.log2 (fold_left Z.max ys 0) < 31)%Z by (apply Z.log2_lt_pow2; lia). assert (K : forall a b : nat, Some a = Some b -> a = b) by congruence. apply K in Eh. pose proof (Z.log2_nonneg (fold_left Z.max ys 0%Z)). lia.
Qed.
Lemma sort_small ps : small ps -> small (std_sort point_lt ps).
Proof. intros Sm x y I. apply Sm. eapply Permutation_in; [apply Permutation_sym, std_sort_perm|exact I]. Qed.
Lemma sort_nil ps : std_sort point_lt ps = [] -> ps = [].
Proof. intros E. pose proof (std_sort_perm point_lt ps) as Pm. rewrite E in Pm. now apply Permutation_sym, Permutation_nil in Pm. Qed.

Theorem build_ok ps : small ps -> (Z.of_nat (length ps) < 2 ^ 31)%Z -> exists o, ors_build ps = Some o /\ ors_ok ps o.
Proof.
  intros Sm Ln. unfold ors_build, ors_ok. cbv zeta. assert (Ln' : (Z.of_nat (length (std_sort point_lt ps)) < 2 ^ 31)%Z) by (now rewrite <- (Permutation_length (std_sort_perm point_lt ps))).
  destruct (index_ok (sort_small Sm) Ln') as (X & Y & -> & HX & HY). cbn [obind]. destruct (@matrix_ok (std_sort point_lt ps) Ln') as (m & Em & _ & Bm). rewrite Em. cbn [obind]. eexists. split; [reflexivity|]. cbn [oX oY oW]. repeat split; auto. intros Ne. apply Bm. intros K. apply Ne. now apply sort_nil.
Qed.

Section Q.
Variables (ps : list point) (o : ors).
Hypothesis Sm : small ps.
Hypothesis Ln : (Z.of_nat (length ps) < 2 ^ 31)%Z.
Hypothesis O : ors_ok ps o.
Notation ss := (std_sort point_lt ps).
Notation ys := (map (fun p => Z.of_nat (below (map snd ss) (snd p))) ss).
Lemma ss_len : length ss = length ps.
Proof. symmetry. apply Permutation_length, std_sort_perm. Qed.
Variables (xl xh yl yh : nat).
Hypothesis Hx : xl <= xh.
Hypothesis B32 : (Z.of_nat xh < 2 ^ 32)%Z /\ (Z.of_nat yl < 2 ^ 32)%Z /\ (Z.of_nat yh < 2 ^ 32)%Z.
Notation li := (less (map fst ss) xl).
Notation lj := (less (map fst ss) xh).
Notation la := (Z.of_nat (below (map snd ss) yl)).
Notation lb := (Z.of_nat (below (map snd ss) yh)).
Lemma compress_ok : compress_idx o xl xh yl yh = Some (li, lj, la, lb).
Proof.
  destruct O as (HX & HY & _). pose proof ss_len as Sl. unfold compress_idx, lower_x, lower_y. rewrite !coord_small by lia. rewrite !(m_rank HX), !(q_rank HY). cbn [obind].
  pose proof (less_le (map fst ss) xl). pose proof (less_le (map fst ss) xh). pose proof (below_le_len (map snd ss) yl). pose proof (below_le_len (map snd ss) yh). rewrite map_length in *. rewrite !as_int_ok by lia. reflexivity.
Qed.
Lemma range_ok : li <= lj <= length ys.
Proof. split; [now apply less_mono|]. pose proof (less_le (map fst ss) xh). rewrite map_length in *. auto. Qed.
Lemma count_ok : howmany (fun v => (la <=? v) && (v <? lb))%Z (slice li lj ys) = howmany (inside xl xh yl yh) ps.
Proof.
  assert (Es : slice li lj ys = map (fun p => Z.of_nat (below (map snd ss) (snd p))) (filter (fun p => (xl <=? fst p) && (fst p <? xh)) ss)).
  { rewrite <- (@slice_key _ fst); auto; [unfold slice; now rewrite skipn_map, firstn_map|]. apply sorted_x. apply std_sort_sorted. apply point_lt_so. }
  rewrite Es. transitivity (howmany (inside xl xh yl yh) ss).
  - assert (G : forall l, (forall p, In p l -> In p ss) -> howmany (fun v => (la <=? v) && (v <? lb))%Z (map (fun p => Z.of_nat (below (map snd ss) (snd p))) (filter (fun p => (xl <=? fst p) && (fst p <? xh)) l)) = howmany (inside xl xh yl yh) l); [|apply G; auto].
    induction l as [|p l IH]; intros Hl; auto. specialize (IH (fun q I => Hl q (or_intror I))). unfold howmany in *. cbn [filter]. unfold inside at 1. destruct ((xl <=? fst p) && (fst p <? xh)); cbn [andb]; [|exact IH]. cbn [map filter].
    assert (Iy : In (snd p) (map snd ss)) by (apply in_map, Hl; now left). pose proof (@below_in (map snd ss) (snd p) yl Iy) as (A1 & _). pose proof (@below_in (map snd ss) (snd p) yh Iy) as (_ & A2).
    destruct (Z.leb_spec (Z.of_nat (below (map snd ss) yl)) (Z.of_nat (below (map snd ss) (snd p)))), (Z.ltb_spec (Z.of_nat (below (map snd ss) (snd p))) (Z.of_nat (below (map snd ss) yh))), (Nat.leb_spec yl (snd p)), (Nat.ltb_spec (snd p) yh); cbn [andb length]; try lia.
  - unfold howmany. assert (G : forall l l' : list point, Permutation l l' -> length (filter (inside xl xh yl yh) l) = length (filter (inside xl xh yl yh) l')); [|apply G, Permutation_sym, std_sort_perm].
    induction 1; cbn [filter]; auto; repeat destruct (inside _ _ _ _ _); cbn [length]; lia.
Qed.
Theorem freq_ok : ors_freq o xl xh yl yh = Some (howmany (inside xl xh yl yh) ps).
Proof.
  unfold ors_freq. rewrite compress_ok. cbn [obind]. destruct (list_eq_dec (fun p q : point => ltac:(decide equality; apply Nat.eq_dec)) ps []) as [E|E].
  - pose proof range_ok as Rk. pose proof ss_len as Sl. rewrite map_length in Rk. rewrite E in Sl at 2. cbn in Sl. assert (li = 0 /\ lj = 0) as (-> & ->) by lia. rewrite E. reflexivity.
  - destruct O as (_ & _ & _ & Bt). destruct (Bt E) as (h & H64 & B). rewrite (proj2 (C66_counts B range_ok) la lb H64). f_equal. apply count_ok.
Qed.
End Q.
