(** Proofs for WtModel.v: nodes and queries *)
From Coq Require Import Permutation Sorted.
From Verif Require Import Base BaseLemmas ListExtra NthExtra BitModel BitProof BmapModel BmapProof BvModel BvSel BvProof BvOps BvProp WmModel WmProof WmPath RmqExc WtModel WtProof.
Set Implicit Arguments.

Definition bZ (b : bool) : Z := if b then 1%Z else 0%Z.
Lemma tsh_S h t x : t < h -> sh h (S t) x = (2 * sh h t x + bZ (vbit x (h - 1 - t)))%Z.
Proof. intros Ht. unfold sh, vbit, bZ. rewrite shr_S by lia. replace (Z.of_nat (h - S t)) with (Z.of_nat (h - 1 - t)) by lia. do 2 f_equal. f_equal. lia. Qed.
Lemma tsh_0 h x : (0 <= x < 2 ^ Z.of_nat h)%Z -> sh h 0 x = 0%Z.
Proof. intros Hx. unfold sh. rewrite Nat.sub_0_r, Z.shiftr_div_pow2 by lia. now apply Z.div_small. Qed.
Lemma tF_S h ys t P (b : bool) : t < h -> F h ys (S t) (2 * P + bZ b) = filter (fun x => Bool.eqb (vbit x (h - 1 - t)) b) (F h ys t P).
Proof.
  intros Ht. unfold F. rewrite filter_filter. apply filter_ext. intros x. rewrite tsh_S by auto. unfold bZ. destruct (vbit x (h - 1 - t)), b; cbn [Bool.eqb]; destruct (Z.eqb_spec (sh h t x) P); cbn [andb]; lia.
Qed.
Lemma eqb_one k (g : list Z) : filter (fun x => Bool.eqb (vbit x k) true) g = one k g. Proof. apply filter_ext. intros x. now destruct (vbit x k). Qed.
Lemma eqb_zer k (g : list Z) : filter (fun x => Bool.eqb (vbit x k) false) g = zer k g. Proof. apply filter_ext. intros x. now destruct (vbit x k). Qed.
Lemma tF_0 h ys : (forall x, In x ys -> (0 <= x < 2 ^ Z.of_nat h)%Z) -> F h ys 0 0 = ys.
Proof. intros Hy. apply filter_all. intros x Hx. rewrite tsh_0 by auto. apply Z.eqb_refl. Qed.
Lemma fm_in k gs x : In x (concat (flat_map (splt k) gs)) -> In x (concat gs).
Proof.
  induction gs as [|g gs IH]; auto. cbn [flat_map concat]. rewrite concat_app, concat_splt, !in_app_iff. intros [[K|K]|K]; auto; left; apply filter_In in K; tauto.
Qed.
Lemma fm_perm k gs : Permutation (concat (flat_map (splt k) gs)) (concat gs).
Proof.
  induction gs as [|g gs IH]; [apply Permutation_refl|]. cbn [flat_map concat]. rewrite concat_app, concat_splt. apply Permutation_app; auto. unfold zer, one. clear. induction g as [|x g IH]; [apply Permutation_refl|]. cbn [filter]. destruct (vbit x k); cbn [negb app]; [|now constructor]. rewrite <- Permutation_middle. now constructor.
Qed.
Lemma filter_prefix A (f : A -> bool) i l : filter f (firstn i l) = firstn (length (filter f (firstn i l))) (filter f l).
Proof. rewrite <- (firstn_skipn i l) at 3. rewrite filter_app, firstn_app, Nat.sub_diag, firstn_O, app_nil_r, firstn_all. reflexivity. Qed.
Lemma cnt_one k l : cnt true (map (fun x => vbit x k) l) = length (one k l).
Proof. unfold one. induction l as [|x l IH]; auto. cbn [map cnt filter]. destruct (vbit x k); cbn [Bool.eqb length]; auto. Qed.
Lemma cnt_eqb k b l : cnt b (map (fun x => vbit x k) l) = length (filter (fun x => Bool.eqb (vbit x k) b) l).
Proof. induction l as [|x l IH]; auto. cbn [map cnt filter]. destruct (Bool.eqb (vbit x k) b); cbn [length]; auto. Qed.
Lemma kth_unique B : forall l q, q < length l -> nth q l false = B -> kth B (cnt B (firstn q l)) l = q.
Proof.
  induction l as [|b l IH]; intros q Hq E; [cbn in Hq; lia|]. destruct q as [|q]; cbn [nth firstn cnt kth] in *.
  - subst. now rewrite Bool.eqb_reflx.
  - specialize (IH q ltac:(cbn in Hq; lia) E). destruct (Bool.eqb b B); now rewrite IH.
Qed.

Section Query.
Variable h : nat.
Variable xs0 : list Z.
Notation n := (length xs0).
Variable w : wt.
Hypothesis M : wti h xs0 w.
Notation F := (F h xs0).
Notation sh := (sh h).
Notation levs := (levs h xs0).

Definition tnode (t : nat) (P : Z) (l r : nat) : Prop := exists GA GC, levs t = GA ++ ne (F t P) ++ GC /\ l = n * t + length (concat GA) /\ r = l + length (F t P) /\
  (forall x, In x (concat GA) -> (sh t x < P)%Z) /\ (forall x, In x (concat GC) -> (P < sh t x)%Z).
Lemma tnode_0 : 0 < n -> (forall x, In x xs0 -> (0 <= x < 2 ^ Z.of_nat h)%Z) -> tnode 0 0 0 n.
Proof.
  intros Hn Hv. exists [], []. rewrite (tF_0 _ _ Hv). cbn [concat]. repeat split; cbn; try lia. - destruct xs0; [cbn in Hn; lia|reflexivity]. Qed.
Lemma tnode_child t P l r (b : bool) : t < h -> tnode t P l r ->
  tnode (S t) (2 * P + bZ b) (l + n + (if b then length (F (S t) (2 * P + bZ false)) else 0)) (l + n + (if b then length (F (S t) (2 * P + bZ false)) else 0) + length (F (S t) (2 * P + bZ b))).
Proof.
  intros Ht (GA & GC & E & -> & -> & HA & HC). set (k := h - 1 - t). assert (EL : levs (S t) = flat_map (splt k) GA ++ (ne (zer k (F t P)) ++ ne (one k (F t P))) ++ flat_map (splt k) GC).
  { cbn [WtProof.levs]. rewrite E. fold k. rewrite !flat_map_app, fm_ne. reflexivity. }
  assert (EZ : F (S t) (2 * P + bZ false) = zer k (F t P)) by (rewrite tF_S by auto; apply eqb_zer). assert (EO : F (S t) (2 * P + bZ true) = one k (F t P)) by (rewrite tF_S by auto; apply eqb_one).
  assert (PA : forall x, In x (concat (flat_map (splt k) GA)) -> (sh (S t) x < 2 * P)%Z). { intros x Hx. apply fm_in in Hx. specialize (HA x Hx). rewrite tsh_S by auto. unfold bZ. destruct (vbit x _); lia. }
  assert (PC : forall x, In x (concat (flat_map (splt k) GC)) -> (2 * P + 1 < sh (S t) x)%Z). { intros x Hx. apply fm_in in Hx. specialize (HC x Hx). rewrite tsh_S by auto. unfold bZ. destruct (vbit x _); lia. }
  assert (PZ : forall x, In x (zer k (F t P)) -> sh (S t) x = (2 * P)%Z). { intros x Hx. rewrite <- EZ in Hx. apply filter_In in Hx. destruct Hx as (_ & Hx). unfold bZ in Hx. lia. }
  assert (PO : forall x, In x (one k (F t P)) -> sh (S t) x = (2 * P + 1)%Z). { intros x Hx. rewrite <- EO in Hx. apply filter_In in Hx. destruct Hx as (_ & Hx). unfold bZ in Hx. lia. }
  destruct b.
  - exists (flat_map (splt k) GA ++ ne (zer k (F t P))), (flat_map (splt k) GC). rewrite EO, EZ, concat_app, concat_ne, app_length, concat_fm. split; [rewrite EL, <- !app_assoc; reflexivity|]. split; [nia|]. split; [reflexivity|]. split.
    + intros x. rewrite in_app_iff. cbn [bZ]. intros [Hx|Hx]; [specialize (PA x Hx); lia|specialize (PZ x Hx); lia].
    + intros x Hx. specialize (PC x Hx). cbn [bZ]. lia.
  - exists (flat_map (splt k) GA), (ne (one k (F t P)) ++ flat_map (splt k) GC). rewrite EZ, concat_app, concat_ne, concat_fm. split; [rewrite EL, <- !app_assoc; reflexivity|]. split; [nia|]. split; [reflexivity|]. split.
    + intros x Hx. specialize (PA x Hx). cbn [bZ]. lia.
    + intros x. rewrite in_app_iff. cbn [bZ]. intros [Hx|Hx]; [specialize (PO x Hx); lia|specialize (PC x Hx); lia].
Qed.
Lemma tnode_fit t P l r : tnode t P l r -> n * t <= l /\ r = l + length (F t P) /\ r <= n * t + n.
Proof.
  intros (GA & GC & E & -> & -> & _). pose proof (tlay_length h xs0 t) as L. unfold tlay in L. rewrite E, !concat_app, concat_ne, !app_length in L. lia.
Qed.
Lemma tnode_bits t P l r : t < h -> tnode t P l r -> exists pre post, tbits h xs0 h = pre ++ map (fun x => vbit x (h - 1 - t)) (F t P) ++ post /\ length pre = l.
Proof.
  intros Ht (GA & GC & E & -> & -> & _). destruct (@tbits_app h xs0 (S t) h ltac:(lia)) as (s & ->). cbn [tbits]. unfold tlay. rewrite E, !concat_app, concat_ne, !map_app.
  exists (tbits h xs0 t ++ map (tf h t) (concat GA)), (map (tf h t) (concat GC) ++ s). split; [rewrite <- !app_assoc; reflexivity|]. now rewrite app_length, tbits_length, map_length.
Qed.
Lemma tnode_rank t P l r : t < h -> tnode t P l r -> exists A, A <= l /\ forall j, j <= length (F t P) -> trk w (l + j) = Some (A + length (one (h - 1 - t) (firstn j (F t P)))).
Proof.
  intros Ht N. destruct (tnode_bits Ht N) as (pre & post & E & <-). exists (cnt true pre). split; [pose proof (cnt_two pre); lia|]. intros j Hj. rewrite (wi_rk M), E. f_equal. rewrite firstn_app, firstn_all2 by lia. replace (length pre + j - length pre) with j by lia.
  rewrite firstn_app. rewrite map_length. replace (j - length (F t P)) with 0 by lia. rewrite firstn_O, app_nil_r, cnt_app, firstn_map, cnt_one. reflexivity.
Qed.

(** the position in a node of the first [i] values *)
Definition jf (i t : nat) (P : Z) : nat := length (WmPath.F h (firstn i xs0) t P).
Lemma jf_prefix i t P : WmPath.F h (firstn i xs0) t P = firstn (jf i t P) (F t P). Proof. apply filter_prefix. Qed.
Lemma jf_le i t P : jf i t P <= length (F t P).
Proof. unfold jf. rewrite jf_prefix, firstn_length. lia. Qed.
Lemma F_two ys t P : t < h -> length (WmPath.F h ys t P) = length (WmPath.F h ys (S t) (2 * P + bZ false)) + length (WmPath.F h ys (S t) (2 * P + bZ true)).
Proof. intros Ht. rewrite !tF_S by auto. rewrite eqb_one, eqb_zer. now rewrite zo_length. Qed.
Lemma jf_two i t P : t < h -> jf i t P = jf i (S t) (2 * P + bZ false) + jf i (S t) (2 * P + bZ true). Proof. apply F_two. Qed.
Lemma jf_one i t P : t < h -> length (one (h - 1 - t) (firstn (jf i t P) (F t P))) = jf i (S t) (2 * P + bZ true).
Proof. intros Ht. rewrite <- jf_prefix. unfold jf. rewrite tF_S by auto. now rewrite eqb_one. Qed.
Lemma jf_all t P : length (one (h - 1 - t) (firstn (length (F t P)) (F t P))) = length (one (h - 1 - t) (F t P)). Proof. now rewrite firstn_all. Qed.

Lemma ranks_ok t P l r i : t < h -> tnode t P l r -> exists A, A <= l /\
  wt_ranks w l r (jf i t P) = Some (A, A + jf i (S t) (2 * P + bZ true), length (F (S t) (2 * P + bZ false))) /\
  wt_zeros l (jf i t P) A (A + jf i (S t) (2 * P + bZ true)) = Some (jf i (S t) (2 * P + bZ false)) /\
  usub (A + jf i (S t) (2 * P + bZ true)) A = Some (jf i (S t) (2 * P + bZ true)).
Proof.
  intros Ht N. destruct (tnode_rank Ht N) as (A & LA & K). destruct (tnode_fit N) as (B1 & B2 & B3). exists A. split; auto. pose proof (jf_le i t P) as J1. pose proof (jf_two i P Ht) as J2. pose proof (F_two xs0 P Ht) as J3.
  split; [|split].
  - unfold wt_ranks. pose proof (K 0 ltac:(lia)) as K0. rewrite Nat.add_0_r in K0. cbn in K0. rewrite Nat.add_0_r in K0. rewrite K0. cbn [obind]. rewrite (K _ J1), (@jf_one i t P Ht). cbn [obind]. rewrite B2, (K _ (le_n _)), jf_all. cbn [obind].
    assert (E : length (one (h - 1 - t) (F t P)) = length (F (S t) (2 * P + bZ true))) by (rewrite tF_S by auto; now rewrite eqb_one). rewrite E.
    rewrite usub_ok by lia. cbn [obind]. rewrite usub_ok by lia. cbn [obind]. rewrite usub_ok by lia. cbn [obind]. do 2 f_equal. lia.
  - unfold wt_zeros. rewrite usub_ok by lia. cbn [obind]. rewrite usub_ok by lia. cbn [obind]. rewrite usub_ok by lia. f_equal. lia.
  - rewrite usub_ok by lia. f_equal. lia.
Qed.

Hypothesis Hn : 0 < n.
Hypothesis Hv : forall x, In x xs0 -> (0 <= x < 2 ^ Z.of_nat h)%Z.

Lemma jf_0 i : i <= n -> jf i 0 0 = i.
Proof. intros Hi. unfold jf. rewrite tF_0; [rewrite firstn_length; lia|]. intros x Hx. apply Hv. rewrite <- (firstn_skipn i xs0). apply in_or_app. now left. Qed.

(** the low bits of a query *)
Definition low (c : Z) : Z := (c mod 2 ^ Z.of_nat h)%Z.
Lemma low_bit c k : k < h -> vbit c k = vbit (low c) k.
Proof. intros Hk. unfold vbit, low. rewrite Z.mod_pow2_bits_low by lia. reflexivity. Qed.
Lemma low_bound c : (0 <= low c < 2 ^ Z.of_nat h)%Z. Proof. apply Z.mod_pos_bound. apply Z.pow_pos_nonneg; lia. Qed.

Theorem wt_rank_ok c i : i <= n -> wt_rank w c i = Some (howmany (Z.eqb (low c)) (firstn i xs0)).
Proof.
  intros Hi. unfold wt_rank. rewrite (wi_h M), (wi_n M). set (c' := low c). match goal with |- context [for_down _ _ ?bd _] => set (body := bd) end.
  destruct (@for_down_rule _ (fun k '(l, r, j) => tnode (h - k) (sh (h - k) c') l r /\ j = jf i (h - k) (sh (h - k) c')) body 0 h (0, n, i)) as (((l & r) & j) & -> & I1 & I2).
  - cbn [Nat.add]. rewrite Nat.sub_diag, tsh_0 by apply low_bound. rewrite jf_0 by auto. split; auto. apply tnode_0; auto.
  - intros k ((l & r) & j) Hk (I1 & ->). unfold body. remember (h - S k) as t eqn:Ht. replace (h - k) with (S t) by lia. assert (Ek : k = h - 1 - t) by lia. set (P := sh t c') in *.
    destruct (@ranks_ok t P l r i ltac:(lia) I1) as (A & LA & -> & E2 & E3). cbn [obind]. rewrite (low_bit c) by lia. fold c'. assert (ES : sh (S t) c' = (2 * P + bZ (vbit c' k))%Z) by (rewrite Ek; apply tsh_S; lia).
    pose proof (@tnode_child t P l r (vbit c' k) ltac:(lia) I1) as NC. destruct (tnode_fit I1) as (_ & Er & _). pose proof (F_two xs0 P (t := t) ltac:(lia)) as F2. rewrite ES. destruct (vbit c' k).
    + rewrite E3. cbn [obind]. eexists. split; [reflexivity|]. cbv beta iota. split; [|reflexivity]. replace (l + (n + _)) with (l + n + length (F (S t) (2 * P + bZ false))) by lia. replace (r + n) with (l + n + length (F (S t) (2 * P + bZ false)) + length (F (S t) (2 * P + bZ true))) by lia. exact NC.
    + rewrite E2. cbn [obind]. eexists. split; [reflexivity|]. cbv beta iota. split; [|reflexivity]. rewrite Nat.add_0_r in NC. exact NC.
  - cbn [obind]. rewrite I2, Nat.sub_0_r, sh_h. unfold jf. now rewrite F_h.
Qed.

Definition lts (t : nat) (c : Z) (ys : list Z) := howmany (fun x => sh t x <? sh t c)%Z ys.
Definition gts (t : nat) (c : Z) (ys : list Z) := howmany (fun x => sh t c <? sh t x)%Z ys.
Lemma lts_S t c ys : t < h -> lts (S t) c ys = lts t c ys + (if vbit c (h - 1 - t) then length (WmPath.F h ys (S t) (2 * sh t c + bZ false)) else 0).
Proof.
  intros Ht. unfold lts. rewrite (@howmany_split _ _ (fun x => sh t x <? sh t c)%Z (fun x => sh t x =? sh t c)%Z (fun x => negb (vbit x (h - 1 - t)) && vbit c (h - 1 - t))).
  - f_equal. fold (WmPath.F h ys t (sh t c)). destruct (vbit c (h - 1 - t)); [rewrite tF_S by auto; f_equal; apply filter_ext; intros x; now destruct (vbit x (h - 1 - t))|]. rewrite filter_none; auto. intros x _. apply andb_false_r.
  - intros x _. rewrite !tsh_S by auto. unfold bZ. destruct (Z.ltb_spec (sh t x) (sh t c)), (Z.eqb_spec (sh t x) (sh t c)), (vbit x (h - 1 - t)), (vbit c (h - 1 - t)); cbn [orb andb negb]; lia.
  - intros x _. destruct (Z.ltb_spec (sh t x) (sh t c)), (Z.eqb_spec (sh t x) (sh t c)); cbn [andb]; auto; lia.
Qed.
Lemma gts_S t c ys : t < h -> gts (S t) c ys = gts t c ys + (if vbit c (h - 1 - t) then 0 else length (WmPath.F h ys (S t) (2 * sh t c + bZ true))).
Proof.
  intros Ht. unfold gts. rewrite (@howmany_split _ _ (fun x => sh t c <? sh t x)%Z (fun x => sh t x =? sh t c)%Z (fun x => vbit x (h - 1 - t) && negb (vbit c (h - 1 - t)))).
  - f_equal. fold (WmPath.F h ys t (sh t c)). destruct (vbit c (h - 1 - t)); [|rewrite tF_S by auto; f_equal; apply filter_ext; intros x; now destruct (vbit x (h - 1 - t))]. rewrite filter_none; auto. intros x _. apply andb_false_r.
  - intros x _. rewrite !tsh_S by auto. unfold bZ. destruct (Z.ltb_spec (sh t c) (sh t x)), (Z.eqb_spec (sh t x) (sh t c)), (vbit x (h - 1 - t)), (vbit c (h - 1 - t)); cbn [orb andb negb]; lia.
  - intros x _. destruct (Z.ltb_spec (sh t c) (sh t x)), (Z.eqb_spec (sh t x) (sh t c)); cbn [andb]; auto; lia.
Qed.
Lemma in_first i x : In x (firstn i xs0) -> (0 <= x < 2 ^ Z.of_nat h)%Z.
Proof. intros Hx. apply Hv. rewrite <- (firstn_skipn i xs0). apply in_or_app. now left. Qed.
Lemma lts_0 c i : (0 <= c < 2 ^ Z.of_nat h)%Z -> lts 0 c (firstn i xs0) = 0.
Proof. intros Hc. unfold lts, howmany. rewrite filter_none; auto. intros x Hx. rewrite !tsh_0 by (eauto using in_first). reflexivity. Qed.
Lemma gts_0 c i : (0 <= c < 2 ^ Z.of_nat h)%Z -> gts 0 c (firstn i xs0) = 0.
Proof. intros Hc. unfold gts, howmany. rewrite filter_none; auto. intros x Hx. rewrite !tsh_0 by (eauto using in_first). reflexivity. Qed.

Theorem wt_rank_lower_ok c i : i <= n -> wt_rank_lower w c i = Some (howmany (fun x => x <? low c)%Z (firstn i xs0)).
Proof.
  intros Hi. unfold wt_rank_lower. rewrite (wi_h M), (wi_n M). set (c' := low c). match goal with |- context [for_down _ _ ?bd _] => set (body := bd) end.
  destruct (@for_down_rule _ (fun k '(l, r, j, ret) => tnode (h - k) (sh (h - k) c') l r /\ j = jf i (h - k) (sh (h - k) c') /\ ret = lts (h - k) c' (firstn i xs0)) body 0 h (0, n, i, 0)) as ((((l & r) & j) & ret) & -> & I1 & I2 & I3).
  - cbn [Nat.add]. rewrite Nat.sub_diag, lts_0, tsh_0 by apply low_bound. rewrite jf_0 by auto. split; auto. apply tnode_0; auto.
  - intros k (((l & r) & j) & ret) Hk (I1 & -> & ->). unfold body. remember (h - S k) as t eqn:Ht. replace (h - k) with (S t) by lia. assert (Ek : k = h - 1 - t) by lia. rewrite lts_S by lia. rewrite <- Ek. set (P := sh t c') in *.
    destruct (@ranks_ok t P l r i ltac:(lia) I1) as (A & LA & -> & E2 & E3). cbn [obind]. rewrite (low_bit c) by lia. fold c'. assert (ES : sh (S t) c' = (2 * P + bZ (vbit c' k))%Z) by (rewrite Ek; apply tsh_S; lia).
    pose proof (@tnode_child t P l r (vbit c' k) ltac:(lia) I1) as NC. destruct (tnode_fit I1) as (_ & Er & _). pose proof (F_two xs0 P (t := t) ltac:(lia)) as F2. rewrite ES. destruct (vbit c' k).
    + rewrite E2. cbn [obind]. rewrite E3. cbn [obind]. eexists. split; [reflexivity|]. cbv beta iota. split; [|split; reflexivity]. replace (l + (n + _)) with (l + n + length (F (S t) (2 * P + bZ false))) by lia. replace (r + n) with (l + n + length (F (S t) (2 * P + bZ false)) + length (F (S t) (2 * P + bZ true))) by lia. exact NC.
    + rewrite E2. cbn [obind]. eexists. split; [reflexivity|]. cbv beta iota. split; [|split; [reflexivity|lia]]. rewrite Nat.add_0_r in NC. exact NC.
  - cbn [obind]. rewrite I3, Nat.sub_0_r. unfold lts, howmany. do 2 f_equal. apply filter_ext. intros x. now rewrite !sh_h.
Qed.
Theorem wt_rank_3way_ok c i : i <= n -> wt_rank_3way w c i = Some (howmany (fun x => x <? low c)%Z (firstn i xs0), howmany (Z.eqb (low c)) (firstn i xs0), howmany (fun x => low c <? x)%Z (firstn i xs0)).
Proof.
  intros Hi. unfold wt_rank_3way. rewrite (wi_h M), (wi_n M). set (c' := low c). match goal with |- context [for_down _ _ ?bd _] => set (body := bd) end.
  destruct (@for_down_rule _ (fun k '(l, r, j, lt, gt) => tnode (h - k) (sh (h - k) c') l r /\ j = jf i (h - k) (sh (h - k) c') /\ lt = lts (h - k) c' (firstn i xs0) /\ gt = gts (h - k) c' (firstn i xs0)) body 0 h (0, n, i, 0, 0)) as (((((l & r) & j) & lt) & gt) & -> & I1 & I2 & I3 & I4).
  - cbn [Nat.add]. rewrite Nat.sub_diag, lts_0, gts_0, tsh_0 by apply low_bound. rewrite jf_0 by auto. split; auto. apply tnode_0; auto.
  - intros k ((((l & r) & j) & lt) & gt) Hk (I1 & -> & -> & ->). unfold body. remember (h - S k) as t eqn:Ht. replace (h - k) with (S t) by lia. assert (Ek : k = h - 1 - t) by lia. rewrite lts_S, gts_S by lia. rewrite <- Ek. set (P := sh t c') in *.
    destruct (@ranks_ok t P l r i ltac:(lia) I1) as (A & LA & -> & E2 & E3). cbn [obind]. rewrite (low_bit c) by lia. fold c'. assert (ES : sh (S t) c' = (2 * P + bZ (vbit c' k))%Z) by (rewrite Ek; apply tsh_S; lia).
    pose proof (@tnode_child t P l r (vbit c' k) ltac:(lia) I1) as NC. destruct (tnode_fit I1) as (_ & Er & _). pose proof (F_two xs0 P (t := t) ltac:(lia)) as F2. rewrite ES. destruct (vbit c' k).
    + rewrite E2. cbn [obind]. rewrite E3. cbn [obind]. eexists. split; [reflexivity|]. cbv beta iota. split; [|split; [reflexivity|split; [reflexivity|lia]]]. replace (l + (n + _)) with (l + n + length (F (S t) (2 * P + bZ false))) by lia. replace (r + n) with (l + n + length (F (S t) (2 * P + bZ false)) + length (F (S t) (2 * P + bZ true))) by lia. exact NC.
    + rewrite E3. cbn [obind]. rewrite E2. cbn [obind]. eexists. split; [reflexivity|]. cbv beta iota. split; [|split; [reflexivity|split; [lia|reflexivity]]]. rewrite Nat.add_0_r in NC. exact NC.
  - cbn [obind]. rewrite I2, I3, I4, Nat.sub_0_r, sh_h. unfold jf. rewrite F_h. f_equal. f_equal; [f_equal|]; unfold lts, gts, howmany; f_equal; apply filter_ext; intros x; now rewrite !sh_h.
Qed.

(** access *)
Lemma get_F i x t : get xs0 i = Some x -> get (F t (sh t x)) (jf i t (sh t x)) = Some x.
Proof.
  intros G. unfold WmPath.F, jf, WmPath.F. rewrite <- (firstn_skipn i xs0) at 1. rewrite (skipn_get_cons _ _ G), filter_app. cbn [filter]. rewrite Z.eqb_refl. apply get_mid.
Qed.
Lemma tnode_bit t P l r j x : t < h -> tnode t P l r -> get (F t P) j = Some x -> bm_get (tB w) (l + j) = Some (vbit x (h - 1 - t)).
Proof.
  intros Ht N G. destruct (tnode_bits Ht N) as (pre & post & E & Lp). pose proof (get_some_lt _ _ G) as Hj. rewrite (bm_get_ok (wi_b M)) by (rewrite E, !app_length, map_length; lia). f_equal. rewrite E. rewrite app_nth2 by lia. replace (l + j - length pre) with j by lia. rewrite app_nth1 by (rewrite map_length; auto).
  rewrite (nth_indep _ false (vbit 0 (h - 1 - t))) by (rewrite map_length; auto). rewrite (map_nth (fun x => vbit x (h - 1 - t))). f_equal. now apply nth_get.
Qed.
Theorem wt_get_ok i x : 0 < h <= 64 -> get xs0 i = Some x -> wt_get w i = Some x.
Proof.
  intros Hh G. pose proof (get_some_lt _ _ G) as Hi. pose proof (Hv x (get_In _ _ G)) as Hx. unfold wt_get. rewrite (wi_h M), (wi_n M). match goal with |- context [for_down _ _ ?bd _] => set (body := bd) end.
  destruct (@for_down_rule _ (fun k '(l, r, ret, j) => tnode (h - k) (sh (h - k) x) l r /\ j = jf i (h - k) (sh (h - k) x) /\ ret = (sh (h - k) x * 2 ^ Z.of_nat k)%Z) body 1 (h - 1) (0, n, 0%Z, i)) as ((((l & r) & ret) & j) & -> & I1 & I2 & I3).
  - replace (h - (1 + (h - 1))) with 0 by lia. rewrite tsh_0 by auto. rewrite jf_0 by lia. split; [apply tnode_0; auto|]. split; [reflexivity|lia].
  - intros k (((l & r) & ret) & j) Hk (I1 & -> & ->). unfold body. remember (h - S k) as t eqn:Ht. replace (h - k) with (S t) by lia. assert (Ek : k = h - 1 - t) by lia. set (P := sh t x) in *.
    destruct (@ranks_ok t P l r i ltac:(lia) I1) as (A & LA & -> & E2 & E3). cbn [obind]. pose proof (get_F i t G) as GF. fold P in GF. rewrite (@tnode_bit t P l r _ x ltac:(lia) I1 GF). cbn [obind]. rewrite <- Ek. assert (ES : sh (S t) x = (2 * P + bZ (vbit x k))%Z) by (rewrite Ek; apply tsh_S; lia).
    pose proof (@tnode_child t P l r (vbit x k) ltac:(lia) I1) as NC. destruct (tnode_fit I1) as (_ & Er & _). pose proof (F_two xs0 P (t := t) ltac:(lia)) as F2. pose proof (lor_pow P k (vbit x k)) as LP. rewrite ES. destruct (vbit x k).
    + unfold one_ull. destruct (Nat.ltb_spec k 64); [|lia]. cbn [guard obind]. rewrite E3. cbn [obind]. eexists. split; [reflexivity|]. cbv beta iota. split; [|split; [reflexivity|exact LP]]. replace (l + (n + _)) with (l + n + length (F (S t) (2 * P + bZ false))) by lia. replace (r + n) with (l + n + length (F (S t) (2 * P + bZ false)) + length (F (S t) (2 * P + bZ true))) by lia. exact NC.
    + rewrite E2. cbn [obind]. eexists. split; [reflexivity|]. cbv beta iota. split; [|split; [reflexivity|]]. { rewrite Nat.add_0_r in NC. exact NC. } rewrite Z.shiftl_0_l, Z.lor_0_r in LP. exact LP.
  - cbn [obind]. rewrite I2. rewrite (@tnode_bit (h - 1) _ l r _ x ltac:(lia) I1 (get_F i _ G)). cbn [obind]. f_equal. rewrite I3. pose proof (lor_pow (sh (h - 1) x) 0 (vbit x (h - 1 - (h - 1)))) as LP. pose proof (@tsh_S h (h - 1) x ltac:(lia)) as ES. replace (S (h - 1)) with h in ES by lia. rewrite sh_h in ES.
    change (Z.of_nat 1) with 1%Z in *. destruct (vbit x (h - 1 - (h - 1))).
    + change (Z.shiftl 1 (Z.of_nat 0)) with 1%Z in LP. rewrite LP. change (2 ^ Z.of_nat 0)%Z with 1%Z. rewrite Z.mul_1_r. symmetry. exact ES.
    + change (2 ^ 1)%Z with 2%Z. cbn [bZ] in ES. lia.
Qed.

(** positions *)
Lemma tnode_sel t P l r q : t < h -> tnode t P l r -> q < length (F t P) -> let b := vbit (nth q (F t P) 0%Z) (h - 1 - t) in
  exists A, trk w l = Some A /\ A <= l /\ tsel w b (length (filter (fun x => Bool.eqb (vbit x (h - 1 - t)) b) (firstn q (F t P))) + (if b then A else l - A)) = Some (l + q).
Proof.
  intros Ht N Hq b. destruct (tnode_bits Ht N) as (pre & post & E & Lp). exists (cnt true pre). pose proof (cnt_two pre) as C2. split; [|split; [lia|]].
  - rewrite (wi_rk M), E. f_equal. rewrite firstn_app, firstn_all2 by lia. replace (l - length pre) with 0 by lia. now rewrite firstn_O, app_nil_r.
  - rewrite (wi_sel M), E. f_equal. rewrite kth_app. assert (Eb : (if b then cnt true pre else l - cnt true pre) = cnt b pre) by (destruct b; lia). rewrite Eb. destruct (Nat.ltb_spec (length (filter (fun x => Bool.eqb (vbit x (h - 1 - t)) b) (firstn q (F t P))) + cnt b pre) (cnt b pre)); [lia|].
    rewrite Nat.add_sub. rewrite Lp. f_equal. rewrite kth_app. rewrite <- cnt_eqb. set (L := map (fun x => vbit x (h - 1 - t)) (F t P)). assert (EL : map (fun x => vbit x (h - 1 - t)) (firstn q (F t P)) = firstn q L) by (unfold L; now rewrite firstn_map). rewrite EL.
    assert (Nq : nth q L false = b). { unfold L. rewrite (nth_indep _ false (vbit 0 (h - 1 - t))) by (rewrite map_length; auto). now rewrite (map_nth (fun x => vbit x (h - 1 - t))). }
    assert (LL : q < length L) by (unfold L; now rewrite map_length). pose proof (kth_unique _ LL Nq) as KU. destruct (Nat.ltb_spec (cnt b (firstn q L)) (cnt b L)); [exact KU|].
    exfalso. assert (C1 : cnt b L = cnt b (firstn q L) + cnt b (skipn q L)) by (rewrite <- cnt_app, firstn_skipn; reflexivity). assert (C3 : skipn q L = b :: skipn (S q) L) by (apply skipn_get_cons; rewrite <- Nq; now apply get_nth). rewrite C3 in C1. cbn [cnt] in C1. rewrite Bool.eqb_reflx in C1. lia.
Qed.
Theorem wt_select_ok ls0 c i : h <= length ls0 -> wt_select w ls0 c i = Some (match nth_occ (low c) i xs0 with Some q => q | None => n end).
Proof.
  intros Hl. unfold wt_select. rewrite (wi_h M), (wi_n M). set (c' := low c). pose proof (low_bound c) as Lc. fold c' in Lc. match goal with |- context [for_down _ _ ?bd _] => set (body := bd) end.
  destruct (@for_down_rule _ (fun k '(l, r, ls) => tnode (h - k) (sh (h - k) c') l r /\ length ls = length ls0 /\ forall u, u < h - k -> exists a b, get ls (h - 1 - u) = Some a /\ tnode u (sh u c') a b) body 0 h (0, n, ls0)) as (((l & r) & ls) & -> & I1 & I2 & I3).
  - cbn [Nat.add]. rewrite Nat.sub_diag, tsh_0 by auto. split; [apply tnode_0; auto|]. split; [reflexivity|]. intros; lia.
  - intros k ((l & r) & ls) Hk (I1 & I2 & I3). unfold body. remember (h - S k) as t eqn:Ht. replace (h - k) with (S t) by lia. assert (Ek : k = h - 1 - t) by lia. set (P := sh t c') in *. rewrite set_some by lia. cbn [obind].
    destruct (@ranks_ok t P l r 0 ltac:(lia) I1) as (A & LA & E1 & _). assert (J0 : jf 0 t P = 0) by reflexivity. unfold wt_ranks in E1. rewrite J0 in E1. rewrite Nat.add_0_r in E1.
    destruct (trk w l) as [rl|]; [|discriminate]. cbn [obind] in *. destruct (trk w r) as [rr|]; [|discriminate]. cbn [obind] in *. destruct (usub r l) as [d|]; [|discriminate]. cbn [obind] in *. destruct (usub rr rl) as [os|]; [|discriminate]. cbn [obind] in *. destruct (usub d os) as [zs|]; [|discriminate]. cbn [obind] in *. assert (Ez : zs = length (F (S t) (2 * P + bZ false))) by congruence. subst zs.
    assert (K : forall u, u < S t -> exists a b, get (lset ls k l) (h - 1 - u) = Some a /\ tnode u (sh u c') a b).
    { intros u Hu. destruct (Nat.eq_dec u t) as [->|]; [exists l, r; rewrite <- Ek, get_lset_eq by lia; auto|]. rewrite get_lset_neq by lia. apply I3. lia. }
    rewrite (low_bit c) by lia. fold c'. assert (ES : sh (S t) c' = (2 * P + bZ (vbit c' k))%Z) by (rewrite Ek; apply tsh_S; lia).
    pose proof (@tnode_child t P l r (vbit c' k) ltac:(lia) I1) as NC. destruct (tnode_fit I1) as (_ & Er & _). pose proof (F_two xs0 P (t := t) ltac:(lia)) as F2. rewrite ES. destruct (vbit c' k).
    + eexists. split; [reflexivity|]. cbv beta iota. split; [|split; [now rewrite lset_length|exact K]]. replace (l + (n + _)) with (l + n + length (F (S t) (2 * P + bZ false))) by lia. replace (r + n) with (l + n + length (F (S t) (2 * P + bZ false)) + length (F (S t) (2 * P + bZ true))) by lia. exact NC.
    + eexists. split; [reflexivity|]. cbv beta iota. split; [|split; [now rewrite lset_length|exact K]]. rewrite Nat.add_0_r in NC. exact NC.
  - cbn [obind]. rewrite Nat.sub_0_r, sh_h in I1. destruct (tnode_fit I1) as (_ & Er & _). rewrite usub_ok by lia. cbn [obind]. replace (r - l) with (length (F h c')) by lia. rewrite F_h. destruct (Nat.leb_spec (length (filter (Z.eqb c') xs0)) i) as [C|C].
    + rewrite nth_occ_none by (exact C). reflexivity.
    + clear body. match goal with |- context [for_up _ _ ?bd _] => set (body := bd) end.
      destruct (@for_up_rule _ (fun k j => nth_occ c' i (F (h - k) (sh (h - k) c')) = Some j) body h 0 i) as (j & -> & J).
      * rewrite Nat.sub_0_r, sh_h, F_h. apply nth_occ_all; [|exact C]. intros x Hx. apply filter_In in Hx. lia.
      * intros k j Hk J. unfold body. remember (h - S k) as t eqn:Ht. assert (Ek : k = h - 1 - t) by lia. destruct (I3 t ltac:(lia)) as (a & b & Ga & Na). rewrite <- Ek in Ga. rewrite Ga. cbn [obind]. replace (h - k) with (S t) in J by lia. set (P := sh t c') in *.
        rewrite tsh_S in J by lia. rewrite <- Ek in J. fold P in J. rewrite tF_S in J by lia. rewrite <- Ek in J. destruct (@nth_occ_filter c' (fun x => Bool.eqb (vbit x k) (vbit c' k)) (Bool.eqb_reflx _) (F t P) i j J) as (q & E & Hq & Nq & Lq).
        destruct (@tnode_sel t P a b q ltac:(lia) Na Hq) as (A & EA & LA & ES). rewrite Nq, <- Ek, Lq in ES. rewrite EA. cbn [obind]. rewrite (low_bit c) by lia. fold c'. exists q. split; [|exact E]. destruct (vbit c' k).
        -- rewrite ES. cbn [obind]. rewrite usub_ok by lia. f_equal. lia.
        -- rewrite usub_ok by lia. cbn [obind]. rewrite ES. cbn [obind]. rewrite usub_ok by lia. f_equal. lia.
      * cbn [Nat.add] in J. rewrite Nat.sub_diag, tsh_0, tF_0 in J by auto. now rewrite J.
Qed.

(** enumeration *)
Fixpoint en (d : nat) (c : Z) (zs : list Z) : list (Z * nat) :=
  match zs with
  | [] => []
  | _ => match d with O => [(c, length zs)] | S d => en d c (zer d zs) ++ en d (Z.lor c (Z.shiftl 1 (Z.of_nat d))) (one d zs) end
  end.
Lemma wt_enum_ok : h <= 64 -> forall fuel t P l r a b c enm, t <= h -> h - t < fuel -> tnode t P l r -> a <= b <= length (F t P) ->
  wt_enum fuel w l r a b c enm = Some (enm ++ en (h - t) c (slice a b (F t P))).
Proof.
  intros H64. induction fuel as [|fuel IH]; intros t P l r a b c enm Ht Hf N Hab; [lia|]. cbn [wt_enum]. rewrite (wi_n M), (wi_h M). rewrite usub_ok by lia. cbn [obind]. assert (Ls : length (slice a b (F t P)) = b - a) by (apply slice_length; lia).
  destruct (Nat.eqb_spec (b - a) 0) as [Z0|Nz].
  { destruct (slice a b (F t P)); [|cbn in Ls; lia]. destruct (h - t); cbn; now rewrite app_nil_r. }
  destruct (tnode_fit N) as (B1 & B2 & B3). assert (Ln : l / n = t) by (symmetry; apply Nat.div_unique with (l - n * t); lia).
  destruct (Nat.leb_spec (n * h) l) as [C|C].
  - assert (Eth : t = h) by nia. clear Ln. subst t. rewrite Nat.sub_diag. destruct (slice a b (F h P)) eqn:E; [cbn in Ls; lia|]. cbn [en]. now rewrite Ls.
  - assert (Ht' : t < h) by nia. destruct (tnode_rank Ht' N) as (A & LA & K). pose proof (K 0 ltac:(lia)) as K0. rewrite Nat.add_0_r in K0. cbn in K0. rewrite Nat.add_0_r in K0. set (k := h - 1 - t) in *.
    rewrite K0. cbn [obind]. rewrite B2. rewrite (K _ (le_n _)), firstn_all. cbn [obind]. rewrite (K a) by lia. cbn [obind]. rewrite usub_ok by lia. cbn [obind]. rewrite (K b) by lia. cbn [obind]. rewrite usub_ok by lia. cbn [obind].
    pose proof (zo_length k (F t P)) as Z1. pose proof (zo_length k (firstn a (F t P))) as Z2. pose proof (zo_length k (firstn b (F t P))) as Z3. rewrite firstn_length in Z2, Z3.
    assert (Q : forall f : Z -> bool, length (filter f (firstn a (F t P))) <= length (filter f (firstn b (F t P))) <= length (filter f (F t P))).
    { intros f. split; [|apply filter_firstn_le]. replace (firstn a (F t P)) with (firstn a (firstn b (F t P))) by (rewrite firstn_firstn; f_equal; lia). apply filter_firstn_le. }
    pose proof (Q (fun x => vbit x k)) as Q1. pose proof (Q (fun x => negb (vbit x k))) as Q0. fold (one k (firstn a (F t P))) (one k (firstn b (F t P))) (one k (F t P)) in Q1. fold (zer k (firstn a (F t P))) (zer k (firstn b (F t P))) (zer k (F t P)) in Q0.
    rewrite usub_ok by lia. cbn [obind]. rewrite usub_ok by lia. cbn [obind]. rewrite usub_ok by lia. cbn [obind]. rewrite usub_ok by lia. cbn [obind]. rewrite usub_ok by lia. cbn [obind].
    pose proof (@tnode_child t P l r false Ht' N) as N0. pose proof (@tnode_child t P l r true Ht' N) as N1. cbv beta iota in N0, N1. rewrite Nat.add_0_r in N0.
    assert (EZ : F (S t) (2 * P + bZ false) = zer k (F t P)) by (rewrite tF_S by auto; apply eqb_zer). assert (EO : F (S t) (2 * P + bZ true) = one k (F t P)) by (rewrite tF_S by auto; apply eqb_one).
    replace (l + length (F t P) - (A + length (one k (F t P))) - (l - A)) with (length (zer k (F t P))) by lia.
    replace (a - (A + length (one k (firstn a (F t P))) - A)) with (length (zer k (firstn a (F t P)))) by lia. replace (b - (A + length (one k (firstn b (F t P))) - A)) with (length (zer k (firstn b (F t P)))) by lia.
    rewrite EZ in N0, N1. rewrite (IH (S t) _ _ _ _ _ c enm ltac:(lia) ltac:(lia) N0) by (rewrite EZ; lia). cbn [obind]. rewrite Ln. rewrite usub_ok by lia. cbn [obind]. unfold one_ull. destruct (Nat.ltb_spec (h - (1 + t)) 64); [|lia]. cbn [guard obind].
    replace (A + length (one k (firstn a (F t P))) - A) with (length (one k (firstn a (F t P)))) by lia. replace (A + length (one k (firstn b (F t P))) - A) with (length (one k (firstn b (F t P)))) by lia.
    rewrite EO in N1. replace (l + length (F t P) + n) with (l + n + length (zer k (F t P)) + length (one k (F t P))) by lia. rewrite (IH (S t) _ _ _ _ _ _ _ ltac:(lia) ltac:(lia) N1) by (rewrite EO; lia). f_equal. rewrite <- app_assoc. f_equal. rewrite EZ, EO.
    unfold zer at 1 2 3, one at 1 2 3. rewrite !filter_slice by lia. replace (h - t) with (S k) by lia. replace (h - S t) with k by lia. replace (h - (1 + t)) with k by lia. destruct (slice a b (F t P)) eqn:E; [cbn in Ls; lia|]. reflexivity.
Qed.
Lemma en_spec : forall d P zs, (forall x, In x zs -> Z.shiftr x (Z.of_nat d) = P) -> let R := en d (P * 2 ^ Z.of_nat d)%Z zs in
  StronglySorted Z.lt (map fst R) /\ (forall v f, In (v, f) R -> f = howmany (Z.eqb v) zs /\ 0 < f /\ Z.shiftr v (Z.of_nat d) = P) /\ (forall x, In x zs -> In x (map fst R)).
Proof.
  induction d as [|d IH]; intros P zs Hz R; unfold R.
  - destruct zs as [|z zs]; [cbn; repeat split; try constructor; contradiction|]. cbn [en map fst]. change (2 ^ Z.of_nat 0)%Z with 1%Z. rewrite Z.mul_1_r. assert (Hz' : forall x, In x (z :: zs) -> x = P) by (intros x Hx; rewrite <- (Hz x Hx); symmetry; apply Z.shiftr_0_r). split; [repeat constructor|]. split.
    + intros v f [E|[]]. injection E as <- <-. split; [|split; [cbn; lia|apply Z.shiftr_0_r]]. unfold howmany. rewrite filter_all; auto. intros x Hx. rewrite (Hz' x Hx). apply Z.eqb_refl.
    + intros x Hx. left. symmetry. auto.
  - destruct zs as [|z zs']; [cbn; repeat split; try constructor; contradiction|]. set (zs := z :: zs') in *. change (en (S d) (P * 2 ^ Z.of_nat (S d)) zs) with (en d (P * 2 ^ Z.of_nat (S d)) (zer d zs) ++ en d (Z.lor (P * 2 ^ Z.of_nat (S d)) (Z.shiftl 1 (Z.of_nat d))) (one d zs)).
    pose proof (lor_pow P d true) as L1. pose proof (lor_pow P d false) as L0. cbv beta iota in L0, L1. rewrite Z.shiftl_0_l, Z.lor_0_r in L0. rewrite L1, L0. clear L0 L1.
    assert (SH : forall x, Z.shiftr x (Z.of_nat d) = (2 * Z.shiftr x (Z.of_nat (S d)) + bZ (vbit x d))%Z). { intros x. rewrite Nat2Z.inj_succ. unfold Z.succ. apply shr_S. lia. }
    destruct (IH (2 * P + 0)%Z (zer d zs)) as (S0 & X0 & A0). { intros x Hx. apply filter_In in Hx. destruct Hx as (Hx & Hb). rewrite SH, (Hz x Hx). destruct (vbit x d); [discriminate|reflexivity]. }
    destruct (IH (2 * P + 1)%Z (one d zs)) as (S1 & X1 & A1). { intros x Hx. apply filter_In in Hx. destruct Hx as (Hx & Hb). rewrite SH, (Hz x Hx), Hb. reflexivity. }
    set (R0 := en d ((2 * P + 0) * 2 ^ Z.of_nat d) (zer d zs)) in *. set (R1 := en d ((2 * P + 1) * 2 ^ Z.of_nat d) (one d zs)) in *. rewrite map_app.
    assert (V0 : forall v, Z.shiftr v (Z.of_nat d) = (2 * P + 0)%Z -> Z.shiftr v (Z.of_nat (S d)) = P /\ vbit v d = false). { intros v Hvv. rewrite SH in Hvv. unfold bZ in Hvv. destruct (vbit v d); split; auto; lia. }
    assert (V1 : forall v, Z.shiftr v (Z.of_nat d) = (2 * P + 1)%Z -> Z.shiftr v (Z.of_nat (S d)) = P /\ vbit v d = true). { intros v Hvv. rewrite SH in Hvv. unfold bZ in Hvv. destruct (vbit v d); split; auto; lia. }
    split; [|split].
    + assert (LT : forall a b, In a (map fst R0) -> In b (map fst R1) -> (a < b)%Z).
      { intros a b Ha Hb. apply in_map_iff in Ha. destruct Ha as ((v & f) & <- & Ha). apply in_map_iff in Hb. destruct Hb as ((v' & f') & <- & Hb). cbn [fst]. destruct (X0 _ _ Ha) as (_ & _ & E0). destruct (X1 _ _ Hb) as (_ & _ & E1).
        destruct (Z.lt_ge_cases v v') as [|G]; auto. rewrite !Z.shiftr_div_pow2 in E0, E1 by lia. assert (v' / 2 ^ Z.of_nat d <= v / 2 ^ Z.of_nat d)%Z by (apply Z.div_le_mono; [apply Z.pow_pos_nonneg; lia|lia]). lia. }
      clear -S0 S1 LT. induction (map fst R0) as [|a l IHl]; auto. cbn [app]. inversion S0; subst. constructor; [apply IHl; auto; intros; apply LT; auto; now right|]. apply Forall_app. split; auto. apply Forall_forall. intros b Hb. apply LT; auto. now left.
    + intros v f Hi. apply in_app_iff in Hi. destruct Hi as [Hi|Hi].
      * destruct (X0 _ _ Hi) as (-> & P0 & E0). destruct (V0 v E0) as (E & Eb). split; [|auto]. unfold howmany. f_equal. unfold zer. rewrite filter_filter. apply filter_ext. intros x. destruct (Z.eqb_spec v x) as [<-|]; [now rewrite Eb|apply andb_false_r].
      * destruct (X1 _ _ Hi) as (-> & P0 & E0). destruct (V1 v E0) as (E & Eb). split; [|auto]. unfold howmany. f_equal. unfold one. rewrite filter_filter. apply filter_ext. intros x. destruct (Z.eqb_spec v x) as [<-|]; [now rewrite Eb|apply andb_false_r].
    + intros x Hx. apply in_app_iff. destruct (vbit x d) eqn:Eb; [right; apply A1|left; apply A0]; apply filter_In; rewrite Eb; auto.
Qed.

(** walking down *)
Lemma wt_child_ok t P l r b : t < h -> tnode t P l r -> exists l' r', wt_child w b l r = Some (l', r') /\ tnode (S t) (2 * P + bZ b) l' r'.
Proof.
  intros Ht N. destruct (@ranks_ok t P l r 0 Ht N) as (A & LA & E1 & _). assert (J0 : jf 0 t P = 0) by reflexivity. unfold wt_ranks in E1. rewrite J0 in E1. rewrite Nat.add_0_r in E1. unfold wt_child. rewrite (wi_n M).
  destruct (trk w l) as [rl|]; [|discriminate]. cbn [obind] in *. destruct (trk w r) as [rr|]; [|discriminate]. cbn [obind] in *. destruct (usub r l) as [d|]; [|discriminate]. cbn [obind] in *. destruct (usub rr rl) as [os|]; [|discriminate]. cbn [obind] in *. destruct (usub d os) as [zs|]; [|discriminate]. cbn [obind] in *. assert (Ez : zs = length (F (S t) (2 * P + bZ false))) by congruence. subst zs.
  pose proof (@tnode_child t P l r b Ht N) as NC. destruct (tnode_fit N) as (_ & Er & _). pose proof (F_two xs0 P (t := t) Ht) as F2. destruct b; cbn [negb]; do 2 eexists; (split; [reflexivity|]).
  - replace (l + _ + n) with (l + n + length (F (S t) (2 * P + bZ false))) by lia. replace (r + n) with (l + n + length (F (S t) (2 * P + bZ false)) + length (F (S t) (2 * P + bZ true))) by lia. exact NC.
  - rewrite Nat.add_0_r in NC. replace (l + _ + n) with (l + n + length (F (S t) (2 * P + bZ false))) by lia. exact NC.
Qed.
Lemma wt_walk_ok bs : forall t P l r, t + length bs <= h -> tnode t P l r -> exists l' r', wt_walk w bs l r = Some (l', r') /\ tnode (t + length bs) (fold_left (fun a (b : bool) => 2 * a + (if b then 1 else 0))%Z bs P) l' r'.
Proof.
  induction bs as [|b bs IH]; intros t P l r Ht N; cbn [wt_walk fold_left length] in *; [rewrite Nat.add_0_r; eauto|]. destruct (@wt_child_ok t P l r b ltac:(lia) N) as (l' & r' & -> & N'). cbn [obind]. replace (t + S (length bs)) with (S t + length bs) by lia. apply IH; [lia|exact N'].
Qed.
Lemma tnode_pos t P l r : tnode t P l r -> l = n * t + howmany (fun x => sh t x <? P)%Z xs0 /\ r = l + howmany (fun x => sh t x =? P)%Z xs0.
Proof.
  intros (GA & GC & E & -> & -> & HA & HC). split; [|reflexivity]. f_equal. assert (PE : Permutation (concat (levs t)) xs0).
  { clear. induction t as [|t IH]; [cbn; rewrite app_nil_r; apply Permutation_refl|]. cbn [WtProof.levs]. now rewrite fm_perm. }
  assert (Q : forall (f : Z -> bool) l k, Permutation l k -> howmany f l = howmany f k). { unfold howmany. intros f l k Pm. induction Pm; cbn [filter]; auto; repeat (match goal with |- context [if ?b then _ else _] => destruct b end; cbn [length]; auto); congruence. }
  rewrite <- (Q _ _ _ PE), E, !concat_app, concat_ne. unfold howmany. rewrite !filter_app, !app_length. rewrite filter_all by (intros x Hx; specialize (HA x Hx); lia). rewrite (filter_none _ (F t P)), (filter_none _ (concat GC)); cbn [length]; [lia| |].
  - intros x Hx. specialize (HC x Hx). lia.
  - intros x Hx. apply filter_In in Hx. lia.
Qed.
End Query.
