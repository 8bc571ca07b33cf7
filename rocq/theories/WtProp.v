(** * C88, C89: queries of the wavelet tree ([WaveletTree] of wavelet_tree.hpp) *)
From Coq Require Import Permutation Sorted.
From Verif Require Import Base BaseLemmas ListExtra BitModel BitProof BmapModel BmapProof BvModel BvProof WmModel WmProof WmPath WmProp WtModel WtProof WtQuery.
Set Implicit Arguments.

(** A tree built over a list of 64-bit values that are not all 0. *)
Definition values64 (xs : list Z) : Prop := forall x, In x xs -> (0 <= x < 2 ^ 64)%Z.
Definition wt_built (xs : list Z) (w : wt) : Prop := values64 xs /\ (exists x, In x xs /\ x <> 0%Z) /\ wt_build xs = Some w.

Lemma height xs : values64 xs -> (exists x, In x xs /\ x <> 0%Z) -> exists c, clz (fold_left Z.max xs 0%Z) = Some c /\ 0 < 64 - Z.to_nat c <= 64 /\
  (forall x, In x xs -> (0 <= x < 2 ^ Z.of_nat (64 - Z.to_nat c))%Z) /\ (2 ^ Z.of_nat (64 - Z.to_nat c - 1) <= fold_left Z.max xs 0)%Z.
Proof.
  intros Hx (x0 & I0 & N0). pose proof (@max_word xs Hx 0%Z ltac:(lia)) as Mw. set (M := fold_left Z.max xs 0%Z) in *. assert (Mx : forall x, In x xs -> (x <= M)%Z) by (intros x Ix; apply max_ge; auto).
  assert (HM : (0 < M)%Z) by (specialize (Mx x0 I0); specialize (Hx x0 I0); lia). rewrite clz_log2 by (unfold word64; auto; lia). eexists. split; [reflexivity|].
  pose proof (Z.log2_spec M ltac:(lia)) as Ls. assert (Z.log2 M < 64)%Z by (apply Z.log2_lt_pow2; lia). pose proof (Z.log2_nonneg M).
  assert (E : Z.of_nat (64 - Z.to_nat (63 - Z.log2 M)) = Z.succ (Z.log2 M)) by lia. split; [lia|]. split.
  - intros x Ix. rewrite E. specialize (Mx x Ix). specialize (Hx x Ix). lia.
  - replace (Z.of_nat (64 - Z.to_nat (63 - Z.log2 M) - 1)) with (Z.log2 M) by lia. lia.
Qed.
Lemma built_wti xs w : wt_built xs w -> 0 < length xs /\ 0 < th w <= 64 /\ (forall x, In x xs -> (0 <= x < 2 ^ Z.of_nat (th w))%Z) /\ (2 ^ Z.of_nat (th w - 1) <= fold_left Z.max xs 0)%Z /\ wti (th w) xs w.
Proof.
  intros (Hx & He & E). destruct (height Hx He) as (c & Ec & Hh & Hv & Hm). assert (Hl : 0 < length xs) by (destruct He as (x & I & _); destruct xs; [destruct I|cbn; lia]).
  destruct (@build_wt (64 - Z.to_nat c) xs c Hl ltac:(lia)) as (w' & E' & W); auto. { apply Forall_forall. intros x Ix. apply Hx; auto. }
  assert (w' = w) by congruence. subst w'. rewrite (wi_h W). auto.
Qed.

(** The constructor works on every list of 64-bit values that are not all 0; the height is the
    number of bits of the greatest value, and the size the number of values. *)
Theorem C88_build xs : values64 xs -> (exists x, In x xs /\ x <> 0%Z) ->
  exists w, wt_build xs = Some w /\ tn w = length xs /\ (2 ^ Z.of_nat (th w - 1) <= fold_left Z.max xs 0 < 2 ^ Z.of_nat (th w))%Z.
Proof.
  intros Hx He. destruct (height Hx He) as (c & Ec & Hh & Hv & Hm). assert (Hl : 0 < length xs) by (destruct He as (x & I & _); destruct xs; [destruct I|cbn; lia]).
  destruct (@build_wt (64 - Z.to_nat c) xs c Hl ltac:(lia)) as (w & E & W); auto. { apply Forall_forall. intros x Ix. apply Hx; auto. }
  exists w. split; [exact E|]. split; [apply W|]. rewrite (wi_h W). split; [exact Hm|].
  assert (K : forall ys a, (0 <= a < 2 ^ Z.of_nat (64 - Z.to_nat c))%Z -> (forall x, In x ys -> (0 <= x < 2 ^ Z.of_nat (64 - Z.to_nat c))%Z) -> (fold_left Z.max ys a < 2 ^ Z.of_nat (64 - Z.to_nat c))%Z).
  { induction ys as [|y ys IH]; intros a Ha Hy; cbn [fold_left]; [lia|]. apply IH; [|intros; apply Hy; now right]. specialize (Hy y (or_introl eq_refl)). lia. }
  apply K; auto. split; [lia|]. apply Z.pow_pos_nonneg; lia.
Qed.

Section Built.
Variable xs : list Z.
Variable w : wt.
Hypothesis B : wt_built xs w.
Notation n := (length xs).

(** [get] gives back the list. *)
Theorem C88_get i x : get xs i = Some x -> wt_get w i = Some x.
Proof. destruct (built_wti B) as (Hn & Hh & Hv & _ & W). apply (wt_get_ok W Hn Hv i Hh). Qed.

(** Counting in the first [i] values: equal to [c], smaller and greater. A [c] of more bits than
    the greatest value is taken modulo [2 ^ h]. *)
Theorem C88_rank c i : i <= n -> let d := (c mod 2 ^ Z.of_nat (th w))%Z in let ys := firstn i xs in
  wt_rank w c i = Some (howmany (Z.eqb d) ys) /\ wt_rank_lower w c i = Some (howmany (fun x => x <? d)%Z ys) /\
  wt_rank_3way w c i = Some (howmany (fun x => x <? d)%Z ys, howmany (Z.eqb d) ys, howmany (fun x => d <? x)%Z ys).
Proof.
  destruct (built_wti B) as (Hn & Hh & Hv & _ & W). intros Hi d ys. split; [|split].
  - apply (wt_rank_ok W Hn Hv c Hi).
  - apply (wt_rank_lower_ok W Hn Hv c Hi).
  - apply (wt_rank_3way_ok W Hn Hv c Hi).
Qed.
(** So the counts are those of [c] itself when [c] is no greater than the greatest value. *)
Theorem C88_rank_exact c i : i <= n -> (0 <= c <= fold_left Z.max xs 0)%Z -> let ys := firstn i xs in
  wt_rank w c i = Some (howmany (Z.eqb c) ys) /\ wt_rank_lower w c i = Some (howmany (fun x => x <? c)%Z ys) /\
  wt_rank_3way w c i = Some (howmany (fun x => x <? c)%Z ys, howmany (Z.eqb c) ys, howmany (fun x => c <? x)%Z ys).
Proof.
  intros Hi Hc ys. pose proof (C88_rank c Hi) as K. cbv zeta in K. rewrite Z.mod_small in K; [exact K|]. destruct B as (Hx & He & E). destruct (C88_build Hx He) as (w' & E' & _ & Hm). assert (w' = w) by congruence. subst w'. lia.
Qed.

(** The position of the [i]th [c] (from 0), or the size when there is none; whatever the scratch
    array [ls] of the tree held before. *)
Theorem C88_select ls c i : th w <= length ls -> (0 <= c <= fold_left Z.max xs 0)%Z -> wt_select w ls c i = Some (match nth_occ c i xs with Some q => q | None => n end).
Proof.
  intros Hl Hc. destruct (built_wti B) as (Hn & Hh & Hv & _ & W). rewrite (wt_select_ok W Hn Hv ls c i Hl). unfold low. rewrite Z.mod_small; [reflexivity|]. destruct B as (Hx & He & E). destruct (C88_build Hx He) as (w' & E' & _ & Hm). assert (w' = w) by congruence. subst w'. lia.
Qed.

(** [enumerate(l, r)] lists the distinct values of the range, ascending, with how often each occurs. *)
Theorem C89_enumerate l r : l <= r <= n -> exists R, wt_enumerate w l r = Some R /\ all_values (fun _ => true) (slice l r xs) R.
Proof.
  intros Hr. destruct (built_wti B) as (Hn & Hh & Hv & _ & W). unfold wt_enumerate. assert (N0 := tnode_0 W Hn Hv). rewrite (wi_n W). rewrite (@wt_enum_ok (th w) xs w W Hn Hv ltac:(lia) (th w + 1) 0 0%Z 0 n l r 0%Z [] ltac:(lia) ltac:(lia) N0) by (rewrite (tF_0 _ _ Hv); lia). rewrite (tF_0 _ _ Hv). eexists. split; [reflexivity|]. rewrite Nat.sub_0_r. cbn [app].
  destruct (@en_spec (th w) xs Hn Hv (th w) 0%Z (slice l r xs)) as (S0 & X0 & A0).
  { intros x Hx. apply slice_In in Hx. specialize (Hv x Hx). rewrite Z.shiftr_div_pow2 by lia. now apply Z.div_small. }
  rewrite Z.mul_0_l in *. split; [exact S0|]. split; [intros v f Hi; destruct (X0 v f Hi) as (E & P & _); auto|].
  intros x. split; [|intros (Hx & _); auto]. intros Hx. split; [|reflexivity]. apply in_map_iff in Hx. destruct Hx as ((v & f) & <- & Hx). destruct (X0 v f Hx) as (E & P & _). cbn [fst]. subst f. unfold howmany in P. destruct (filter (Z.eqb v) (slice l r xs)) as [|y ys] eqn:Ef; [cbn in P; lia|].
  assert (In y (filter (Z.eqb v) (slice l r xs))) as Iy by (rewrite Ef; now left). apply filter_In in Iy. destruct Iy as (Iy & Ey). apply Z.eqb_eq in Ey. now subst y.
Qed.

(** Walking down from the root with [child] along the bits [bs] reaches the node of the values
    whose upper bits are [bs]: its length is their number, and its place in its level is behind the
    values with smaller upper bits. *)
Theorem C89_child bs : length bs <= th w -> exists l r, wt_walk w bs 0 n = Some (l, r) /\
  l = n * length bs + howmany (fun x => upper (th w - length bs) x <? spell bs)%Z xs /\ r = l + howmany (fun x => upper (th w - length bs) x =? spell bs)%Z xs.
Proof.
  intros Hb. destruct (built_wti B) as (Hn & Hh & Hv & _ & W). destruct (wt_walk_ok W Hn Hv bs (t := 0) Hb (tnode_0 W Hn Hv)) as (l & r & E & N). cbn [Nat.add] in N. exists l, r. split; [exact E|]. destruct (tnode_pos Hn Hv N) as (P1 & P2).
  assert (U : forall x, sh (th w) (length bs) x = upper (th w - length bs) x) by (intros x; unfold sh, upper; rewrite Z.shiftr_div_pow2 by lia; reflexivity).
  split; [rewrite P1 at 1|rewrite P2 at 1]; f_equal; unfold howmany; f_equal; apply filter_ext; intros x; now rewrite U.
Qed.
End Built.

(** A list of zeros has height 0, and the constructor then writes bits into an empty bit vector. *)
Theorem C88_zeros_refuted xs : (forall x, In x xs -> x = 0%Z) -> wt_build xs = None.
Proof.
  intros Hz. unfold wt_build. destruct xs as [|x xs]; [reflexivity|]. cbn [length Nat.ltb Nat.leb guard obind]. destruct (forallb _ _); [|reflexivity]. cbn [guard obind].
  assert (E : fold_left Z.max (x :: xs) 0%Z = 0%Z). { clear -Hz. induction (x :: xs) as [|y l IH]; auto. cbn [fold_left]. rewrite (Hz y (or_introl eq_refl)). apply IH. intros z Hi. apply Hz. now right. }
  rewrite E. change (clz 0) with (Some 64%Z). cbn [obind]. change (64 - Z.to_nat 64) with 0. cbn [Nat.sub for_down obind Nat.mul]. unfold wt_write. cbn [for_up get nth_error obind]. reflexivity.
Qed.
(** [rank] of a value of more bits than the greatest one counts another value. *)
Theorem C88_wide_refuted : (let* w := wt_build [3; 1; 2; 1]%Z in wt_rank w 5 4) = Some 2 /\ howmany (Z.eqb 5) [3; 1; 2; 1]%Z = 0.
Proof. split; vm_compute; reflexivity. Qed.

(** Non-trivial cases. *)
Example C88_ex : (let xs := [5; 0; 3; 5; 1; 3; 5]%Z in let* w := wt_build xs in
  let* a := wt_get w 3 in let* b := wt_rank w 3 6 in let* c := wt_rank_3way w 3 7 in let* d := wt_select w [9; 9; 9; 9] 5 2 in let* e := wt_select w [0; 0; 0] 2 0 in
  Some (th w, a, b, c, d, e)) = Some (3, 5%Z, 2, (2, 2, 3), 6, 7).
Proof. vm_compute. reflexivity. Qed.
Example C89_ex : (let xs := [5; 0; 3; 5; 1; 3; 5]%Z in let* w := wt_build xs in
  let* a := wt_enumerate w 1 6 in let* b := wt_walk w [false; true] 0 7 in Some (a, b)) = Some ([(0%Z, 1); (1%Z, 1); (3%Z, 2); (5%Z, 1)], (16, 18)).
Proof. vm_compute. reflexivity. Qed.

Print Assumptions C88_build.
Print Assumptions C88_get.
Print Assumptions C88_rank.
Print Assumptions C88_rank_exact.
Print Assumptions C88_select.
Print Assumptions C88_zeros_refuted.
Print Assumptions C88_wide_refuted.
Print Assumptions C89_enumerate.
Print Assumptions C89_child.
