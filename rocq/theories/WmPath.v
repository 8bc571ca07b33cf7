(** Proofs for WmModel.v: queries that follow one path of the matrix *)
From Coq Require Import Permutation.
From Verif Require Import Base BaseLemmas ListExtra NthExtra BitModel BitProof BmapModel BmapProof BvModel BvSel BvProof BvOps BvProp WmModel WmProof.
Set Implicit Arguments.

Lemma shr_S x k : (0 <= k)%Z -> Z.shiftr x k = (2 * Z.shiftr x (k + 1) + (if Z.testbit x k then 1 else 0))%Z.
Proof.
  intros Hk. rewrite <- Z.shiftr_shiftr by lia. set (y := Z.shiftr x k). replace (Z.testbit x k) with (Z.odd y) by (rewrite <- Z.bit0_odd; unfold y; rewrite Z.shiftr_spec by lia; reflexivity).
  rewrite (Z.shiftr_div_pow2 _ 1) by lia. change (2 ^ 1)%Z with 2%Z. rewrite (Z.div_mod y 2) at 1 by lia. f_equal. rewrite Zmod_odd. now destruct (Z.odd y).
Qed.
Lemma lor_pow P d (b : bool) : Z.lor (P * 2 ^ Z.of_nat (S d)) (Z.shiftl (if b then 1 else 0) (Z.of_nat d)) = ((2 * P + (if b then 1 else 0)) * 2 ^ Z.of_nat d)%Z.
Proof.
  rewrite Nat2Z.inj_succ, Z.pow_succ_r by lia. replace (P * (2 * 2 ^ Z.of_nat d))%Z with (Z.shiftl (0 + 2 ^ 1 * P) (Z.of_nat d)) by (rewrite Z.shiftl_mul_pow2 by lia; change (2 ^ 1)%Z with 2%Z; ring).
  rewrite <- Z.shiftl_lor. rewrite <- Z.shiftl_mul_pow2 by lia. f_equal. pose proof (@lor_cat 1 0 P (if b then 1 else 0) 0 ltac:(lia) ltac:(lia) ltac:(destruct b; lia)) as K. rewrite Z.mul_0_r, Z.add_0_r, Z.lor_0_l, Z.lor_0_r in K. rewrite K. change (2 ^ 1)%Z with 2%Z. ring.
Qed.
Lemma howmany_split A (p q e s : A -> bool) l : (forall x, In x l -> p x = q x || (e x && s x)) -> (forall x, In x l -> q x && (e x && s x) = false) ->
  howmany p l = howmany q l + length (filter s (filter e l)).
Proof.
  unfold howmany. induction l as [|x l IH]; intros Hp Hq; auto. cbn [filter]. assert (P := Hp x (or_introl eq_refl)). assert (Q := Hq x (or_introl eq_refl)). rewrite P. specialize (IH (fun y Hy => Hp y (or_intror Hy)) (fun y Hy => Hq y (or_intror Hy))).
  destruct (q x), (e x); cbn [orb andb] in *; try destruct (s x) eqn:Es; try discriminate; cbn [filter length]; rewrite ?Es; cbn [length]; lia.
Qed.
Lemma filter_none A (p : A -> bool) l : (forall x, In x l -> p x = false) -> filter p l = [].
Proof. induction l as [|x l IH]; intros Hp; auto. cbn [filter]. rewrite Hp by (now left). apply IH. intros; apply Hp; now right. Qed.
Lemma filter_all A (p : A -> bool) l : (forall x, In x l -> p x = true) -> filter p l = l.
Proof. induction l as [|x l IH]; intros Hp; auto. cbn [filter]. rewrite Hp by (now left). f_equal. apply IH. intros; apply Hp; now right. Qed.
Lemma filter_ext_in' A (p q : A -> bool) l : (forall x, In x l -> p x = q x) -> filter p l = filter q l.
Proof. induction l as [|x l IH]; intros Hp; auto. cbn [filter]. rewrite Hp by (now left). rewrite IH; auto. intros; apply Hp; now right. Qed.
Lemma slice_In A l r (xs : list A) x : In x (slice l r xs) -> In x xs.
Proof. unfold slice. intros Hx. apply In_firstn in Hx || idtac. revert Hx. generalize (r - l) as k. intros k Hx. rewrite <- (firstn_skipn l xs). apply in_or_app. right. rewrite <- (firstn_skipn k (skipn l xs)). apply in_or_app. now left. Qed.

(** occurrences in a filtered list *)
Lemma nth_occ_none c : forall xs i, howmany (Z.eqb c) xs <= i -> nth_occ c i xs = None.
Proof.
  unfold howmany. induction xs as [|x xs IH]; intros i Hi; auto. cbn [nth_occ filter] in *. rewrite (Z.eqb_sym c x) in Hi. destruct (Z.eqb_spec x c); cbn [length] in Hi.
  - destruct i; [lia|]. rewrite IH by lia. reflexivity.
  - now rewrite IH by lia.
Qed.
Lemma nth_occ_filter c f : f c = true -> forall xs i q', nth_occ c i (filter f xs) = Some q' ->
  exists q, nth_occ c i xs = Some q /\ q < length xs /\ nth q xs 0%Z = c /\ length (filter f (firstn q xs)) = q'.
Proof.
  intros Fc. induction xs as [|x xs IH]; intros i q' E; [discriminate|]. cbn [filter nth_occ] in *. destruct (Z.eqb_spec x c) as [->|Nx].
  - rewrite Fc in E. cbn [nth_occ] in E. rewrite Z.eqb_refl in E. destruct i as [|i].
    + injection E as <-. exists 0. repeat split; cbn; auto. lia.
    + destruct (nth_occ c i (filter f xs)) as [q1|] eqn:E1; [|discriminate]. injection E as <-. destruct (IH i q1 E1) as (q & -> & A & B & C). exists (S q). cbn [option_map length nth firstn filter]. rewrite Fc. cbn [length]. repeat split; auto; lia.
  - destruct (f x) eqn:Ex.
    + cbn [nth_occ] in E. destruct (Z.eqb_spec x c); [congruence|]. destruct (nth_occ c i (filter f xs)) as [q1|] eqn:E1; [|discriminate]. injection E as <-. destruct (IH i q1 E1) as (q & -> & A & B & C). exists (S q). cbn [option_map length nth firstn filter]. rewrite Ex. cbn [length]. repeat split; auto; lia.
    + destruct (IH i q' E) as (q & -> & A & B & C). exists (S q). cbn [option_map length nth firstn filter]. rewrite Ex. cbn [length]. repeat split; auto; lia.
Qed.
Lemma nth_occ_all c : forall xs i, (forall x, In x xs -> x = c) -> i < length xs -> nth_occ c i xs = Some i.
Proof.
  induction xs as [|x xs IH]; intros i Hx Hi; [cbn in Hi; lia|]. cbn [nth_occ]. rewrite (Hx x) by (now left). rewrite Z.eqb_refl. destruct i as [|i]; auto. rewrite IH; [reflexivity|intros; apply Hx; now right|cbn in Hi; lia].
Qed.

Section Path.
Variable h : nat.
Variable xs0 : list Z.
Notation n := (length xs0).
Hypothesis Hn : 0 < n.
Hypothesis Hh : 0 < h.
Hypothesis Hv : forall x, In x xs0 -> (0 <= x < 2 ^ Z.of_nat h)%Z.
Variable m : wm.
Hypothesis M : wmi h xs0 m.
Notation lay := (lay h xs0).
Notation node := (node h xs0).
Let node_0 := @WmProof.node_0 h xs0 Hn Hh.
Let node_length := @WmProof.node_length h xs0 Hn Hh.
Let lay_length := @WmProof.lay_length h xs0 Hn Hh.
Let child_tie_ok := @WmProof.child_tie_ok h xs0 Hn Hh m M.
Let child_ok := @WmProof.child_ok h xs0 Hn Hh m M.
Let cpos_slice := @WmProof.cpos_slice h xs0 Hn Hh.
Let cpos_le := @WmProof.cpos_le h xs0 Hn Hh.
Let get_at := @WmProof.get_at h xs0 Hn Hh m M.
Let level_bits := @WmProof.level_bits h xs0 Hn Hh.
Let rank_at := @WmProof.rank_at h xs0 Hn Hh.
Let ro_le := @WmProof.ro_le h xs0 Hn Hh.
Let firstn_slice := @WmProof.firstn_slice h xs0 Hn Hh.

Definition sh (t : nat) (x : Z) : Z := Z.shiftr x (Z.of_nat (h - t)).
Lemma sh_0 x : (0 <= x < 2 ^ Z.of_nat h)%Z -> sh 0 x = 0%Z.
Proof. intros Hx. unfold sh. rewrite Nat.sub_0_r, Z.shiftr_div_pow2 by lia. now apply Z.div_small. Qed.
Lemma sh_h x : sh h x = x. Proof. unfold sh. rewrite Nat.sub_diag. apply Z.shiftr_0_r. Qed.
Lemma sh_S t x : t < h -> sh (S t) x = (2 * sh t x + (if vbit x (h - 1 - t) then 1 else 0))%Z.
Proof. intros Ht. unfold sh, vbit. rewrite shr_S by lia. replace (Z.of_nat (h - S t)) with (Z.of_nat (h - 1 - t)) by lia. do 2 f_equal. f_equal. lia. Qed.

Section Base.
Variable ys0 : list Z.
Hypothesis Hy : forall x, In x ys0 -> (0 <= x < 2 ^ Z.of_nat h)%Z.
Definition F (t : nat) (P : Z) : list Z := filter (fun x => sh t x =? P)%Z ys0.
Lemma F_0 : F 0 0 = ys0.
Proof. apply filter_all. intros x Hx. rewrite sh_0 by auto. apply Z.eqb_refl. Qed.
Lemma F_S t P (b : bool) : t < h -> F (S t) (2 * P + (if b then 1 else 0)) = filter (fb h t b) (F t P).
Proof.
  intros Ht. unfold F. rewrite filter_filter. apply filter_ext. intros x. rewrite sh_S by auto. unfold fb. destruct (vbit x (h - 1 - t)), b; cbn [Bool.eqb]; destruct (Z.eqb_spec (sh t x) P); cbn [andb]; lia.
Qed.
Lemma F_h c : F h c = filter (Z.eqb c) ys0.
Proof. unfold F. apply filter_ext. intros x. rewrite sh_h. apply Z.eqb_sym. Qed.
Lemma F_c t c : t < h -> F (S t) (sh (S t) c) = filter (fb h t (vbit c (h - 1 - t))) (F t (sh t c)).
Proof. intros Ht. rewrite sh_S by auto. now apply F_S. Qed.
End Base.

Lemma slice_vals l r x : In x (slice l r xs0) -> (0 <= x < 2 ^ Z.of_nat h)%Z.
Proof. intros Hx. apply Hv. eapply slice_In; eauto. Qed.

(** counting *)
Theorem range_rank_ok c l r : (0 <= c < 2 ^ Z.of_nat h)%Z -> l <= r <= n -> range_rank m c l r = Some (howmany (Z.eqb c) (slice l r xs0)).
Proof.
  intros Hc Hr. set (ys := slice l r xs0). assert (Hy : forall x, In x ys -> (0 <= x < 2 ^ Z.of_nat h)%Z) by (apply slice_vals). unfold range_rank. rewrite (w_h M). match goal with |- context [for_down _ _ ?bd _] => set (body := bd) end.
  destruct (@for_down_rule _ (fun k '(a, b) => a <= b /\ b - a = length (F ys (h - k) (sh (h - k) c)) /\ (a < b -> node (h - k) a b (F ys (h - k) (sh (h - k) c)))) body 0 h (l, r)) as ((a & b) & E & I1 & I2 & _).
  - cbn [Nat.add]. rewrite Nat.sub_diag, sh_0, F_0 by auto. pose proof (@node_0 l r Hr) as N. fold ys in N. pose proof (node_length N). split; [lia|split; [lia|auto]].
  - intros k (a & b) Hk (I1 & I2 & I3). unfold body. remember (h - S k) as t eqn:Ht. replace (h - k) with (S t) by lia. replace k with (h - 1 - t) by lia. replace (h - 1 - (h - 1 - t)) with t by lia. rewrite F_c by (auto; lia). destruct (Nat.ltb_spec a b) as [C|C].
    + destruct (@child_tie_ok t a b _ (vbit c (h - 1 - t)) ltac:(lia) (I3 C)) as (a' & b' & E & N). exists (a', b'). split; auto. pose proof (node_length N). assert (a' <= b') by apply N. split; [lia|split; [lia|auto]].
    + exists (a, b). split; auto. assert (Z0 : F ys t (sh t c) = []) by (destruct (F ys t (sh t c)); [auto|cbn in I2; lia]). rewrite Z0. cbn. repeat split; lia.
  - rewrite E. cbn [obind]. rewrite usub_ok by auto. f_equal. rewrite I2, Nat.sub_0_r, sh_h, F_h. reflexivity.
Qed.
Theorem rank_3way_ok c l r : (0 <= c < 2 ^ Z.of_nat h)%Z -> l <= r <= n ->
  rank_3way m c l r = Some (howmany (fun x => x <? c)%Z (slice l r xs0), howmany (Z.eqb c) (slice l r xs0), howmany (fun x => c <? x)%Z (slice l r xs0)).
Proof.
  intros Hc Hr. set (ys := slice l r xs0). assert (Hy : forall x, In x ys -> (0 <= x < 2 ^ Z.of_nat h)%Z) by (apply slice_vals). unfold rank_3way. rewrite (w_h M). match goal with |- context [for_down _ _ ?bd _] => set (body := bd) end.
  destruct (@for_down_rule _ (fun k '(a, b, lt, gt) => a <= b /\ b - a = length (F ys (h - k) (sh (h - k) c)) /\ (a < b -> node (h - k) a b (F ys (h - k) (sh (h - k) c))) /\
     lt = howmany (fun x => sh (h - k) x <? sh (h - k) c)%Z ys /\ gt = howmany (fun x => sh (h - k) c <? sh (h - k) x)%Z ys) body 0 h (l, r, 0, 0)) as ((((a & b) & lt) & gt) & E & I1 & I2 & _ & I4 & I5).
  - cbn [Nat.add]. rewrite Nat.sub_diag, sh_0, F_0 by auto. pose proof (@node_0 l r Hr) as N. fold ys in N. pose proof (node_length N). split; [lia|split; [lia|split; [auto|split]]].
    + unfold howmany. rewrite filter_none; auto. intros x Hx. rewrite sh_0 by auto. reflexivity.
    + unfold howmany. rewrite filter_none; auto. intros x Hx. rewrite sh_0 by auto. reflexivity.
  - intros k (((a & b) & lt) & gt) Hk (I1 & I2 & I3 & -> & ->). unfold body. remember (h - S k) as t eqn:Ht. replace (h - k) with (S t) by lia. replace k with (h - 1 - t) by lia. replace (h - 1 - (h - 1 - t)) with t by lia. rewrite F_c by (auto; lia). rewrite usub_ok by auto. cbn [obind].
    assert (SL : howmany (fun x => sh (S t) x <? sh (S t) c)%Z ys = howmany (fun x => sh t x <? sh t c)%Z ys + length (filter (fun x => negb (vbit x (h - 1 - t)) && vbit c (h - 1 - t)) (F ys t (sh t c)))).
    { apply howmany_split; intros x Hx; rewrite ?(@sh_S t x), ?(@sh_S t c) by lia; destruct (Z.ltb_spec (sh t x) (sh t c)), (Z.eqb_spec (sh t x) (sh t c)), (vbit x (h - 1 - t)), (vbit c (h - 1 - t)); cbn [orb andb negb]; lia. }
    assert (SG : howmany (fun x => sh (S t) c <? sh (S t) x)%Z ys = howmany (fun x => sh t c <? sh t x)%Z ys + length (filter (fun x => vbit x (h - 1 - t) && negb (vbit c (h - 1 - t))) (F ys t (sh t c)))).
    { apply howmany_split; intros x Hx; rewrite ?(@sh_S t x), ?(@sh_S t c) by lia; destruct (Z.ltb_spec (sh t c) (sh t x)), (Z.eqb_spec (sh t x) (sh t c)), (vbit x (h - 1 - t)), (vbit c (h - 1 - t)); cbn [orb andb negb]; lia. }
    destruct (Nat.eqb_spec (b - a) 0) as [C|C].
    + exists (a, b, howmany (fun x => sh t x <? sh t c)%Z ys, howmany (fun x => sh t c <? sh t x)%Z ys). split; auto. assert (Z0 : F ys t (sh t c) = []) by (destruct (F ys t (sh t c)); [auto|cbn in I2; lia]). rewrite SL, SG, Z0. cbn. repeat split; lia.
    + destruct (@child_tie_ok t a b _ (vbit c (h - 1 - t)) ltac:(lia) (I3 ltac:(lia))) as (a' & b' & E & N). rewrite E. cbn [obind]. pose proof (node_length N) as NL. assert (Nab : a' <= b') by apply N. rewrite usub_ok by auto. cbn [obind].
      pose proof (filter_two (fb h t (vbit c (h - 1 - t))) (F ys t (sh t c))) as F2. rewrite usub_ok by lia. cbn [obind].
      assert (E2 : filter (fun x => negb (fb h t (vbit c (h - 1 - t)) x)) (F ys t (sh t c)) = filter (fun x => (negb (vbit x (h - 1 - t)) && vbit c (h - 1 - t)) || (vbit x (h - 1 - t) && negb (vbit c (h - 1 - t)))) (F ys t (sh t c))).
      { apply filter_ext. intros x. unfold fb. now destruct (vbit x (h - 1 - t)), (vbit c (h - 1 - t)). }
      rewrite E2 in F2. rewrite SL, SG. destruct (vbit c (h - 1 - t)).
      * assert (Q1 : filter (fun x => negb (vbit x (h - 1 - t)) && true || vbit x (h - 1 - t) && negb true) (F ys t (sh t c)) = filter (fun x => negb (vbit x (h - 1 - t)) && true) (F ys t (sh t c))) by (apply filter_ext; intros x; now destruct (vbit x (h - 1 - t))).
        assert (Q2 : filter (fun x => vbit x (h - 1 - t) && negb true) (F ys t (sh t c)) = []) by (apply filter_none; intros x _; apply andb_false_r). rewrite Q1 in F2. rewrite Q2.
        eexists; split; [reflexivity|]. cbv beta iota. cbn [length]. split; [lia|split; [lia|split; [auto|split; lia]]].
      * assert (Q1 : filter (fun x => negb (vbit x (h - 1 - t)) && false || vbit x (h - 1 - t) && negb false) (F ys t (sh t c)) = filter (fun x => vbit x (h - 1 - t) && negb false) (F ys t (sh t c))) by (apply filter_ext; intros x; now destruct (vbit x (h - 1 - t))).
        assert (Q2 : filter (fun x => negb (vbit x (h - 1 - t)) && false) (F ys t (sh t c)) = []) by (apply filter_none; intros x _; apply andb_false_r). rewrite Q1 in F2. rewrite Q2.
        eexists; split; [reflexivity|]. cbv beta iota. cbn [length]. split; [lia|split; [lia|split; [auto|split; lia]]].
  - rewrite E. cbn [obind]. rewrite usub_ok by auto. cbn [obind]. rewrite I2, I4, I5, Nat.sub_0_r, sh_h, F_h. f_equal. f_equal; [f_equal|]; unfold howmany; f_equal; apply filter_ext; intros x; now rewrite sh_h.
Qed.

(** access *)
Lemma lor_bit c k x : (0 <= k)%Z -> (forall i, (0 <= i)%Z -> Z.testbit c i = (k <? i)%Z && Z.testbit x i) ->
  forall i, (0 <= i)%Z -> Z.testbit (if Z.testbit x k then Z.lor c (Z.shiftl 1 k) else c) i = (k <=? i)%Z && Z.testbit x i.
Proof.
  intros Hk Hc i Hi. destruct (Z.testbit x k) eqn:E.
  - rewrite Z.lor_spec, Hc, Z.shiftl_spec by lia. destruct (Z.eq_dec i k) as [->|Ni].
    + rewrite Z.sub_diag. destruct (Z.ltb_spec k k); [lia|]. destruct (Z.leb_spec k k); [|lia]. rewrite E. reflexivity.
    + replace (Z.testbit 1 (i - k)) with false; [rewrite orb_false_r; destruct (Z.ltb_spec k i), (Z.leb_spec k i); auto; lia|]. destruct (Z.lt_ge_cases i k); [now rewrite Z.testbit_neg_r by lia|]. symmetry. change 1%Z with (2 ^ 0)%Z. apply Z.pow2_bits_false. lia.
  - rewrite Hc by auto. destruct (Z.eq_dec i k) as [->|Ni]; [rewrite E, !andb_false_r; auto|]. destruct (Z.ltb_spec k i), (Z.leb_spec k i); auto; lia.
Qed.
Lemma one_ull_ok k : k < 64 -> one_ull k = Some (Z.shiftl 1 (Z.of_nat k)).
Proof. intros Hk. unfold one_ull. destruct (Nat.ltb_spec k 64); [reflexivity|lia]. Qed.
Lemma nth_partition t p : t < h -> p < n -> nth (cpos h xs0 t p (vbit (nth p (lay t) 0%Z) (h - 1 - t))) (lay (S t)) 0%Z = nth p (lay t) 0%Z.
Proof.
  intros Ht Hp. set (x := nth p (lay t) 0%Z). set (b := vbit x (h - 1 - t)). destruct (@cpos_slice t p (S p) b ltac:(lia) ltac:(lia)) as (L & E).
  assert (G : get (lay t) p = Some x) by (apply get_nth; rewrite lay_length; auto). rewrite (@slice_cons _ p (S p) (lay t) x) in E by (auto; lia). rewrite (@slice_nil _ (S p) (S p)) in E by lia. cbn [filter] in E. unfold fb at 1 in E. fold b in E. rewrite Bool.eqb_reflx in E.
  set (q := cpos h xs0 t p b) in *. set (q' := cpos h xs0 t (S p) b) in *. assert (K : nth 0 (slice q q' (lay (S t))) 0%Z = x) by (rewrite E; reflexivity). assert (q < q') by (assert (length (slice q q' (lay (S t))) = 1) by (rewrite E; auto); unfold slice in *; rewrite firstn_length in *; lia).
  unfold slice in K. rewrite nth_firstn_lt, nth_skipn in K by lia. now rewrite Nat.add_0_r in K.
Qed.
Theorem get_ok i x : h <= 64 -> get xs0 i = Some x -> wm_get m i = Some x.
Proof.
  intros H64 Gx. unfold wm_get. rewrite (w_h M). pose proof (get_some_lt _ _ Gx) as Hi. assert (Hx := Hv x (get_In _ _ Gx)). match goal with |- context [for_down _ _ ?bd _] => set (body := bd) end.
  destruct (@for_down_rule _ (fun k '(c, j) => (forall i, (0 <= i)%Z -> Z.testbit c i = (Z.of_nat k - 1 <? i)%Z && Z.testbit x i) /\ exists p, j = n * (h - k) + p /\ p < n /\ nth p (lay (h - k)) 0%Z = x) body 1 (h - 1) (0%Z, i)) as ((c & j) & E & I1 & p & I2 & I3 & I4).
  - replace (1 + (h - 1)) with h by lia. split.
    + intros u Hu. rewrite Z.bits_0. destruct (Z.ltb_spec (Z.of_nat h - 1) u); auto. cbn [andb]. symmetry. destruct (Z.eq_dec x 0) as [->|]; [apply Z.bits_0|]. apply Z.bits_above_log2; [lia|]. apply Z.log2_lt_pow2; [lia|]. apply Z.lt_le_trans with (2 ^ Z.of_nat h)%Z; [lia|]. apply Z.pow_le_mono_r; lia.
    + exists i. rewrite Nat.sub_diag. cbn [WmProof.lay]. repeat split; auto; [lia|]. now apply (@nth_get _ _ _ _ 0%Z Gx).
  - intros k (c & j) Hk (I1 & p & -> & I3 & I4). unfold body. remember (h - S k) as t eqn:Ht. assert (Et : h - 1 - t = k) by lia. rewrite (@get_at t p ltac:(lia) I3). cbn [obind]. rewrite I4, Et. replace (h - 1 - k) with t by lia. rewrite (@child_ok) by lia. cbn [obind].
    assert (B := @lor_bit c (Z.of_nat k) x ltac:(lia)). assert (I1' : forall i, (0 <= i)%Z -> Z.testbit c i = (Z.of_nat k <? i)%Z && Z.testbit x i) by (intros u Hu; rewrite I1 by auto; f_equal; f_equal; lia). specialize (B I1').
    assert (Q : exists p', n * (t + 1) + cpos h xs0 t p (vbit x k) = n * (h - k) + p' /\ p' < n /\ nth p' (lay (h - k)) 0%Z = x).
    { exists (cpos h xs0 t p (vbit x k)). split; [f_equal; f_equal; lia|]. pose proof (@nth_partition t p ltac:(lia) I3) as NP. rewrite I4, Et in NP. replace (h - k) with (S t) by lia. split; auto.
      pose proof (@cpos_slice t p (S p) (vbit x k) ltac:(lia) ltac:(lia)) as (L & E). pose proof (@cpos_le t (S p) (vbit x k) ltac:(lia)).
      assert (G : get (lay t) p = Some x) by (rewrite <- I4; apply get_nth; rewrite lay_length; auto). rewrite (@slice_cons _ p (S p) (lay t) x) in E by (auto; lia). rewrite (@slice_nil _ (S p) (S p)) in E by lia. cbn [filter] in E. unfold fb at 1 in E. rewrite Et, Bool.eqb_reflx in E. apply (f_equal (@length _)) in E. cbn [length] in E. unfold slice in E. rewrite firstn_length in E. lia. }
    change (vbit x k) with (Z.testbit x (Z.of_nat k)) in *. destruct (Z.testbit x (Z.of_nat k)); [rewrite one_ull_ok by lia; cbn [obind]|]; (eexists; split; [reflexivity|]; cbv beta iota; split; [|exact Q]); intros u Hu; rewrite B by auto; f_equal; destruct (Z.leb_spec (Z.of_nat k) u), (Z.ltb_spec (Z.of_nat k - 1) u); auto; lia.
  - rewrite E. cbn [obind]. rewrite I2. replace (h - 1) with (h - 1) by lia. rewrite (@get_at (h - 1) p ltac:(lia) I3). cbn [obind]. rewrite I4. replace (h - 1 - (h - 1)) with 0 by lia. f_equal.
    assert (I1' : forall i, (0 <= i)%Z -> Z.testbit c i = (0 <? i)%Z && Z.testbit x i) by (intros u Hu; rewrite I1 by auto; f_equal; f_equal; lia). pose proof (@lor_bit c 0%Z x ltac:(lia) I1') as B. change (Z.shiftl 1 0) with 1%Z in B. change (vbit x 0) with (Z.testbit x 0). apply Z.bits_inj'. intros u Hu. rewrite B by auto. destruct (Z.leb_spec 0 u); auto; lia.
Qed.

(** the path of one value *)
Section Sel.
Variable c : Z.
Hypothesis Hc : (0 <= c < 2 ^ Z.of_nat h)%Z.
Variable l0 r0 : nat.
Hypothesis Hr : l0 <= r0 <= n.
Notation ys := (slice l0 r0 xs0).
Fixpoint Lp (t : nat) : nat := match t with O => l0 | S t => n * (t + 1) + cpos h xs0 t (Lp t - n * t) (vbit c (h - 1 - t)) end.
Fixpoint Rp (t : nat) : nat := match t with O => r0 | S t => n * (t + 1) + cpos h xs0 t (Rp t - n * t) (vbit c (h - 1 - t)) end.
Lemma tie_eq t l r ys' b : t < h -> node t l r ys' -> child_tie m t l r b = Some (n * (t + 1) + cpos h xs0 t (l - n * t) b, n * (t + 1) + cpos h xs0 t (r - n * t) b).
Proof.
  intros Ht (_ & A & B & C & _). unfold child_tie.
  assert (K : forall i, n * t <= i <= n * t + n -> child m t i b = Some (n * (t + 1) + cpos h xs0 t (i - n * t) b)) by (intros i Hi; rewrite <- (@child_ok) by lia; f_equal; lia).
  rewrite K by lia. cbn [obind]. rewrite K by lia. reflexivity.
Qed.
Lemma path_ok t : t <= h -> node t (Lp t) (Rp t) (F ys t (sh t c)).
Proof.
  induction t as [|t IH]; intros Ht.
  - cbn [Lp Rp]. rewrite sh_0, F_0 by (auto; apply slice_vals). now apply node_0.
  - specialize (IH ltac:(lia)). rewrite F_c by (apply slice_vals || lia). destruct (@child_tie_ok t _ _ _ (vbit c (h - 1 - t)) ltac:(lia) IH) as (l' & r' & E & N). rewrite (@tie_eq t _ _ _ _ ltac:(lia) IH) in E. injection E as <- <-. exact N.
Qed.
Lemma path_tie t : t < h -> child_tie m t (Lp t) (Rp t) (vbit c (h - 1 - t)) = Some (Lp (S t), Rp (S t)).
Proof. intros Ht. apply (tie_eq _ Ht (path_ok (Nat.lt_le_incl _ _ Ht))). Qed.
Lemma cnt_false_filter (f : Z -> bool) l : cnt false (map f l) = length (filter (fun x => negb (f x)) l).
Proof. induction l as [|x l IH]; auto. cbn [map cnt filter]. destruct (f x); cbn [Bool.eqb negb length]; auto. Qed.
(** [parent] undoes [child] *)
Lemma parent_ok t p : t < h -> p < n -> let b := vbit (nth p (lay t) 0%Z) (h - 1 - t) in parent m t (n * (t + 1) + cpos h xs0 t p b) b = Some (n * t + p).
Proof.
  intros Ht Hp b. assert (Hj : n * t + p < n * h) by nia.
  assert (Nb : nth (n * t + p) (allb h xs0) false = b) by (rewrite allb_nth, lbit_at by auto; reflexivity).
  pose proof (ro_le t) as R0. assert (Hlen : length (firstn (n * t) (allb h xs0)) = n * t) by (rewrite firstn_length, allb_length; nia). pose proof (cnt_two (firstn (n * t) (allb h xs0))) as C2. rewrite Hlen in C2. fold (ro h xs0 t) in C2.
  unfold parent. destruct b eqn:Eb.
  - rewrite (w_h M). rewrite usub_ok by lia. cbn [obind]. replace (h - (1 + t)) with (h - 1 - t) by lia. rewrite (w_z M) by auto. cbn [obind]. rewrite (w_ro M) by lia. cbn [obind]. unfold cpos. unfold howmany. fold (f0 h t). rewrite usub_ok by lia. cbn [obind]. rewrite (w_sel M). f_equal.
    apply kth_char; [rewrite allb_length; auto|auto|]. rewrite rank_at by lia. rewrite fb_1. lia.
  - rewrite (w_ro M) by lia. cbn [obind]. rewrite (w_n M). rewrite usub_ok by lia. cbn [obind]. unfold cpos. cbn [Nat.add]. rewrite usub_ok by nia. cbn [obind]. rewrite (w_sel M). f_equal.
    apply kth_char; [rewrite allb_length; auto|auto|]. rewrite firstn_slice, cnt_app, level_bits by lia. rewrite cnt_false_filter. change (fun x => negb (f1 h t x)) with (f0 h t). rewrite fb_0. nia.
Qed.
Lemma up_ok t q' i : t < h -> nth_occ c i (F ys (S t) (sh (S t) c)) = Some q' -> exists q, nth_occ c i (F ys t (sh t c)) = Some q /\
  parent m t (Lp (S t) + q') (vbit c (h - 1 - t)) = Some (Lp t + q) /\ bm_get (wB m) (Lp t + q) = Some (vbit c (h - 1 - t)).
Proof.
  intros Ht E. rewrite F_c in E by (apply slice_vals || lia). destruct (@nth_occ_filter c (fb h t (vbit c (h - 1 - t))) ltac:(unfold fb; apply Bool.eqb_reflx) _ _ _ E) as (q & E1 & Lq & Nq & Cq). exists q. split; auto.
  destruct (@path_ok t ltac:(lia)) as (_ & A & B & C & S). set (p := Lp t - n * t) in *. assert (Ls : length (F ys t (sh t c)) = Rp t - n * t - p) by (rewrite <- S, slice_length; rewrite ?lay_length; lia).
  assert (Np : nth (p + q) (lay t) 0%Z = c). { rewrite <- S in Nq. unfold slice in Nq. rewrite nth_firstn_lt, nth_skipn in Nq by lia. exact Nq. }
  assert (Hp : p + q < n) by lia. split.
  - pose proof (@parent_ok t (p + q) Ht Hp) as K. cbv zeta in K. rewrite Np in K. replace (Lp t + q) with (n * t + (p + q)) by lia. rewrite <- K. f_equal. cbn [Lp]. fold p. rewrite <- Nat.add_assoc. f_equal. unfold cpos. rewrite <- Nat.add_assoc. f_equal. rewrite firstn_slice, filter_app, app_length. f_equal. rewrite <- Cq, <- S. f_equal. f_equal. unfold slice. rewrite firstn_firstn. f_equal. lia.
  - replace (Lp t + q) with (n * t + (p + q)) by lia. rewrite (@get_at) by lia. now rewrite Np.
Qed.
Theorem range_select_ok i : range_select m c l0 r0 i = Some (match nth_occ c i ys with Some q => l0 + q | None => n end).
Proof.
  unfold range_select. rewrite (w_h M), (w_n M). rewrite usub_ok by lia. cbn [obind]. assert (L0 : length ys = r0 - l0) by (apply slice_length; lia).
  destruct (Nat.leb_spec (r0 - l0) i) as [C|C]; [rewrite nth_occ_none; [reflexivity|unfold howmany; pose proof (filter_two (Z.eqb c) ys); lia]|].
  match goal with |- context [for_down _ _ ?bd _] => set (body := bd) end.
  destruct (@for_down_rule _ (fun k s => match s with None => howmany (Z.eqb c) ys <= i | Some (a, b) => a = Lp (h - k) /\ b = Rp (h - k) /\ i < length (F ys (h - k) (sh (h - k) c)) end) body 0 h (Some (l0, r0))) as (s & E & J).
  - cbn [Nat.add]. rewrite Nat.sub_diag. cbn [Lp Rp]. rewrite sh_0, F_0 by (auto; apply slice_vals). repeat split; auto. lia.
  - intros k s Hk J. unfold body. destruct s as [(a & b)|]; [|eauto]. destruct J as (-> & -> & J). remember (h - S k) as t eqn:Ht. replace (h - k) with (S t) by lia. replace k with (h - 1 - t) by lia. replace (h - 1 - (h - 1 - t)) with t by lia. rewrite path_tie by lia. cbn [obind].
    pose proof (@path_ok (S t) ltac:(lia)) as N. pose proof (node_length N) as NL. assert (Nab : Lp (S t) <= Rp (S t)) by apply N. rewrite usub_ok by auto. cbn [obind]. eexists; split; [reflexivity|]. rewrite <- NL. destruct (Nat.leb_spec (length (F ys (S t) (sh (S t) c))) i) as [C1|C1]; [|auto].
    etransitivity; [|exact C1]. unfold howmany, F. clear -Hh. induction (ys) as [|x l IH]; auto. cbn [filter]. destruct (Z.eqb_spec c x) as [->|]; [rewrite Z.eqb_refl; cbn [length]; lia|]. destruct (_ =? _)%Z; cbn [length]; lia.
  - rewrite E. cbn [obind]. destruct s as [(a & b)|]; [|now rewrite nth_occ_none by auto]. destruct J as (-> & -> & J). rewrite Nat.sub_0_r in *. rewrite sh_h in J. rewrite F_h in J.
    match goal with |- context [for_up _ _ ?bd _] => set (body2 := bd) end.
    assert (O0 : nth_occ c i (F ys h (sh h c)) = Some i). { rewrite sh_h, F_h. apply nth_occ_all; auto. intros x Hx. apply filter_In in Hx. destruct Hx as (_ & Hx). apply Z.eqb_eq in Hx. auto. }
    destruct (@for_up_rule _ (fun k j => exists q, nth_occ c i (F ys (h - k) (sh (h - k) c)) = Some q /\ j = Lp (h - k) + q) body2 h 0 (Lp h + i)) as (j & Ej & q & Eq & ->).
    + rewrite Nat.sub_0_r. eauto.
    + intros k j Hk (q' & Eq' & ->). unfold body2. set (t := h - 1 - k). replace (h - k) with (S t) in * by lia. replace k with (h - 1 - t) by lia. replace (h - 1 - (h - 1 - t)) with t by lia. destruct (@up_ok t q' i ltac:(lia) Eq') as (q & Eq & -> & E3). cbn [obind]. rewrite E3. cbn [obind]. rewrite Bool.eqb_reflx. cbn [guard obind]. eexists; split; [reflexivity|]. exists q. replace (h - S (h - 1 - t)) with t by lia. auto.
    + rewrite Ej. cbn [Nat.add] in Eq. cbn [Nat.add]. rewrite Nat.sub_diag in *. rewrite sh_0, F_0 in Eq by (auto; apply slice_vals). rewrite Eq. reflexivity.
Qed.
End Sel.

(** order statistics *)
Lemma zeros_ok t l r ys : t < h -> node t l r ys -> zeros_in m l r = Some (length (filter (fb h t false) ys)).
Proof.
  intros Ht N. pose proof (node_length N) as NL. destruct N as (_ & A & B & C & S). unfold zeros_in.
  assert (K : forall i, n * t <= i <= n * t + n -> rk m i = Some (ro h xs0 t + length (filter (f1 h t) (firstn (i - n * t) (lay t))))) by (intros i Hi; rewrite (w_rk M); f_equal; rewrite <- rank_at by lia; do 2 f_equal; lia).
  rewrite K by lia. cbn [obind]. rewrite K by lia. cbn [obind].
  assert (E : length (filter (f1 h t) (firstn (r - n * t) (lay t))) = length (filter (f1 h t) (firstn (l - n * t) (lay t))) + length (filter (f1 h t) ys)).
  { rewrite <- S. replace (r - n * t) with (l - n * t + (r - l)) at 1 by lia. rewrite firstn_slice, filter_app, app_length. do 4 f_equal. lia. }
  rewrite E. rewrite usub_ok by lia. cbn [obind]. rewrite usub_ok by lia. cbn [obind]. pose proof (f_sum h t ys). rewrite usub_ok by lia. f_equal. rewrite fb_0. lia.
Qed.
Theorem quantile_ok l r k : h <= 64 -> l <= r <= n -> k < r - l -> exists c, quantile m l r k = Some c /\
  howmany (fun x => x <? c)%Z (slice l r xs0) <= k < howmany (fun x => x <=? c)%Z (slice l r xs0).
Proof.
  intros H64 Hr Hk. set (ys := slice l r xs0). assert (Hy : forall x, In x ys -> (0 <= x < 2 ^ Z.of_nat h)%Z) by (apply slice_vals). assert (L0 : length ys = r - l) by (apply slice_length; lia).
  unfold quantile. rewrite (w_h M). rewrite usub_ok by lia. cbn [obind]. destruct (Nat.ltb_spec k (r - l)); [|lia]. cbn [guard obind].
  match goal with |- context [for_down _ _ ?bd _] => set (body := bd) end.
  set (I := fun d '((c, k', a, b) : Z * nat * nat * nat) => exists P, c = (P * 2 ^ Z.of_nat d)%Z /\ (0 <= P)%Z /\ node (h - d) a b (F ys (h - d) P) /\ k' < b - a /\ k = k' + howmany (fun x => sh (h - d) x <? P)%Z ys).
  assert (step : forall d c k' a b, d < h -> I (S d) (c, k', a, b) -> exists zs, zeros_in m a b = Some zs /\
    (if k' <? zs then exists a' b', child_tie m (h - 1 - d) a b false = Some (a', b') /\ I d (c, k', a', b') else exists a' b', child_tie m (h - 1 - d) a b true = Some (a', b') /\ I d (Z.lor c (Z.shiftl 1 (Z.of_nat d)), k' - zs, a', b'))).
  { intros d c k' a b Hd (P & Ec & HP & N & Hk' & Ek). remember (h - S d) as t eqn:Ht. replace (h - 1 - d) with t by lia. exists (length (filter (fb h t false) (F ys t P))). split; [apply (zeros_ok (t := t)); auto; lia|].
    assert (SL : forall (b : bool), howmany (fun x => sh (S t) x <? 2 * P + (if b then 1 else 0))%Z ys = howmany (fun x => sh t x <? P)%Z ys + length (filter (fun x => negb (vbit x (h - 1 - t)) && b) (F ys t P))).
    { intros bb. apply howmany_split; intros x Hx; rewrite ?(@sh_S t x) by lia; destruct (Z.ltb_spec (sh t x) P), (Z.eqb_spec (sh t x) P), (vbit x (h - 1 - t)), bb; cbn [orb andb negb]; lia. }
    pose proof (node_length N) as NL.
    destruct (Nat.ltb_spec k' (length (filter (fb h t false) (F ys t P)))) as [C|C].
    - destruct (@child_tie_ok t a b _ false ltac:(lia) N) as (a' & b' & E & N'). exists a', b'. split; auto. exists (2 * P + 0)%Z. pose proof (node_length N') as NL'. replace (h - d) with (S t) by lia. specialize (SL false). cbv iota in SL. rewrite <- (@F_S ys Hy t P false ltac:(lia)) in *. cbv iota in *. split; [rewrite Ec, Nat2Z.inj_succ, Z.pow_succ_r by lia; ring|]. split; [lia|]. split; auto. split; [lia|]. rewrite SL.
      rewrite filter_none by (intros; apply andb_false_r). cbn [length]. lia.
    - destruct (@child_tie_ok t a b _ true ltac:(lia) N) as (a' & b' & E & N'). exists a', b'. split; auto. exists (2 * P + 1)%Z. pose proof (node_length N') as NL'. replace (h - d) with (S t) by lia. specialize (SL true). cbv iota in SL. pose proof (filter_two (fb h t true) (F ys t P)) as F2.
      assert (E2 : filter (fun x => negb (fb h t true x)) (F ys t P) = filter (fb h t false) (F ys t P)) by (apply filter_ext; intros x; unfold fb; now destruct (vbit x (h - 1 - t))). rewrite E2 in F2.
      assert (E3 : filter (fun x => negb (vbit x (h - 1 - t)) && true) (F ys t P) = filter (fb h t false) (F ys t P)) by (apply filter_ext; intros x; unfold fb; now destruct (vbit x (h - 1 - t))). rewrite E3 in SL.
      rewrite <- (@F_S ys Hy t P true ltac:(lia)) in *. cbv iota in *. split; [|split; [lia|split; [auto|split; [lia|rewrite SL; lia]]]].
      rewrite Ec. apply (@lor_pow P d true). }
  destruct (@for_down_rule _ I body 1 (h - 1) (0%Z, k, l, r)) as ((((c & k') & a) & b) & E & J).
  - replace (1 + (h - 1)) with h by lia. exists 0%Z. rewrite Nat.sub_diag, F_0 by auto. repeat split; try lia; try (now apply node_0). unfold howmany. rewrite filter_none; [cbn; lia|]. intros x Hx. rewrite sh_0 by auto. reflexivity.
  - intros d (((c & k') & a) & b) Hd J. unfold body. destruct (@step d c k' a b ltac:(lia) J) as (zs & -> & K). cbn [obind]. destruct (k' <? zs).
    + destruct K as (a' & b' & -> & K). cbn [obind]. exists (c, k', a', b'). split; auto. destruct K as (P & _ & _ & N & Q & _). destruct (Nat.ltb_spec a' b'); [reflexivity|lia].
    + destruct K as (a' & b' & E2 & K). rewrite one_ull_ok by lia. cbn [obind]. rewrite E2. cbn [obind]. exists (Z.lor c (Z.shiftl 1 (Z.of_nat d)), k' - zs, a', b'). split; auto. destruct K as (P & _ & _ & N & Q & _). destruct (Nat.ltb_spec a' b'); [reflexivity|lia].
  - rewrite E. cbn [obind]. destruct (@step 0 c k' a b ltac:(lia) J) as (zs & -> & K). cbn [obind]. eexists; split; [reflexivity|].
    assert (fin : forall c k' a b, I 0 (c, k', a, b) -> howmany (fun x => x <? c)%Z ys <= k < howmany (fun x => x <=? c)%Z ys).
    { clear -Hn Hh node_length Hy. intros c k' a b (P & Ec & HP & N & Hk' & Ek). rewrite Nat.sub_0_r in *. change (2 ^ Z.of_nat 0)%Z with 1%Z in Ec. assert (c = P) by lia. subst P. clear Ec. pose proof (node_length N) as NL. rewrite F_h in NL.
      assert (E : howmany (fun x => sh h x <? c)%Z ys = howmany (fun x => x <? c)%Z ys) by (unfold howmany; f_equal; apply filter_ext; intros x; now rewrite sh_h). rewrite E in Ek.
      assert (E2 : howmany (fun x => x <=? c)%Z ys = howmany (fun x => x <? c)%Z ys + length (filter (fun _ => true) (filter (Z.eqb c) ys))).
      { apply howmany_split; intros x _; destruct (Z.leb_spec x c), (Z.ltb_spec x c), (Z.eqb_spec c x); cbn [orb andb]; lia. }
      rewrite filter_all in E2 by auto. lia. }
    destruct (Nat.ltb_spec k' zs), (Nat.leb_spec zs k'); try lia; destruct K as (a' & b' & _ & K); eapply fin; exact K.
Qed.
End Path.
