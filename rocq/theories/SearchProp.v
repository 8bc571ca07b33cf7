(** C19: bisect_int. C20: boundint. *)
From Verif Require Import Base BaseLemmas SearchModel.
Local Open Scope Z_scope.
Ltac Zify.zify_post_hook ::= Z.div_mod_to_equations.

Lemma mach_some w x : in_range w x -> mach w x = Some x.
Proof. unfold in_range, mach. intros H. now rewrite (proj2 (andb_true_iff _ _)) by lia. Qed.

(** [x] lies between [ok] (inclusive) and [ng] (exclusive), in either direction. *)
Definition between_oc (ok ng x : Z) := (ok <= x < ng) \/ (ng < x <= ok).
Definition strictly_between (ok ng x : Z) := (ok < x < ng) \/ (ng < x < ok).
Definition towards (ok ng x : Z) := if ok <? ng then x + 1 else x - 1.

Theorem C19_bisect_int : forall (w ok ng : Z) (f : Z -> bool),
  1 < w -> in_range w ok -> in_range w ng -> in_range w (ng - ok) -> in_range w (Z.abs (ng - ok)) ->
  f ok = true -> f ng = false ->
  exists fuel x tr,
    bisect_int w fuel ok ng f = Some (x, tr) /\
    between_oc ok ng x /\ f x = true /\ f (towards ok ng x) = false /\
    Forall (strictly_between ok ng) tr /\
    Z.of_nat (length tr) <= Z.log2_up (Z.abs (ng - ok)).
Proof.
  intros w ok ng f Hw Rok Rng Rd Ra Fok Fng.
  exists (S (Z.to_nat (Z.abs (ng - ok)))).
  assert (Hne : ok <> ng) by congruence.
  unfold bisect_int. match goal with |- context [loop _ ?b _] => set (body := b) end.
  set (D := Z.log2_up (Z.abs (ng - ok))).
  destruct (@loop_rule _ _
    (fun '(o, n, tr) => f o = true /\ f n = false /\ o <> n /\
       ((ok < ng /\ ok <= o < n /\ n <= ng) \/ (ng < ok /\ n < o <= ok /\ ng <= n)) /\
       Forall (strictly_between ok ng) tr /\
       Z.of_nat (length tr) + Z.log2_up (Z.abs (n - o)) <= D)
    (fun '(o, n, tr) => Z.to_nat (Z.abs (n - o)))
    (fun '(x, tr) => between_oc ok ng x /\ f x = true /\ f (towards ok ng x) = false /\
       Forall (strictly_between ok ng) tr /\ Z.of_nat (length tr) <= D) body) with
    (fuel := S (Z.to_nat (Z.abs (ng - ok)))) (s := (ok, ng, @nil Z)) as ([x tr] & E & Q).
  - intros [[o n] tr] (Fo & Fn & Ne & B & T & L). unfold body.
    unfold in_range in *.
    rewrite !mach_some by (unfold in_range; lia). cbn [obind].
    rewrite !mach_some by (unfold in_range; lia). cbn [obind].
    destruct (1 <? Z.abs (n - o)) eqn:E1.
    + assert (Hlog : forall d, 0 < d -> 2 * d <= Z.abs (n - o) + 1 -> Z.log2_up d + 1 <= Z.log2_up (Z.abs (n - o))).
      { intros d Hd Hd2. assert (E2 : Z.log2_up (2 * d) = Z.log2_up d + 1).
        { rewrite Z.mul_comm. replace (d * 2) with (d * 2 ^ 1) by lia.
          rewrite Z.log2_up_mul_pow2; lia. }
        rewrite <- E2.
        destruct (Z.le_gt_cases (2 * d) (Z.abs (n - o))); [now apply Z.log2_up_le_mono|].
        (* 2d = |n-o|+1, |n-o| odd and > 1 *)
        assert (Hn : Z.abs (n - o) = 2 * d - 1) by lia. rewrite Hn.
        rewrite E2. 
        assert (1 < d) by lia.
        destruct (Z.log2_up_spec (2 * d - 1)) as [S1 S2]; [lia|].
        assert (Hp : 0 <= Z.log2_up (2 * d - 1)) by apply Z.log2_up_nonneg.
        assert (Hp1 : 0 < Z.log2_up (2 * d - 1)) by (apply Z.log2_up_pos; lia).
        assert (d <= 2 ^ Z.pred (Z.log2_up (2 * d - 1))).
        { replace (Z.log2_up (2 * d - 1)) with (Z.succ (Z.pred (Z.log2_up (2 * d - 1)))) in S2 by lia.
          rewrite Z.pow_succ_r in S2 by lia. lia. }
        apply Z.log2_up_le_mono in H1.
        rewrite Z.log2_up_pow2 in H1 by lia. lia. }
      assert (Q2 : Z.quot (n - o) 2 = if o <? n then (n - o) / 2 else - ((o - n) / 2)).
      { destruct (o <? n) eqn:E2.
        - apply Z.quot_div_nonneg; lia.
        - replace (n - o) with (- (o - n)) by lia. rewrite Z.quot_opp_l by lia.
          rewrite Z.quot_div_nonneg by lia. reflexivity. }
      set (h := Z.quot (n - o) 2) in *. clearbody h.
      rewrite !mach_some by (unfold in_range; destruct (o <? n) eqn:?; lia). cbn [obind].
      assert (Hc : (o < n /\ o < o + h < n) \/ (n < o /\ n < o + h < o)) by (destruct (o <? n) eqn:?; lia).
      assert (TR : Forall (strictly_between ok ng) (tr ++ [o + h])).
      { apply Forall_app; split; auto. constructor; auto. unfold strictly_between. lia. }
      destruct (f (o + h)) eqn:Ef; eexists; (split; [reflexivity|]); cbn beta iota.
      * repeat split; auto; try lia. rewrite app_length; simpl length.
        assert (Z.log2_up (Z.abs (n - (o + h))) + 1 <= Z.log2_up (Z.abs (n - o))).
        { apply Hlog; destruct (o <? n) eqn:?; lia. }
        lia.
      * repeat split; auto; try lia. rewrite app_length; simpl length.
        assert (Z.log2_up (Z.abs (o + h - o)) + 1 <= Z.log2_up (Z.abs (n - o))).
        { apply Hlog; destruct (o <? n) eqn:?; lia. }
        lia.
    + eexists; split; [reflexivity|]. cbn beta iota. split; [unfold between_oc; lia|]. split; auto. split.
      * unfold towards. destruct (ok <? ng) eqn:E2; [replace (o + 1) with n by lia|replace (o - 1) with n by lia]; auto.
      * split; auto. pose proof (Z.log2_up_nonneg (Z.abs (n - o))). lia.
  - cbn beta iota. repeat split; auto; try lia. simpl length. lia.
  - lia.
  - exists x, tr. tauto.
Qed.

(** For a non-negative bound of the type and in-range operands, every operation
    returns the exact result clamped into [0, sup], without overflow. The
    multiplication needs a non-zero right operand. *)
Theorem C20_boundint_step : forall (w sup : Z) (o : bi_op) (a b : Z),
  1 < w -> 0 <= sup -> in_range w sup -> 0 <= a <= sup -> 0 <= b <= sup ->
  (o = BMul \/ o = BDiv -> b <> 0) ->
  bi_apply w sup o a b = Some (bi_spec sup o a b) /\ 0 <= bi_spec sup o a b <= sup.
Proof.
  intros w sup o a b Hw Hs Rs Ha Hb Hz. unfold in_range in Rs.
  assert (0 < 2 ^ (w - 1)) by (apply Z.pow_pos_nonneg; lia).
  destruct o; unfold bi_apply, bi_spec, clamp.
  - unfold bi_add. rewrite mach_some by (unfold in_range; lia). cbn [obind].
    destruct (a <=? sup - b) eqn:E; [rewrite mach_some by (unfold in_range; lia)|]; split; try f_equal; lia.
  - unfold bi_sub.
    destruct (b <=? a) eqn:E; [rewrite mach_some by (unfold in_range; lia)|]; split; try f_equal; lia.
  - unfold bi_mul, cdiv. assert (b <> 0) by tauto.
    destruct (b =? 0) eqn:E0; [lia|].
    rewrite Z.quot_div_nonneg by lia.
    assert (Hq : 0 <= sup / b <= sup) by (split; [apply Z.div_pos; lia|apply Z.div_le_upper_bound; nia]).
    rewrite mach_some by (unfold in_range; lia). cbn [obind].
    assert (M1 : b * (sup / b) <= sup) by (apply Z.mul_div_le; lia).
    assert (M2 : sup < b * Z.succ (sup / b)) by (apply Z.mul_succ_div_gt; lia).
    set (q := sup / b) in *. clearbody q.
    destruct (a <=? q) eqn:E.
    + assert (0 <= a * b <= sup) by nia.
      rewrite mach_some by (unfold in_range; lia). split; try f_equal; lia.
    + assert (sup <= a * b) by nia. split; try f_equal; lia.
  - unfold bi_div, cdiv. assert (b <> 0) by tauto.
    destruct (b =? 0) eqn:E0; [lia|].
    rewrite Z.quot_div_nonneg by lia.
    assert (Hq : 0 <= a / b <= a) by (split; [apply Z.div_pos; lia|apply Z.div_le_upper_bound; nia]).
    rewrite mach_some by (unfold in_range; lia). set (q := a / b) in *. clearbody q. split; try f_equal; lia.
Qed.

(** A whole history of operations stays exact and inside the bounds. *)
Theorem C20_boundint_history : forall (w sup : Z) (h : list (bi_op * Z)) (v : Z),
  1 < w -> 0 < sup -> in_range w sup ->
  Forall (fun '(o, x) => o = BMul \/ o = BDiv -> 0 < x) h ->
  bi_run w sup (bi_make sup v) h = Some (bi_run_spec sup (clamp sup v) h) /\
  0 <= bi_run_spec sup (clamp sup v) h <= sup.
Proof.
  intros w sup h v Hw Hs Rs.
  assert (EM : forall x, bi_make sup x = clamp sup x).
  { intros x. unfold bi_make, clamp. destruct (x <? 0) eqn:E1; [|]; 
    match goal with |- context [if ?b then _ else _] => destruct b eqn:E2 end; lia. }
  assert (EC : forall x, 0 <= clamp sup x <= sup) by (unfold clamp; lia).
  rewrite EM. generalize (EC v). generalize (clamp sup v) as a.
  induction h as [|[o x] h IH]; intros a Ha F; unfold bi_run, bi_run_spec in *;
    cbn [for_each fold_left]; [auto|].
  rewrite EM. inversion F as [|? ? F1 F2]; subst.
  destruct (@C20_boundint_step w sup o a (clamp sup x)) as [E1 E2]; auto; try lia.
  { intros C. apply F1 in C. unfold clamp; lia. }
  rewrite E1. cbn [obind]. apply IH; auto.
Qed.

(** The code divides by its right operand to detect overflow, so multiplying by
    zero is a division by zero instead of 0, for every width, bound and left
    operand. *)
Theorem C20_mul_zero_refuted : forall w sup a,
  bi_apply w sup BMul a 0 = None /\ bi_spec sup BMul a 0 = clamp sup 0.
Proof. intros; split; [reflexivity|]. unfold bi_spec. now rewrite Z.mul_0_r. Qed.

Example C19_example_up :
  bisect_int 32 100 0 100 (fun x => x * x <=? 2000) = Some (44, [50; 25; 37; 43; 46; 44; 45]).
Proof. reflexivity. Qed.
Example C19_example_down :
  bisect_int 32 100 7 (-20) (fun x => -3 <? x) = Some (-2, [-6; 1; -2; -4; -3]).
Proof. reflexivity. Qed.
Example C20_example :
  bi_run 32 1000000000 (bi_make 1000000000 70000) [(BMul, 70000); (BSub, 1); (BAdd, 5); (BDiv, 7); (BSub, 2000000000)] = Some 0.
Proof. reflexivity. Qed.
Example C20_example_saturates :
  bi_run 32 1000000000 (bi_make 1000000000 70000) [(BMul, 70000); (BSub, 1); (BAdd, 5)] = Some 1000000000.
Proof. reflexivity. Qed.

Print Assumptions C19_bisect_int.
Print Assumptions C20_boundint_step.
Print Assumptions C20_boundint_history.
Print Assumptions C20_mul_zero_refuted.
