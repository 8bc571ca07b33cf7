(** C67: primitive_root_constexpr finds a generator. *)
From Coq Require Import Znumtheory.
From Verif Require Import Base BaseLemmas SearchModel BitModel NumTheory NumGen PrimRootModel PrimRootProof.
Local Open Scope Z_scope.

(** For every prime that fits [int], the search ends, without overflow and
    within the 20 slots of the divisor array, with a generator of the
    multiplicative group. *)
Theorem C67_generator : forall m, prime m -> m < 2 ^ 31 ->
  exists g, primitive_root m = Some g /\ 0 < g < m /\ generator m g.
Proof.
  intros m P M. pose proof (prime_ge_2 _ P) as G2. unfold primitive_root.
  destruct (Z.eqb_spec m 2) as [->|N2]; [exists 1; split; auto; split; [lia|apply generator_two]|].
  assert (Odd : m mod 2 = 1).
  { destruct (Z.eq_dec (m mod 2) 0) as [Z0|]; [|pose proof (Z.mod_pos_bound m 2); lia].
    apply Z.mod_divide in Z0; [|lia]. apply prime_div_prime in Z0; auto; [lia|apply prime_2]. }
  assert (C : forall g ds, 0 < g < m -> root_test m g ds = Some true ->
    (forall d, In d ds -> 1 < d /\ (d | m - 1)) -> (forall q, prime q -> (q | m - 1) -> In q ds) -> generator m g).
  { intros g ds Hg E D Cov. apply ord_generator; auto. split.
    - apply fermat; auto. now apply not_div_small.
    - intros q Pq Dq. destruct (root_test_ok m ltac:(lia) g ds ltac:(lia) D) as (b & E' & B).
      rewrite E in E'. injection E' as <-. apply B; auto. }
  assert (Const : forall g ds, 0 < g < m -> prime_divs m = Some ds -> root_test m g ds = Some true -> generator m g).
  { intros g ds Hg E T. destruct (prime_divs_ok m ltac:(lia) Odd) as (ds' & E' & Cov & D).
    rewrite E in E'. injection E' as <-. eapply C; eauto. }
  destruct (Z.eqb_spec m 167772161) as [Em|_].
  { exists 3. split; auto. split; [lia|]. apply Const with (ds := [2; 5]); [lia|now rewrite Em; vm_compute|now rewrite Em; vm_compute]. }
  destruct (Z.eqb_spec m 469762049) as [Em|_].
  { exists 3. split; auto. split; [lia|]. apply Const with (ds := [2; 7]); [lia|now rewrite Em; vm_compute|now rewrite Em; vm_compute]. }
  destruct (Z.eqb_spec m 754974721) as [Em|_].
  { exists 11. split; auto. split; [lia|]. apply Const with (ds := [2; 3; 5]); [lia|now rewrite Em; vm_compute|now rewrite Em; vm_compute]. }
  destruct (Z.eqb_spec m 880803841) as [Em|_].
  { exists 26. split; auto. split; [lia|]. apply Const with (ds := [2; 3; 5; 7]); [lia|now rewrite Em; vm_compute|now rewrite Em; vm_compute]. }
  destruct (Z.eqb_spec m 998244353) as [Em|_].
  { exists 3. split; auto. split; [lia|]. apply Const with (ds := [2; 7; 17]); [lia|now rewrite Em; vm_compute|now rewrite Em; vm_compute]. }
  destruct (prime_divs_ok m ltac:(lia) Odd) as (ds & -> & Cov & D). cbn [obind].
  destruct (generator_exists m P) as (g0 & Hg0 & O0).
  assert (T0 : root_test m g0 ds = Some true).
  { destruct (root_test_ok m ltac:(lia) g0 ds ltac:(lia) D) as (b & E & B). rewrite E. f_equal. apply B.
    intros d Hd. destruct (D d Hd) as [D1 D2].
    pose proof (Z.divide_pos_le d (m - 1) ltac:(lia) D2).
    apply (ord_below m P g0 (m - 1)); auto; [lia|].
    split; [apply Z.div_str_pos; lia|apply Z.div_lt; lia]. }
  assert (G1 : 2 <= g0).
  { destruct (Z.eq_dec g0 1) as [->|]; [|lia]. exfalso.
    apply (ord_below m P 1 (m - 1) 1); auto; [lia|lia|]. rewrite Z.pow_1_r. apply eqm_refl. }
  match goal with |- context [loop _ ?b _] => set (body := b) end.
  destruct (@loop_rule _ _ (fun g => 2 <= g <= g0) (fun g => Z.to_nat (m - g))
    (fun g => 0 < g < m /\ generator m g) body) with (fuel := Z.to_nat (m + 1)) (s := 2) as (g & E & H).
  - intros g Hg. unfold body. replace (g <? m) with true by (symmetry; apply Z.ltb_lt; lia).
    destruct (root_test_ok m ltac:(lia) g ds ltac:(lia) D) as (b & E & B). rewrite E. cbn [obind]. destruct b.
    + eexists; split; [reflexivity|]. cbn. split; [lia|]. eapply C; eauto. lia.
    + eexists; split; [reflexivity|]. cbn. assert (g <> g0) by (intros ->; congruence). lia.
  - lia.
  - lia.
  - eauto.
Qed.

(** The moduli with a tabulated root are prime, so the theorem covers them. *)
Definition no_small_factor (n : Z) : bool :=
  (fix go (k : nat) (d : Z) : bool :=
     match k with
     | O => n <? d * d
     | S k => if n <? d * d then true else if n mod d =? 0 then false else go k (d + 2)
     end) (Z.to_nat (Z.sqrt n)) 3.
Lemma no_small_factor_prime n : 3 < n -> n mod 2 = 1 -> no_small_factor n = true -> prime n.
Proof.
  intros Hn Odd. unfold no_small_factor.
  set (go := fix go (k : nat) (d : Z) : bool := match k with
     | O => n <? d * d
     | S k => if n <? d * d then true else if n mod d =? 0 then false else go k (d + 2) end).
  assert (K : forall k d, 3 <= d -> d mod 2 = 1 -> (forall q, prime q -> q < d -> ~ (q | n)) -> go k d = true -> prime n).
  { assert (End : forall d, 3 <= d -> (forall q, prime q -> q < d -> ~ (q | n)) -> (n <? d * d) = true -> prime n).
    { intros d Hd N E. apply Z.ltb_lt in E. apply small_prime with (d := d); auto; lia. }
    induction k as [|k IH]; intros d Hd Od N E; cbn [go] in E; [eauto|].
    destruct (n <? d * d) eqn:E1; [eauto|]. destruct (n mod d =? 0) eqn:E2; [discriminate|].
    apply Z.eqb_neq in E2. apply (IH (d + 2)); auto; [lia|clear - Od; Z.div_mod_to_equations; lia|].
    intros q Pq Hq D. destruct (Z.lt_ge_cases q d); [now apply (N q)|].
    assert (q = d \/ q = d + 1) as [->| ->] by lia; [apply E2; apply Z.mod_divide; auto; lia|].
    apply (N 2); [apply prime_2|lia|]. eapply Z.divide_trans; [|exact D]. exists ((d + 1) / 2).
    clear - Od. Z.div_mod_to_equations; lia. }
  apply K; [lia|reflexivity|]. intros q Pq Hq [c Hc]. pose proof (prime_ge_2 _ Pq). assert (q = 2) as -> by lia.
  rewrite Hc in Odd. rewrite Z.mod_mul in Odd; lia.
Qed.

Theorem C67_table : Forall (fun '(m, g) => prime m /\ primitive_root m = Some g /\ generator m g)
  [(167772161, 3); (469762049, 3); (754974721, 11); (880803841, 26); (998244353, 3)].
Proof.
  assert (K : forall m g, prime m -> m < 2 ^ 31 -> primitive_root m = Some g ->
     prime m /\ primitive_root m = Some g /\ generator m g).
  { intros m g P M E. destruct (C67_generator m P M) as (g' & E' & _ & G). rewrite E in E'. injection E' as <-. auto. }
  repeat (apply Forall_cons; [apply K; [apply no_small_factor_prime; [lia|reflexivity|vm_compute; reflexivity]|reflexivity|reflexivity]|]).
  apply Forall_nil.
Qed.

(** A case outside the table: 191 - 1 = 2 * 5 * 19 and the search skips
    2, ..., 18. *)
Example C67_example : prime_divs 191 = Some [2; 5; 19] /\ primitive_root 191 = Some 19 /\
  prime_divs 1000000007 = Some [2; 500000003] /\ mod_pow 5 500000003 1000000007 = Some 1000000006.
Proof. vm_compute. auto. Qed.

Print Assumptions C67_generator.
Print Assumptions C67_table.
