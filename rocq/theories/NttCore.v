(** Both directions of the transform as sums. *)
From Coq Require Import Setoid Morphisms Znumtheory Zpow_facts.
From Verif Require Import Base BaseLemmas NthExtra SearchModel BitModel NumTheory ModularModel ModularProof PrimRootModel NttModel NttSum NttAlg NttPass NttRev NttProof.
Local Open Scope Z_scope.
Ltac Zify.zify_post_hook ::= idtac.

Section Core.
Variable p : Z.
Hypothesis P : prime p.
Hypothesis Hp31 : p < 2 ^ 31.
Let P2 : 2 <= p. Proof. apply prime_ge_2. exact P. Qed.
Let Hp : 2 <= p < 2 ^ 31. Proof. split; [exact P2|exact Hp31]. Qed.
Let M : 1 <= p < 2 ^ 31. Proof. lia. Qed.
Local Notation "a == b" := (eqm p a b) (at level 70).

Lemma log_n_div N : (2 ^ Z.of_nat N | p - 1) <-> (N <= info_log_n p)%nat.
Proof.
  destruct (log_n_split p P Hp31) as (q & Hq & EQ & L31). split; intros H.
  - destruct (Nat.le_gt_cases N (info_log_n p)) as [|C]; auto. exfalso.
    assert (D : (2 ^ Z.of_nat (S (info_log_n p)) | p - 1)).
    { eapply Z.divide_trans; [|exact H]. exists (2 ^ Z.of_nat (N - S (info_log_n p))).
      rewrite <- Z.pow_add_r by lia. f_equal. lia. }
    rewrite EQ in D. rewrite Nat2Z.inj_succ, Z.pow_succ_r in D by lia. rewrite (Z.mul_comm 2) in D.
    apply Z.mul_divide_cancel_l in D; [|apply Z.pow_nonzero; lia]. destruct D as [z Hz]. lia.
  - rewrite EQ. apply Z.divide_mul_l. exists (2 ^ Z.of_nat (info_log_n p - N)).
    rewrite <- Z.pow_add_r by lia. f_equal. lia.
Qed.

Lemma vresize_ok f n : (length f <= n)%nat -> residues p f ->
  length (vresize f n) = n /\ residues p (vresize f n) /\ forall j, nth j (vresize f n) 0 = nth j f 0.
Proof.
  intros H R. unfold vresize. rewrite firstn_all2 by auto. split; [rewrite app_length, repeat_length; lia|]. split.
  - unfold residues. apply Forall_app. split; auto. apply Forall_forall. intros x Hx. apply repeat_spec in Hx. lia.
  - intros j. destruct (Nat.lt_ge_cases j (length f)) as [C|C].
    + now rewrite app_nth1.
    + rewrite app_nth2 by auto. rewrite (nth_overflow f) by auto. apply nth_repeat.
Qed.

Lemma n_unit N : (N <= info_log_n p)%nat -> ~ (p | Z.of_nat (2 ^ N)).
Proof.
  intros HN D. rewrite Nat2Z.inj_pow in D. change (Z.of_nat 2) with 2 in D.
  destruct N as [|N].
  - change (2 ^ Z.of_nat 0) with 1 in D. apply Z.divide_1_r_nonneg in D; lia.
  - apply prime_power_prime in D; [|lia|exact P|apply prime_2].
    apply log_n_div in HN. destruct HN as [z Hz]. rewrite Nat2Z.inj_succ, Z.pow_succ_r in Hz by lia. lia.
Qed.

Lemma scale_ok N f : (N <= info_log_n p)%nat -> length f = (2 ^ N)%nat -> residues p f ->
  exists f', scale p (2 ^ N) f = Some f' /\ length f' = (2 ^ N)%nat /\ residues p f' /\
    forall j, (j < 2 ^ N)%nat -> Z.of_nat (2 ^ N) * nth j f' 0 == nth j f 0.
Proof.
  intros HN Lf Rf. unfold scale. rewrite m_signed_ok by auto.
  set (n := (2 ^ N)%nat) in *.
  assert (B : 0 <= Z.of_nat n mod p < p) by (apply Z.mod_pos_bound; lia).
  assert (NZ : Z.of_nat n mod p <> 0).
  { intros E. apply (n_unit N HN). apply Z.mod_divide; [lia|exact E]. }
  destruct (m_inv_ok p M P (Z.of_nat n mod p) B NZ) as (iv & Ei & Ri & Ii). rewrite Ei. cbn [obind].
  assert (II : Z.of_nat n * iv == 1).
  { transitivity (Z.of_nat n mod p * iv); [now rewrite (em p (Z.of_nat n))|].
    transitivity ((Z.of_nat n mod p * iv) mod p); [symmetry; apply eqm_mod|]. rewrite Ii. reflexivity. }
  match goal with |- context [for_up _ _ ?bd _] => set (body := bd) end.
  destruct (@for_up_rule _ (fun t f' => length f' = n /\ residues p f' /\
    forall j, (j < n)%nat -> nth j f' 0 == if (j <? t)%nat then nth j f 0 * iv else nth j f 0) body n 0%nat f) as (f' & E & L' & R' & K).
  - repeat split; auto. intros j Hj. reflexivity.
  - intros t f' Ht (L' & R' & K). unfold body. rewrite (get_nth _ _ 0) by lia. cbn [obind].
    pose proof (res_nth p Hp f' t R') as B2.
    rewrite m_mul_ok by (auto; exact B2). cbn [obind]. rewrite set_some by lia. eexists; split; [reflexivity|].
    split; [now rewrite lset_length|]. split.
    + apply res_intro. rewrite lset_length. intros x Hx. destruct (Nat.eq_dec x t) as [->|Ne].
      * rewrite nth_lset_eq by lia. apply Z.mod_pos_bound; lia.
      * rewrite nth_lset_neq by auto. now apply res_nth.
    + intros j Hj. destruct (Nat.eq_dec j t) as [->|Ne].
      * rewrite nth_lset_eq by lia. rewrite (em p). rewrite K by auto.
        rewrite Nat.ltb_irrefl. destruct (Nat.ltb_spec t (S t)); [reflexivity|lia].
      * rewrite nth_lset_neq by auto. rewrite K by auto.
        destruct (Nat.ltb_spec j t), (Nat.ltb_spec j (S t)); try reflexivity; lia.
  - exists f'. split; auto. split; auto. split; auto. intros j Hj. rewrite K by auto.
    destruct (Nat.ltb_spec j (0 + n)); [|lia].
    transitivity (nth j f 0 * (Z.of_nat n * iv)); [apply eq_eqm; ring|]. rewrite II. apply eq_eqm. ring.
Qed.

Lemma rev_nth t f f' : length f = (2 ^ t)%nat -> length f' = (2 ^ t)%nat -> residues p f ->
  (forall j, (j < 2 ^ t)%nat -> get f' j = get f (brev t j)) ->
  residues p f' /\ forall j, (j < 2 ^ t)%nat -> nth j f' 0 = nth (brev t j) f 0.
Proof.
  intros Lf L' R K.
  assert (V : forall j, (j < 2 ^ t)%nat -> nth j f' 0 = nth (brev t j) f 0).
  { intros j Hj. pose proof (brev_lt t j). specialize (K j Hj). rewrite (get_nth f' _ 0), (get_nth f _ 0) in K by lia. congruence. }
  split; auto. apply res_intro. intros x Hx. rewrite V by lia. now apply res_nth.
Qed.

Lemma res_eq a b : 0 <= a < p -> a == b -> a = b mod p.
Proof. intros Ha E. rewrite <- (Z.mod_small a p) by auto. apply eqm_mod_eq; [lia|exact E]. Qed.
Lemma ext_res F G n : length F = n -> length G = n -> residues p F -> residues p G ->
  (forall k, (k < n)%nat -> nth k F 0 == nth k G 0) -> F = G.
Proof.
  intros LF LG RF RG H. apply (nth_ext _ _ 0 0); [lia|]. intros k Hk.
  rewrite (res_eq (nth k F 0) (nth k G 0)); [|now apply res_nth|apply H; lia].
  apply Z.mod_small. now apply res_nth.
Qed.
Lemma n_cancel N a b : (N <= info_log_n p)%nat -> Z.of_nat (2 ^ N) * a == Z.of_nat (2 ^ N) * b -> a == b.
Proof.
  intros HN H. unfold eqm in *. rewrite <- Z.mul_sub_distr_l in H. apply prime_mult in H; [|exact P].
  destruct H as [H|H]; auto. exfalso. exact (n_unit N HN H).
Qed.

(** The two directions, from the tables. *)
Variables (g : Z) (cf cb : list Z).
Hypothesis Tab : primitive_root p = Some g /\ 0 < g < p /\ generator p g /\
  coeff p true = Some cf /\ coeff p false = Some cb /\
  length cf = info_log_n p /\ length cb = info_log_n p /\ residues p cf /\ residues p cb /\
  (forall t, (t <= info_log_n p)%nat -> rt cb t == g ^ ((p - 1) / 2 ^ Z.of_nat t)) /\
  (forall t, (t <= info_log_n p)%nat -> rt cf t * rt cb t == 1) /\
  ((1 <= info_log_n p)%nat -> rt cf 1 == -1) /\ ((1 <= info_log_n p)%nat -> rt cb 1 == -1) /\
  (forall t, (t < info_log_n p)%nat -> rt cf (S t) * rt cf (S t) == rt cf t) /\
  (forall t, (t < info_log_n p)%nat -> rt cb (S t) * rt cb (S t) == rt cb t).

Lemma fwd_core b f : let N := ceil_pow2 (length f) in (N <= info_log_n p)%nat -> residues p f ->
  exists F, fft_impl p true b f = Some F /\ length F = (2 ^ N)%nat /\ residues p F /\
    forall k, (k < 2 ^ N)%nat -> nth k F 0 ==
      zsum (2 ^ N) (fun j => nth j f 0 * pw (rt cf N) (j * (if b then k else brev N k))).
Proof.
  intros N HN R. destruct Tab as (Eg & Hg & Gen & Ef & Eb & Lf & Lb & Rf & Rb & RB & INV & F1 & B1 & F2 & B2).
  unfold fft_impl. fold N. destruct (Nat.leb_spec N (info_log_n p)); [|lia]. cbn [guard obind negb andb].
  destruct (vresize_ok f (2 ^ N) (ceil_pow2_le _) R) as (Lv & Rv & Nv).
  rewrite Ef. cbn [obind].
  assert (N31 : (N < 31)%nat) by (destruct (log_n_split p P Hp31) as (q & _ & _ & ?); lia).
  destruct (fwd_levels_ok p Hp (info_log_n p) cf Lf Rf F1 F2 N (vresize f (2 ^ N)) HN N31 Lv Rv) as (F' & E & LF & RF & K).
  rewrite E. cbn [obind]. rewrite Nat.sub_diag in K. change (2 ^ 0)%nat with 1%nat in K.
  assert (V : forall c, (c < 2 ^ N)%nat -> nth c F' 0 == zsum (2 ^ N) (fun j => nth j f 0 * pw (rt cf N) (j * brev N c))).
  { intros c Hc. specialize (K c 0%nat Hc ltac:(lia)). rewrite Nat.mul_1_r, Nat.add_0_r in K. rewrite K.
    rewrite dif_end. apply eq_eqm. apply zsum_ext. intros j Hj. now rewrite Nv. }
  destruct b; cbn [obind].
  - destruct (bit_reverse_ok N F' LF) as (F & E2 & L2 & K2). rewrite E2. cbn [obind].
    destruct (rev_nth N F' F LF L2 RF K2) as (RF2 & V2). exists F. split; auto. split; auto. split; auto.
    intros k Hk. rewrite V2 by auto. rewrite V by apply brev_lt. rewrite brev_inv by auto. reflexivity.
  - exists F'. auto.
Qed.

Lemma inv_core b f : let N := ceil_pow2 (length f) in (N <= info_log_n p)%nat -> residues p f ->
  exists F, fft_impl p false b f = Some F /\ length F = (2 ^ N)%nat /\ residues p F /\
    forall k, (k < 2 ^ N)%nat -> Z.of_nat (2 ^ N) * nth k F 0 ==
      zsum (2 ^ N) (fun j => nth j f 0 * pw (rt cb N) (k * (if b then j else brev N j))).
Proof.
  intros N HN R. destruct Tab as (Eg & Hg & Gen & Ef & Eb & Lf & Lb & Rf & Rb & RB & INV & F1 & B1 & F2 & B2).
  unfold fft_impl. fold N. destruct (Nat.leb_spec N (info_log_n p)); [|lia]. cbn [guard obind negb andb].
  destruct (vresize_ok f (2 ^ N) (ceil_pow2_le _) R) as (Lv & Rv & Nv).
  assert (N31 : (N < 31)%nat) by (destruct (log_n_split p P Hp31) as (q & _ & _ & ?); lia).
  assert (S1 : exists f1, (if b then bit_reverse (vresize f (2 ^ N)) else Some (vresize f (2 ^ N))) = Some f1 /\
    length f1 = (2 ^ N)%nat /\ residues p f1 /\ forall j, (j < 2 ^ N)%nat -> nth j f1 0 = nth (if b then brev N j else j) f 0).
  { destruct b.
    - destruct (bit_reverse_ok N _ Lv) as (f1 & E2 & L2 & K2). destruct (rev_nth N _ f1 Lv L2 Rv K2) as (R2 & V2).
      exists f1. split; auto. split; auto. split; auto. intros j Hj. rewrite V2 by auto. apply Nv.
    - exists (vresize f (2 ^ N)). auto. }
  destruct S1 as (f1 & E1 & L1 & R1 & V1). rewrite E1. cbn [obind]. rewrite Eb. cbn [obind].
  destruct (inv_levels_ok p Hp (info_log_n p) cb Lb Rb B1 B2 N f1 HN N31 L1 R1) as (F' & E & LF & RF & K).
  rewrite E. cbn [obind]. rewrite Nat.sub_diag in K. change (2 ^ 0)%nat with 1%nat in K.
  destruct (scale_ok N F' HN LF RF) as (F & E2 & L2 & R2 & K2). exists F. split; auto. split; auto. split; auto.
  intros k Hk. rewrite K2 by auto. specialize (K 0%nat k ltac:(lia) Hk). rewrite Nat.mul_0_l, Nat.add_0_l in K. rewrite K.
  rewrite dit_end. apply eq_eqm. destruct b.
  - rewrite <- (zsum_brev N (fun j => nth j f 0 * pw (rt cb N) (k * j))). apply zsum_ext. intros j Hj. now rewrite V1.
  - apply zsum_ext. intros j Hj. now rewrite V1.
Qed.

End Core.
