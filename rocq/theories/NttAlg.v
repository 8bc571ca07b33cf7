(** Algebra of the transform: roots of unity, the recurrences of the
    decimations, orthogonality. *)
From Coq Require Import Setoid Morphisms Znumtheory.
From Verif Require Import Base BaseLemmas NumTheory NttModel NttSum.
Local Open Scope Z_scope.
Ltac Zify.zify_post_hook ::= idtac.

Section Roots.
Variables (p : Z) (L : nat) (rt : nat -> Z).
Local Notation "a == b" := (eqm p a b) (at level 70).
(** [rt t] is a primitive root of order [2^t]. *)
Hypothesis R0 : rt 0 == 1.
Hypothesis R1 : (1 <= L)%nat -> rt 1 == -1.
Hypothesis R2 : forall t, (t < L)%nat -> rt (S t) * rt (S t) == rt t.

Lemma rt_pow s : forall t, (t + s <= L)%nat -> pw (rt (t + s)) (2 ^ s) == rt t.
Proof.
  induction s as [|s IH]; intros t H.
  - rewrite Nat.add_0_r. change (2 ^ 0)%nat with 1%nat. now rewrite pw_1.
  - rewrite Nat.pow_succ_r', pw_mul. replace (t + S s)%nat with (S (t + s)) by lia.
    rewrite <- (IH t) by lia. apply eqm_pw_m; auto.
    unfold pw. change (Z.of_nat 2) with 2. rewrite Z.pow_2_r. apply R2. lia.
Qed.
Lemma rt_one t : (t <= L)%nat -> pw (rt t) (2 ^ t) == 1.
Proof. intros H. transitivity (rt 0); [|apply R0]. apply (rt_pow t 0). lia. Qed.
Lemma rt_half t : (S t <= L)%nat -> pw (rt (S t)) (2 ^ t) == -1.
Proof. intros H. transitivity (rt 1); [|apply R1; lia]. apply (rt_pow t 1). lia. Qed.
Lemma rt_per t k i : (t <= L)%nat -> pw (rt t) (i + 2 ^ t * k) == pw (rt t) i.
Proof.
  intros H. rewrite pw_add, pw_mul. rewrite (rt_one t H). rewrite pw_one. apply eq_eqm. ring.
Qed.
Lemma rt_mod t i : (t <= L)%nat -> pw (rt t) i == pw (rt t) (i mod 2 ^ t).
Proof.
  intros H. rewrite (Nat.div_mod i (2 ^ t)) at 1 by (apply Nat.pow_nonzero; lia).
  rewrite Nat.add_comm. now apply rt_per.
Qed.

(** ** Decimation in frequency *)
Section Dif.
Variables (N : nat) (F : nat -> Z).
Hypothesis HN : (N <= L)%nat.
Definition dif (t c i : nat) : Z :=
  zsum (2 ^ t) (fun j => F (i + 2 ^ (N - t) * j)%nat * pw (rt N) ((i + 2 ^ (N - t) * j) * brev t c)).

Lemma dif_start c i : dif 0 c i = F i.
Proof.
  unfold dif. change (2 ^ 0)%nat with 1%nat. cbn [zsum brev]. rewrite Nat.mul_0_r, Nat.add_0_r, Nat.mul_0_r, pw_0. ring.
Qed.
Lemma dif_even t c i : (S t <= N)%nat -> dif (S t) (2 * c) i = dif t c i + dif t c (i + 2 ^ (N - S t)).
Proof.
  intros H. unfold dif. replace (N - t)%nat with (S (N - S t)) by lia. rewrite !Nat.pow_succ_r'.
  set (h := (2 ^ (N - S t))%nat). rewrite zsum_even_odd.
  replace (2 * c)%nat with (2 * c + 0)%nat by lia. rewrite brev_low by lia. rewrite Nat.mul_0_r, Nat.add_0_r.
  f_equal; apply zsum_ext; intros j Hj; f_equal; f_equal; lia.
Qed.
Lemma dif_odd t c i : (S t <= N)%nat ->
  dif (S t) (2 * c + 1) i == (dif t c i - dif t c (i + 2 ^ (N - S t))) * pw (rt (N - t)) i.
Proof.
  intros H. unfold dif.
  assert (W : forall k, pw (rt N) (k * 2 ^ t) == pw (rt (N - t)) k).
  { intros k. rewrite Nat.mul_comm, pw_mul. apply eqm_pw_m; auto. replace N with (N - t + t)%nat at 1 by lia.
    apply rt_pow. lia. }
  replace (N - t)%nat with (S (N - S t)) in * by lia. rewrite (Nat.pow_succ_r' 2 (N - S t)).
  set (M := (N - S t)%nat) in *. set (h := (2 ^ M)%nat) in *.
  rewrite brev_low by lia. rewrite (Nat.pow_succ_r' 2 t), zsum_even_odd. rewrite Z.mul_sub_distr_r.
  rewrite <- !zsum_mul. set (b := brev t c). unfold Z.sub.
  match goal with |- _ == ?A + - ?B => replace (- B) with (-1 * B) by ring end. rewrite <- zsum_mul_l.
  assert (Wp : forall k, pw (rt (S M)) (i + 2 * h * k) == pw (rt (S M)) i).
  { intros k. unfold h. rewrite <- (Nat.pow_succ_r' 2 M). apply rt_per. lia. }
  assert (Hf : pw (rt (S M)) h == -1) by (apply rt_half; lia).
  apply eqm_add_m; apply zsum_eqm; intros j Hj.
  - replace ((i + h * (2 * j)) * (b + 2 ^ t * 1))%nat with ((i + 2 * h * j) * b + (i + 2 * h * j) * 2 ^ t)%nat by lia.
    rewrite pw_add, W, Wp. replace (i + h * (2 * j))%nat with (i + 2 * h * j)%nat by lia. apply eq_eqm. ring.
  - replace ((i + h * (2 * j + 1)) * (b + 2 ^ t * 1))%nat
      with ((i + h + 2 * h * j) * b + (i + 2 * h * j + h) * 2 ^ t)%nat by lia.
    rewrite pw_add, W, (pw_add _ _ h), Wp, Hf. replace (i + h * (2 * j + 1))%nat with (i + h + 2 * h * j)%nat by lia.
    apply eq_eqm. ring.
Qed.
Lemma dif_end c : dif N c 0 = zsum (2 ^ N) (fun j => F j * pw (rt N) (j * brev N c)).
Proof.
  unfold dif. rewrite Nat.sub_diag. apply zsum_ext. intros j Hj. change (2 ^ 0)%nat with 1%nat.
  rewrite Nat.mul_1_l. reflexivity.
Qed.
End Dif.

(** ** Decimation in time *)
Section Dit.
Variable F : nat -> Z.
Definition dit (t c i : nat) : Z :=
  zsum (2 ^ t) (fun j => F (c * 2 ^ t + j)%nat * pw (rt t) (i * brev t j)).

Lemma dit_start c : dit 0 c 0 = F c.
Proof.
  unfold dit. change (2 ^ 0)%nat with 1%nat. cbn [zsum brev]. rewrite Nat.mul_0_r, pw_0, Nat.mul_1_r, Nat.add_0_r. ring.
Qed.
Lemma dit_low t c i : (S t <= L)%nat ->
  dit (S t) c i == dit t (2 * c) i + dit t (2 * c + 1) i * pw (rt (S t)) i.
Proof.
  intros H. unfold dit. rewrite (Nat.pow_succ_r' 2 t). replace (2 * 2 ^ t)%nat with (2 ^ t + 2 ^ t)%nat by lia.
  rewrite zsum_split, <- zsum_mul.
  assert (W : forall k, pw (rt (S t)) (i * (2 * k)) == pw (rt t) (i * k)).
  { intros k. replace (i * (2 * k))%nat with (2 * (i * k))%nat by lia. rewrite pw_mul.
    apply eqm_pw_m; auto. unfold pw. change (Z.of_nat 2) with 2. rewrite Z.pow_2_r. now apply R2. }
  apply eqm_add_m; apply zsum_eqm; intros j Hj.
  - replace (brev (S t) j) with (2 * brev t j)%nat.
    2:{ pose proof (brev_high t j 0 ltac:(lia) Hj) as E. rewrite Nat.mul_0_r, Nat.add_0_r in E. rewrite E. lia. }
    rewrite W. apply eq_eqm. f_equal. f_equal. ring.
  - replace (brev (S t) (2 ^ t + j)) with (2 * brev t j + 1)%nat.
    2:{ rewrite <- (brev_high t j 1) by (auto; lia). f_equal. lia. }
    replace (i * (2 * brev t j + 1))%nat with (i * (2 * brev t j) + i)%nat by lia. rewrite pw_add, W.
    replace (c * (2 ^ t + 2 ^ t) + (2 ^ t + j))%nat with ((2 * c + 1) * 2 ^ t + j)%nat by ring. apply eq_eqm. ring.
Qed.
Lemma dit_high t c i : (S t <= L)%nat ->
  dit (S t) c (i + 2 ^ t) == dit t (2 * c) i - dit t (2 * c + 1) i * pw (rt (S t)) i.
Proof.
  intros H. rewrite dit_low by auto. rewrite pw_add, (rt_half t H).
  assert (Pp : forall c, dit t c (i + 2 ^ t) == dit t c i).
  { intros c'. unfold dit. apply zsum_eqm. intros j Hj. rewrite Nat.mul_add_distr_r.
    rewrite rt_per by lia. reflexivity. }
  rewrite !Pp. apply eq_eqm. ring.
Qed.
Lemma dit_end N i : dit N 0 i = zsum (2 ^ N) (fun j => F j * pw (rt N) (i * brev N j)).
Proof. reflexivity. Qed.
End Dit.

(** ** Orthogonality *)
Lemma orth_pos N : (N <= L)%nat -> forall d, (0 < d < 2 ^ N)%nat -> zsum (2 ^ N) (fun k => pw (rt N) (d * k)) == 0.
Proof.
  induction N as [|N IH]; intros HN d Hd; [cbn in Hd; lia|].
  rewrite Nat.pow_succ_r' in *. replace (2 * 2 ^ N)%nat with (2 ^ N + 2 ^ N)%nat by lia. rewrite zsum_split.
  destruct (Nat.Even_or_Odd d) as [[e ->]|[e ->]].
  - assert (W : forall k, pw (rt (S N)) (2 * e * k) == pw (rt N) (e * k)).
    { intros k. replace (2 * e * k)%nat with (2 * (e * k))%nat by lia. rewrite pw_mul.
      apply eqm_pw_m; auto. unfold pw. change (Z.of_nat 2) with 2. rewrite Z.pow_2_r. apply R2. lia. }
    rewrite (zsum_eqm p _ _ (fun k => pw (rt N) (e * k))) by auto.
    rewrite (zsum_eqm p _ (fun i => pw (rt (S N)) (2 * e * (2 ^ N + i))) (fun k => pw (rt N) (e * k))).
    + rewrite IH by lia. reflexivity.
    + intros k Hk. rewrite W. replace (e * (2 ^ N + k))%nat with (e * k + 2 ^ N * e)%nat by lia. apply rt_per. lia.
  - rewrite (zsum_eqm p _ (fun i => pw (rt (S N)) ((2 * e + 1) * (2 ^ N + i))) (fun k => -1 * pw (rt (S N)) ((2 * e + 1) * k))).
    + rewrite zsum_mul_l. apply eq_eqm. ring.
    + intros k Hk. replace ((2 * e + 1) * (2 ^ N + k))%nat with ((2 * e + 1) * k + 2 ^ N + (2 * 2 ^ N) * e)%nat by lia.
      rewrite <- (Nat.pow_succ_r' 2 N), rt_per by lia. rewrite pw_add, rt_half by lia. apply eq_eqm. ring.
Qed.
Lemma orth N e : (N <= L)%nat ->
  zsum (2 ^ N) (fun k => pw (rt N) (e * k)) == if (e mod 2 ^ N =? 0)%nat then Z.of_nat (2 ^ N) else 0.
Proof.
  intros HN. assert (P2 : (2 ^ N <> 0)%nat) by (apply Nat.pow_nonzero; lia).
  rewrite (zsum_eqm p _ _ (fun k => pw (rt N) (e mod 2 ^ N * k))).
  2:{ intros k Hk. rewrite pw_mul, (rt_mod N e HN), <- pw_mul. reflexivity. }
  destruct (Nat.eqb_spec (e mod 2 ^ N) 0) as [->|Ne].
  - rewrite (zsum_ext _ _ (fun _ => 1)) by (intros; now rewrite Nat.mul_0_l, pw_0).
    rewrite zsum_const. apply eq_eqm. ring.
  - apply orth_pos; auto. pose proof (Nat.mod_upper_bound e (2 ^ N) P2). lia.
Qed.

(** The inverse root and the inverse transform. *)
Section Inverse.
Variables (N : nat) (w' : Z).
Hypothesis HN : (N <= L)%nat.
Hypothesis HW : rt N * w' == 1.
Local Notation n := (2 ^ N)%nat.

Lemma winv i k : (i <= n)%nat -> pw w' (i * k) == pw (rt N) ((n - i) * k).
Proof.
  intros Hi. transitivity (pw w' (i * k) * pw (rt N) (n * k)).
  - rewrite (pw_mul _ n k), (rt_one N HN), pw_one. apply eq_eqm. ring.
  - replace (n * k)%nat with (i * k + (n - i) * k)%nat by nia. rewrite pw_add.
    replace (pw w' (i * k) * (pw (rt N) (i * k) * pw (rt N) ((n - i) * k)))
      with (pw (rt N * w') (i * k) * pw (rt N) ((n - i) * k)) by (rewrite pw_mul_l; ring).
    rewrite HW, pw_one. apply eq_eqm. ring.
Qed.

Lemma round_trip F i : (i < n)%nat ->
  zsum n (fun k => zsum n (fun j => F j * pw (rt N) (j * k)) * pw w' (i * k)) == Z.of_nat n * F i.
Proof.
  intros Hi.
  rewrite (zsum_eqm p _ _ (fun k => zsum n (fun j => F j * pw (rt N) ((j + (n - i)) * k)))).
  2:{ intros k Hk. rewrite winv by lia. rewrite <- zsum_mul. apply zsum_eqm. intros j Hj.
      rewrite Nat.mul_add_distr_r, pw_add. apply eq_eqm. ring. }
  rewrite zsum_swap.
  rewrite (zsum_eqm p _ _ (fun j => if (j =? i)%nat then Z.of_nat n * F i else 0)).
  - rewrite (zsum_single _ _ i Hi); [now rewrite Nat.eqb_refl|]. intros j Hj Ne.
    destruct (Nat.eqb_spec j i); [contradiction|auto].
  - intros j Hj. rewrite zsum_mul_l. rewrite (orth N _ HN).
    destruct (Nat.eqb_spec j i) as [->|Ne].
    + replace (i + (n - i))%nat with n by lia. rewrite Nat.mod_same by lia. cbn [Nat.eqb]. apply eq_eqm. ring.
    + destruct (Nat.eqb_spec ((j + (n - i)) mod n) 0) as [E|_]; [|apply eq_eqm; ring]. exfalso.
      apply Nat.mod_divide in E; [|lia]. destruct E as [q Hq].
      assert (q = 0 \/ q = 1 \/ 2 <= q)%nat as [->|[->|?]] by lia; nia.
Qed.

(** The inverse transform of the pointwise product is the cyclic convolution;
    with room for all products it is the convolution. *)
Lemma conv_trip F G a b i : (i < n)%nat -> (a + b <= n + 1)%nat ->
  (forall k, (a <= k)%nat -> F k = 0) -> (forall k, (b <= k)%nat -> G k = 0) ->
  zsum n (fun k => zsum n (fun j => F j * pw (rt N) (j * k)) * zsum n (fun j => G j * pw (rt N) (j * k)) * pw w' (i * k))
  == Z.of_nat n * zsum (S i) (fun j => F j * G (i - j)%nat).
Proof.
  intros Hi Hab FZ GZ.
  rewrite (zsum_eqm p _ _ (fun k => zsum n (fun j => zsum n (fun l => F j * G l * pw (rt N) ((j + l + (n - i)) * k))))).
  2:{ intros k Hk. rewrite winv by lia. rewrite <- zsum_mul, <- zsum_mul. apply zsum_eqm. intros j Hj.
      rewrite <- zsum_mul_l, <- zsum_mul. apply zsum_eqm. intros l Hl.
      rewrite !Nat.mul_add_distr_r, !pw_add. apply eq_eqm. ring. }
  rewrite zsum_swap.
  rewrite (zsum_eqm p _ _ (fun j => if (j <=? i)%nat then Z.of_nat n * (F j * G (i - j)%nat) else 0)).
  - rewrite (zsum_pad (S i) n); [|lia|].
    + rewrite <- zsum_mul_l. apply zsum_eqm. intros j Hj. destruct (Nat.leb_spec j i); [reflexivity|lia].
    + intros j Hj. destruct (Nat.leb_spec j i); [lia|auto].
  - intros j Hj. rewrite zsum_swap.
    rewrite (zsum_eqm p _ _ (fun l => if (j + l =? i)%nat then Z.of_nat n * (F j * G (i - j)%nat) else 0)).
    + destruct (Nat.leb_spec j i) as [Le|Gt].
      * rewrite (zsum_single _ _ (i - j)%nat); [|lia|].
        { replace (j + (i - j))%nat with i by lia. now rewrite Nat.eqb_refl. }
        intros l Hl Ne. destruct (Nat.eqb_spec (j + l) i); [lia|auto].
      * rewrite (zsum_ext _ _ (fun _ => 0)), zsum_0; [reflexivity|]. intros l Hl. destruct (Nat.eqb_spec (j + l) i); [lia|auto].
    + intros l Hl. rewrite zsum_mul_l. rewrite (orth N _ HN).
      destruct (Nat.eqb_spec (j + l) i) as [E|Ne].
      * replace (j + l + (n - i))%nat with n by lia. rewrite Nat.mod_same by lia. cbn [Nat.eqb].
        replace (i - j)%nat with l by lia. apply eq_eqm. ring.
      * destruct (Nat.eqb_spec ((j + l + (n - i)) mod n) 0) as [E|_]; [|apply eq_eqm; ring].
        apply Nat.mod_divide in E; [|lia]. destruct E as [q Hq].
        destruct (Nat.lt_ge_cases j a) as [Ja|Ja]; [|rewrite (FZ j Ja); apply eq_eqm; ring].
        destruct (Nat.lt_ge_cases l b) as [Lb|Lb]; [|rewrite (GZ l Lb); apply eq_eqm; ring].
        exfalso. assert (q = 0 \/ q = 1 \/ 2 <= q)%nat as [->|[->|?]] by lia; nia.
Qed.
End Inverse.
End Roots.
