(** C69, C70: convolutions. *)
From Coq Require Import Setoid Morphisms Znumtheory.
From Verif Require Import Base BaseLemmas NthExtra SearchModel BitModel NumTheory NumProth ModularModel ModularProof PrimRootModel NttModel NttSum NttRev NttProof NttCore NttProp ConvModel ConvSum ConvNtt ConvInt ConvGarner ConvLarge.
Local Open Scope Z_scope.
Ltac Zify.zify_post_hook ::= idtac.

(** [n] is a power of two. *)
Definition pow_two (n : nat) : Prop := exists r, n = (2 ^ r)%nat.

(** [R] holds the product of [f] and [g] modulo [p], possibly followed by zeros. *)
Definition product (p : Z) (f g R : list Z) : Prop := forall k, nth k R 0 = conv f g k mod p.

Lemma ceil_rounded n N : rounded n N -> ceil_pow2 n = N.
Proof. apply rounded_ceil. Qed.

Lemma len_pow n m : (0 < n)%nat -> (0 < m)%nat -> pow_two (n + m - 2) -> conv_ntt_len n m = (n + m - 1)%nat.
Proof.
  intros Hn Hm [r Hr]. unfold conv_ntt_len. cbn zeta. pose proof (Nat.pow_nonzero 2 r ltac:(lia)).
  destruct (ceil_half (n + m - 1) ltac:(lia)) as (s & Es & Ls). rewrite Es.
  assert (ceil_pow2 (n + m - 1) <= S r)%nat by (apply ceil_pow2_min; rewrite Nat.pow_succ_r'; lia).
  assert (r < S s)%nat by (apply (Nat.pow_lt_mono_r_iff 2); [lia|]; pose proof (ceil_pow2_le (n + m - 1)); rewrite Es in *; lia).
  assert (s = r) as -> by lia. rewrite Nat.pow_succ_r', Nat.mul_comm, Nat.div_mul by lia.
  destruct (Nat.leb_spec 3 (n + m)); [|lia]. destruct (Nat.ltb_spec (n + m - 3) (2 ^ r)); [auto|lia].
Qed.

Lemma len_not_pow n m N : (0 < n)%nat -> (0 < m)%nat -> ~ pow_two (n + m - 2) -> rounded (n + m - 1) N ->
  conv_ntt_len n m = (2 ^ N)%nat /\
  ((3 <=? n + m)%nat && (n + m - 3 <? 2 ^ ceil_pow2 (n + m - 1) / 2)%nat) = false.
Proof.
  intros Hn Hm NP Ro. apply rounded_ceil in Ro. unfold conv_ntt_len. cbn zeta.
  assert (C : ((3 <=? n + m)%nat && (n + m - 3 <? 2 ^ ceil_pow2 (n + m - 1) / 2)%nat) = false).
  { destruct (Nat.leb_spec 3 (n + m)) as [C|C]; auto. cbn [andb].
    destruct (ceil_half (n + m - 1) ltac:(lia)) as (s & Es & Ls). rewrite Es, Nat.pow_succ_r', Nat.mul_comm, Nat.div_mul by lia.
    apply Nat.ltb_ge. destruct (Nat.le_gt_cases (2 ^ s) (n + m - 3)) as [|D]; auto. exfalso. apply NP. exists s. lia. }
  rewrite C, Ro. auto.
Qed.

Lemma to_product p f g R : 1 <= p < 2 ^ 31 -> residues p R -> (forall k, eqm p (nth k R 0) (conv f g k)) -> product p f g R.
Proof.
  intros M RR K k. rewrite <- (Z.mod_small (nth k R 0) p) by now apply (res_n p M). apply eqm_mod_eq; [lia|apply K].
Qed.

(** The schoolbook product works for every modulus. *)
Theorem C69_naive : forall p f g, 1 <= p < 2 ^ 31 -> residues p f -> residues p g ->
  exists R, naive_mod p f g = Some R /\ product p f g R /\ residues p R /\
    length R = (if (length f =? 0)%nat || (length g =? 0)%nat then 0 else length f + length g - 1)%nat.
Proof.
  intros p f g M Rf Rg. destruct ((length f =? 0)%nat || (length g =? 0)%nat) eqn:E.
  - unfold naive_mod, naive. rewrite E. exists []. split; auto. split; [|split; [constructor|auto]]. intros k.
    apply Bool.orb_true_iff in E. unfold conv. rewrite (zsum_ext _ _ (fun _ => 0)), zsum_0, Z.mod_0_l by
     (try lia; intros i _; destruct E as [E|E]; apply Nat.eqb_eq in E; apply length_zero_iff_nil in E; rewrite E;
      rewrite (nth_overflow (A := Z) []) by (cbn; lia); ring). now destruct k.
  - apply Bool.orb_false_iff in E. destruct E as [E1 E2]. apply Nat.eqb_neq in E1, E2.
    destruct (naive_ok p M f g Rf Rg ltac:(lia) ltac:(lia)) as (R & E & L & RR & K). exists R. split; auto. split; auto.
    now apply to_product.
Qed.

(** The product by transforms: the result has [n+m-1] entries if [n+m-2] is a
    power of two and is otherwise filled with zeros up to a power of two. *)
Theorem C69_ntt : forall p f g N, prime p -> p < 2 ^ 31 -> residues p f -> residues p g -> f <> [] -> g <> [] ->
  (2 ^ Z.of_nat N | p - 1) -> (length f + length g - 2 <= 2 ^ N)%nat ->
  exists R, conv_ntt (length f + length g) p f g = Some R /\ product p f g R /\ residues p R /\
    (pow_two (length f + length g - 2) -> length R = (length f + length g - 1)%nat) /\
    (forall t, ~ pow_two (length f + length g - 2) -> rounded (length f + length g - 1) t -> length R = (2 ^ t)%nat).
Proof.
  intros p f g N P H31 Rf Rg Hf Hg D HL. pose proof (prime_ge_2 _ P). assert (M : 1 <= p < 2 ^ 31) by lia.
  apply (log_n_div p P H31) in D.
  assert (Lf : (0 < length f)%nat) by (destruct f; [congruence|cbn; lia]).
  assert (Lg : (0 < length g)%nat) by (destruct g; [congruence|cbn; lia]).
  destruct (conv_ntt_ok p P H31 (length f + length g) f g N Rf Rg Lf Lg HL D ltac:(lia)) as (R & E & L & RR & K).
  exists R. split; auto. split; [now apply to_product|]. split; auto. rewrite L. split.
  - now apply len_pow.
  - intros t NP Ro. now apply len_not_pow.
Qed.

(** [convolution] *)
Theorem C69_convolution : forall p f g N, prime p -> p < 2 ^ 31 -> residues p f -> residues p g -> f <> [] -> g <> [] ->
  (Nat.min (length f) (length g) <= 60)%nat \/ (2 ^ Z.of_nat N | p - 1) /\ (length f + length g - 2 <= 2 ^ N)%nat ->
  exists R, convolution p f g = Some R /\ product p f g R /\ residues p R /\
    ((Nat.min (length f) (length g) <= 60)%nat \/ pow_two (length f + length g - 2) -> length R = (length f + length g - 1)%nat) /\
    (forall t, (60 < Nat.min (length f) (length g))%nat -> ~ pow_two (length f + length g - 2) ->
      rounded (length f + length g - 1) t -> length R = (2 ^ t)%nat).
Proof.
  intros p f g N P H31 Rf Rg Hf Hg D. pose proof (prime_ge_2 _ P). assert (M : 1 <= p < 2 ^ 31) by lia.
  assert (Lf : (0 < length f)%nat) by (destruct f; [congruence|cbn; lia]).
  assert (Lg : (0 < length g)%nat) by (destruct g; [congruence|cbn; lia]).
  destruct (convolution_ok p P H31 f g N Rf Rg Lf Lg) as (R & E & RR & L & K).
  { destruct D as [D|[D HL]]; [now left|right]. split; auto. now apply (log_n_div p P H31). }
  exists R. split; auto. split; [now apply to_product|]. split; auto. unfold NAIVE_THRESHOLD in L.
  destruct (Nat.leb_spec (Nat.min (length f) (length g)) 60) as [C|C].
  - split; auto. intros; lia.
  - rewrite L. split.
    + intros [?|Q]; [lia|]. now apply len_pow.
    + intros t _ NP Ro. now apply len_not_pow.
Qed.

Theorem C69_empty : forall p f g, f = [] \/ g = [] -> convolution p f g = Some [] /\ naive_mod p f g = Some [] /\
  conv_large p f g = Some [].
Proof.
  intros p f g H. unfold convolution, naive_mod, naive, conv_large.
  destruct H as [-> | ->]; cbn [length Nat.eqb orb]; rewrite ?Bool.orb_true_r; auto.
Qed.

(** Past the length that the modulus supports the assertion of the transform fails. *)
Theorem C69_too_long : forall p f g t, prime p -> p < 2 ^ 31 -> (60 < Nat.min (length f) (length g))%nat ->
  ~ pow_two (length f + length g - 2) -> rounded (length f + length g - 1) t -> ~ (2 ^ Z.of_nat t | p - 1) ->
  convolution p f g = None.
Proof.
  intros p f g t P H31 Hm NP Ro D. unfold convolution, NAIVE_THRESHOLD.
  destruct (Nat.eqb_spec (length f) 0) as [?|_]; [lia|]. destruct (Nat.eqb_spec (length g) 0) as [?|_]; [lia|]. cbn [orb].
  destruct (Nat.leb_spec (Nat.min (length f) (length g)) 60); [lia|].
  destruct (len_not_pow (length f) (length g) t ltac:(lia) ltac:(lia) NP Ro) as [_ C].
  replace (length f + length g)%nat with (S (length f + length g - 1)) at 1 by lia. cbn [conv_ntt]. rewrite C.
  destruct (guard _); auto. cbn [obind]. destruct (guard _); auto. cbn [obind]. cbn zeta.
  assert (C2 : (t <=? info_log_n p)%nat = false).
  { apply Nat.leb_gt. destruct (Nat.le_gt_cases t (info_log_n p)) as [Q|]; auto. exfalso. apply D. now apply (log_n_div p P H31). }
  apply rounded_ceil in Ro. rewrite Ro.
  assert (Lv : length (vresize f (2 ^ t)) = (2 ^ t)%nat).
  { unfold vresize. rewrite app_length, firstn_length, repeat_length. lia. }
  unfold ntt_convolution, fft_impl. rewrite Lv, ceil_pow2_pow, C2. reflexivity.
Qed.

(** [convolution_large]: any length, any odd prime. *)
Theorem C69_large : forall p f g, prime p -> 2 < p < 2 ^ 31 -> residues p f -> residues p g -> f <> [] -> g <> [] ->
  Z.of_nat (length f + length g) < 2 ^ 31 ->
  exists R, conv_large p f g = Some R /\ product p f g R /\ residues p R /\ (length f + length g - 1 <= length R)%nat /\
    (forall N, ~ (2 ^ Z.of_nat N | p - 1) -> (2 ^ N <= 2 * (length f + length g - 1))%nat -> length R = (length f + length g - 1)%nat).
Proof.
  intros p f g P Hp Rf Rg Hf Hg HZ. pose proof (prime_ge_2 _ P). assert (M : 1 <= p < 2 ^ 31) by lia. assert (H31 : p < 2 ^ 31) by lia.
  assert (Lf : (0 < length f)%nat) by (destruct f; [congruence|cbn; lia]).
  assert (Lg : (0 < length g)%nat) by (destruct g; [congruence|cbn; lia]).
  destruct (Nat.lt_ge_cases (length f + length g - 1) (2 ^ info_log_n p)) as [C|C].
  - destruct (convolution_ok p P H31 f g (info_log_n p) Rf Rg Lf Lg) as (R & E & RR & L & K); [right; split; lia|].
    exists R. unfold conv_large.
    destruct (Nat.eqb_spec (length f) 0) as [?|_]; [lia|]. destruct (Nat.eqb_spec (length g) 0) as [?|_]; [lia|]. cbn [orb].
    destruct (Nat.ltb_spec (length f + length g - 1) (2 ^ info_log_n p)); [|lia].
    split; auto. split; [now apply to_product|]. split; auto. rewrite L. split.
    + destruct (_ <=? _)%nat; [lia|]. now apply conv_len_ge.
    + intros N ND HN. exfalso. apply ND. apply (log_n_div p P H31).
      assert (N < S (info_log_n p))%nat; [|lia]. apply (Nat.pow_lt_mono_r_iff 2); [lia|]. rewrite Nat.pow_succ_r'. lia.
  - destruct (conv_large_ok p P H31 f g ltac:(lia) Rf Rg Lf Lg HZ C) as (R & E & RR & L & K).
    exists R. split; auto. split; [now apply to_product|]. split; auto. rewrite L. split; auto.
Qed.

(** ** C70: three primes and [int] *)
(** Any modulus below [2^31], up to [2^24+2] entries in total. *)
Theorem C70_garner : forall md f g, 1 <= md < 2 ^ 31 -> residues md f -> residues md g -> f <> [] -> g <> [] ->
  (length f + length g - 2 <= 2 ^ 24)%nat ->
  exists R, conv_garner md f g = Some R /\ product md f g R /\ (length f + length g - 1 <= length R)%nat.
Proof.
  intros md f g M Rf Rg Hf Hg HL.
  assert (Lf : (0 < length f)%nat) by (destruct f; [congruence|cbn; lia]).
  assert (Lg : (0 < length g)%nat) by (destruct g; [congruence|cbn; lia]).
  destruct (conv_garner_ok md f g M Rf Rg Lf Lg HL) as (R & E & L & K). exists R. split; auto. split; auto. rewrite L. now apply conv_len_ge.
Qed.

(** Short [int] vectors: the exact product, if no sum can overflow. *)
Theorem C70_int_short : forall a b, a <> [] -> b <> [] -> (Nat.min (length a) (length b) <= 60)%nat ->
  (forall k, conv (map Z.abs a) (map Z.abs b) k < 2 ^ 31) ->
  exists R, convolution_int a b = Some R /\ length R = (length a + length b - 1)%nat /\ forall k, nth k R 0 = conv a b k.
Proof.
  intros f g Hf Hg HL HB.
  assert (Lf : (0 < length f)%nat) by (destruct f; [congruence|cbn; lia]).
  assert (Lg : (0 < length g)%nat) by (destruct g; [congruence|cbn; lia]).
  unfold convolution_int, NAIVE_THRESHOLD.
  destruct (Nat.eqb_spec (length f) 0) as [?|_]; [lia|]. destruct (Nat.eqb_spec (length g) 0) as [?|_]; [lia|]. cbn [orb].
  destruct (Nat.leb_spec (Nat.min (length f) (length g)) 60); [|lia]. now apply naive_int_ok.
Qed.

(** Long [int] vectors: the product modulo 998244353. *)
Theorem C70_int_long : forall a b, (60 < Nat.min (length a) (length b))%nat -> (length a + length b - 2 <= 2 ^ 23)%nat ->
  exists R, convolution_int a b = Some R /\ length R = (length a + length b - 1)%nat /\ forall k, nth k R 0 = conv a b k mod 998244353.
Proof.
  intros f g HL HB. unfold convolution_int, NAIVE_THRESHOLD.
  destruct (Nat.eqb_spec (length f) 0) as [?|_]; [lia|]. destruct (Nat.eqb_spec (length g) 0) as [?|_]; [lia|]. cbn [orb].
  destruct (Nat.leb_spec (Nat.min (length f) (length g)) 60); [lia|]. apply conv_fft_int_ok; lia.
Qed.

(** The same product by both branches: [-1] with up to 60 entries, [998244352] with more. *)
Theorem C70_int_refuted : forall n, (0 < n)%nat -> (n <= 2 ^ 22)%nat ->
  let a := -1 :: repeat 0 (n - 1) in let b := 1 :: repeat 0 (n - 1) in
  conv a b 0 = -1 /\ exists R, convolution_int a b = Some R /\ nth 0 R 0 = if (n <=? 60)%nat then -1 else 998244352.
Proof.
  intros n H0 H1 a b. split; [reflexivity|].
  assert (La : length a = n) by (cbn; rewrite repeat_length; lia). assert (Lb : length b = n) by (cbn; rewrite repeat_length; lia).
  destruct (Nat.leb_spec n 60).
  - destruct (C70_int_short a b) as (R & E & _ & K); try discriminate; [lia| |].
    + intros k. unfold conv. rewrite (zsum_single _ _ 0%nat); [|lia|].
      * rewrite !nth_abs. unfold a, b. rewrite Nat.sub_0_r. cbn [nth]. destruct k as [|k]; [lia|]. rewrite nth_repeat. lia.
      * intros i Hi Ni. rewrite !nth_abs. unfold a. destruct i as [|i]; [lia|]. cbn [nth]. rewrite nth_repeat. lia.
    + exists R. split; auto. rewrite K. reflexivity.
  - destruct (C70_int_long a b) as (R & E & _ & K); [lia| |].
    + rewrite La, Lb. change (2 ^ 23)%nat with (2 * 2 ^ 22)%nat. lia.
    + exists R. split; auto. rewrite K. reflexivity.
Qed.

(** Modulo 17: schoolbook, transform of size 8, and without the last entries. *)
Example C69_ex : naive_mod 17 [1; 2; 3] [4; 5; 6] = Some [4; 13; 11; 10; 1] /\
  map (conv [1; 2; 3] [4; 5; 6]) (seq 0 6) = [4; 13; 28; 27; 18; 0] /\
  conv_ntt 6 17 [1; 2; 3] [4; 5; 6] = Some [4; 13; 11; 10; 1] /\
  conv_ntt 7 17 [1; 2; 3] [4; 5; 6; 7] = Some [4; 13; 11; 0; 15; 4; 0; 0].
Proof. vm_compute. auto. Qed.
(** Modulo 5 transforms have at most four entries: blocks of two. *)
Example C69_ex2 : conv_large 5 [1; 2; 3; 4; 1] [1; 3; 0; 2] = naive_mod 5 [1; 2; 3; 4; 1] [1; 3; 0; 2] /\
  conv_large 5 [1; 2; 3; 4; 1] [1; 3; 0; 2] = Some [1; 0; 4; 0; 2; 4; 3; 2].
Proof. vm_compute. auto. Qed.
Example C69_ex3 : conv_ntt 3 17 [] [1; 2; 3] = None /\ conv_ntt 0 17 [] [] = None.
Proof. vm_compute. auto. Qed.
(** The exact first entry of the product exceeds two of the three primes together. *)
Example C70_ex : conv_garner 2147483647 [2147483646; 5] [2147483645; 7] = Some [2; 2147483630; 35] /\
  conv [2147483646; 5] [2147483645; 7] 0 = 4611686007689969670.
Proof. vm_compute. auto. Qed.
Example C70_ex2 : convolution_int [3; -4] [5; 6; 7] = Some [15; -2; -3; -28] /\ convolution_int [65536] [32768] = None.
Proof. vm_compute. auto. Qed.

Print Assumptions C69_naive.
Print Assumptions C69_ntt.
Print Assumptions C69_convolution.
Print Assumptions C69_empty.
Print Assumptions C69_too_long.
Print Assumptions C69_large.
Print Assumptions C70_garner.
Print Assumptions C70_int_short.
Print Assumptions C70_int_long.
Print Assumptions C70_int_refuted.
