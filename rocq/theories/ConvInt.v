(** Convolution of [int] vectors; three primes. *)
From Coq Require Import Setoid Morphisms Znumtheory.
From Verif Require Import Base BaseLemmas NthExtra SearchModel BitModel NumTheory NumProth ModularModel ModularProof PrimRootModel NttModel NttSum NttRev NttProof NttCore ConvModel ConvSum ConvNtt.
Local Open Scope Z_scope.
Ltac Zify.zify_post_hook ::= idtac.

(** ** Exact sums without overflow *)
(** [F] adds [d], whose intermediate values are bounded by [a]. *)
Definition addi (L : nat) (F : list Z -> option (list Z)) (d a : nat -> Z) : Prop :=
  (forall k, (k < L)%nat -> Z.abs (d k) <= a k) /\
  forall h B, length h = L -> (forall k, (k < L)%nat -> Z.abs (nth k h 0) <= B k /\ B k + a k < 2 ^ 31) ->
    exists h', F h = Some h' /\ length h' = L /\ forall k, (k < L)%nat -> nth k h' 0 = nth k h 0 + d k.

Lemma mach_ok n x : 0 < n -> - 2 ^ (n - 1) <= x < 2 ^ (n - 1) -> mach n x = Some x.
Proof.
  intros Hn H. unfold mach. destruct (_ && _) eqn:E; auto. apply Bool.andb_false_iff in E.
  destruct E as [E|E]; [apply Z.leb_gt in E|apply Z.ltb_ge in E]; lia.
Qed.

Lemma addi_for L body d a n : forall lo, (forall i, (lo <= i < lo + n)%nat -> addi L (body i) (d i) (a i)) ->
  addi L (for_up n lo body) (fun k => zsum n (fun t => d (lo + t)%nat k)) (fun k => zsum n (fun t => a (lo + t)%nat k)).
Proof.
  induction n as [|n IH]; intros lo H.
  - split; [intros; cbn; lia|]. intros h B Lh HB. exists h. split; auto. split; auto. intros k _. cbn [zsum]. lia.
  - pose proof (H lo ltac:(lia)) as [D1 A1]. pose proof (IH (S lo) ltac:(intros; apply H; lia)) as [D2 A2].
    assert (Sd : forall k, zsum (S n) (fun t => d (lo + t)%nat k) = d lo k + zsum n (fun t => d (S lo + t)%nat k)).
    { intros k. rewrite zsum_shift, Nat.add_0_r. f_equal. apply zsum_ext. intros t _. f_equal. lia. }
    assert (Sa : forall k, zsum (S n) (fun t => a (lo + t)%nat k) = a lo k + zsum n (fun t => a (S lo + t)%nat k)).
    { intros k. rewrite zsum_shift, Nat.add_0_r. f_equal. apply zsum_ext. intros t _. f_equal. lia. }
    split.
    + intros k Hk. rewrite Sd, Sa. specialize (D1 k Hk). specialize (D2 k Hk). lia.
    + intros h B Lh HB. cbn [for_up].
      destruct (A1 h B Lh) as (h1 & E1 & L1 & K1).
      { intros k Hk. specialize (HB k Hk). specialize (D2 k Hk). rewrite Sa in HB. lia. }
      rewrite E1. cbn [obind].
      destruct (A2 h1 (fun k => B k + a lo k) L1) as (h2 & E2 & L2 & K2).
      { intros k Hk. specialize (HB k Hk). specialize (D1 k Hk). rewrite Sa in HB. rewrite (K1 k Hk). lia. }
      exists h2. split; auto. split; auto. intros k Hk. rewrite (K2 k Hk), (K1 k Hk), Sd. ring.
Qed.

Lemma step_addi L f g i j : (i < length f)%nat -> (j < length g)%nat -> (i + j < L)%nat ->
  addi L (step_int f g i j) (fun k => if (i + j =? k)%nat then nth i f 0 * nth j g 0 else 0)
    (fun k => if (i + j =? k)%nat then Z.abs (nth i f 0) * Z.abs (nth j g 0) else 0).
Proof.
  intros Hi Hj HL. split.
  { intros k _. destruct (i + j =? k)%nat; [rewrite Z.abs_mul|]; lia. }
  intros h B Lh HB. unfold step_int. rewrite (get_nth f _ 0), (get_nth g _ 0), (get_nth h _ 0) by lia. cbn [obind].
  pose proof (HB (i + j)%nat HL) as HB0. rewrite Nat.eqb_refl in HB0. rewrite <- Z.abs_mul in HB0.
  rewrite mach_ok by (try change (2 ^ (32 - 1)) with (2 ^ 31); lia). cbn [obind].
  rewrite mach_ok by (try change (2 ^ (32 - 1)) with (2 ^ 31); lia). cbn [obind]. rewrite set_some by lia.
  eexists. split; [reflexivity|]. rewrite lset_length. split; auto. intros k Hk.
  destruct (Nat.eqb_spec (i + j) k) as [<-|N]; [rewrite nth_lset_eq by lia; ring|rewrite nth_lset_neq by auto; ring].
Qed.

Lemma nth_abs f i : nth i (map Z.abs f) 0 = Z.abs (nth i f 0).
Proof. change 0 with (Z.abs 0) at 1. apply map_nth. Qed.

Lemma naive_int_ok f g : (0 < length f)%nat -> (0 < length g)%nat ->
  (forall k, conv (map Z.abs f) (map Z.abs g) k < 2 ^ 31) ->
  exists h, naive_int f g = Some h /\ length h = (length f + length g - 1)%nat /\ forall k, nth k h 0 = conv f g k.
Proof.
  intros Hf Hg HB. unfold naive_int, naive.
  destruct (Nat.eqb_spec (length f) 0) as [?|_]; [lia|]. destruct (Nat.eqb_spec (length g) 0) as [?|_]; [lia|]. cbn [orb].
  set (n := length f) in *. set (m := length g) in *. set (L := (n + m - 1)%nat).
  assert (HB' : forall k, zsum n (fun i => zsum m (fun j => if (i + j =? k)%nat then Z.abs (nth i f 0) * Z.abs (nth j g 0) else 0)) < 2 ^ 31).
  { intros k. specialize (HB k). rewrite conv_dbl, !map_length in HB. fold n m in HB. unfold dbl in HB.
    rewrite (zsum_ext n _ (fun i => zsum m (fun j => if (i + j =? k)%nat then nth i (map Z.abs f) 0 * nth j (map Z.abs g) 0 else 0))); auto.
    intros i _. apply zsum_ext. intros j _. now rewrite !nth_abs. }
  assert (A : exists h, (if (n <? m)%nat then for_up m 0 (fun j h => for_up n 0 (fun i h => step_int f g i j h) h) (repeat 0 L)
    else for_up n 0 (fun i h => for_up m 0 (fun j h => step_int f g i j h) h) (repeat 0 L)) = Some h /\ length h = L /\
    forall k, (k < L)%nat -> nth k h 0 = conv f g k).
  { destruct (n <? m)%nat.
    - destruct (addi_for L (fun j h => for_up n 0 (fun i h => step_int f g i j h) h)
          (fun j k => zsum n (fun i => if (i + j =? k)%nat then nth i f 0 * nth j g 0 else 0))
          (fun j k => zsum n (fun i => if (i + j =? k)%nat then Z.abs (nth i f 0) * Z.abs (nth j g 0) else 0)) m 0) as [_ A].
      { intros j Hj. apply (addi_for L (fun i h => step_int f g i j h) (fun i k => if (i + j =? k)%nat then nth i f 0 * nth j g 0 else 0)
          (fun i k => if (i + j =? k)%nat then Z.abs (nth i f 0) * Z.abs (nth j g 0) else 0) n 0).
        intros i Hi. apply step_addi; auto; unfold L; lia. }
      destruct (A (repeat 0 L) (fun _ => 0) (repeat_length _ _)) as (h & E & Lh & K).
      { intros k Hk. rewrite nth_repeat. split; [cbn; lia|]. cbn [Nat.add]. rewrite zsum_swap. specialize (HB' k). lia. }
      exists h. split; auto. split; auto. intros k Hk. rewrite (K k Hk), nth_repeat. cbn [Nat.add].
      rewrite (dbl_swap n m (fun i => nth i f 0) (fun j => nth j g 0) k), conv_dbl. reflexivity.
    - destruct (addi_for L (fun i h => for_up m 0 (fun j h => step_int f g i j h) h)
          (fun i k => zsum m (fun j => if (i + j =? k)%nat then nth i f 0 * nth j g 0 else 0))
          (fun i k => zsum m (fun j => if (i + j =? k)%nat then Z.abs (nth i f 0) * Z.abs (nth j g 0) else 0)) n 0) as [_ A].
      { intros i Hi. apply (addi_for L (fun j h => step_int f g i j h) (fun j k => if (i + j =? k)%nat then nth i f 0 * nth j g 0 else 0)
          (fun j k => if (i + j =? k)%nat then Z.abs (nth i f 0) * Z.abs (nth j g 0) else 0) m 0).
        intros j Hj. apply step_addi; auto; unfold L; lia. }
      destruct (A (repeat 0 L) (fun _ => 0) (repeat_length _ _)) as (h & E & Lh & K).
      { intros k Hk. rewrite nth_repeat. split; [cbn; lia|]. cbn [Nat.add]. specialize (HB' k). lia. }
      exists h. split; auto. split; auto. intros k Hk. rewrite (K k Hk), nth_repeat. cbn [Nat.add].
      rewrite conv_dbl. reflexivity. }
  destruct A as (h & E & Lh & K). exists h. split; auto. split; auto. intros k. destruct (Nat.lt_ge_cases k L) as [C|C]; [now apply K|].
  rewrite nth_overflow by lia. rewrite conv_high; [reflexivity|]. fold n m. unfold L in C. lia.
Qed.

(** ** Residues of the entries *)
Lemma map_res p a : 1 <= p < 2 ^ 31 -> residues p (map (m_signed p) a).
Proof.
  intros M. apply Forall_forall. intros x Hx. apply in_map_iff in Hx. destruct Hx as (y & <- & _).
  rewrite m_signed_ok by auto. apply Z.mod_pos_bound. lia.
Qed.
Lemma map_nth_mod p a i : 1 <= p < 2 ^ 31 -> nth i (map (m_signed p) a) 0 = nth i a 0 mod p.
Proof.
  intros M. rewrite <- (m_signed_ok p M). replace 0 with (m_signed p 0) at 1; [apply map_nth|].
  rewrite m_signed_ok by auto. apply Z.mod_0_l. lia.
Qed.
Lemma conv_mod p f g k : 1 <= p < 2 ^ 31 -> eqm p (conv (map (m_signed p) f) (map (m_signed p) g) k) (conv f g k).
Proof.
  intros M. unfold conv. apply zsum_eqm. intros i _. rewrite !map_nth_mod by auto. rewrite !eqm_mod. reflexivity.
Qed.

(** [convolution_ntt] of the residues of integer vectors *)
Lemma ntt_ints p f g N : prime p -> p < 2 ^ 31 -> (2 ^ Z.of_nat N | p - 1) -> (0 < length f)%nat -> (0 < length g)%nat ->
  (length f + length g - 2 <= 2 ^ N)%nat ->
  exists h, conv_ntt (length f + length g) p (map (m_signed p) f) (map (m_signed p) g) = Some h /\
    length h = conv_ntt_len (length f) (length g) /\ forall k, nth k h 0 = conv f g k mod p.
Proof.
  intros P H31 D Hf Hg HL. pose proof (prime_ge_2 _ P). assert (M : 1 <= p < 2 ^ 31) by lia.
  apply (log_n_div p P H31) in D.
  destruct (conv_ntt_ok p P H31 (length f + length g) (map (m_signed p) f) (map (m_signed p) g) N) as (h & E & L & R & K);
    rewrite ?map_length; auto; try apply map_res; auto; try lia.
  rewrite !map_length in L. exists h. split; auto. split; auto. intros k.
  apply (res_eq p P); [now apply (res_n p M)|]. rewrite (K k). now apply conv_mod.
Qed.

Lemma conv_len_ge n m : (0 < n)%nat -> (0 < m)%nat -> (n + m - 1 <= conv_ntt_len n m)%nat.
Proof.
  intros Hn Hm. unfold conv_ntt_len. cbn zeta. destruct (_ && _); auto. apply ceil_pow2_le.
Qed.

Lemma conv_fft_int_ok a b : (0 < length a)%nat -> (0 < length b)%nat -> (length a + length b - 2 <= 2 ^ 23)%nat ->
  exists h, conv_fft_int a b = Some h /\ length h = (length a + length b - 1)%nat /\ forall k, nth k h 0 = conv a b k mod P998.
Proof.
  intros Ha Hb HL. destruct (ntt_ints P998 a b 23 prime_998244353) as (h & E & L & K); auto.
  { unfold P998. lia. } { exists 119. reflexivity. }
  unfold conv_fft_int. rewrite E. cbn [obind]. pose proof (conv_len_ge _ _ Ha Hb).
  destruct (Nat.leb_spec (length a + length b - 1) (length h)); [|lia]. cbn [guard obind].
  eexists. split; [reflexivity|]. split; [rewrite firstn_length; lia|]. intros k.
  destruct (Nat.lt_ge_cases k (length a + length b - 1)) as [C|C].
  - rewrite <- K. rewrite <- (firstn_skipn (length a + length b - 1) h) at 2. rewrite app_nth1; auto. rewrite firstn_length. lia.
  - rewrite nth_overflow by (rewrite firstn_length; lia). rewrite conv_high by lia. reflexivity.
Qed.
