(** C68: the number theoretic transform. *)
From Coq Require Import Setoid Morphisms Znumtheory.
From Verif Require Import Base BaseLemmas NthExtra SearchModel BitModel NumTheory ModularModel ModularProof PrimRootModel NttModel NttSum NttAlg NttPass NttRev NttProof NttCore.
Local Open Scope Z_scope.
Ltac Zify.zify_post_hook ::= idtac.

(** [2^N] is the least power of two that is at least [n]. *)
Definition rounded (n N : nat) : Prop := (n <= 2 ^ N)%nat /\ forall t, (n <= 2 ^ t)%nat -> (N <= t)%nat.
Lemma rounded_ceil n N : rounded n N -> ceil_pow2 n = N.
Proof. intros [H1 H2]. apply Nat.le_antisymm; [now apply ceil_pow2_min|]. apply H2. apply ceil_pow2_le. Qed.

(** The forward transform evaluates the polynomial at the powers of the
    inverse of [g^((p-1)/2^N)]. *)
Theorem C68_ntt : forall p f N, prime p -> p < 2 ^ 31 -> residues p f ->
  rounded (length f) N -> (2 ^ Z.of_nat N | p - 1) ->
  exists g w F, primitive_root p = Some g /\ generator p g /\
    (w * g ^ ((p - 1) / 2 ^ Z.of_nat N)) mod p = 1 /\
    ntt p f = Some F /\ length F = (2 ^ N)%nat /\
    forall k, (k < 2 ^ N)%nat -> nth k F 0 = dft (2 ^ N) w f k mod p.
Proof.
  intros p f N P H31 R Ro D. destruct (coeff_ok p P H31) as (g & cf & cb & T).
  apply (log_n_div p P H31) in D. apply rounded_ceil in Ro.
  destruct (fwd_core p P H31 g cf cb T true f) as (F & E & L & RF & K); [rewrite Ro; auto|auto|].
  rewrite Ro in *. exists g, (rt cf N), F. destruct T as (Eg & Hg & Gen & _ & _ & _ & _ & _ & _ & RB & INV & _).
  split; auto. split; auto. pose proof (prime_ge_2 _ P). split.
  { transitivity (1 mod p); [|apply Z.mod_1_l; lia]. apply eqm_mod_eq; [lia|]. rewrite <- (RB N D). auto. }
  split; auto. split; auto. intros k Hk. apply (res_eq p P); [apply res_nth; auto; lia|]. apply (K k Hk).
Qed.

(** The inverse one is [2^-N] times the evaluation at the powers of
    [g^((p-1)/2^N)]. *)
Theorem C68_intt : forall p f N, prime p -> p < 2 ^ 31 -> residues p f ->
  rounded (length f) N -> (2 ^ Z.of_nat N | p - 1) ->
  exists g F, primitive_root p = Some g /\ generator p g /\
    intt p f = Some F /\ length F = (2 ^ N)%nat /\ residues p F /\
    forall k, (k < 2 ^ N)%nat ->
      (2 ^ Z.of_nat N * nth k F 0) mod p = dft (2 ^ N) (g ^ ((p - 1) / 2 ^ Z.of_nat N)) f k mod p.
Proof.
  intros p f N P H31 R Ro D. destruct (coeff_ok p P H31) as (g & cf & cb & T).
  apply (log_n_div p P H31) in D. apply rounded_ceil in Ro.
  destruct (inv_core p P H31 g cf cb T true f) as (F & E & L & RF & K); [rewrite Ro; auto|auto|].
  rewrite Ro in *. exists g, F. destruct T as (Eg & Hg & Gen & _ & _ & _ & _ & _ & _ & RB & INV & _).
  split; auto. split; auto. pose proof (prime_ge_2 _ P). split; auto. split; auto. split; auto. intros k Hk.
  apply eqm_mod_eq; [lia|]. specialize (K k Hk). rewrite Nat2Z.inj_pow in K. change (Z.of_nat 2) with 2 in K. rewrite K.
  unfold dft. apply zsum_eqm. intros j Hj. apply eqm_mul_m; [reflexivity|].
  rewrite Nat.mul_comm. apply (eqm_pw_m p _ _ (RB N D) _ _ eq_refl).
Qed.

(** The versions without bit reversal permute the frequencies. *)
Theorem C68_convolution_order : forall p f N, prime p -> p < 2 ^ 31 -> residues p f ->
  rounded (length f) N -> (2 ^ Z.of_nat N | p - 1) ->
  (exists F G, ntt p f = Some F /\ ntt_convolution p f = Some G /\ length G = (2 ^ N)%nat /\ residues p G /\
    forall k, (k < 2 ^ N)%nat -> nth k G 0 = nth (brev N k) F 0) /\
  (exists F G, intt_convolution p f = Some F /\ length F = (2 ^ N)%nat /\
    intt p (map (fun k => nth (brev N k) f 0) (seq 0 (2 ^ N))) = Some G /\ F = G).
Proof.
  intros p f N P H31 R Ro D. destruct (coeff_ok p P H31) as (g & cf & cb & T).
  apply (log_n_div p P H31) in D. apply rounded_ceil in Ro. pose proof (prime_ge_2 _ P) as P2. split.
  - destruct (fwd_core p P H31 g cf cb T true f) as (F & E & L & RF & K); [rewrite Ro; auto|auto|].
    destruct (fwd_core p P H31 g cf cb T false f) as (G & E2 & L2 & RG & K2); [rewrite Ro; auto|auto|].
    rewrite Ro in *. exists F, G. split; auto. split; auto. split; auto. split; auto. intros k Hk.
    pose proof (brev_lt N k) as B. specialize (K _ B). specialize (K2 k Hk). cbn beta iota in *.
    apply (eqm_small p); try (apply res_nth; auto; lia). rewrite K, K2. reflexivity.
  - set (f' := map (fun k => nth (brev N k) f 0) (seq 0 (2 ^ N))).
    assert (L' : length f' = (2 ^ N)%nat) by (unfold f'; now rewrite map_length, seq_length).
    assert (V : forall j, (j < 2 ^ N)%nat -> nth j f' 0 = nth (brev N j) f 0).
    { intros j Hj. unfold f'. rewrite (nth_indep _ 0 (nth (brev N 0) f 0)) by (fold f'; lia).
      rewrite (map_nth (fun k => nth (brev N k) f 0)). now rewrite seq_nth by lia. }
    assert (R' : residues p f') by (apply res_intro; intros x Hx; rewrite V by lia; apply res_nth; auto; lia).
    assert (C' : ceil_pow2 (length f') = N) by (rewrite L'; apply ceil_pow2_pow).
    destruct (inv_core p P H31 g cf cb T false f) as (F & E & L & RF & K); [rewrite Ro; auto|auto|].
    destruct (inv_core p P H31 g cf cb T true f') as (G & E2 & L2 & RG & K2); [rewrite C'; auto|auto|].
    rewrite Ro in *. rewrite C' in *. exists F, G. split; auto. split; auto. split; auto.
    apply (ext_res p P H31 F G (2 ^ N)); auto. intros k Hk. apply (n_cancel p P H31 N); auto.
    rewrite (K k Hk), (K2 k Hk). rewrite <- (zsum_brev N (fun j => nth j f' 0 * pw (rt cb N) (k * j))).
    apply zsum_eqm. intros j Hj. rewrite V by apply brev_lt. rewrite brev_inv by auto. reflexivity.
Qed.

(** Each transform undoes the other; the vector comes back filled up with
    zeros. *)
Theorem C68_round_trips : forall p f N, prime p -> p < 2 ^ 31 -> residues p f ->
  rounded (length f) N -> (2 ^ Z.of_nat N | p - 1) ->
  let padded := f ++ repeat 0 (2 ^ N - length f) in
  (let* F := ntt p f in intt p F) = Some padded /\
  (let* F := intt p f in ntt p F) = Some padded /\
  (let* F := ntt_convolution p f in intt_convolution p F) = Some padded.
Proof.
  intros p f N P H31 R Ro D padded. destruct (coeff_ok p P H31) as (g & cf & cb & T).
  apply (log_n_div p P H31) in D. apply rounded_ceil in Ro. pose proof (prime_ge_2 _ P) as P2.
  assert (Lp : (length f <= 2 ^ N)%nat) by (rewrite <- Ro; apply ceil_pow2_le).
  assert (EV : padded = vresize f (2 ^ N)) by (unfold padded, vresize; now rewrite firstn_all2).
  destruct (vresize_ok p P H31 f (2 ^ N) Lp R) as (Lv & Rv & Nv). rewrite <- EV in *.
  assert (CP : forall F : list Z, length F = (2 ^ N)%nat -> ceil_pow2 (length F) = N) by (intros F ->; apply ceil_pow2_pow).
  pose proof T as (Eg & Hg & Gen & Ef & Eb & Lf & Lb & Rf & Rb & RB & INV & F1 & B1 & F2 & B2).
  assert (R0f : eqm p (rt cf 0) 1) by reflexivity. assert (R0b : eqm p (rt cb 0) 1) by reflexivity.
  assert (INV' : eqm p (rt cb N * rt cf N) 1) by (rewrite Z.mul_comm; auto).
  split; [|split].
  - destruct (fwd_core p P H31 g cf cb T true f) as (F & E & L & RF & K); [rewrite Ro; auto|auto|]. rewrite Ro in *.
    unfold ntt. rewrite E. cbn [obind].
    destruct (inv_core p P H31 g cf cb T true F) as (G & E2 & L2 & RG & K2); [rewrite CP; auto|auto|]. rewrite (CP F L) in *.
    unfold intt. rewrite E2. f_equal. apply (ext_res p P H31 G padded (2 ^ N)); auto. intros k Hk. rewrite Nv.
    apply (n_cancel p P H31 N); auto. rewrite (K2 k Hk).
    rewrite <- (round_trip p (info_log_n p) (rt cf) R0f F1 F2 N (rt cb N) D (INV N D) (fun j => nth j f 0) k Hk).
    apply zsum_eqm. intros j Hj. rewrite (K j Hj). reflexivity.
  - destruct (inv_core p P H31 g cf cb T true f) as (F & E & L & RF & K); [rewrite Ro; auto|auto|]. rewrite Ro in *.
    unfold intt. rewrite E. cbn [obind].
    destruct (fwd_core p P H31 g cf cb T true F) as (G & E2 & L2 & RG & K2); [rewrite CP; auto|auto|]. rewrite (CP F L) in *.
    unfold ntt. rewrite E2. f_equal. apply (ext_res p P H31 G padded (2 ^ N)); auto. intros k Hk. rewrite Nv.
    apply (n_cancel p P H31 N); auto. rewrite (K2 k Hk).
    rewrite <- (round_trip p (info_log_n p) (rt cb) R0b B1 B2 N (rt cf N) D INV' (fun j => nth j f 0) k Hk).
    rewrite <- zsum_mul_l. apply zsum_eqm. intros j Hj. rewrite Z.mul_assoc, (K j Hj).
    apply eqm_mul_m; [|rewrite Nat.mul_comm; reflexivity].
    apply zsum_eqm. intros i Hi. rewrite Nat.mul_comm. reflexivity.
  - destruct (fwd_core p P H31 g cf cb T false f) as (F & E & L & RF & K); [rewrite Ro; auto|auto|]. rewrite Ro in *.
    unfold ntt_convolution. rewrite E. cbn [obind].
    destruct (inv_core p P H31 g cf cb T false F) as (G & E2 & L2 & RG & K2); [rewrite CP; auto|auto|]. rewrite (CP F L) in *.
    unfold intt_convolution. rewrite E2. f_equal. apply (ext_res p P H31 G padded (2 ^ N)); auto. intros k Hk. rewrite Nv.
    apply (n_cancel p P H31 N); auto. rewrite (K2 k Hk).
    rewrite <- (round_trip p (info_log_n p) (rt cf) R0f F1 F2 N (rt cb N) D (INV N D) (fun j => nth j f 0) k Hk).
    rewrite <- (zsum_brev N (fun k0 => zsum (2 ^ N) (fun j => nth j f 0 * pw (rt cf N) (j * k0)) * pw (rt cb N) (k * k0))).
    apply zsum_eqm. intros j Hj. rewrite (K j Hj). reflexivity.
Qed.

(** Longer vectors, for which no such root of unity exists, fail the assertion. *)
Theorem C68_too_long : forall p f N, prime p -> p < 2 ^ 31 -> rounded (length f) N -> ~ (2 ^ Z.of_nat N | p - 1) ->
  ntt p f = None /\ intt p f = None /\ ntt_convolution p f = None /\ intt_convolution p f = None.
Proof.
  intros p f N P H31 Ro D. apply rounded_ceil in Ro.
  assert (C : (ceil_pow2 (length f) <=? info_log_n p)%nat = false).
  { apply Nat.leb_gt. destruct (Nat.le_gt_cases (ceil_pow2 (length f)) (info_log_n p)) as [H|]; auto. exfalso. apply D.
    apply (log_n_div p P H31). now rewrite <- Ro. }
  unfold ntt, intt, ntt_convolution, intt_convolution, fft_impl. rewrite C. auto.
Qed.

(** Modulo 17 (root 3) with five entries: N = 3 and w = 2. *)
Example C68_ex : ntt 17 [1; 2; 3; 4; 5] = Some (map (fun k => dft 8 2 [1; 2; 3; 4; 5] k mod 17) (seq 0 8)) /\
  ntt 17 [1; 2; 3; 4; 5] = Some [15; 10; 12; 8; 3; 6; 11; 11] /\ primitive_root 17 = Some 3 /\ (2 * 3 ^ (16 / 8)) mod 17 = 1.
Proof. vm_compute. auto. Qed.
Example C68_ex2 : ntt_convolution 17 [1; 2; 3; 4; 5] = Some [15; 3; 12; 11; 10; 6; 8; 11] /\
  (let* F := ntt_convolution 17 [1; 2; 3; 4; 5] in intt_convolution 17 F) = Some [1; 2; 3; 4; 5; 0; 0; 0].
Proof. vm_compute. auto. Qed.
Example C68_ex3 : (let* F := ntt 998244353 [5; 7; 11] in intt 998244353 F) = Some [5; 7; 11; 0].
Proof. vm_compute. auto. Qed.

Print Assumptions C68_ntt.
Print Assumptions C68_intt.
Print Assumptions C68_convolution_order.
Print Assumptions C68_round_trips.
Print Assumptions C68_too_long.
