(** C73, C74: power series, logarithm, exponential, powers, square roots. *)
From Coq Require Import Setoid Morphisms Znumtheory Sorted.
From Verif Require Import Base BaseLemmas NthExtra SearchModel BitModel NumTheory ModularModel ModularProof ModularProp PrimRootModel NttModel NttSum NttRev NttProof NttCore ConvModel ConvSum ConvNtt PsAlg FpsModel FpsBase FpsMul FpsInv FpsSparse FpsLog FpsExp FpsExpD FpsPow FpsProp.
Local Open Scope Z_scope.
Ltac Zify.zify_post_hook ::= idtac.

(** ** Specification *)
(** The coefficient of [x^k] of [x h' r] *)
Definition dconv (h r : list Z) (k : nat) : Z := zsum (S k) (fun i => Z.of_nat i * nth i h 0 * nth (k - i) r 0).
(** [L = log f] up to [x^n]: [L(0) = 0] and [x L' f = x f'] *)
Definition log_upto (p : Z) (n : nat) (f L : list Z) : Prop :=
  nth 0 L 0 = 0 /\ forall k, (k < n)%nat -> dconv L f k mod p = (Z.of_nat k * nth k f 0) mod p.
(** [R = exp h] up to [x^n]: [R(0) = 1] and [x R' = x h' R] *)
Definition exp_upto (p : Z) (n : nat) (h R : list Z) : Prop :=
  nth 0 R 0 = 1 /\ forall k, (k < n)%nat -> (Z.of_nat k * nth k R 0) mod p = dconv h R k mod p.
(** The coefficients of [f^m], as integers *)
Fixpoint power (f : list Z) (m : nat) (k : nat) : Z :=
  match m with
  | O => if (k =? 0)%nat then 1 else 0
  | S m => zsum (S k) (fun i => nth i f 0 * power f m (k - i))
  end.

(** ** Links to the proofs *)
Lemma dconv_0 h r : dconv h r 0 = 0.
Proof. unfold dconv. cbn [zsum]. ring. Qed.
Lemma dconv_S h r k : dconv h r (S k) = ps_mul (ps_d (cf h)) (cf r) k.
Proof. rewrite <- theta_mul. reflexivity. Qed.
Lemma power_ps f m : forall k, power f m k = ps_pow (cf f) m k.
Proof.
  induction m as [|m IH]; intros k; [reflexivity|]. cbn [power ps_pow]. unfold ps_mul. apply zsum_ext. intros i _. rewrite IH. reflexivity.
Qed.

Section P.
Variable p : Z.
Hypothesis P : prime p.
Hypothesis H31 : p < 2 ^ 31.
Let p2 : 2 <= p := prime_ge_2 _ P.
Let M : 1 <= p < 2 ^ 31. Proof. lia. Qed.

Lemma log_iff n f L : (1 <= n)%nat -> is_log p n (cf f) (cf L) <-> log_upto p n f L.
Proof.
  intros Hn. unfold is_log, log_upto. split; intros [H0 H]; (split; [exact H0|]).
  - intros k Hk. destruct k as [|k]; [rewrite dconv_0; reflexivity|]. rewrite dconv_S. apply eqm_mod_eq; [lia|].
    rewrite <- (H k ltac:(lia)). apply eq_eqm. apply ps_mul_comm_e.
  - intros k Hk. specialize (H (S k) ltac:(lia)). rewrite dconv_S in H. apply eqm_mod_eq in H; [|lia].
    etransitivity; [apply eq_eqm, ps_mul_comm_e|exact H].
Qed.
Lemma exp_iff n h R : (1 <= n)%nat -> is_exp p n (cf h) (cf R) <-> exp_upto p n h R.
Proof.
  intros Hn. unfold is_exp, exp_upto. split; intros [H0 H]; (split; [exact H0|]).
  - intros k Hk. destruct k as [|k]; [rewrite dconv_0; reflexivity|]. rewrite dconv_S. apply eqm_mod_eq; [lia|]. exact (H k ltac:(lia)).
  - intros k Hk. specialize (H (S k) ltac:(lia)). rewrite dconv_S in H. apply eqm_mod_eq in H; [exact H|lia].
Qed.

Lemma unit_1 (F : pser) : F 0%nat = 1 -> ~ (p | F 0%nat).
Proof. intros -> D. apply Z.divide_1_r_nonneg in D; lia. Qed.

Lemma exp_uniq n H A B : (1 <= n)%nat -> Z.of_nat n <= p -> is_exp p n H A -> is_exp p n H B -> eqs p n A B.
Proof.
  intros Hn Hp [A0 EA] [B0 EB]. replace n with (S (n - 1)) by lia.
  apply (ps_ode p P (n - 1) (ps_c 1) (ps_d H)); [lia|now apply unit_1|rewrite A0, B0; reflexivity| |]; now rewrite mul_1_l.
Qed.
Lemma log_uniq n F A B : (1 <= n)%nat -> Z.of_nat n <= p -> F 0%nat = 1 -> is_log p n F A -> is_log p n F B -> eqs p n A B.
Proof.
  intros Hn Hp F0 [A0 EA] [B0 EB]. replace n with (S (n - 1)) by lia. apply ps_d_inj; auto; [lia|rewrite A0, B0; reflexivity|].
  apply (ps_cancel p P (n - 1) F); [now apply unit_1|]. now rewrite EA, EB.
Qed.
Lemma log_exp n F L : F 0%nat = 1 -> is_log p n F L -> is_exp p n L F.
Proof. intros F0 [_ E]. split; auto. rewrite <- E. apply mul_comm. Qed.
Lemma exp_log n H R : H 0%nat = 0 -> is_exp p n H R -> is_log p n R H.
Proof. intros H0 [_ E]. split; auto. rewrite E. apply mul_comm. Qed.
Lemma exp_add_id n (A A' B B' : pser) : eqs p n (ps_add (ps_mul (ps_mul A' A) B) (ps_mul A (ps_mul B' B))) (ps_mul (ps_add A' B') (ps_mul A B)).
Proof.
  pose proof (ps_ring p n) as RT. pose proof (ps_ring_ext p n) as RE.
  rewrite (Rdistr_l RT A' B' (ps_mul A B)). rewrite (Rmul_assoc RT A' A B).
  rewrite (Rmul_assoc RT B' A B), (Rmul_comm RT B' A), <- (Rmul_assoc RT A B' B). reflexivity.
Qed.
Lemma exp_add n H G A B : is_exp p n H A -> is_exp p n G B -> is_exp p n (ps_add H G) (ps_mul A B).
Proof.
  intros [A0 EA] [B0 EB]. split; [rewrite ps_mul_0, A0, B0; reflexivity|].
  rewrite ps_d_mul, ps_d_add, EA, EB. apply exp_add_id.
Qed.
Lemma eqs_nth n A B k : residues p A -> residues p B -> eqs p n (cf A) (cf B) -> (k < n)%nat -> nth k A 0 = nth k B 0.
Proof. intros RA RB E Hk. apply (eqm_small p); try apply (res_n p M); auto. now apply E. Qed.
Lemma eqs_list A B : residues p A -> residues p B -> length A = length B -> eqs p (length A) (cf A) (cf B) -> A = B.
Proof.
  intros RA RB L E. apply nth_ext0; auto. intros k. destruct (Nat.lt_ge_cases k (length A)); [now apply (eqs_nth (length A))|].
  rewrite !nth_overflow by lia. reflexivity.
Qed.
End P.

(** ** C73 *)
(** [log]: sizes for which the transforms exist; the constant term is one. *)
Theorem C73_log : forall p tb f n, prime p -> p < 2 ^ 31 -> table p tb -> residues p f -> nth 0 f 0 = 1 ->
  -1 <= n -> (1 <= terms f n)%nat -> Z.of_nat (terms f n) < p -> fits p (length f + terms f n) -> fits p (2 * terms f n) ->
  (exists L, fps_log p tb f n = Some L /\ length L = terms f n /\ residues p L /\ log_upto p (terms f n) f L) /\
  (exists L, fps_log_dense p tb f n = Some L /\ length L = terms f n /\ residues p L /\ log_upto p (terms f n) f L).
Proof.
  intros p tb f n P H31 T Rf F0 Hn H1 Hp HA HB. apply (table_inv p tb P H31) in T. apply (fits_log p _ P H31) in HA, HB.
  assert (Nf : f <> []) by (intros ->; discriminate). pose proof (terms_deg f n Hn) as D. split.
  - destruct (fps_log_ok p P H31 tb f n _ T Rf Nf F0 D H1 Hp HA ltac:(lia)) as (R & E & L & RR & K). exists R. repeat (split; [assumption|]).
    now apply log_iff.
  - destruct (fps_log_dense_ok p P H31 tb f n _ T Rf Nf F0 D H1 Hp HA ltac:(lia)) as (R & E & L & RR & K). exists R. repeat (split; [assumption|]).
    now apply log_iff.
Qed.

(** [log_sparse] with at most as many terms as the series has entries, for every prime *)
Theorem C73_log_sparse : forall p tb f n, prime p -> p < 2 ^ 31 -> table p tb -> residues p f -> nth 0 f 0 = 1 ->
  -1 <= n -> (2 <= terms f n <= length f)%nat -> Z.of_nat (terms f n) < p ->
  exists L, fps_log_sparse p tb f n = Some L /\ length L = terms f n /\ residues p L /\ log_upto p (terms f n) f L.
Proof.
  intros p tb f n P H31 T Rf F0 Hn H1 Hp. apply (table_inv p tb P H31) in T.
  assert (Nf : f <> []) by (intros ->; discriminate). pose proof (terms_deg f n Hn) as D.
  destruct (fps_log_sparse_ok p P H31 tb f n _ T Rf Nf F0 D ltac:(lia) Hp H1) as (R & E & L & RR & K). exists R. repeat (split; [assumption|]).
  apply log_iff; auto. lia.
Qed.

(** The logarithm is determined by its defining equation. *)
Theorem C73_log_unique : forall p n f A B, prime p -> p < 2 ^ 31 -> Z.of_nat n <= p -> nth 0 f 0 = 1 -> residues p A -> residues p B ->
  log_upto p n f A -> log_upto p n f B -> forall k, (k < n)%nat -> nth k A 0 = nth k B 0.
Proof.
  intros p n f A B P H31 Hp F0 RA RB HA HB k Hk. apply (eqs_nth p P H31 n); auto. apply (log_uniq p P n (cf f)); auto; [lia| |]; apply log_iff; auto; lia.
Qed.

(** [log_sparse] with more terms than that pads with zeros; with one term it fails. *)
Theorem C73_log_sparse_refuted : exists p f n L, prime p /\ p < 2 ^ 31 /\ residues p f /\ nth 0 f 0 = 1 /\ 2 <= n < p /\
  fps_log_sparse p (util_init p) f n = Some L /\ ~ log_upto p (terms f n) f L /\ fps_log_sparse p (util_init p) f 1 = None.
Proof.
  exists 5, [1; 1], 4, [0; 1; 2; 0]. split; [apply (prime_intro 5); [lia|]; intros n Hn; apply Zgcd_1_rel_prime; assert (n = 1 \/ n = 2 \/ n = 3 \/ n = 4) as [->|[->|[->| ->]]] by lia; reflexivity|].
  split; [lia|]. split; [repeat constructor; lia|]. split; [reflexivity|]. split; [lia|]. split; [vm_compute; reflexivity|].
  split; [|vm_compute; reflexivity]. intros [_ H]. specialize (H 3%nat ltac:(cbn; lia)). vm_compute in H. discriminate.
Qed.

(** [exp]: dense, sparse, and with the choice between them. The result has [n]
    entries, except for the empty series, whose exponential is [1] with one entry. *)
Theorem C73_exp : forall p tb h n, prime p -> p < 2 ^ 31 -> table p tb -> residues p h -> nth 0 h 0 = 0 -> -1 <= n -> Z.of_nat (terms h n) < p ->
  (exists R, fps_exp_sparse p tb h n = Some R /\ length R = (if (length h =? 0)%nat then Nat.min (terms h n) 1 else terms h n) /\
     residues p R /\ ((1 <= terms h n)%nat -> exp_upto p (terms h n) h R)) /\
  (fits p (terms h n) ->
   exists R, fps_exp_dense p tb h n = Some R /\ length R = terms h n /\ residues p R /\ ((1 <= terms h n)%nat -> exp_upto p (terms h n) h R)) /\
  ((weight h (length h) < 100)%nat \/ fits p (terms h n) ->
   exists R, fps_exp p tb h n = Some R /\ length R = (if (length h =? 0)%nat then Nat.min (terms h n) 1 else terms h n) /\
     residues p R /\ ((1 <= terms h n)%nat -> exp_upto p (terms h n) h R)).
Proof.
  intros p tb h n P H31 T Rh H0 Hn Hp. apply (table_inv p tb P H31) in T. pose proof (terms_deg h n Hn) as D. split; [|split].
  - destruct (fps_exp_sparse_ok p P H31 tb h n _ T Rh H0 D ltac:(lia)) as (R & E & L & RR & K). exists R. repeat (split; [assumption|]).
    intros H1. apply exp_iff; auto.
  - intros F. apply (fits_log p _ P H31) in F. destruct (fps_exp_dense_ok p P H31 tb h n _ T Rh H0 D Hp F) as (R & E & L & RR & K).
    exists R. repeat (split; [assumption|]). intros H1. apply exp_iff; auto.
  - intros F. destruct (fps_exp_ok p P H31 tb h n _ T Rh H0 D Hp) as (R & E & L & RR & K).
    { rewrite count_weight by lia. unfold terms at 1. cbn [Z.eqb]. destruct F as [F|F]; [now left|right; now apply fits_log]. }
    exists R. repeat (split; [assumption|]). intros H1. apply exp_iff; auto.
Qed.

(** The exponential is determined by its defining equation. *)
Theorem C73_exp_unique : forall p n h A B, prime p -> p < 2 ^ 31 -> Z.of_nat n <= p -> residues p A -> residues p B ->
  exp_upto p n h A -> exp_upto p n h B -> forall k, (k < n)%nat -> nth k A 0 = nth k B 0.
Proof.
  intros p n h A B P H31 Hp RA RB HA HB k Hk. apply (eqs_nth p P H31 n); auto. apply (exp_uniq p P n (cf h)); auto; [lia| |]; apply exp_iff; auto; lia.
Qed.

(** [SparseFps::exp] *)
Theorem C73_sparse_exp : forall p tb s h n, prime p -> p < 2 ^ 31 -> table p tb -> sparse p s -> plain s h -> nth 0 h 0 = 0 -> Z.of_nat n <= p ->
  exists R, sp_exp p tb s n = Some R /\ length R = (if (length s =? 0)%nat then Nat.min n 1 else n) /\ residues p R /\
    ((1 <= n)%nat -> exp_upto p n h R).
Proof.
  intros p tb s h n P H31 T S F H0 Hp. apply (table_inv p tb P H31) in T. pose proof S as [S1 S2]. pose proof (plain_spc p s h S F) as X.
  destruct (sp_exp_ok p P H31 tb s n T S1 S2 ltac:(rewrite X; exact H0) Hp) as (R & E & L & RR & K). exists R. repeat (split; [assumption|]).
  intros H1. apply exp_iff; auto. apply (is_exp_ext p n (spc s)); auto. intros k _. rewrite X. reflexivity.
Qed.

(** [exp] and [log] are inverse to each other, with any tables of inverses. *)
Theorem C73_exp_log : forall p tb tb' f L, prime p -> p < 2 ^ 31 -> table p tb -> table p tb' -> residues p f -> nth 0 f 0 = 1 ->
  Z.of_nat (length f) < p -> fits p (2 * length f) -> fps_log p tb f (-1) = Some L -> fps_exp p tb' L (-1) = Some f.
Proof.
  intros p tb tb' f L P H31 T T' Rf F0 Hp HF EL. pose proof (prime_ge_2 _ P).
  apply (table_inv p _ P H31) in T, T'. apply (fits_log p _ P H31) in HF.
  assert (Nf : f <> []) by (intros ->; discriminate). assert (Lf : (1 <= length f)%nat) by (destruct f; [congruence|cbn; lia]).
  destruct (fps_log_ok p P H31 tb f (-1) _ T Rf Nf F0 (deg_default f) Lf Hp ltac:(lia) ltac:(lia)) as (L' & E & LL & RL & K).
  rewrite EL in E. injection E as <-.
  destruct (fps_exp_ok p P H31 tb' L (-1) _ T' RL (proj1 K) (deg_default L) ltac:(lia) ltac:(right; lia)) as (R & E & LR & RR & KR).
  rewrite E. f_equal. rewrite LL in *. replace (length f =? 0)%nat with false in LR by (symmetry; apply Nat.eqb_neq; lia).
  apply (eqs_list p P H31); auto. rewrite LR. apply (exp_uniq p P (length f) (cf L)); auto; [lia|]. now apply log_exp.
Qed.
Theorem C73_log_exp : forall p tb tb' h R, prime p -> p < 2 ^ 31 -> table p tb -> table p tb' -> residues p h -> h <> [] -> nth 0 h 0 = 0 ->
  Z.of_nat (length h) < p -> fits p (2 * length h) -> fps_exp p tb h (-1) = Some R -> fps_log p tb' R (-1) = Some h.
Proof.
  intros p tb tb' h R P H31 T T' Rh Nh H0 Hp HF ER. pose proof (prime_ge_2 _ P).
  apply (table_inv p _ P H31) in T, T'. apply (fits_log p _ P H31) in HF.
  assert (Lh : (1 <= length h)%nat) by (destruct h; [congruence|cbn; lia]).
  destruct (fps_exp_ok p P H31 tb h (-1) _ T Rh H0 (deg_default h) Hp ltac:(right; lia)) as (R' & E & LR & RR & K).
  rewrite ER in E. injection E as <-. replace (length h =? 0)%nat with false in LR by (symmetry; apply Nat.eqb_neq; lia). specialize (K Lh).
  assert (NR : R <> []) by (intros ->; cbn in LR; lia).
  destruct (fps_log_ok p P H31 tb' R (-1) _ T' RR NR (proj1 K) (deg_default R) ltac:(lia) ltac:(lia) ltac:(lia) ltac:(lia)) as (L & E & LL & RL & KL).
  rewrite E. f_equal. rewrite LR in *. apply (eqs_list p P H31); auto. rewrite LL. apply (log_uniq p P (length h) (cf R)); auto; [lia|exact (proj1 K)|].
  now apply exp_log.
Qed.

(** [exp (f + g) = exp f exp g] *)
Theorem C73_exp_add : forall p n f g h A B C, prime p -> p < 2 ^ 31 -> (1 <= n)%nat -> Z.of_nat n <= p ->
  residues p C -> (forall k, nth k h 0 = (nth k f 0 + nth k g 0) mod p) ->
  exp_upto p n f A -> exp_upto p n g B -> exp_upto p n h C -> mul_upto p n A B C.
Proof.
  intros p n f g h A B C P H31 Hn Hp RC Hh KA KB KC. apply (to_upto p P H31); auto.
  apply exp_iff in KA, KB, KC; auto. apply (exp_uniq p P n (cf h)); auto.
  apply (is_exp_ext p n (ps_add (cf f) (cf g))); [|now apply exp_add].
  intros k _. unfold ps_add, cf. rewrite Hh, eqm_mod. reflexivity.
Qed.

(** ** C74 *)
(** [pow] with an exponent that is not negative: [f^n] up to [x^(size of f)] *)
Theorem C74_pow : forall p tb f n, prime p -> p < 2 ^ 31 -> table p tb -> residues p f -> 0 <= n < 2 ^ 63 -> Z.of_nat (length f) < p ->
  (length f < 100)%nat \/ fits p (2 * length f) ->
  exists R, fps_pow p tb f n = Some R /\ residues p R /\ forall k, (k < length f)%nat -> nth k R 0 = power f (Z.to_nat n) k mod p.
Proof.
  intros p tb f n P H31 T Rf Hn Hp HF. apply (table_inv p _ P H31) in T.
  destruct (fps_pow_ok p P H31 tb f n T Rf Hp Hn) as (R & E & RR & K); [destruct HF as [HF|HF]; [now left|right; now apply fits_log]|].
  exists R. split; auto. split; auto. intros k Hk. apply (to_mod p P H31); auto. rewrite power_ps. now apply K.
Qed.

(** a negative exponent with the constant term one: the inverse of the power *)
Theorem C74_pow_neg : forall p tb f m, prime p -> p < 2 ^ 31 -> table p tb -> residues p f -> nth 0 f 0 = 1 -> (0 < m)%nat -> Z.of_nat m <= 2 ^ 63 ->
  Z.of_nat (length f) < p -> (weight f (length f) < 100)%nat \/ fits p (2 * length f) ->
  exists R, fps_pow p tb f (- Z.of_nat m) = Some R /\ length R = length f /\ residues p R /\
    forall k, (k < length f)%nat -> zsum (S k) (fun i => power f m i * nth (k - i) R 0) mod p = if (k =? 0)%nat then 1 else 0.
Proof.
  intros p tb f m P H31 T Rf F0 Hm Hm63 Hp HF. apply (table_inv p _ P H31) in T. pose proof (prime_ge_2 _ P). assert (M : 1 <= p < 2 ^ 31) by lia.
  assert (Nf : f <> []) by (intros ->; discriminate). assert (Lf : (1 <= length f)%nat) by (destruct f; [congruence|cbn; lia]).
  destruct (pow1_ok p P H31 tb f (- Z.of_nat m) T Rf Nf F0 Hp) as (R & E & L & RR & K).
  { rewrite count_weight by lia. unfold terms. cbn [Z.eqb]. destruct HF as [HF|HF]; [now left|right; now apply fits_log]. }
  exists R. split; [|split; [auto|split; [auto|]]].
  - unfold fps_pow. destruct (Z.eqb_spec (- Z.of_nat m) 0); [lia|]. destruct (fps_low_ok f) as (k & Ek & Hk & Kz & Kn). rewrite Ek. cbn [obind].
    assert (k = 0)%nat as -> by (destruct k; auto; specialize (Kz 0%nat ltac:(lia)); congruence).
    destruct (Nat.eqb_spec 0 (length f)); [lia|]. cbn [orb negb andb Nat.eqb]. rewrite (get_nth f 0 0) by lia. cbn [obind].
    rewrite (m_signed_ok p M), Z.mod_1_l, F0 by lia. exact E.
  - intros k Hk. pose proof (pow1_neg p P f R m _ ltac:(lia) Lf F0 K eq_refl k Hk) as Q. apply eqm_mod_eq in Q; [|lia].
    unfold ps_mul in Q. rewrite (zsum_ext _ _ (fun i => power f m i * nth (k - i) R 0)) in Q by (intros i _; rewrite power_ps; reflexivity).
    rewrite Q. unfold ps_c. destruct (k =? 0)%nat; [apply Z.mod_1_l; lia|apply Z.mod_0_l; lia].
Qed.

(** [sqrt]: a series whose square is [f] up to [x^(size of f)], or the exception if
    there is none; [sqrt_sparse] for every odd prime, the others where transforms exist. *)
Definition root_result (p : Z) (f : list Z) (o : option (list Z)) : Prop :=
  match o with
  | Some R => residues p R /\ mul_upto p (length f) R R f
  | None => ~ exists S, residues p S /\ mul_upto p (length f) S S f
  end.
Lemma root_link p f o : prime p -> p < 2 ^ 31 -> residues p f ->
  match o with
  | Some R => residues p R /\ eqs p (length f) (ps_mul (cf R) (cf R)) (cf f)
  | None => ~ exists S : pser, eqs p (length f) (ps_mul S S) (cf f)
  end -> root_result p f o.
Proof.
  intros P H31 Rf. pose proof (prime_ge_2 _ P). destruct o as [R|]; cbn.
  - intros [RR E]. split; auto. now apply (to_upto p P H31).
  - intros N (S & RS & E). apply N. exists (cf S). intros k Hk. specialize (E k Hk). rewrite conv_cf in E. etransitivity; [symmetry; apply eqm_mod|]. rewrite E. reflexivity.
Qed.
Theorem C74_sqrt : forall p fuel tb f, prime p -> p < 2 ^ 31 -> p mod 2 = 1 -> table p tb -> residues p f -> (Z.to_nat p <= fuel)%nat ->
  Z.of_nat (length f) < p ->
  (exists o, fps_sqrt_sparse p fuel tb f = Some o /\ root_result p f o) /\
  (fits p (2 * length f) -> exists o, fps_sqrt_dense p fuel tb f = Some o /\ root_result p f o) /\
  ((length f < 100)%nat \/ fits p (2 * length f) -> exists o, fps_sqrt p fuel tb f = Some o /\ root_result p f o).
Proof.
  intros p fuel tb f P H31 Hodd T Rf Hf Hp. apply (table_inv p _ P H31) in T. split; [|split].
  - destruct (fps_sqrt_with_ok p P H31 fuel (pow1_sparse p tb) f Hodd Hf Rf ltac:(lia)) as (o & E & K).
    { intros g e Rg Ng G0 Lg. apply pow1_sparse_ok; auto. lia. }
    exists o. split; auto. now apply root_link.
  - intros F. apply (fits_log p _ P H31) in F. destruct (fps_sqrt_with_ok p P H31 fuel (pow1_dense p tb) f Hodd Hf Rf ltac:(lia)) as (o & E & K).
    { intros g e Rg Ng G0 Lg. apply pow1_dense_ok; auto; lia. }
    exists o. split; auto. now apply root_link.
  - intros F. destruct (fps_sqrt_with_ok p P H31 fuel (pow1 p tb) f Hodd Hf Rf ltac:(lia)) as (o & E & K).
    { intros g e Rg Ng G0 Lg. apply pow1_ok; auto; [lia|]. destruct F as [F|F].
      - left. unfold fps_count. cbn [Z.eqb]. rewrite Nat.min_id, firstn_all. pose proof (filter_len (fun x => negb (x =? 0)) g). lia.
      - right. apply (fits_log p _ P H31) in F. lia. }
    exists o. split; auto. now apply root_link.
Qed.

(** [is_square] says whether there is a square root. *)
Theorem C74_is_square : forall p f, prime p -> p < 2 ^ 31 -> p mod 2 = 1 -> residues p f -> Z.of_nat (length f) < p ->
  exists b, fps_is_square p f = Some b /\ (b = true <-> exists S, residues p S /\ mul_upto p (length f) S S f).
Proof.
  intros p f P H31 Hodd Rf Hp. pose proof (prime_ge_2 _ P). assert (M : 1 <= p < 2 ^ 31) by lia.
  destruct (fps_is_square_ok p P H31 f Hodd Rf ltac:(lia)) as (b & E & K); [exists (util_init p); now apply util_init_ok|].
  exists b. split; auto. rewrite K. split.
  - intros (S & ES). exists (map (fun k => S k mod p) (seq 0 (length f))). split.
    + apply Forall_forall. intros x Hx. apply in_map_iff in Hx. destruct Hx as (k & <- & _). apply Z.mod_pos_bound; lia.
    + apply (to_upto p P H31); auto. rewrite <- ES.
      assert (Q : eqs p (length f) (cf (map (fun k => S k mod p) (seq 0 (length f)))) S).
      { intros k Hk. unfold cf. rewrite (nth_indep _ 0 (S 0%nat mod p)) by (rewrite map_length, seq_length; auto).
        rewrite (map_nth (fun k => S k mod p)), seq_nth by auto. apply eqm_mod. }
      apply ps_mul_m; exact Q.
  - intros (S & RS & ES). exists (cf S). intros k Hk. specialize (ES k Hk). rewrite conv_cf in ES. etransitivity; [symmetry; apply eqm_mod|]. rewrite ES. reflexivity.
Qed.

(** A negative exponent needs the constant term one. *)
Theorem C74_pow_neg_fails : exists p f R, prime p /\ p < 2 ^ 31 /\ residues p f /\ mul_upto p 1 f R [1] /\ fps_pow p (util_init p) f (-1) = None.
Proof.
  exists 5, [2], [3]. split; [apply (prime_intro 5); [lia|]; intros n Hn; apply Zgcd_1_rel_prime; assert (n = 1 \/ n = 2 \/ n = 3 \/ n = 4) as [->|[->|[->| ->]]] by lia; reflexivity|].
  split; [lia|]. split; [repeat constructor; lia|]. split; [|vm_compute; reflexivity]. intros k Hk. assert (k = 0)%nat as -> by lia. reflexivity.
Qed.

(** Modulo 17 *)
Example C73_ex : fps_log 17 (util_init 17) [1; 1] 4 = Some [0; 1; 8; 6] /\ fps_exp 17 (util_init 17) [0; 1; 8; 6] 4 = Some [1; 1; 0; 0] /\
  fps_exp_dense 17 (util_init 17) [0; 1] 4 = Some [1; 1; 9; 3] /\ fps_log_sparse 17 (util_init 17) [1; 1; 0; 0] 4 = Some [0; 1; 8; 6] /\
  fps_exp 17 (util_init 17) [] 4 = Some [1] /\ fps_log 17 (util_init 17) [2; 1] 3 = None.
Proof. vm_compute. auto 10. Qed.
Example C74_ex : fps_pow 17 (util_init 17) [0; 2; 1; 0; 0] 2 = Some [0; 0; 4; 4; 1; 0] /\ map (power [0; 2; 1] 2) (seq 0 5) = [0; 0; 4; 4; 1] /\
  fps_pow 17 (util_init 17) [1; 16; 0; 0] (-2) = Some [1; 2; 3; 4] /\
  fps_sqrt 17 17 (util_init 17) [0; 0; 4; 4; 1] = Some (Some [0; 2; 1; 0]) /\ fps_sqrt 17 17 (util_init 17) [3; 1] = Some None /\
  fps_is_square 17 [0; 1] = Some false.
Proof. vm_compute. auto 10. Qed.

Print Assumptions C73_log.
Print Assumptions C73_log_sparse.
Print Assumptions C73_log_unique.
Print Assumptions C73_log_sparse_refuted.
Print Assumptions C73_exp.
Print Assumptions C73_exp_unique.
Print Assumptions C73_sparse_exp.
Print Assumptions C73_exp_log.
Print Assumptions C73_log_exp.
Print Assumptions C73_exp_add.
Print Assumptions C74_pow.
Print Assumptions C74_pow_neg.
Print Assumptions C74_sqrt.
Print Assumptions C74_is_square.
Print Assumptions C74_pow_neg_fails.
