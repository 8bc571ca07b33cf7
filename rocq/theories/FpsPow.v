(** Power series: powers and square roots. *)
From Coq Require Import Setoid Morphisms Znumtheory Sorted Ring.
From Verif Require Import Base BaseLemmas NthExtra SearchModel BitModel NumTheory ModularModel ModularProof ModularSqrt ModularProp PrimRootModel NttModel NttSum NttRev NttProof NttCore ConvModel ConvSum ConvNtt PsAlg FpsModel FpsBase FpsMul FpsInv FpsSparse FpsLog FpsExp FpsExpD.
Local Open Scope Z_scope.
Ltac Zify.zify_post_hook ::= idtac.

(** [R] is [F^c] up to [x^n]: [F R' = c F' R] and [R(0) = 1] *)
Definition is_pow (p : Z) (n : nat) (c : Z) (F R : pser) : Prop :=
  R 0%nat = 1 /\ eqs p (n - 1) (ps_mul F (ps_d R)) (ps_mul (ps_c c) (ps_mul (ps_d F) R)).

Section Id.
Variable p : Z.
Variable n : nat.
Add Ring psr : (ps_ring p n) (setoid (eqs_equiv p n) (ps_ring_ext p n)).

Lemma pow_exp_id c f f' l' g : eqs p n (ps_mul f l') f' -> eqs p n (ps_mul f (ps_mul (ps_mul (ps_c c) l') g)) (ps_mul (ps_c c) (ps_mul f' g)).
Proof. intros <-. ring. Qed.
Lemma pow_mul_id c d f f' a a' b b' : eqs p n (ps_mul f a') (ps_mul c (ps_mul f' a)) -> eqs p n (ps_mul f b') (ps_mul d (ps_mul f' b)) ->
  eqs p n (ps_mul f (ps_add (ps_mul a' b) (ps_mul a b'))) (ps_mul (ps_add c d) (ps_mul f' (ps_mul a b))).
Proof.
  intros A B. transitivity (ps_add (ps_mul (ps_mul f a') b) (ps_mul (ps_mul f b') a)); [ring|]. rewrite A, B. ring.
Qed.
Lemma mul_assoc_l a b c : eqs p n (ps_mul (ps_mul a b) c) (ps_mul a (ps_mul b c)).
Proof. ring. Qed.
Lemma mul_0_l a : eqs p n (ps_mul (ps_c 0) a) (ps_c 0).
Proof. ring. Qed.
Lemma mul_0_r a : eqs p n (ps_mul a (ps_c 0)) (ps_c 0).
Proof. ring. Qed.
Lemma mul4 a b c d : eqs p n (ps_mul (ps_mul a b) (ps_mul c d)) (ps_mul (ps_mul a c) (ps_mul b d)).
Proof. ring. Qed.
Lemma add_0_l a : eqs p n (ps_add (ps_c 0) a) a.
Proof. ring. Qed.
End Id.

Lemma ps_c_eqm p n a b : eqm p a b -> eqs p n (ps_c a) (ps_c b).
Proof. intros E k _. unfold ps_c. destruct (k =? 0)%nat; [exact E|reflexivity]. Qed.
Lemma ps_c_add p n a b : eqs p n (ps_add (ps_c a) (ps_c b)) (ps_c (a + b)).
Proof. intros k _. unfold ps_c, ps_add. destruct (k =? 0)%nat; reflexivity. Qed.
Lemma ps_c_mul p n a b : eqs p n (ps_mul (ps_c a) (ps_c b)) (ps_c (a * b)).
Proof. intros k _. rewrite ps_mul_c_e. unfold ps_c. destruct (k =? 0)%nat; apply eq_eqm; ring. Qed.
Lemma ps_mul_0 a b : ps_mul a b 0%nat = a 0%nat * b 0%nat.
Proof. unfold ps_mul. cbn [zsum Nat.sub]. ring. Qed.

Lemma is_pow_mul p n c d F A B : is_pow p n c F A -> is_pow p n d F B -> is_pow p n (c + d) F (ps_mul A B).
Proof.
  intros [A0 EA] [B0 EB]. split; [now rewrite ps_mul_0, A0, B0|]. rewrite ps_d_mul, <- ps_c_add. now apply pow_mul_id.
Qed.
Lemma is_pow_eqm p n c d F A : eqm p c d -> is_pow p n c F A -> is_pow p n d F A.
Proof. intros E [A0 EA]. split; auto. rewrite EA. apply ps_mul_m; [now apply ps_c_eqm|reflexivity]. Qed.
Lemma is_pow_0 p n F : is_pow p n 0 F (ps_c 1).
Proof. split; auto. rewrite ps_d_c, mul_0_r, mul_0_l. reflexivity. Qed.
Lemma is_pow_1 p n F : F 0%nat = 1 -> is_pow p n 1 F F.
Proof. intros F0. split; auto. rewrite mul_1_l. apply mul_comm. Qed.
Lemma is_pow_pow p n F m : F 0%nat = 1 -> is_pow p n (Z.of_nat m) F (ps_pow F m).
Proof.
  intros F0. induction m as [|m IH]; [apply is_pow_0|]. cbn [ps_pow]. rewrite Nat2Z.inj_succ, <- Z.add_1_l. apply is_pow_mul; auto. now apply is_pow_1.
Qed.
Lemma is_pow_uniq p n c F A B : prime p -> (1 <= n)%nat -> Z.of_nat n <= p -> F 0%nat = 1 -> is_pow p n c F A -> is_pow p n c F B -> eqs p n A B.
Proof.
  intros P Hn Hp F0 [A0 EA] [B0 EB]. replace n with (S (n - 1)) by lia. apply (ps_ode p P (n - 1) F (ps_mul (ps_c c) (ps_d F))).
  - lia.
  - rewrite F0. intros D. apply Z.divide_1_r in D. pose proof (prime_ge_2 _ P). lia.
  - rewrite A0, B0. reflexivity.
  - rewrite EA. apply mul_assoc.
  - rewrite EB. apply mul_assoc.
Qed.

Lemma filter_len {A} (b : A -> bool) l : (length (filter b l) <= length l)%nat.
Proof. induction l as [|x l IH]; cbn [filter length]; [lia|]. destruct (b x); cbn [length]; lia. Qed.
Lemma lz_lin {A} (U V : A -> Z) c l : lz (fun x => c * U x - V x) l = c * lz U l - lz V l.
Proof. induction l; cbn [lz]; [ring|]. rewrite IHl. ring. Qed.

Section P.
Variable p : Z.
Hypothesis P : prime p.
Hypothesis H31 : p < 2 ^ 31.
Local Notation "a == b" := (eqm p a b) (at level 70).
Let p2 : 2 <= p. Proof. now apply prime_ge_2. Qed.
Let M : 1 <= p < 2 ^ 31. Proof. lia. Qed.

Lemma pow_sum tf ret N i : incr tf -> sres p tf -> 0 <= N < p -> residues p ret -> (i < length ret)%nat ->
  exists y, for_until tf (fun '(d, _) => (i <? d)%nat) (fun '(d, v) x =>
          let* a := get ret (i - d)%nat in
          let* c := m_mul p v a in
          let* u := m_mul p N (m_unsigned p (Z.of_nat d)) in
          let* y := m_mul p c (m_sub p u (m_unsigned p (Z.of_nat (i - d)))) in
          Some (m_add p x y)) (m_signed p 0) = Some y /\ 0 <= y < p /\
    y == N * ps_mul (theta (spc tf)) (cf ret) i - ps_mul (spc tf) (theta (cf ret)) i.
Proof.
  intros I S HN R L. rewrite (m_signed_ok p M), Z.mod_0_l by lia.
  destruct (until_sum p (fun '(d, _) => (i <? d)%nat) (fun '(d, v) x =>
          let* a := get ret (i - d)%nat in
          let* c := m_mul p v a in
          let* u := m_mul p N (m_unsigned p (Z.of_nat d)) in
          let* y := m_mul p c (m_sub p u (m_unsigned p (Z.of_nat (i - d)))) in
          Some (m_add p x y)) (fun '(d, v) => v * nth (i - d) ret 0 * (N * Z.of_nat d - Z.of_nat (i - d))) tf (incr_stop tf i I)) with (acc := 0) as (y & E & Hy & K).
  - intros [d v] acc I0 E Ha. apply Nat.ltb_ge in E. rewrite (get_nth _ _ 0) by lia. cbn [obind].
    assert (Hv : 0 <= v < p) by (apply (proj1 (Forall_forall _ _) S _ I0)).
    rewrite (m_mul_ok p M) by (auto; now apply (res_n p M)). cbn [obind]. rewrite !(m_unsigned_ok p M) by lia.
    rewrite (m_mul_ok p M) by (auto; apply (mod_r p M)). cbn [obind]. rewrite (m_sub_ok p M) by apply (mod_r p M).
    rewrite (m_mul_ok p M) by apply (mod_r p M). cbn [obind].
    rewrite (m_add_ok p M) by (auto; apply (mod_r p M)). eexists. split; [reflexivity|]. split; [apply (mod_r p M)|].
    rewrite !eqm_mod. reflexivity.
  - lia.
  - exists y. split; [exact E|]. split; auto. rewrite K. apply eq_eqm. rewrite <- (theta_sum tf (cf ret) i), <- (spc_mul tf (theta (cf ret)) i).
    rewrite <- lz_lin, Z.add_0_l. apply lz_ext. intros [d v] _. unfold theta, cf. destruct (i <? d)%nat; ring.
Qed.

Lemma pow1_sparse_impl_ok tb tf n deg : inv_tab p tb -> incr tf -> sres p tf -> spc tf 0%nat = 1 -> (1 <= deg)%nat -> Z.of_nat deg <= p ->
  exists R, pow1_sparse_impl p tb tf n deg = Some R /\ length R = deg /\ residues p R /\ is_pow p deg n (spc tf) (cf R).
Proof.
  intros T I S S0 Hd Hp.
  assert (Et : pow1_sparse_impl p tb tf n deg = match tf with [] => Some [] | _ => pow1_sparse_impl p tb tf n deg end) by (destruct tf; auto).
  unfold pow1_sparse_impl. destruct tf as [|x0 t0] eqn:Etf; [unfold spc in S0; cbn in S0; lia|]. rewrite <- Etf in *. clear Et.
  rewrite set_some by (rewrite repeat_length; lia). cbn [obind].
  destruct (util_set_inv_ok p M P tb (deg - 1) T ltac:(lia)) as (tb0 & Et & T0 & _). rewrite Et. cbn [obind].
  rewrite !(m_signed_ok p M n), (m_signed_ok p M 1), Z.mod_1_l by lia.
  match goal with |- context [for_up _ 1 ?b _] => set (body := b) end.
  destruct (@for_up_rule _ (fun i '(g, tb) => inv_tab p tb /\ length g = deg /\ residues p g /\ nth 0 g 0 = 1 /\
      (forall k, (k < i)%nat -> ps_mul (spc tf) (theta (cf g)) k == n * ps_mul (theta (spc tf)) (cf g) k) /\
      (forall k, (i <= k)%nat -> nth k g 0 = 0))
    body (deg - 1) 1%nat (lset (repeat 0 deg) 0 1, tb0)) as ([R tb'] & E & _ & L & RR & R0 & K & _).
  - split; auto. rewrite lset_length, repeat_length. split; auto.
    split; [apply (res_lset p M); [apply (res_repeat p M)|lia]|]. split; [now rewrite nth_lset_eq by (rewrite repeat_length; lia)|]. split.
    + intros k Hk. assert (k = 0)%nat as -> by lia. rewrite !ps_mul_0. unfold theta. cbn [Z.of_nat]. apply eq_eqm. ring.
    + intros k Hk. rewrite nth_lset_neq by lia. apply nth_repeat.
  - intros i [g tb1] Hi (T1 & Lg & Rg & G0 & Kg & Hg). unfold body.
    destruct (pow_sum tf g (n mod p) i I S (mod_r p M n) Rg ltac:(lia)) as (y & Ey & Hy & Ky). rewrite Ey. cbn [obind].
    destruct (util_inv_ok p P H31 tb1 i T1 ltac:(lia) ltac:(lia)) as (w & tb2 & Ew & T2 & Hw & Kw). rewrite Ew. cbn [obind].
    rewrite (m_mul_ok p M) by auto. cbn [obind]. rewrite set_some by lia. cbn [obind].
    eexists. split; [reflexivity|]. cbn beta iota. split; auto. rewrite lset_length. split; auto. split; [apply (res_lset p M); auto; apply (mod_r p M)|].
    split; [now rewrite nth_lset_neq by lia|].
    set (v := (y * w) mod p). assert (Kv : Z.of_nat i * v == y).
    { unfold v. rewrite eqm_mod. transitivity (y * (Z.of_nat i * w)); [apply eq_eqm; ring|]. rewrite Kw. apply eq_eqm. ring. }
    assert (X : forall k, (k <= i)%nat -> ps_mul (theta (spc tf)) (cf (lset g i v)) k = ps_mul (theta (spc tf)) (cf g) k).
    { intros k Hk. apply ps_mul_ext0; [unfold theta; cbn [Z.of_nat]; ring|]. intros j Hj. unfold cf. now rewrite nth_lset_neq by lia. }
    split.
    + intros k Hk. rewrite X by lia. destruct (Nat.eq_dec k i) as [->|Nk].
      * assert (Q : ps_mul (spc tf) (theta (cf (lset g i v))) i = Z.of_nat i * v + ps_mul (spc tf) (theta (cf g)) i).
        { unfold ps_mul. rewrite !(zsum_shift i). rewrite S0, Nat.sub_0_r. unfold theta at 1 3. unfold cf at 1 3. rewrite nth_lset_eq, (Hg i) by lia.
          rewrite (zsum_ext i _ (fun j => spc tf (Datatypes.S j) * theta (cf g) (i - Datatypes.S j)%nat)); [ring|].
          intros j Hj. unfold theta, cf. now rewrite nth_lset_neq by lia. }
        rewrite Q, Kv, Ky. rewrite eqm_mod. apply eq_eqm. ring.
      * rewrite (ps_mul_ext (spc tf) _ (theta (cf g))) by (intros j Hj; unfold theta, cf; now rewrite nth_lset_neq by lia). apply Kg. lia.
    + intros k Hk. rewrite nth_lset_neq by lia. apply Hg. lia.
  - rewrite E. cbn [obind]. exists R. split; auto. split; auto. split; auto. split; auto. intros k Hk. rewrite ps_mul_c_e, <- theta_mul.
    rewrite <- (K (Datatypes.S k)) by lia. rewrite ps_mul_comm_e, <- theta_mul, ps_mul_comm_e. reflexivity.
Qed.

Lemma is_pow_ext n c F G R : eqs p n F G -> is_pow p n c F R -> is_pow p n c G R.
Proof.
  intros E [R0 K]. split; auto. destruct n as [|n]; [intros k Hk; lia|]. rewrite Nat.sub_succ, Nat.sub_0_r in *.
  rewrite <- (eqs_d p n F G E), <- (eqs_le p (S n) n _ _ ltac:(lia) E). exact K.
Qed.

Lemma pow1_sparse_ok tb f n : inv_tab p tb -> residues p f -> f <> [] -> nth 0 f 0 = 1 -> Z.of_nat (length f) <= p ->
  exists R, pow1_sparse p tb f n = Some R /\ length R = length f /\ residues p R /\ is_pow p (length f) n (cf f) (cf R).
Proof.
  intros T Rf Nf F0 Hp. unfold pow1_sparse. rewrite sp_of_ok. cbn [obind]. replace (Nat.min (Nat.min (Z.to_nat p) (length f)) (length f)) with (length f) by lia.
  assert (Lf : (1 <= length f)%nat) by (destruct f; [congruence|cbn; lia]).
  destruct (pow1_sparse_impl_ok tb (ties f 0 (length f)) n (length f) T (ties_incr _ _ _) (res_ties' p P H31 _ _ _ Rf)) as (R & E & L & RR & K); auto.
  { rewrite spc_ties. destruct (Nat.ltb_spec 0 (length f)); [auto|lia]. }
  exists R. split; auto. split; auto. split; auto. apply (is_pow_ext _ _ (spc (ties f 0 (length f)))); auto.
  intros k Hk. rewrite spc_ties. unfold cf. destruct (Nat.ltb_spec k (length f)); [reflexivity|lia].
Qed.

Lemma pow1_dense_ok tb f n : inv_tab p tb -> residues p f -> f <> [] -> nth 0 f 0 = 1 -> Z.of_nat (length f) < p -> (2 * length f <= 2 ^ info_log_n p)%nat ->
  exists R, pow1_dense p tb f n = Some R /\ length R = length f /\ residues p R /\ is_pow p (length f) n (cf f) (cf R).
Proof.
  intros T Rf Nf F0 Hp HL. unfold pow1_dense. assert (Lf : (1 <= length f)%nat) by (destruct f; [congruence|cbn; lia]).
  destruct (fps_log_dense_ok p P H31 tb f (-1) (length f) T Rf Nf F0 eq_refl Lf Hp ltac:(lia) ltac:(lia)) as (l & El & Ll & Rl & L0 & Kl). rewrite El. cbn [obind].
  rewrite (m_signed_ok p M). destruct (fps_mul_c_ok p M l (n mod p) Rl (mod_r p M n)) as (h & Eh & Lh & Rh & Kh). rewrite Eh. cbn [obind].
  destruct (fps_exp_dense_ok p P H31 tb h (-1) (length f) T Rh) as (R & E & L & RR & K); auto.
  { rewrite Kh. unfold cf in L0. rewrite L0, Z.mul_0_l. apply Z.mod_0_l. lia. }
  { rewrite deg_default. congruence. }
  { lia. }
  exists R. split; auto. split; auto. split; auto. destruct (K Lf) as [R0 Ke]. split; auto. rewrite Ke.
  rewrite <- (pow_exp_id p _ n (cf f) (ps_d (cf f)) (ps_d (cf l)) (cf R) Kl). apply ps_mul_m; [reflexivity|]. apply ps_mul_m; [|reflexivity].
  intros k _. rewrite ps_mul_c_e. unfold ps_d, cf. rewrite Kh, !eqm_mod. 
  apply eq_eqm. ring.
Qed.

Lemma pow1_assert f : f <> [] -> nth 0 f 0 = 1 -> fps_assert0 true f (m_signed p 1) = Some tt.
Proof.
  intros Nf F0. rewrite (m_signed_ok p M), Z.mod_1_l by lia. apply (assert0_ok true f 1 1); auto. rewrite (get_nth _ _ 0); [now rewrite F0|].
  destruct f; [congruence|cbn; lia].
Qed.
Lemma pow1_ok tb f n : inv_tab p tb -> residues p f -> f <> [] -> nth 0 f 0 = 1 -> Z.of_nat (length f) < p ->
  (fps_count f (-1) < 100)%nat \/ (2 * length f <= 2 ^ info_log_n p)%nat ->
  exists R, pow1 p tb f n = Some R /\ length R = length f /\ residues p R /\ is_pow p (length f) n (cf f) (cf R).
Proof.
  intros T Rf Nf F0 Hp HL. unfold pow1. rewrite pow1_assert by auto. cbn [obind]. destruct (Nat.ltb_spec (fps_count f (-1)) 100) as [C|C].
  - apply pow1_sparse_ok; auto. lia.
  - apply pow1_dense_ok; auto. lia.
Qed.

(** ** Shifts and constants in powers *)
Lemma ps_x_m m n a b : eqs p n a b -> eqs p n (ps_x m a) (ps_x m b).
Proof. intros E k Hk. unfold ps_x. destruct (Nat.ltb_spec k m); [reflexivity|]. apply E. lia. Qed.
Lemma ps_x_mul_l n m a b : eqs p n (ps_mul (ps_x m a) b) (ps_x m (ps_mul a b)).
Proof. intros k _. rewrite ps_x_mul_e. reflexivity. Qed.
Lemma ps_x_x n m l a : eqs p n (ps_x m (ps_x l a)) (ps_x (m + l) a).
Proof.
  intros k _. unfold ps_x. destruct (Nat.ltb_spec k m), (Nat.ltb_spec k (m + l)), (Nat.ltb_spec (k - m) l); try lia; try reflexivity.
  now replace (k - m - l)%nat with (k - (m + l))%nat by lia.
Qed.
Lemma ps_pow_x n k a m : eqs p n (ps_pow (ps_x k a) m) (ps_x (k * m) (ps_pow a m)).
Proof.
  induction m as [|m IH].
  - cbn [ps_pow]. rewrite Nat.mul_0_r. intros j _. unfold ps_x. cbn [Nat.ltb Nat.leb]. now rewrite Nat.sub_0_r.
  - cbn [ps_pow]. rewrite IH, ps_x_mul_l. rewrite (ps_x_m k n _ _ (mul_comm p n a _)). rewrite (ps_x_m k n _ _ (ps_x_mul_l n _ _ _)), ps_x_x.
    replace (k * S m)%nat with (k + k * m)%nat by lia. apply ps_x_m. apply mul_comm.
Qed.
Lemma ps_pow_mul n a b m : eqs p n (ps_pow (ps_mul a b) m) (ps_mul (ps_pow a m) (ps_pow b m)).
Proof. induction m as [|m IH]; cbn [ps_pow]; [symmetry; apply mul_1_l|]. rewrite IH. apply mul4. Qed.
Lemma ps_pow_c n c m : eqs p n (ps_pow (ps_c c) m) (ps_c (c ^ Z.of_nat m)).
Proof.
  induction m as [|m IH]; cbn [ps_pow]; [reflexivity|]. rewrite IH, ps_c_mul. rewrite Nat2Z.inj_succ, Z.pow_succ_r by lia. reflexivity.
Qed.

Lemma fps_low_ok f : exists k, fps_low f = Some k /\ (k <= length f)%nat /\ (forall j, (j < k)%nat -> nth j f 0 = 0) /\ ((k < length f)%nat -> nth k f 0 <> 0).
Proof.
  unfold fps_low. match goal with |- context [loop _ ?b _] => set (body := b) end.
  destruct (@loop_rule _ _ (fun k => (k <= length f)%nat /\ forall j, (j < k)%nat -> nth j f 0 = 0) (fun k => length f - k)%nat
    (fun k => (k <= length f)%nat /\ (forall j, (j < k)%nat -> nth j f 0 = 0) /\ ((k < length f)%nat -> nth k f 0 <> 0)) body) with (fuel := S (length f)) (s := 0%nat) as (k & E & Q).
  - intros k [Hk K]. unfold body. destruct (Nat.ltb_spec k (length f)) as [C|C].
    + rewrite (get_nth _ _ 0) by auto. cbn [obind]. destruct (Z.eqb_spec (nth k f 0) 0) as [E|E].
      * eexists. split; [reflexivity|]. cbn beta iota. split; [|lia]. split; [lia|]. intros j Hj. destruct (Nat.eq_dec j k) as [->|]; auto. apply K. lia.
      * eexists. split; [reflexivity|]. cbn beta iota. auto.
    + eexists. split; [reflexivity|]. cbn beta iota. split; auto. split; auto. lia.
  - split; [lia|]. intros; lia.
  - lia.
  - exists k. auto.
Qed.

(** a series with [k] low zeros *)
Lemma low_shift f k : (forall j, (j < k)%nat -> nth j f 0 = 0) -> forall n, eqs p n (cf f) (ps_x k (cf (skipn k f))).
Proof.
  intros H n j _. unfold ps_x, cf. destruct (Nat.ltb_spec j k) as [C|C]; [rewrite H by auto; reflexivity|].
  rewrite nth_skipn_add. now replace (k + (j - k))%nat with j by lia.
Qed.

Lemma scale_low f k ic : residues p f -> 0 <= ic < p -> (k <= length f)%nat ->
  exists g, for_up (length f - k) k (fun i g =>
          let* v := get f i in
          let* v := m_mul p v ic in
          set g (i - k)%nat v) (repeat 0 (length f - k)) = Some g /\ length g = (length f - k)%nat /\ residues p g /\
    forall j, nth j g 0 = (nth (k + j) f 0 * ic) mod p.
Proof.
  intros Rf Hi Hk. match goal with |- context [for_up _ k ?b _] => set (body := b) end.
  destruct (@for_up_rule _ (fun i g => length g = (length f - k)%nat /\ residues p g /\ forall j, (j < i - k)%nat -> nth j g 0 = (nth (k + j) f 0 * ic) mod p)
    body (length f - k) k (repeat 0 (length f - k))) as (g & E & L & R & K).
  - rewrite repeat_length. split; auto. split; [apply (res_repeat p M)|]. intros; lia.
  - intros i g Hi' (Lg & Rg & Kg). unfold body. rewrite (get_nth _ _ 0) by lia. cbn [obind]. rewrite (m_mul_ok p M) by (auto; now apply (res_n p M)). cbn [obind].
    rewrite set_some by lia. eexists. split; [reflexivity|]. rewrite lset_length. split; auto. split; [apply (res_lset p M); auto; apply (mod_r p M)|].
    intros j Hj. destruct (Nat.eq_dec j (i - k)) as [->|N].
    + rewrite nth_lset_eq by lia. now replace (k + (i - k))%nat with i by lia.
    + rewrite nth_lset_neq by lia. apply Kg. lia.
  - exists g. split; [exact E|]. split; auto. split; auto. intros j. destruct (Nat.lt_ge_cases j (length f - k)) as [C|C]; [apply K; lia|].
    rewrite !nth_overflow by lia. rewrite Z.mul_0_l, Z.mod_0_l; lia.
Qed.

Lemma place g d c : residues p g -> 0 <= c < p ->
  exists R, for_up (length g) 0 (fun i res =>
          let* v := get g i in
          let* v := m_mul p v c in
          set res (d + i)%nat v) (repeat 0 (d + length g)) = Some R /\ length R = (d + length g)%nat /\ residues p R /\
    forall j, nth j R 0 == ps_x d (ps_mul (ps_c c) (cf g)) j.
Proof.
  intros Rg Hc. match goal with |- context [for_up _ 0 ?b _] => set (body := b) end.
  destruct (@for_up_rule _ (fun i r => length r = (d + length g)%nat /\ residues p r /\ forall j, nth j r 0 = if (d <=? j)%nat && (j <? d + i)%nat then (nth (j - d) g 0 * c) mod p else 0)
    body (length g) 0%nat (repeat 0 (d + length g))) as (R & E & L & RR & K).
  - rewrite repeat_length. split; auto. split; [apply (res_repeat p M)|]. intros j. rewrite nth_repeat.
    destruct (Nat.leb_spec d j), (Nat.ltb_spec j (d + 0)); cbn [andb]; auto; lia.
  - intros i r Hi (Lr & Rr & Kr). unfold body. rewrite (get_nth _ _ 0) by lia. cbn [obind]. rewrite (m_mul_ok p M) by (auto; now apply (res_n p M)). cbn [obind].
    rewrite set_some by lia. eexists. split; [reflexivity|]. rewrite lset_length. split; auto. split; [apply (res_lset p M); auto; apply (mod_r p M)|].
    intros j. destruct (Nat.eq_dec j (d + i)) as [->|N].
    + rewrite nth_lset_eq by lia. destruct (Nat.leb_spec d (d + i)), (Nat.ltb_spec (d + i) (d + S i)); cbn [andb]; try lia.
      now replace (d + i - d)%nat with i by lia.
    + rewrite nth_lset_neq by lia. rewrite Kr. destruct (Nat.leb_spec d j), (Nat.ltb_spec j (d + S i)), (Nat.ltb_spec j (d + i)); cbn [andb]; auto; lia.
  - exists R. split; [exact E|]. split; auto. split; auto. intros j. rewrite K. unfold ps_x. rewrite Nat.add_0_l.
    destruct (Nat.leb_spec d j), (Nat.ltb_spec j (d + length g)), (Nat.ltb_spec j d); cbn [andb]; try lia; try reflexivity; rewrite ps_mul_c_e; unfold cf.
    + rewrite eqm_mod. apply eq_eqm. ring.
    + rewrite nth_overflow by lia. apply eq_eqm. ring.
Qed.

Lemma pow_vanish f k n : (forall j, (j < k)%nat -> nth j f 0 = 0) -> (length f <= k * n)%nat -> eqs p (length f) (cf []) (ps_pow (cf f) n).
Proof.
  intros H L. rewrite (ps_pow_m p (length f) _ _ (low_shift f k H _) n n eq_refl), ps_pow_x. intros j Hj. unfold ps_x. destruct (Nat.ltb_spec j (k * n)); [|lia].
  unfold cf. destruct j; reflexivity.
Qed.

Lemma fps_pow_ok tb f n : inv_tab p tb -> residues p f -> Z.of_nat (length f) < p -> 0 <= n < 2 ^ 63 ->
  (length f < 100)%nat \/ (2 * length f <= 2 ^ info_log_n p)%nat ->
  exists R, fps_pow p tb f n = Some R /\ residues p R /\ eqs p (length f) (cf R) (ps_pow (cf f) (Z.to_nat n)).
Proof.
  intros T Rf Hp Hn HL. unfold fps_pow. destruct (Z.eqb_spec n 0) as [->|N0].
  { rewrite (m_signed_ok p M), Z.mod_1_l by lia. exists [1]. split; auto. split; [constructor; [lia|constructor]|]. intros j _. destruct j as [|[|j]]; reflexivity. }
  destruct (fps_low_ok f) as (k & Ek & Hk & Kz & Kn). rewrite Ek. cbn [obind]. set (m := Z.to_nat n).
  assert (En : n = Z.of_nat m) by (unfold m; lia). assert (Pm : (0 < m)%nat) by (unfold m; lia). clearbody m.
  assert (Cnt : forall g, (length g <= length f)%nat -> (fps_count g (-1) < 100)%nat \/ (2 * length g <= 2 ^ info_log_n p)%nat).
  { intros g Hg. destruct HL as [HL|HL]; [left|right; lia]. unfold fps_count. cbn [Z.eqb]. rewrite Nat.min_id, firstn_all.
    pose proof (filter_len (fun x => negb (x =? 0)) g). lia. }
  destruct (Nat.eqb_spec k (length f)) as [E|E]; cbn [orb].
  { exists []. split; auto. split; [constructor|]. apply (pow_vanish f k); auto. nia. }
  assert (Hk' : (k < length f)%nat) by lia. specialize (Kn Hk').
  destruct (negb (k =? 0)%nat && (Z.of_nat ((length f - 1) / k + 1) <=? n)) eqn:Eb.
  { apply Bool.andb_true_iff in Eb. destruct Eb as [B1 B2]. apply Z.leb_le in B2. destruct (Nat.eqb_spec k 0); [discriminate|].
    exists []. split; auto. split; [constructor|]. apply (pow_vanish f k); auto.
    assert (length f - 1 < k * ((length f - 1) / k + 1))%nat by (pose proof (Nat.div_mod (length f - 1) k ltac:(lia)); pose proof (Nat.mod_upper_bound (length f - 1) k ltac:(lia)); lia).
    assert ((length f - 1) / k + 1 <= m)%nat by lia. nia. }
  assert (Lf : (0 < length f)%nat) by lia. rewrite (get_nth f 0 0) by lia. cbn [obind]. rewrite (m_signed_ok p M), Z.mod_1_l by lia.
  destruct (Z.eqb_spec (nth 0 f 0) 1) as [F1|F1].
  - destruct (pow1_ok tb f n T Rf ltac:(destruct f; cbn in *; [lia|congruence]) F1 Hp (Cnt f (le_n _))) as (R & ER & LR & RR & KR).
    exists R. split; auto. split; auto. apply (is_pow_uniq p (length f) n (cf f)); auto; [lia|]. rewrite En. now apply is_pow_pow.
  - rewrite (get_nth f k 0) by lia. cbn [obind]. pose proof (res_n p M f k Rf) as Hc.
    destruct (m_inv_eqm p P H31 (nth k f 0) Hc Kn) as (ic & Ei & Ri & Vi). rewrite Ei. cbn [obind].
    destruct (scale_low f k ic Rf Ri ltac:(lia)) as (g & Eg & Lg & Rg & Kg). rewrite Eg. cbn [obind].
    assert (G0 : nth 0 g 0 = 1).
    { rewrite Kg, Nat.add_0_r. rewrite (proj1 (eqm_mod_eq p _ 1 ltac:(lia)) Vi). apply Z.mod_1_l. lia. }
    destruct (pow1_ok tb g n T Rg ltac:(destruct g; cbn in *; [lia|congruence]) G0 ltac:(lia) (Cnt g ltac:(lia))) as (G & EG & LG & RG & KG). rewrite EG. cbn [obind].
    destruct (Z.leb_spec 0 n); [|lia]. cbn [guard obind]. rewrite (m_pow_ok p M) by (auto; lia). cbn [obind].
    replace (Z.to_nat n) with m by lia.
    destruct (place G (k * m) (nth k f 0 ^ n mod p) RG (mod_r p M _)) as (R & ER & LR & RR & KR). rewrite ER. exists R. split; auto. split; auto.
    transitivity (ps_x (k * m) (ps_mul (ps_c (nth k f 0 ^ n)) (cf G))).
    { intros j _. etransitivity; [apply KR|]. unfold ps_x. destruct (_ <? _)%nat; [reflexivity|]. rewrite !ps_mul_c_e. rewrite eqm_mod. reflexivity. }
    rewrite (ps_pow_m p (length f) _ _ (low_shift f k Kz _) m m eq_refl), ps_pow_x.
    intros j Hj. unfold ps_x. destruct (Nat.ltb_spec j (k * m)) as [C|C]; [reflexivity|].
    assert (Es : eqs p (length g) (cf (skipn k f)) (ps_mul (ps_c (nth k f 0)) (cf g))).
    { intros i Hi'. rewrite ps_mul_c_e. unfold cf. rewrite nth_skipn_add, Kg, eqm_mod.
      transitivity (nth (k + i) f 0 * (nth k f 0 * ic)); [rewrite Vi; apply eq_eqm; ring|apply eq_eqm; ring]. }
    assert (Q : eqs p (length g) (ps_mul (ps_c (nth k f 0 ^ n)) (cf G)) (ps_pow (cf (skipn k f)) m)).
    { rewrite (ps_pow_m p (length g) _ _ Es m m eq_refl), ps_pow_mul, ps_pow_c, <- En. apply ps_mul_m; [reflexivity|].
      apply (is_pow_uniq p (length g) n (cf g)); auto; try lia. rewrite En. now apply is_pow_pow. }
    apply Q. nia.
Qed.

(** negative exponents: the inverse of the power *)
Lemma pow1_neg f R m n : Z.of_nat (length f) <= p -> (1 <= length f)%nat -> nth 0 f 0 = 1 -> is_pow p (length f) n (cf f) (cf R) -> n = - Z.of_nat m ->
  eqs p (length f) (ps_mul (ps_pow (cf f) m) (cf R)) (ps_c 1).
Proof.
  intros Hp Hl F0 K En. apply (is_pow_uniq p (length f) 0 (cf f)); auto; [|apply is_pow_0].
  replace 0 with (Z.of_nat m + n) by lia. apply is_pow_mul; auto. now apply is_pow_pow.
Qed.

(** ** Square roots *)
Lemma half_sq f R e : Z.of_nat (length f) <= p -> (1 <= length f)%nat -> nth 0 f 0 = 1 -> 2 * e == 1 -> is_pow p (length f) e (cf f) (cf R) ->
  eqs p (length f) (ps_mul (cf R) (cf R)) (cf f).
Proof.
  intros Hp Hl F0 He K. apply (is_pow_uniq p (length f) 1 (cf f)); auto; [|now apply is_pow_1].
  apply (is_pow_eqm p _ (e + e)); [etransitivity; [|exact He]; apply eq_eqm; ring|]. now apply is_pow_mul.
Qed.

Lemma first_nz (a : pser) N : van p N a \/ exists j, (j < N)%nat /\ van p j a /\ ~ a j == 0.
Proof.
  induction N as [|N IH]; [left; intros k Hk; lia|]. destruct IH as [V|(j & Hj & V & Nz)]; [|right; exists j; split; [lia|auto]].
  destruct (Z.eq_dec (a N mod p) 0) as [E|E].
  - left. intros k Hk. destruct (Nat.eq_dec k N) as [->|]; [|apply V; lia]. apply (proj2 (eqm_0 p _)), Z.mod_divide; [lia|exact E].
  - right. exists N. split; [lia|]. split; auto. intros Q. apply E. apply Z.mod_divide; [lia|]. exact (proj1 (eqm_0 p (a N)) Q).
Qed.
Lemma sq_low (a : pser) j : van p j a -> ps_mul a a (2 * j)%nat == a j * a j.
Proof.
  intros V. unfold ps_mul. transitivity (zsum (S (2 * j)) (fun i => if (i =? j)%nat then a j * a j else 0)).
  - apply zsum_eqm. intros i Hi. destruct (Nat.eqb_spec i j) as [->|N]; [replace (2 * j - j)%nat with j by lia; reflexivity|].
    destruct (Nat.lt_ge_cases i j) as [C|C]; [rewrite (V i C); apply eq_eqm; ring|]. rewrite (V (2 * j - i)%nat) by lia. apply eq_eqm; ring.
  - rewrite (zsum_single _ _ j); [rewrite Nat.eqb_refl; reflexivity|lia|]. intros i Hi N. destruct (Nat.eqb_spec i j); [lia|auto].
Qed.
Lemma square_low f k (a : pser) : residues p f -> (k < length f)%nat -> (forall j, (j < k)%nat -> nth j f 0 = 0) -> nth k f 0 <> 0 ->
  eqs p (length f) (ps_mul a a) (cf f) -> (k mod 2 = 0)%nat /\ exists y, 0 <= y < p /\ (y * y) mod p = nth k f 0.
Proof.
  intros Rf Hk Kz Kn E. assert (Nk : ~ nth k f 0 == 0).
  { intros Q. apply Kn. apply (eqm_small p); auto; [now apply (res_n p M)|lia]. }
  destruct (first_nz a (S k)) as [V|(j & Hj & V & Nz)].
  - exfalso. apply Nk. rewrite <- (E k Hk). apply (van_mul p (S k) (S k) a a V V). lia.
  - assert (Nj : ~ a j * a j == 0). { intros Q. apply (proj1 (eqm_0 p _)) in Q. apply prime_mult in Q; auto. apply Nz, (proj2 (eqm_0 p _)). tauto. }
    destruct (Nat.lt_total (2 * j) k) as [C|[C|C]].
    + exfalso. apply Nj. rewrite <- (sq_low a j V). rewrite (E (2 * j)%nat) by lia. unfold cf. rewrite Kz by auto. reflexivity.
    + split; [rewrite <- C, Nat.mul_comm; apply Nat.mod_mul; lia|]. exists (a j mod p). split; [apply (mod_r p M)|].
      apply (eqm_small p); [apply (mod_r p M)|now apply (res_n p M)|]. rewrite !eqm_mod, <- (sq_low a j V), C. apply (E k Hk).
    + exfalso. apply Nk. rewrite <- (E k Hk). apply (van_mul p j j a a V V). lia.
Qed.

(** what [sqrt] needs of the root of a series with constant term one *)
Definition root_ok (root : list Z -> Z -> option (list Z)) (L : nat) : Prop :=
  forall g e, residues p g -> g <> [] -> nth 0 g 0 = 1 -> (length g <= L)%nat ->
    exists R, root g e = Some R /\ length R = length g /\ residues p R /\ is_pow p (length g) e (cf g) (cf R).

Lemma sqrt_alg n h r c (G g f : pser) : eqs p n (ps_mul G G) g -> r * r == c -> eqs p (n + 2 * h) f (ps_x (2 * h) (ps_mul (ps_c c) g)) ->
  eqs p (n + 2 * h) (ps_mul (ps_x h (ps_mul (ps_c r) G)) (ps_x h (ps_mul (ps_c r) G))) f.
Proof.
  intros EG Er Ef. rewrite Ef. rewrite ps_x_mul_l. rewrite (ps_x_m h _ _ _ (mul_comm p _ _ _)). rewrite (ps_x_m h _ _ _ (ps_x_mul_l _ _ _ _)), ps_x_x.
  replace (h + h)%nat with (2 * h)%nat by lia. intros k Hk. unfold ps_x. destruct (Nat.ltb_spec k (2 * h)); [reflexivity|].
  assert (Q : eqs p n (ps_mul (ps_mul (ps_c r) G) (ps_mul (ps_c r) G)) (ps_mul (ps_c c) g)).
  { rewrite mul4, EG. apply ps_mul_m; [|reflexivity]. rewrite ps_c_mul. now apply ps_c_eqm. }
  apply Q. lia.
Qed.

Lemma fps_sqrt_with_ok fuel root f : p mod 2 = 1 -> (Z.to_nat p <= fuel)%nat -> residues p f -> Z.of_nat (length f) <= p -> root_ok root (length f) ->
  exists o, fps_sqrt_with p fuel root f = Some o /\
    match o with
    | Some R => residues p R /\ eqs p (length f) (ps_mul (cf R) (cf R)) (cf f)
    | None => ~ exists S : pser, eqs p (length f) (ps_mul S S) (cf f)
    end.
Proof.
  intros Hodd Hfuel Rf Hp HR. unfold fps_sqrt_with.
  destruct (fps_low_ok f) as (k & Ek & Hk & Kz & Kn). rewrite Ek. cbn [obind].
  destruct (Nat.eqb_spec k (length f)) as [E|E].
  { exists (Some []). split; auto. split; [constructor|]. intros j Hj. unfold cf at 3. rewrite Kz by lia.
    unfold ps_mul. rewrite (zsum_ext _ _ (fun _ => 0)), zsum_0; [reflexivity|]. intros i _. unfold cf. destruct i; cbn [nth]; ring. }
  assert (Hk' : (k < length f)%nat) by lia. specialize (Kn Hk').
  pose proof (res_n p M f k Rf) as Hc.
  destruct (Nat.eqb_spec (k mod 2) 1) as [O|O].
  { exists None. split; auto. intros (S & ES). destruct (square_low f k S Rf Hk' Kz Kn ES). lia. }
  rewrite (get_nth f k 0) by lia. cbn [obind].
  destruct (C24_modular_sqrt p (nth k f 0) fuel M P Hodd ltac:(lia) Hfuel) as ((b & Eb & Sb) & Sq & _). rewrite Eb. cbn [obind].
  destruct b; cbn [negb].
  2:{ exists None. split; auto. intros (S & ES). destruct (square_low f k S Rf Hk' Kz Kn ES) as [_ Y]. apply Sb in Y. discriminate. }
  destruct (Sq (proj1 Sb eq_refl)) as (r & Er & Rr & Vr). 
  unfold fps_div_c. destruct (m_inv_eqm p P H31 (nth k f 0) Hc Kn) as (ic & Ei & Ri & Vi). rewrite Ei. cbn [obind].
  assert (Rs : residues p (fps_shr f k)). { unfold fps_shr. destruct (_ <=? _)%nat; [constructor|]. now apply (res_skipn p). }
  destruct (fps_mul_c_ok p M (fps_shr f k) ic Rs Ri) as (g & Eg & Lg & Rg & Kg). rewrite Eg. cbn [obind]. rewrite len_shr in Lg.
  rewrite !(m_signed_ok p M).
  assert (p3 : 3 <= p). { destruct (Z.eq_dec p 2) as [E2|]; [|lia]. rewrite E2 in Hodd. discriminate Hodd. }
  destruct (m_inv_eqm p P H31 (2 mod p)) as (e & Ee & Re & Ve); [apply (mod_r p M)|rewrite Z.mod_small; lia|]. rewrite Ee. cbn [obind].
  assert (G0 : nth 0 g 0 = 1).
  { rewrite Kg, nth_shr, Nat.add_0_r. rewrite (proj1 (eqm_mod_eq p _ 1 ltac:(lia)) Vi). apply Z.mod_1_l. lia. }
  assert (Ng : g <> []) by (destruct g; cbn in *; [lia|congruence]).
  pose proof (pow1_assert g Ng G0) as Ea. rewrite (m_signed_ok p M) in Ea. rewrite Ea. cbn [obind].
  destruct (HR g e Rg Ng G0 ltac:(lia)) as (G & EG & LG & RG & KG). rewrite EG. cbn [obind]. rewrite Er. cbn [obind].
  destruct (fps_mul_c_ok p M G r RG Rr) as (G1 & E1 & L1 & R1 & K1). rewrite E1. cbn [obind]. rewrite fps_shl_set_ok. cbn [obind].
  eexists. split; [reflexivity|]. split; [unfold fps_shl; apply (res_app p); auto; apply (res_repeat p M)|].
  assert (Ev : (k = 2 * (k / 2))%nat) by (pose proof (Nat.div_mod k 2 ltac:(lia)); pose proof (Nat.mod_upper_bound k 2 ltac:(lia)); lia).
  set (h := (k / 2)%nat) in *.
  assert (EX : forall n, eqs p n (cf (fps_shl G1 h)) (ps_x h (ps_mul (ps_c r) (cf G)))).
  { intros n j _. unfold cf at 1. rewrite nth_shl. unfold ps_x. destruct (_ <? _)%nat; [reflexivity|]. rewrite ps_mul_c_e. unfold cf. rewrite K1, eqm_mod. apply eq_eqm. ring. }
  rewrite (EX (length f)). replace (length f) with (length g + 2 * h)%nat by lia.
  apply (sqrt_alg (length g) h r (nth k f 0) (cf G) (cf g)).
  - apply (half_sq g G e); auto; try lia. rewrite <- Ve. apply eqm_mul_m; [symmetry; apply eqm_mod|reflexivity].
  - apply eqm_mod_eq; [lia|]. rewrite Vr. symmetry. apply Z.mod_small. lia.
  - rewrite (low_shift f k Kz). rewrite <- Ev. apply ps_x_m. intros j _. rewrite ps_mul_c_e. unfold cf. rewrite nth_skipn_add, Kg, nth_shr, eqm_mod.
    transitivity (nth (k + j) f 0 * (nth k f 0 * ic)); [rewrite Vi; apply eq_eqm; ring|apply eq_eqm; ring].
Qed.

Lemma fps_is_square_ok f : p mod 2 = 1 -> residues p f -> Z.of_nat (length f) <= p ->
  (exists tb, inv_tab p tb) ->
  exists b, fps_is_square p f = Some b /\ (b = true <-> exists S : pser, eqs p (length f) (ps_mul S S) (cf f)).
Proof.
  intros Hodd Rf Hp (tb & T).
  destruct (fps_sqrt_with_ok (Z.to_nat p) (pow1_sparse p tb) f Hodd (le_n _) Rf Hp) as (o & Eo & Ho).
  { intros g e Rg Ng G0 Lg. apply pow1_sparse_ok; auto. lia. }
  unfold fps_sqrt_with in Eo. unfold fps_is_square.
  destruct (fps_low_ok f) as (k & Ek & Hk & Kz & Kn). rewrite Ek in Eo |- *. cbn [obind] in Eo |- *.
  destruct (Nat.eqb_spec k (length f)) as [E|E].
  { injection Eo as <-. exists true. split; auto. split; auto. intros _. exists (cf []). apply Ho. }
  destruct (Nat.eqb_spec (k mod 2) 1) as [O|O].
  { injection Eo as <-. exists false. split; auto. split; [discriminate|]. intros; contradiction. }
  rewrite (get_nth f k 0) in Eo |- * by lia. cbn [obind] in Eo |- *. specialize (Kn ltac:(lia)). pose proof (res_n p M f k Rf) as Hc.
  destruct (C24_modular_sqrt p (nth k f 0) (Z.to_nat p) M P Hodd ltac:(lia) (le_n _)) as ((b & Eb & Sb) & Sq & Sn). rewrite Eb in Eo |- *. cbn [obind] in Eo.
  exists b. split; auto. destruct b; cbn [negb] in Eo.
  - split; auto. intros _. destruct o as [R|]; [exists (cf R); apply Ho|]. exfalso.
    destruct (Sq (proj1 Sb eq_refl)) as (r & Er & _). rewrite Er in Eo.
    repeat match type of Eo with (let* _ := ?x in _) = _ => destruct x; cbn [obind] in Eo; [|discriminate] end. discriminate.
  - injection Eo as <-. split; [discriminate|]. intros; contradiction.
Qed.
End P.
