(** Power series: exponential by doubling. *)
From Coq Require Import Setoid Morphisms Znumtheory Sorted Ring.
From Verif Require Import Base BaseLemmas NthExtra SearchModel BitModel NumTheory ModularModel ModularProof PrimRootModel NttModel NttSum NttRev NttProof NttCore ConvModel ConvSum ConvNtt PsAlg FpsModel FpsBase FpsMul FpsInv FpsSparse FpsLog FpsExp.
Local Open Scope Z_scope.
Ltac Zify.zify_post_hook ::= idtac.

Section P.
Variable p : Z.
Hypothesis P : prime p.
Hypothesis H31 : p < 2 ^ 31.
Local Notation "a == b" := (eqm p a b) (at level 70).
Let p2 : 2 <= p. Proof. now apply prime_ge_2. Qed.
Let M : 1 <= p < 2 ^ 31. Proof. lia. Qed.

(** [g] from [m] to [2 m] terms *)
Lemma exp_g_ok m e f g N : m = (2 ^ e)%nat -> length g = m -> residues p g -> residues p f -> length f = (2 * m)%nat ->
  eqs p m (ps_mul (cf f) (cf g)) (ps_c 1) -> (N <= info_log_n p)%nat -> (e + 2 <= N)%nat ->
  exists g', exp_g p (2 * m) f g = Some g' /\ length g' = (2 * m)%nat /\ residues p g' /\ eqs p (2 * m) (ps_mul (cf f) (cf g')) (ps_c 1).
Proof.
  intros Em Lg Rg Rf Lf H1 HN He. unfold exp_g. replace (2 * m / 2)%nat with m by (rewrite Nat.mul_comm, Nat.div_mul; lia).
  destruct (gg_ok p P H31 m e f g N Lg Rg Rf Em ltac:(lia) H1 HN He) as (t & Et & Rt & Kt).
  destruct (fps_mul p g g) as [t1|]; [|discriminate]. cbn [obind] in Et |- *. rewrite Et. cbn [obind]. unfold fps_ipre.
  destruct (fps_set_neg_ok p P H31 m (2 * m) (vresize t (2 * m)) (vresize g (2 * m)) (res_vresize p M _ _ Rt) (res_vresize p M _ _ Rg) ltac:(lia)
    ltac:(rewrite len_vresize; lia) ltac:(rewrite len_vresize; lia)) as (g' & Eg & Lg' & Rg' & Kg). rewrite Eg.
  exists g'. split; auto. rewrite len_vresize in Lg'. split; auto. split; auto.
  apply (newton_vec p m (2 * m) (cf f) g t g'); auto.
  - lia.
  - intros k Hk. rewrite Kg. rewrite !nth_vresize. destruct (Nat.ltb_spec k (2 * m)); [|lia].
    destruct (Nat.leb_spec m k), (Nat.ltb_spec k m); cbn [andb]; auto; lia.
Qed.

(** [q] from [m - 1] to [2 m - 1] terms of the derivative *)
Lemma exp_q_ok m h q : (1 <= m)%nat -> residues p h -> residues p q -> length q = (m - 1)%nat ->
  (forall k, (k < m - 1)%nat -> nth k q 0 == ps_d (cf h) k) ->
  exists q', exp_q p h (2 * m) q = Some q' /\ length q' = (2 * m - 1)%nat /\ residues p q' /\
    forall k, (k < 2 * m - 1)%nat -> nth k q' 0 == ps_d (cf h) k.
Proof.
  intros Hm Rh Rq Lq Kq. unfold exp_q. replace (2 * m / 2)%nat with m by (rewrite Nat.mul_comm, Nat.div_mul; lia).
  match goal with |- context [for_up _ m ?b _] => set (body := b) end.
  destruct (@for_up_rule _ (fun i g => length g = (2 * m - 1)%nat /\ residues p g /\ forall k, (k < i - 1)%nat -> nth k g 0 == ps_d (cf h) k)
    body (2 * m - m) m (vresize q (2 * m - 1))) as (R & E & L & RR & K).
  - split; [apply len_vresize|]. split; [now apply (res_vresize p M)|]. intros k Hk. rewrite nth_vresize. destruct (Nat.ltb_spec k (2 * m - 1)); [|lia]. auto.
  - intros i g Hi (Lg & Rg & Kg). unfold body. rewrite (fps_at_ok p P H31). cbn [obind]. rewrite (m_unsigned_ok p M) by lia.
    rewrite (m_mul_ok p M) by (try apply (mod_r p M); now apply (res_n p M)). cbn [obind]. rewrite set_some by lia.
    eexists. split; [reflexivity|]. rewrite lset_length. split; auto. split; [apply (res_lset p M); auto; apply (mod_r p M)|].
    intros k Hk. destruct (Nat.eq_dec k (i - 1)) as [->|Nk].
    + rewrite nth_lset_eq by lia. unfold ps_d, cf. replace (S (i - 1)) with i by lia. rewrite !eqm_mod. apply eq_eqm. ring.
    + rewrite nth_lset_neq by lia. apply Kg. lia.
  - exists R. split; [exact E|]. split; auto. split; auto. intros k Hk. apply K. lia.
Qed.

Lemma exp_t_ok tb h i c t : inv_tab p tb -> residues p h -> residues p t -> length t = c -> (1 <= i)%nat -> Z.of_nat (i + c) <= p ->
  exists R tb', exp_t p tb h i c t = Some (R, tb') /\ inv_tab p tb' /\ length R = c /\ residues p R /\
    forall k, (k < c)%nat -> Z.of_nat (i + k) * nth k R 0 == nth k t 0 + Z.of_nat (i + k) * nth (i + k) h 0.
Proof.
  intros T Rh Rt Lt Hi Hp. unfold exp_t. match goal with |- context [for_up _ 0 ?b _] => set (body := b) end.
  destruct (@for_up_rule _ (fun j '(g, tb) => inv_tab p tb /\ length g = c /\ residues p g /\
      (forall k, (k < j)%nat -> Z.of_nat (i + k) * nth k g 0 == nth k t 0 + Z.of_nat (i + k) * nth (i + k) h 0) /\
      (forall k, (j <= k)%nat -> nth k g 0 = nth k t 0))
    body c 0%nat (t, tb)) as ([R tb'] & E & T' & L & RR & K & _).
  - split; auto. split; auto. split; auto. split; [intros; lia|auto].
  - intros j [g tb1] Hj (T1 & Lg & Rg & Kg & Hg). unfold body. rewrite (get_nth g _ 0) by lia. cbn [obind].
    destruct (util_inv_ok p P H31 tb1 (i + j) T1 ltac:(lia) ltac:(lia)) as (w & tb2 & Ew & T2 & Hw & Kw). rewrite Ew. cbn [obind].
    rewrite (m_mul_ok p M) by (auto; now apply (res_n p M)). cbn [obind]. rewrite (fps_at_ok p P H31). cbn [obind].
    rewrite (m_add_ok p M) by (try apply (mod_r p M); now apply (res_n p M)). rewrite set_some by lia. cbn [obind].
    eexists. split; [reflexivity|]. cbn beta iota. split; auto. rewrite lset_length. split; auto. split; [apply (res_lset p M); auto; apply (mod_r p M)|]. split.
    + intros k Hk. destruct (Nat.eq_dec k j) as [->|Nk].
      * rewrite nth_lset_eq by lia. rewrite Hg by lia. rewrite !eqm_mod.
        transitivity ((Z.of_nat (i + j) * w) * nth j t 0 + Z.of_nat (i + j) * nth (i + j) h 0); [apply eq_eqm; ring|]. rewrite Kw. apply eq_eqm. ring.
      * rewrite nth_lset_neq by lia. apply Kg. lia.
    + intros k Hk. rewrite nth_lset_neq by lia. apply Hg. lia.
  - exists R, tb'. rewrite E. split; auto.
Qed.

Lemma exp_f_ok tb h n i N f g q : inv_tab p tb -> residues p h -> residues p f -> residues p g -> residues p q ->
  (1 <= i < n)%nat -> length f = i -> length g = i -> length q = (i - 1)%nat -> (i <= 2 ^ N)%nat -> (2 * i <= 2 ^ N)%nat -> (n <= 2 ^ N)%nat -> (N <= info_log_n p)%nat ->
  Z.of_nat n < p -> nth 0 f 0 = 1 ->
  eqs p (i - 1) (ps_d (cf f)) (ps_mul (ps_d (cf h)) (cf f)) -> eqs p i (ps_mul (cf f) (cf g)) (ps_c 1) ->
  (forall k, (k < i - 1)%nat -> nth k q 0 == ps_d (cf h) k) ->
  exists F tb', exp_f p tb h n i f g q = Some (F, tb') /\ inv_tab p tb' /\ length F = Nat.min (2 * i) n /\ residues p F /\
    (forall k, (k < i)%nat -> nth k F 0 = nth k f 0) /\
    eqs p (Nat.min (2 * i) n - 1) (ps_d (cf F)) (ps_mul (ps_d (cf h)) (cf F)).
Proof.
  intros T Rh Rf Rg Rq Hi Lf Lg Lq _ H2i Hn HN Hp F0 Hf Hg Kq. unfold exp_f. rewrite (Nat.mul_comm i 2). set (l := Nat.min (2 * i) n).
  assert (Hl : (i < l <= 2 * i)%nat /\ (l <= n)%nat) by (unfold l; lia). clearbody l. destruct Hl as [Hl Hln].
  destruct (fps_mul_ok p P H31 f q N Rf Rq ltac:(lia) ltac:(lia) HN) as (t1 & E1 & R1 & K1 & _). rewrite E1. cbn [obind]. unfold fps_ipre.
  set (t2 := fps_shr (vresize t1 (l - 1)) (i - 1)).
  assert (L2 : length t2 = (l - i)%nat) by (unfold t2; rewrite len_shr, len_vresize; lia).
  assert (R2 : residues p t2). { unfold t2, fps_shr. destruct (_ <=? _)%nat; [constructor|]. apply (res_skipn p). now apply (res_vresize p M). }
  assert (K2 : forall k, (k < l - i)%nat -> nth k t2 0 == ps_mul (cf f) (cf q) (i - 1 + k)%nat).
  { intros k Hk. unfold t2. rewrite nth_shr, nth_vresize. destruct (Nat.ltb_spec (i - 1 + k) (l - 1)); [|lia]. apply K1. }
  destruct (fps_mul_ok p P H31 t2 g N R2 Rg ltac:(lia) ltac:(lia) HN) as (t3 & E3 & R3 & K3 & _). rewrite E3. cbn [obind].
  destruct (exp_t_ok tb h i (l - i + 1) (vresize t3 (l - i + 1)) T Rh (res_vresize p M _ _ R3) (len_vresize _ _) ltac:(lia) ltac:(lia)) as (t5 & tb' & E5 & T' & L5 & R5 & K5).
  rewrite E5. cbn [obind].
  destruct (fps_mul_ok p P H31 t5 f N R5 Rf ltac:(lia) ltac:(lia) HN) as (t6 & E6 & R6 & K6 & _). rewrite E6. cbn [obind].
  destruct (for_point p M (fun j _ => nth (j - i) (vresize t6 (l - i)) 0) (fun j f => let* v := get (vresize t6 (l - i)) (j - i)%nat in set f j v) l (l - i) i (vresize f l))
    as (F & EF & LF & RF & KF).
  { intros j g0 Hj Lg0 _. rewrite (get_nth _ _ 0) by (rewrite len_vresize; lia). cbn [obind]. apply set_some. lia. }
  { intros. apply (res_n p M). now apply (res_vresize p M). }
  { lia. }
  { apply len_vresize. }
  { now apply (res_vresize p M). }
  rewrite EF. cbn [obind]. exists F, tb'. split; auto. split; auto. split; auto. split; auto.
  assert (KF' : forall k, (k < l)%nat -> nth k F 0 = if (i <=? k)%nat then nth (k - i) t6 0 else nth k f 0).
  { intros k Hk. rewrite KF. rewrite !nth_vresize. destruct (Nat.ltb_spec k (i + (l - i))); [|lia]. rewrite Bool.andb_true_r.
    destruct (Nat.leb_spec i k).
    - destruct (Nat.ltb_spec (k - i) (l - i)); [auto|lia].
    - destruct (Nat.ltb_spec k l); [auto|lia]. }
  split. { intros k Hk. rewrite KF' by lia. destruct (Nat.leb_spec i k); [lia|auto]. }
  set (FF := ps_add (cf f) (ps_mul (cf f) (ps_x i (cf t5)))).
  assert (EFF : eqs p l (cf F) FF).
  { intros k Hk. unfold cf at 1. rewrite KF' by auto. unfold FF, ps_add. rewrite ps_mul_comm_e, ps_x_mul_e. unfold ps_x.
    destruct (Nat.leb_spec i k), (Nat.ltb_spec k i); try lia.
    - unfold cf at 1. rewrite (nth_overflow f) by lia. apply K6.
    - unfold cf. apply eq_eqm. ring. }
  assert (EFd : eqs p (l - 1) (ps_d (cf F)) (ps_d FF)). { apply eqs_d. now replace (S (l - 1)) with l by lia. }
  rewrite EFd. rewrite (eqs_le p l (l - 1) _ _ ltac:(lia) EFF).
  apply (exp_step p i l (cf f) (ps_d (cf h)) (cf q) (cf g) (cf t2) (cf t3) (cf t5)); auto; try lia.
  - intros k Hk. unfold ps_x, ps_sub. destruct (Nat.ltb_spec k (i - 1)) as [C|C].
    + rewrite (Hf k C). rewrite (ps_mul_comm_e (ps_d (cf h)) (cf f) k).
      assert (Q : ps_mul (cf f) (cf q) k == ps_mul (cf f) (ps_d (cf h)) k).
      { apply (ps_mul_m p (i - 1) _ _ (reflexivity (cf f))); [|exact C]. intros j Hj. apply Kq. auto. }
      rewrite Q. apply eq_eqm. ring.
    + etransitivity; [apply K2; lia|]. replace (i - 1 + (k - (i - 1)))%nat with k by lia.
      assert (Q : ps_d (cf f) k = 0) by (unfold ps_d, cf; rewrite nth_overflow by lia; ring). rewrite Q. apply eq_eqm. ring.
  - intros k Hk. apply K3.
  - intros k Hk. unfold ps_add, ps_sub, ps_x at 2. unfold ps_d at 1, ps_x. destruct (Nat.ltb_spec (S k) i), (Nat.ltb_spec k (i - 1)); try lia.
    + unfold cf at 2. etransitivity; [|apply eqm_add_m; [apply eqm_sub_m; [reflexivity|symmetry; apply Kq; lia]|reflexivity]]. apply eq_eqm. ring.
    + unfold cf at 3. rewrite (nth_overflow q) by lia. specialize (K5 (S k - i)%nat ltac:(lia)). replace (i + (S k - i))%nat with (S k) in K5 by lia.
      unfold cf at 1. etransitivity; [exact K5|]. rewrite nth_vresize. destruct (Nat.ltb_spec (S k - i) (l - i + 1)); [|lia].
      unfold ps_d, cf. replace (k - (i - 1))%nat with (S k - i)%nat by lia. apply eq_eqm. ring.
Qed.

Definition einv (h : list Z) (n : nat) : nat * list Z * list Z * list Z * list Z -> Prop := fun '(i, f, g, q, tb) =>
  inv_tab p tb /\ (exists e, i = 2 ^ e)%nat /\ length f = Nat.min i n /\ residues p f /\ nth 0 f 0 = 1 /\
  eqs p (Nat.min i n - 1) (ps_d (cf f)) (ps_mul (ps_d (cf h)) (cf f)) /\
  ((i < n)%nat -> residues p g /\ length g = Nat.max 1 (i / 2) /\ eqs p (Nat.max 1 (i / 2)) (ps_mul (cf f) (cf g)) (ps_c 1) /\
     residues p q /\ length q = (i / 2 - 1)%nat /\ forall k, (k < i / 2 - 1)%nat -> nth k q 0 == ps_d (cf h) k).

Lemma exp_round_ok h n N i f g q tb : residues p h -> (n <= 2 ^ N)%nat -> (N <= info_log_n p)%nat -> Z.of_nat n < p -> (i < n)%nat ->
  einv h n (i, f, g, q, tb) ->
  exists f' g' q' tb', exp_round p tb h n i f g q = Some (f', g', q', tb') /\ einv h n ((i * 2)%nat, f', g', q', tb').
Proof.
  intros Rh Hn HN Hp Hi (T & (e & Ee) & Lf & Rf & F0 & Kf & X). destruct (X Hi) as (Rg & Lg & Kg & Rq & Lq & Kq). clear X. unfold exp_round.
  rewrite (Nat.min_l i n) in Lf, Kf by lia.
  assert (Pi : (1 <= i)%nat) by (subst i; pose proof (Nat.pow_nonzero 2 e ltac:(lia)); lia).
  assert (He : (e + 1 <= N)%nat). { assert (e < N)%nat; [|lia]. apply (Nat.pow_lt_mono_r_iff 2); lia. }
  assert (H2 : (2 * i <= 2 ^ N)%nat). { subst i. rewrite <- Nat.pow_succ_r'. apply Nat.pow_le_mono_r; lia. }
  assert (S : exists g1 q1, (if (1 <? i)%nat then let* g := exp_g p i f g in let* q := exp_q p h i q in Some (g, q) else Some (g, q)) = Some (g1, q1) /\
    residues p g1 /\ length g1 = i /\ eqs p i (ps_mul (cf f) (cf g1)) (ps_c 1) /\ residues p q1 /\ length q1 = (i - 1)%nat /\
    forall k, (k < i - 1)%nat -> nth k q1 0 == ps_d (cf h) k).
  { destruct (Nat.ltb_spec 1 i) as [C|C].
    - destruct e as [|e]; [cbn in Ee; lia|]. rewrite Nat.pow_succ_r' in Ee. remember (2 ^ e)%nat as m eqn:Hm.
      assert (Pm : (1 <= m)%nat) by (pose proof (Nat.pow_nonzero 2 e ltac:(lia)); lia).
      assert (Em : (i / 2 = m)%nat) by (rewrite Ee, Nat.mul_comm, Nat.div_mul; lia). rewrite Em in *. rewrite Nat.max_r in Lg, Kg by lia.

      rewrite Ee in *.
      destruct (exp_g_ok m e f g N Hm Lg Rg Rf Lf Kg HN ltac:(lia)) as (g1 & E1 & Lg1 & Rg1 & Kg1). rewrite E1. cbn [obind].
      destruct (exp_q_ok m h q Pm Rh Rq Lq Kq) as (q1 & Eq1 & Lq1 & Rq1 & Kq1). rewrite Eq1. cbn [obind].
      exists g1, q1. repeat (split; auto).
    - assert (i = 1)%nat as Ei by lia. exists g, q. split; auto. rewrite Ei in *. cbn [Nat.div Nat.divmod fst Nat.sub Nat.max] in *. repeat (split; [assumption|]). assumption. }
  destruct S as (g1 & q1 & Es & Rg1 & Lg1 & Kg1 & Rq1 & Lq1 & Kq1). rewrite Es. cbn [obind].
  destruct (exp_f_ok tb h n i N f g1 q1 T Rh Rf Rg1 Rq1 ltac:(lia) Lf Lg1 Lq1 ltac:(lia) H2 Hn HN Hp F0 Kf Kg1 Kq1) as (F & tb' & EF & T' & LF & RF & SF & KF).
  rewrite EF. cbn [obind]. exists F, g1, q1, tb'. split; auto. unfold einv. rewrite (Nat.mul_comm i 2). split; auto.
  split; [exists (S e); rewrite Nat.pow_succ_r'; lia|]. split; auto. split; auto. split; [rewrite SF by lia; auto|]. split; auto. intros _.
  replace (2 * i / 2)%nat with i by (rewrite Nat.mul_comm, Nat.div_mul; lia). rewrite Nat.max_r by lia.
  split; auto. split; auto. split; auto. rewrite <- Kg1. apply ps_mul_m; [|reflexivity]. intros k Hk. unfold cf. rewrite SF by auto. reflexivity.
Qed.

Lemma fps_exp_dense_ok tb h z n : inv_tab p tb -> residues p h -> nth 0 h 0 = 0 -> fps_deg h z = Some n -> Z.of_nat n < p -> (n <= 2 ^ info_log_n p)%nat ->
  exists R, fps_exp_dense p tb h z = Some R /\ length R = n /\ residues p R /\ ((1 <= n)%nat -> is_exp p n (cf h) (cf R)).
Proof.
  intros T Rh H0 D Hp Hn. unfold fps_exp_dense. rewrite exp_assert_ok by auto. cbn [obind]. rewrite D. cbn [obind].
  destruct (Nat.eqb_spec n 0) as [->|Nn].
  - exists []. split; auto. split; auto. split; [constructor|]. lia.
  - destruct (util_set_inv_ok p M P tb n T ltac:(lia)) as (tb0 & Et & T0 & _). rewrite Et. cbn [obind].
    match goal with |- context [loop _ ?b _] => set (body := b) end.
    destruct (@loop_rule _ _ (einv h n) (fun '(i, _, _, _, _) => n - i)%nat
      (fun R => length R = n /\ residues p R /\ is_exp p n (cf h) (cf R)) body) with (fuel := S n) (s := (1%nat, [m_signed p 1], [m_signed p 1], @nil Z, tb0))
      as (R & E & L & RR & K).
    + intros [[[[i f] g] q] tb1] I. unfold body. destruct (Nat.ltb_spec i n) as [C|C].
      * destruct (exp_round_ok h n _ i f g q tb1 Rh Hn (le_n _) Hp C I) as (f' & g' & q' & tb' & E & I'). rewrite E. cbn [obind].
        eexists. split; [reflexivity|]. cbn beta iota. split; auto. destruct I as (_ & (e & Ee) & _).
        assert (0 < i)%nat by (subst i; pose proof (Nat.pow_nonzero 2 e ltac:(lia)); lia). lia.
      * eexists. split; [reflexivity|]. destruct I as (_ & _ & Lf & Rf & F0 & Kf & _). rewrite (Nat.min_r i n) in * by lia.
        unfold fps_ipre. cbn beta iota. split; [apply len_vresize|]. split; [now apply (res_vresize p M)|].
        assert (Q : vresize f n = f) by (apply nth_ext0; [rewrite len_vresize; auto|]; intros k; rewrite nth_vresize; destruct (Nat.ltb_spec k n); auto; rewrite nth_overflow by lia; auto).
        rewrite Q. split; auto.
    + rewrite (m_signed_ok p M), Z.mod_1_l by lia. unfold einv. rewrite (Nat.min_l 1 n) by lia. split; auto. split; [exists 0%nat; reflexivity|]. split; auto.
      split; [constructor; [lia|constructor]|]. split; auto. split; [intros k Hk; lia|]. intros _. cbn [Nat.div Nat.divmod fst Nat.sub Nat.max].
      split; [constructor; [lia|constructor]|]. split; auto. split; [|split; [constructor|split; [auto|intros; lia]]].
      apply (eqs_1_unit p 1 1); auto. reflexivity.
    + lia.
    + exists R. split; [exact E|]. auto.
Qed.

Lemma fps_exp_ok tb h z n : inv_tab p tb -> residues p h -> nth 0 h 0 = 0 -> fps_deg h z = Some n -> Z.of_nat n < p ->
  (fps_count h (-1) < 100)%nat \/ (n <= 2 ^ info_log_n p)%nat ->
  exists R, fps_exp p tb h z = Some R /\ length R = (if (length h =? 0)%nat then Nat.min n 1 else n) /\ residues p R /\ ((1 <= n)%nat -> is_exp p n (cf h) (cf R)).
Proof.
  intros T Rh H0 D Hp Hn. unfold fps_exp. rewrite exp_assert_ok by auto. cbn [obind]. destruct (Nat.ltb_spec (fps_count h (-1)) 100) as [C|C].
  - apply (fps_exp_sparse_ok p P H31); auto. lia.
  - destruct Hn as [Hn|Hn]; [lia|]. destruct (fps_exp_dense_ok tb h z n T Rh H0 D Hp Hn) as (R & E & L & Q). exists R. split; auto. split; auto.
    apply count_pos in C. destruct (Nat.eqb_spec (length h) 0); [lia|auto].
Qed.
End P.
