(** Power series: exponential. *)
From Coq Require Import Setoid Morphisms Znumtheory Sorted Ring.
From Verif Require Import Base BaseLemmas NthExtra SearchModel BitModel NumTheory ModularModel ModularProof PrimRootModel NttModel NttSum NttRev NttProof NttCore ConvModel ConvSum ConvNtt PsAlg FpsModel FpsBase FpsMul FpsInv FpsSparse FpsLog.
Local Open Scope Z_scope.
Ltac Zify.zify_post_hook ::= idtac.

(** [E] is the exponential of [H] up to [x^n]: [E' = H' E] and [E(0) = 1] *)
Definition is_exp (p : Z) (n : nat) (H E : pser) : Prop :=
  E 0%nat = 1 /\ eqs p (n - 1) (ps_d E) (ps_mul (ps_d H) E).

(** [x h'] *)
Definition theta (h : pser) : pser := fun k => Z.of_nat k * h k.
Lemma theta_mul h a k : ps_mul (theta h) a (S k) = ps_mul (ps_d h) a k.
Proof.
  unfold ps_mul. rewrite zsum_shift. unfold theta at 1. cbn [Z.of_nat]. rewrite !Z.mul_0_l, Z.add_0_l. apply zsum_ext. intros i Hi.
  unfold theta, ps_d. reflexivity.
Qed.
Lemma spc_theta s k : spc (map (fun '(d, v) => (d, Z.of_nat d * v)) s) k = theta (spc s) k.
Proof.
  unfold theta. induction s as [|[d v] s IH]; [unfold spc; cbn; ring|]. cbn [map]. rewrite !spc_cons, IH.
  destruct (Nat.eqb_spec d k) as [->|]; ring.
Qed.
Lemma theta_sum s (a : pser) i : lz (fun '(d, v) => if (i <? d)%nat then 0 else Z.of_nat d * v * a (i - d)%nat) s = ps_mul (theta (spc s)) a i.
Proof.
  transitivity (ps_mul (spc (map (fun '(d, v) => (d, Z.of_nat d * v)) s)) a i).
  - rewrite <- spc_mul, lz_map. apply lz_ext. intros [d v] _. reflexivity.
  - unfold ps_mul. apply zsum_ext. intros j _. now rewrite spc_theta.
Qed.

Section Id.
Variable p : Z.
Variable n : nat.
Add Ring psr : (ps_ring p n) (setoid (eqs_equiv p n) (ps_ring_ext p n)).
(** the step of the exponential: [F = f (1 + D)] *)
Lemma exp_id (f f' h' D D' : pser) : eqs p n (ps_mul f D') (ps_sub (ps_mul f h') f') ->
  eqs p n (ps_sub (ps_add f' (ps_add (ps_mul f' D) (ps_mul f D'))) (ps_mul h' (ps_add f (ps_mul f D))))
    (ps_mul D (ps_sub f' (ps_mul h' f))).
Proof. intros ->. ring. Qed.
Lemma exp_id2 (f h' q t : pser) : eqs p n (ps_mul f (ps_add (ps_sub h' q) t)) (ps_add (ps_sub (ps_mul f h') (ps_mul f q)) (ps_mul f t)).
Proof. ring. Qed.
Lemma exp_id3 (f t g : pser) : eqs p n (ps_mul f (ps_mul t g)) (ps_mul t (ps_mul f g)).
Proof. ring. Qed.
Lemma exp_id4 (a b c : pser) : eqs p n (ps_add (ps_sub a b) (ps_sub b c)) (ps_sub a c).
Proof. ring. Qed.
End Id.

Lemma van_le p m n a : (m <= n)%nat -> van p n a -> van p m a.
Proof. intros H V k Hk. apply V. lia. Qed.
Lemma van_x p m a : van p m (ps_x m a).
Proof. intros k Hk. unfold ps_x. destruct (Nat.ltb_spec k m); [reflexivity|lia]. Qed.

(** The algebra of one round: [f] is right below [x^i], [q] is [h'] below [x^(i-1)],
    [t2] is [f q - f'] divided by [x^(i-1)], [t3 = t2 g], [T5 = (h - log f) / x^i]. *)
Lemma exp_step p i l (f h' q g t2 t3 T5 : pser) : (1 <= i)%nat -> (i <= l <= 2 * i)%nat ->
  eqs p (i - 1) (ps_d f) (ps_mul h' f) -> eqs p i (ps_mul f g) (ps_c 1) ->
  eqs p (l - 1) (ps_x (i - 1) t2) (ps_sub (ps_mul f q) (ps_d f)) ->
  eqs p (l - i) t3 (ps_mul t2 g) ->
  eqs p (l - 1) (ps_d (ps_x i T5)) (ps_add (ps_sub h' q) (ps_x (i - 1) t3)) ->
  let F := ps_add f (ps_mul f (ps_x i T5)) in eqs p (l - 1) (ps_d F) (ps_mul h' F).
Proof.
  intros Hi Hl Hf Hg H2 H3 H5 F. set (D := ps_x i T5) in *.
  assert (X : forall a b, eqs p (l - i) a b -> eqs p (l - 1) (ps_x (i - 1) a) (ps_x (i - 1) b)).
  { intros a b E k Hk. unfold ps_x. destruct (Nat.ltb_spec k (i - 1)); [reflexivity|]. apply E. lia. }
  assert (E1 : eqs p (l - 1) (ps_mul f (ps_x (i - 1) t3)) (ps_x (i - 1) t2)).
  { transitivity (ps_x (i - 1) (ps_mul f t3)).
    - intros k _. apply eq_eqm. rewrite ps_mul_comm_e, ps_x_mul_e. unfold ps_x. destruct (_ <? _)%nat; auto. apply ps_mul_comm_e.
    - apply X. rewrite H3, exp_id3. rewrite (eqs_le p i (l - i) _ _ ltac:(lia) Hg). apply mul_1_r. }
  assert (E2 : eqs p (l - 1) (ps_mul f (ps_d D)) (ps_sub (ps_mul f h') (ps_d f))).
  { rewrite H5, exp_id2, E1, H2. apply exp_id4. }
  pose proof (exp_id p (l - 1) f (ps_d f) h' D (ps_d D) E2) as E3.
  apply (proj2 (van_eqs p (l - 1) _ _)).
  assert (V : van p (l - 1) (ps_mul D (ps_sub (ps_d f) (ps_mul h' f)))).
  { apply (van_le p _ (i + (i - 1))); [lia|]. apply van_mul; [apply van_x|]. apply (proj1 (van_eqs p (i - 1) _ _)). exact Hf. }
  apply (proj2 (van_0 p (l - 1) _)). rewrite <- (proj1 (van_0 p (l - 1) _) V). rewrite <- E3.
  apply ps_sub_m; [|reflexivity]. unfold F. rewrite ps_d_add, ps_d_mul. reflexivity.
Qed.

Section P.
Variable p : Z.
Hypothesis P : prime p.
Hypothesis H31 : p < 2 ^ 31.
Local Notation "a == b" := (eqm p a b) (at level 70).
Let p2 : 2 <= p. Proof. now apply prime_ge_2. Qed.
Let M : 1 <= p < 2 ^ 31. Proof. lia. Qed.

Lemma fps_at_ok h i : fps_at p h i = Some (nth i h 0).
Proof.
  unfold fps_at. destruct (Nat.ltb_spec i (length h)); [now apply get_nth|]. rewrite (m_signed_ok p M), Z.mod_0_l, nth_overflow by (auto; lia). auto.
Qed.

(** ** Sparse *)
Lemma exp_sum td ret i : incr td -> sres p td -> (forall v, In (0%nat, v) td -> v = 0) -> residues p ret -> (1 <= i)%nat -> (i <= length ret)%nat ->
  exists y, for_until td (fun '(d, _) => negb (d =? 0)%nat && (i - 1 <? d - 1)%nat) (fun '(d, v) pf =>
      if (d =? 0)%nat then Some pf
      else
        let* c := m_mul p v (m_unsigned p (Z.of_nat d)) in
        let* a := get ret (i - 1 - (d - 1))%nat in
        let* v := m_mul p a c in
        Some (m_add p pf v)) (m_signed p 0) = Some y /\ 0 <= y < p /\ y == ps_mul (theta (spc td)) (cf ret) i.
Proof.
  intros I S Z0 R Hi L. rewrite (m_signed_ok p M), Z.mod_0_l by lia.
  assert (St : forall d, (negb (d =? 0)%nat && (i - 1 <? d - 1)%nat) = (i <? d)%nat).
  { intros d. destruct (Nat.eqb_spec d 0), (Nat.ltb_spec (i - 1) (d - 1)), (Nat.ltb_spec i d); cbn [negb andb]; auto; lia. }
  destruct (until_sum p (fun '(d, _) => negb (d =? 0)%nat && (i - 1 <? d - 1)%nat) (fun '(d, v) pf =>
      if (d =? 0)%nat then Some pf
      else
        let* c := m_mul p v (m_unsigned p (Z.of_nat d)) in
        let* a := get ret (i - 1 - (d - 1))%nat in
        let* v := m_mul p a c in
        Some (m_add p pf v)) (fun '(d, v) => Z.of_nat d * v * nth (i - d) ret 0) td) with (acc := 0) as (y & E & Hy & K).
  - apply (sorted_imp _ _ _ I). intros [d v] [d' v'] Hd. cbn [fst] in Hd. rewrite !St. intros E. apply Nat.ltb_lt in E. apply Nat.ltb_lt. lia.
  - intros [d v] acc I0 E Ha. rewrite St in E. apply Nat.ltb_ge in E. destruct (Nat.eqb_spec d 0) as [->|Nd].
    + exists acc. split; auto. split; auto. cbn [Z.of_nat]. apply eq_eqm. ring.
    + assert (Hv : 0 <= v < p) by (apply (proj1 (Forall_forall _ _) S _ I0)).
      rewrite (m_unsigned_ok p M) by lia. rewrite (m_mul_ok p M) by (auto; apply (mod_r p M)). cbn [obind].
      rewrite (get_nth _ _ 0) by lia. cbn [obind]. rewrite (m_mul_ok p M) by (try apply (mod_r p M); now apply (res_n p M)). cbn [obind].
      rewrite (m_add_ok p M) by (auto; apply (mod_r p M)). eexists. split; [reflexivity|]. split; [apply (mod_r p M)|].
      rewrite !eqm_mod. replace (i - 1 - (d - 1))%nat with (i - d)%nat by lia. apply eq_eqm. ring.
  - lia.
  - exists y. split; [exact E|]. split; auto. rewrite K. apply eq_eqm. rewrite <- (theta_sum td (cf ret) i). rewrite Z.add_0_l. apply lz_ext.
    intros [d v] _. rewrite St. reflexivity.
Qed.

Lemma exp_sparse_impl_ok tb td n : inv_tab p tb -> incr td -> sres p td -> (forall v, In (0%nat, v) td -> v = 0) -> (1 <= n)%nat -> Z.of_nat n <= p ->
  exists R, exp_sparse_impl p tb td n = Some R /\ length R = n /\ residues p R /\ is_exp p n (spc td) (cf R).
Proof.
  intros T I S Z0 Hn Hp. unfold exp_sparse_impl. rewrite set_some by (rewrite repeat_length; lia). cbn [obind].
  destruct (util_set_inv_ok p M P tb (n - 1) T ltac:(lia)) as (tb0 & Et & T0 & _). rewrite Et. cbn [obind].
  match goal with |- context [for_up _ 1 ?b _] => set (body := b) end.
  destruct (@for_up_rule _ (fun i '(g, tb) => inv_tab p tb /\ length g = n /\ residues p g /\ nth 0 g 0 = 1 /\
      forall k, (1 <= k < i)%nat -> Z.of_nat k * nth k g 0 == ps_mul (theta (spc td)) (cf g) k)
    body (n - 1) 1%nat (lset (repeat 0 n) 0 (m_signed p 1), tb0)) as ([R tb'] & E & _ & L & RR & R0 & K).
  - split; auto. rewrite lset_length, repeat_length. split; auto. rewrite (m_signed_ok p M), Z.mod_1_l by lia.
    split; [apply (res_lset p M); [apply (res_repeat p M)|lia]|]. split; [now rewrite nth_lset_eq by (rewrite repeat_length; lia)|]. intros; lia.
  - intros i [g tb1] Hi (T1 & Lg & Rg & G0 & Kg). unfold body.
    destruct (exp_sum td g i I S Z0 Rg ltac:(lia) ltac:(lia)) as (y & Ey & Hy & Ky). rewrite Ey. cbn [obind].
    destruct (util_inv_ok p P H31 tb1 i T1 ltac:(lia) ltac:(lia)) as (w & tb2 & Ew & T2 & Hw & Kw). rewrite Ew. cbn [obind].
    rewrite (m_mul_ok p M) by auto. cbn [obind]. rewrite set_some by lia. cbn [obind].
    eexists. split; [reflexivity|]. cbn beta iota. split; auto. rewrite lset_length. split; auto. split; [apply (res_lset p M); auto; apply (mod_r p M)|].
    split; [now rewrite nth_lset_neq by lia|].
    assert (X : forall k, (k <= i)%nat -> ps_mul (theta (spc td)) (cf (lset g i ((y * w) mod p))) k = ps_mul (theta (spc td)) (cf g) k).
    { intros k Hk. apply ps_mul_ext0; [unfold theta; cbn [Z.of_nat]; ring|]. intros j Hj. unfold cf. now rewrite nth_lset_neq by lia. }
    intros k Hk. rewrite X by lia. destruct (Nat.eq_dec k i) as [->|Nk].
    + rewrite nth_lset_eq by lia. rewrite <- Ky. rewrite eqm_mod. transitivity (y * (Z.of_nat i * w)); [apply eq_eqm; ring|]. rewrite Kw. apply eq_eqm. ring.
    + rewrite nth_lset_neq by lia. apply Kg. lia.
  - rewrite E. cbn [obind]. exists R. split; auto. split; auto. split; auto. split; auto. intros k Hk. unfold ps_d at 1.
    etransitivity; [exact (K (Datatypes.S k) ltac:(lia))|]. rewrite theta_mul. reflexivity.
Qed.

Lemma is_exp_ext n a b R : eqs p n a b -> is_exp p n a R -> is_exp p n b R.
Proof.
  intros E [R0 K]. split; auto. rewrite K. apply ps_mul_m; [|reflexivity].
  destruct n; [intros k Hk; lia|]. rewrite Nat.sub_succ, Nat.sub_0_r. now apply eqs_d.
Qed.
Lemma is_exp_le n m a R : (m <= n)%nat -> is_exp p n a R -> is_exp p m a R.
Proof. intros H [R0 K]. split; auto. apply (eqs_le p (n - 1)); auto. lia. Qed.

Lemma exp_assert_ok h : nth 0 h 0 = 0 -> exp_assert h = Some tt.
Proof. intros H. unfold exp_assert. rewrite H. cbn [Z.eqb]. now rewrite Bool.orb_true_r. Qed.

Lemma exp_nil : is_exp p 1 (cf []) (cf [1]).
Proof. split; auto. intros k Hk. lia. Qed.
Lemma exp_nil_n n : is_exp p n (cf []) (cf [1]).
Proof.
  split; auto. intros k Hk. unfold ps_d at 1, cf at 1. cbn [nth]. unfold ps_mul. rewrite (zsum_ext _ _ (fun _ => 0)), zsum_0.
  - destruct k; apply eq_eqm; ring.
  - intros i _. unfold ps_d, cf. cbn [nth]. ring.
Qed.

Lemma fps_exp_sparse_ok tb h z n : inv_tab p tb -> residues p h -> nth 0 h 0 = 0 -> fps_deg h z = Some n -> Z.of_nat n <= p ->
  exists R, fps_exp_sparse p tb h z = Some R /\ length R = (if (length h =? 0)%nat then Nat.min n 1 else n) /\ residues p R /\
    ((1 <= n)%nat -> is_exp p n (cf h) (cf R)).
Proof.
  intros T Rh H0 D Hp. unfold fps_exp_sparse. rewrite exp_assert_ok by auto. cbn [obind]. rewrite D. cbn [obind].
  destruct (Nat.eqb_spec n 0) as [->|Nn].
  - exists []. split; auto. split; [now destruct (length h =? 0)%nat|]. split; [constructor|]. lia.
  - destruct (Nat.eqb_spec (length h) 0) as [L0|N0].
    + apply length_zero_iff_nil in L0. subst h. rewrite (m_signed_ok p M), Z.mod_1_l by lia. exists [1]. split; auto. split; [cbn [length]; lia|].
      split; [constructor; [lia|constructor]|]. intros _. apply exp_nil_n.
    + rewrite sp_of_ok. cbn [obind]. replace (Nat.min (Nat.min n (length h)) (length h)) with (Nat.min n (length h)) by lia.
      destruct (exp_sparse_impl_ok tb (ties h 0 (Nat.min n (length h))) n T (ties_incr _ _ _) (res_ties' p P H31 _ _ _ Rh)) as (R & E & L & RR & K); auto.
      { intros v V. apply ties_In in V. destruct V as (_ & -> & _). exact H0. }
      { lia. }
      exists R. split; auto. split; auto. split; auto. intros _. apply (is_exp_ext n (spc (ties h 0 (Nat.min n (length h))))); auto.
      intros k Hk. rewrite spc_ties. unfold cf. destruct (Nat.ltb_spec k (Nat.min n (length h))); [reflexivity|]. rewrite nth_overflow by lia. reflexivity.
Qed.

Lemma sp_exp_ok tb s n : inv_tab p tb -> incr s -> sres p s -> spc s 0%nat = 0 -> Z.of_nat n <= p ->
  exists R, sp_exp p tb s n = Some R /\ length R = (if (length s =? 0)%nat then Nat.min n 1 else n) /\ residues p R /\
    ((1 <= n)%nat -> is_exp p n (spc s) (cf R)).
Proof.
  intros T I S S0 Hp.
  assert (Z0 : forall v, In (0%nat, v) s -> v = 0).
  { intros v V. destruct s as [|[d v0] s]; [destruct V|]. destruct (incr_tail _ _ _ I) as [_ Dt]. rewrite spc_cons in S0. destruct V as [E|V].
    - injection E as -> ->. cbn [Nat.eqb] in S0. rewrite spc_low in S0 by (intros; eapply Dt; eauto). lia.
    - apply Dt in V. lia. }
  unfold sp_exp. destruct s as [|[d v] s].
  - cbn [guard obind length Nat.eqb]. rewrite (m_signed_ok p M), Z.mod_1_l by lia. destruct (Nat.eqb_spec n 0) as [->|Nn].
    + exists []. split; auto. split; auto. split; [constructor|]. lia.
    + exists [1]. split; auto. split; [cbn [length]; lia|]. split; [constructor; [lia|constructor]|]. intros _.
      apply (is_exp_ext n (cf [])); [|apply exp_nil_n]. intros k _. unfold cf. destruct k; reflexivity.
  - assert (G : negb (d =? 0)%nat || (v =? 0) = true).
    { destruct (Nat.eqb_spec d 0) as [->|]; auto. rewrite (Z0 v) by now left. reflexivity. }
    rewrite G. cbn [guard obind length Nat.eqb]. destruct (Nat.eqb_spec n 0) as [->|Nn].
    + exists []. split; auto. split; auto. split; [constructor|]. lia.
    + destruct (exp_sparse_impl_ok tb ((d, v) :: s) n T I S Z0 ltac:(lia) Hp) as (R & E & L & RR & K). exists R. auto.
Qed.
End P.
