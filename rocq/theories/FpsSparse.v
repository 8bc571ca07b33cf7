(** Sparse power series: inverse, division, product; [inv], [/], [%]. *)
From Coq Require Import Setoid Morphisms Znumtheory Sorted Ring.
From Verif Require Import Base BaseLemmas NthExtra SearchModel BitModel NumTheory ModularModel ModularProof PrimRootModel NttModel NttSum NttRev NttProof NttCore ConvModel ConvSum ConvNtt PsAlg FpsModel FpsBase FpsMul FpsInv.
Local Open Scope Z_scope.
Ltac Zify.zify_post_hook ::= idtac.

Lemma sorted_imp {A} (R Q : A -> A -> Prop) l : StronglySorted R l -> (forall x y, R x y -> Q x y) -> StronglySorted Q l.
Proof.
  induction 1 as [|x l H IH F]; intros I; constructor; auto. eapply Forall_impl; [|exact F]. cbn beta. auto.
Qed.
Lemma incr_stop s i : incr s -> StronglySorted (fun x y : nat * Z => (let '(d, _) := x in (i <? d)%nat) = true -> (let '(d, _) := y in (i <? d)%nat) = true) s.
Proof.
  intros H. apply (sorted_imp _ _ _ H). intros [d v] [d' v'] L E. cbn [fst] in L. apply Nat.ltb_lt in E. apply Nat.ltb_lt. lia.
Qed.
Lemma spc_cons d v s k : spc ((d, v) :: s) k = (if (d =? k)%nat then v else 0) + spc s k.
Proof. reflexivity. Qed.
(** all degrees of the tail are positive *)
Lemma incr_tail d v s : incr ((d, v) :: s) -> incr s /\ forall d' v', In (d', v') s -> (d < d')%nat.
Proof. intros H. apply StronglySorted_inv in H. destruct H as [H F]. split; auto. intros d' v' I. apply (proj1 (Forall_forall _ _) F _ I). Qed.

Lemma nz_dec (f : list Z) : (forall k, nth k f 0 = 0) \/ exists k, nth k f 0 <> 0.
Proof.
  induction f as [|x f IH]; [left; intros [|k]; auto|]. destruct (Z.eq_dec x 0) as [->|N]; [|right; exists 0%nat; auto].
  destruct IH as [H|(k & Hk)]; [left; intros [|k]; cbn [nth]; auto|right; exists (Datatypes.S k); auto].
Qed.
(** a product only reads the coefficients up to its index *)
Lemma ps_mul_ext a b b' k : (forall i, (i <= k)%nat -> b i = b' i) -> ps_mul a b k = ps_mul a b' k.
Proof. intros H. unfold ps_mul. apply zsum_ext. intros i Hi. rewrite H by lia. auto. Qed.
Lemma ps_mul_ext0 a b b' k : a 0%nat = 0 -> (forall i, (i < k)%nat -> b i = b' i) -> ps_mul a b k = ps_mul a b' k.
Proof.
  intros A H. unfold ps_mul. apply zsum_ext. intros i Hi. destruct i as [|i]; [rewrite A; ring|]. rewrite H by lia. auto.
Qed.

Section P.
Variable p : Z.
Hypothesis P : prime p.
Hypothesis H31 : p < 2 ^ 31.
Local Notation "a == b" := (eqm p a b) (at level 70).
Let p2 : 2 <= p. Proof. now apply prime_ge_2. Qed.
Let M : 1 <= p < 2 ^ 31. Proof. lia. Qed.

Definition sres (s : list (nat * Z)) : Prop := Forall (fun x => 0 <= snd x < p) s.

Lemma until_sum {A} (stop : A -> bool) (body : A -> Z -> option Z) (V : A -> Z) s :
  StronglySorted (fun x y => stop x = true -> stop y = true) s ->
  (forall x acc, In x s -> stop x = false -> 0 <= acc < p -> exists y, body x acc = Some y /\ 0 <= y < p /\ y == acc + V x) ->
  forall acc, 0 <= acc < p ->
  exists y, for_until s stop body acc = Some y /\ 0 <= y < p /\ y == acc + lz (fun x => if stop x then 0 else V x) s.
Proof.
  intros S B acc Ha. rewrite (for_until_filter _ _ _ S).
  assert (E : lz (fun x => if stop x then 0 else V x) s = lz V (filter (fun x => negb (stop x)) s)).
  { rewrite lz_filter. apply lz_ext. intros x _. destruct (stop x); auto. }
  rewrite E. clear E. assert (B' : forall x acc, In x (filter (fun x => negb (stop x)) s) -> 0 <= acc < p -> exists y, body x acc = Some y /\ 0 <= y < p /\ y == acc + V x).
  { intros x a I. apply filter_In in I. destruct I as [I E]. apply B; auto. now destruct (stop x). }
  clear B S. revert acc Ha. induction (filter (fun x => negb (stop x)) s) as [|x l IH]; intros acc Ha.
  - exists acc. split; auto. split; auto. cbn [lz]. apply eq_eqm. ring.
  - cbn [for_each]. destruct (B' x acc (or_introl eq_refl) Ha) as (y & E & Hy & Ey). rewrite E. cbn [obind].
    destruct (IH ltac:(intros; apply B'; auto; now right) y Hy) as (z & Ez & Hz & Kz). exists z. split; auto. split; auto.
    rewrite Kz, Ey. cbn [lz]. apply eq_eqm. ring.
Qed.

(** [s += c * g[i - d]] over the terms of degree at most [i] *)
Lemma term_sum s g i : incr s -> sres s -> residues p g -> (forall d v, In (d, v) s -> (1 <= d)%nat) -> (i <= length g)%nat ->
  exists y, for_until s (fun '(d, _) => (i <? d)%nat) (fun '(d, c) x =>
        let* a := get g (i - d)%nat in
        let* v := m_mul p c a in
        Some (m_add p x v)) (m_signed p 0) = Some y /\ 0 <= y < p /\ y == ps_mul (spc s) (cf g) i.
Proof.
  intros I S R D L. rewrite (m_signed_ok p M), Z.mod_0_l by lia.
  destruct (until_sum (fun '(d, _) => (i <? d)%nat) (fun '(d, c) x =>
        let* a := get g (i - d)%nat in let* v := m_mul p c a in Some (m_add p x v)) (fun '(d, c) => c * nth (i - d) g 0) s (incr_stop s i I)) with (acc := 0) as (y & E & Hy & K).
  - intros [d c] acc I0 E Ha. apply Nat.ltb_ge in E. specialize (D d c I0). rewrite (get_nth _ _ 0) by lia. cbn [obind].
    assert (Hc : 0 <= c < p) by (apply (proj1 (Forall_forall _ _) S _ I0)).
    rewrite (m_mul_ok p M) by (auto; now apply (res_n p M)). cbn [obind]. rewrite (m_add_ok p M) by (auto; apply (mod_r p M)).
    eexists. split; [reflexivity|]. split; [apply (mod_r p M)|]. rewrite !eqm_mod. reflexivity.
  - lia.
  - exists y. split; [exact E|]. split; auto. rewrite K. apply eq_eqm. rewrite <- (spc_mul s (cf g) i). rewrite Z.add_0_l. apply lz_ext.
    intros [d c] _. reflexivity.
Qed.

Lemma sp_inv_ok c0 s n : incr ((0%nat, c0) :: s) -> sres ((0%nat, c0) :: s) -> c0 <> 0 ->
  exists R, sp_inv p ((0%nat, c0) :: s) n = Some R /\ length R = n /\ residues p R /\
    eqs p n (ps_mul (spc ((0%nat, c0) :: s)) (cf R)) (ps_c 1).
Proof.
  intros I S N0. destruct (incr_tail _ _ _ I) as [Is Ds]. inversion S as [|? ? Sc Ss]; subst. cbn [snd] in Sc.
  unfold sp_inv. cbn [get nth_error obind Nat.eqb andb]. destruct (Z.eqb_spec c0 0); [contradiction|]. cbn [negb guard obind].
  destruct (Nat.eqb_spec n 0) as [->|Nn].
  - exists []. split; auto. split; auto. split; [constructor|]. intros k Hk. lia.
  - destruct (m_inv_eqm p P H31 c0 Sc N0) as (ifz & Ei & Ri & Vi). rewrite Ei. cbn [obind]. rewrite set_some by (rewrite repeat_length; lia). cbn [obind].
    assert (S0 : spc s 0%nat = 0) by (apply spc_low; intros; eapply Ds; eauto).
    match goal with |- context [for_up _ 1 ?b _] => set (body := b) end.
    destruct (@for_up_rule _ (fun i g => length g = n /\ residues p g /\ forall k, (k < i)%nat -> c0 * nth k g 0 + ps_mul (spc s) (cf g) k == ps_c 1 k)
      body (n - 1) 1%nat (lset (repeat 0 n) 0 ifz)) as (R & E & L & RR & K).
    + rewrite lset_length, repeat_length. split; auto. split; [apply (res_lset p M); auto; apply (res_repeat p M)|].
      intros k Hk. assert (k = 0)%nat as -> by lia. rewrite nth_lset_eq by (rewrite repeat_length; lia).
      unfold ps_mul. cbn [zsum Nat.sub]. rewrite S0, Vi. apply eq_eqm. unfold ps_c. cbn [Nat.eqb]. ring.
    + intros i g Hi (Lg & Rg & Kg). unfold body. cbn [skipn].
      destruct (term_sum s g i Is Ss Rg) as (y & Ey & Hy & Ky); [intros d v H; specialize (Ds d v H); lia|lia|]. rewrite Ey. cbn [obind].
      rewrite (m_neg_ok p M) by exact Hy. rewrite (m_mul_ok p M) by (auto; apply (mod_r p M)). cbn [obind]. rewrite set_some by lia.
      eexists. split; [reflexivity|]. rewrite lset_length. split; auto. split; [apply (res_lset p M); auto; apply (mod_r p M)|].
      intros k Hk. destruct (Nat.eq_dec k i) as [->|Nk].
      * rewrite nth_lset_eq by lia. rewrite (ps_mul_ext0 (spc s) _ (cf g)) by (auto; intros j Hj; unfold cf; rewrite nth_lset_neq by lia; auto).
        rewrite <- Ky. rewrite !eqm_mod. unfold ps_c. destruct (Nat.eqb_spec i 0); [lia|].
        transitivity (- y * (c0 * ifz) + y); [apply eq_eqm; ring|]. rewrite Vi. apply eq_eqm. ring.
      * rewrite nth_lset_neq by auto. rewrite (ps_mul_ext (spc s) _ (cf g)) by (intros j Hj; unfold cf; rewrite nth_lset_neq by lia; auto).
        apply Kg. lia.
    + exists R. split; [exact E|]. split; auto. split; auto. intros k Hk. rewrite <- (K k ltac:(lia)). apply eq_eqm.
      unfold ps_mul. rewrite zsum_shift. rewrite spc_cons, Nat.eqb_refl. rewrite (zsum_shift k (fun i => spc s i * _)). rewrite S0, Nat.sub_0_r.
      unfold cf. rewrite (zsum_ext k _ (fun i => spc s (Datatypes.S i) * nth (k - Datatypes.S i) R 0)) by (intros; rewrite spc_cons; reflexivity). ring.
Qed.

(** ** Division of a series by a sparse series *)
Lemma lset_lset {A} (l : list A) i x y : lset (lset l i x) i y = lset l i y.
Proof. revert i. induction l; intros [|i]; cbn [lset]; auto. now rewrite IHl. Qed.
Lemma lset_same (l : list Z) i : lset l i (nth i l 0) = l.
Proof. revert i. induction l; intros [|i]; cbn [lset nth]; auto. now rewrite IHl. Qed.

Definition div_body (i : nat) : nat * Z -> list Z -> option (list Z) := fun '(d, c) ret =>
      let* a := get ret (i - d)%nat in
      let* v := m_mul p a (m_neg p c) in
      let* x := get ret i in
      set ret i (m_add p x v).

Lemma div_inner i s : incr s -> sres s -> (forall d v, In (d, v) s -> (1 <= d)%nat) -> forall ret, (i < length ret)%nat -> residues p ret ->
  exists y, for_until s (fun '(d, _) => (i <? d)%nat) (div_body i) ret = Some (lset ret i y) /\ 0 <= y < p /\
    y == nth i ret 0 - ps_mul (spc s) (cf ret) i.
Proof.
  intros I S D ret L R. rewrite (for_until_filter _ _ _ (incr_stop s i I)). rewrite <- (spc_mul s (cf ret) i).
  assert (E : lz (fun '(d, v) => if (i <? d)%nat then 0 else v * cf ret (i - d)%nat) s =
    lz (fun '(d, v) => v * cf ret (i - d)%nat) (filter (fun x => negb (let '(d, _) := x in (i <? d)%nat)) s)).
  { rewrite lz_filter. apply lz_ext. intros [d v] _. destruct (i <? d)%nat; auto. }
  rewrite E. clear E.
  assert (D' : forall d v, In (d, v) (filter (fun x => negb (let '(d, _) := x in (i <? d)%nat)) s) -> (1 <= d <= i)%nat /\ 0 <= v < p).
  { intros d v H. apply filter_In in H. destruct H as [H E]. split; [|apply (proj1 (Forall_forall _ _) S _ H)]. specialize (D d v H).
    destruct (Nat.ltb_spec i d); [discriminate|lia]. }
  clear D S I. revert ret L R. induction (filter _ s) as [|[d v] l IH]; intros ret L R.
  - exists (nth i ret 0). split; [now rewrite lset_same|]. split; [now apply (res_n p M)|]. cbn [lz]. apply eq_eqm. ring.
  - cbn [for_each]. destruct (D' d v (or_introl eq_refl)) as [Hd Hv]. unfold div_body at 1. rewrite (get_nth ret _ 0), (get_nth ret i 0) by lia. cbn [obind].
    rewrite (m_neg_ok p M) by auto. rewrite (m_mul_ok p M) by (try apply (mod_r p M); now apply (res_n p M)). cbn [obind].
    rewrite (m_add_ok p M) by (try apply (mod_r p M); now apply (res_n p M)). rewrite set_some by lia. cbn [obind].
    set (y0 := (nth i ret 0 + (nth (i - d) ret 0 * (- v mod p)) mod p) mod p).
    destruct (IH ltac:(intros; apply D'; now right) (lset ret i y0)) as (y & E & Hy & K).
    + now rewrite lset_length.
    + apply (res_lset p M); auto. apply (mod_r p M).
    + exists y. rewrite lset_lset in E. split; auto. split; auto. rewrite K. rewrite nth_lset_eq by lia.
      rewrite (lz_ext (fun '(d0, v0) => v0 * cf (lset ret i y0) (i - d0)%nat) (fun '(d0, v0) => v0 * cf ret (i - d0)%nat)).
      * cbn [lz]. unfold y0. rewrite !eqm_mod. unfold cf. 
        apply eq_eqm. ring.
      * intros [d0 v0] H. destruct (D' d0 v0 (or_intror H)). unfold cf. rewrite nth_lset_neq by lia. auto.
Qed.

Lemma sp_div_one_ok f s : incr ((0%nat, 1) :: s) -> sres ((0%nat, 1) :: s) -> residues p f -> (exists k, nth k f 0 <> 0) ->
  exists R, sp_div_one p f ((0%nat, 1) :: s) = Some R /\ length R = (length f + sp_deg ((0%nat, 1%Z) :: s) - 1)%nat /\ residues p R /\
    eqs p (length R) (ps_mul (spc ((0%nat, 1) :: s)) (cf R)) (cf f).
Proof.
  intros I S Rf (k0 & Hk0). destruct (incr_tail _ _ _ I) as [Is Ds]. inversion S as [|? ? Sc Ss]; subst.
  unfold sp_div_one. destruct (fps_eq_spec p M f []) as (b & Eb & Sb). rewrite Eb. cbn [obind].
  assert (b = false) as ->. { destruct b; auto. destruct Hk0. rewrite (proj1 Sb eq_refl k0). destruct k0; auto. }
  cbn [negb guard obind get nth_error]. rewrite (m_signed_ok p M), Z.mod_1_l by lia. cbn [Z.eqb Pos.eqb guard obind].
  assert (Lf : (0 < length f)%nat). { destruct f; [destruct k0; cbn in Hk0; congruence|cbn; lia]. }
  set (dg := sp_deg ((0%nat, 1%Z) :: s)). assert (Hdg : (1 <= dg)%nat) by (unfold dg, sp_deg; lia).
  set (n := (length f + dg - 1)%nat). destruct (Nat.leb_spec (length f) n); [|unfold n in *; lia]. cbn [guard obind skipn].
  assert (S0 : spc s 0%nat = 0) by (apply spc_low; intros; eapply Ds; eauto).
  set (r0 := f ++ repeat 0 (n - length f)).
  assert (L0 : length r0 = n) by (unfold r0; rewrite app_length, repeat_length; lia).
  assert (K0 : forall k, nth k r0 0 = nth k f 0).
  { intros k. unfold r0. destruct (Nat.lt_ge_cases k (length f)); [now rewrite app_nth1|]. rewrite app_nth2, (nth_overflow f) by lia. apply nth_repeat. }
  match goal with |- context [for_up _ 1 ?b _] => set (body := b) end.
  destruct (@for_up_rule _ (fun i g => length g = n /\ residues p g /\ (forall k, (k < i)%nat -> nth k g 0 + ps_mul (spc s) (cf g) k == nth k f 0) /\
      forall k, (i <= k)%nat -> nth k g 0 = nth k f 0)
    body (n - 1) 1%nat r0) as (R & E & L & RR & K & _).
  - split; auto. split; [apply (res_app p); auto; apply (res_repeat p M)|]. split; auto. intros k Hk. assert (k = 0)%nat as -> by lia.
    unfold ps_mul. cbn [zsum Nat.sub]. rewrite S0, K0. apply eq_eqm. ring.
  - intros i g Hi (Lg & Rg & Kg & Hg). unfold body. fold (div_body i).
    destruct (div_inner i s Is Ss ltac:(intros d v H1; specialize (Ds d v H1); lia) g ltac:(lia) Rg) as (y & Ey & Hy & Ky). rewrite Ey.
    eexists. split; [reflexivity|]. rewrite lset_length. split; auto. split; [apply (res_lset p M); auto|]. split.
    + intros k Hk. destruct (Nat.eq_dec k i) as [->|Nk].
      * rewrite nth_lset_eq by lia. rewrite (ps_mul_ext0 (spc s) _ (cf g)) by (auto; intros j Hj; unfold cf; rewrite nth_lset_neq by lia; auto).
        rewrite Ky, Hg by lia. apply eq_eqm. ring.
      * rewrite nth_lset_neq by auto. rewrite (ps_mul_ext (spc s) _ (cf g)) by (intros j Hj; unfold cf; rewrite nth_lset_neq by lia; auto).
        apply Kg. lia.
    + intros k Hk. rewrite nth_lset_neq by lia. apply Hg. lia.
  - exists R. split; [exact E|]. split; auto. split; auto. intros k Hk. unfold cf at 2. rewrite <- (K k ltac:(lia)). apply eq_eqm.
    unfold ps_mul. rewrite zsum_shift. rewrite spc_cons, Nat.eqb_refl. rewrite (zsum_shift k (fun i => spc s i * _)). rewrite S0, Nat.sub_0_r.
    unfold cf. rewrite (zsum_ext k _ (fun i => spc s (Datatypes.S i) * nth (k - Datatypes.S i) R 0)) by (intros; rewrite spc_cons; reflexivity). ring.
Qed.

Lemma sp_mul_c_ok s x : sres s -> 0 < x < p ->
  sp_mul_c p s x = Some (map (fun '(d, v) => (d, (v * x) mod p)) s).
Proof.
  intros S Hx. unfold sp_mul_c. destruct (Z.eqb_spec x 0); [lia|]. cbn [negb guard obind].
  match goal with |- for_up _ _ ?b _ = _ => set (body := b) end.
  assert (K : forall t done, sres t -> for_up (length t) (length done) body (done ++ t) = Some (done ++ map (fun '(d, v) => (d, (v * x) mod p)) t)).
  { induction t as [|[d v] t IH]; intros done St; [reflexivity|]. inversion St as [|? ? Hv St']; subst. cbn [snd] in Hv. cbn [length for_up map].
    unfold body at 1. unfold get. rewrite nth_error_app2, Nat.sub_diag by lia. cbn [nth_error obind].
    rewrite (m_mul_ok p M) by (auto; unfold residue; lia). cbn [obind]. rewrite set_some by (rewrite app_length; cbn; lia). cbn [obind].
    replace (lset (done ++ (d, v) :: t) (length done) (d, (v * x) mod p)) with ((done ++ [(d, (v * x) mod p)]) ++ t).
    - specialize (IH (done ++ [(d, (v * x) mod p)]) St'). rewrite app_length in IH. cbn [length] in IH. rewrite Nat.add_1_r in IH. rewrite IH. now rewrite <- app_assoc.
    - rewrite <- app_assoc. cbn [app]. clear. induction done; cbn [app length lset]; auto. now rewrite IHdone. }
  apply (K s [] S).
Qed.

Lemma spc_scale s x k : spc (map (fun '(d, v) => (d, (v * x) mod p)) s) k == x * spc s k.
Proof.
  induction s as [|[d v] s IH]; [cbn; apply eq_eqm; ring|]. cbn [map]. rewrite !spc_cons. rewrite IH. destruct (d =? k)%nat.
  - rewrite eqm_mod. apply eq_eqm. ring.
  - apply eq_eqm. ring.
Qed.
Lemma incr_scale s x : incr s -> incr (map (fun '(d, v) => (d, (v * x) mod p)) s).
Proof.
  induction 1 as [|[d v] s H IH F]; cbn [map]; constructor; auto. apply Forall_forall. intros [d' v'] I. apply in_map_iff in I.
  destruct I as ([d2 v2] & E & I). injection E as <- _. apply (proj1 (Forall_forall _ _) F) in I. exact I.
Qed.
Lemma deg_scale s x : sp_deg (map (fun '(d, v) => (d, (v * x) mod p)) s) = sp_deg s.
Proof.
  destruct s as [|y s]; auto. cbn [map]. unfold sp_deg. f_equal.
  revert y. induction s as [|z s IH]; intros [d v]; auto. cbn [map].
  change (last ((d, v) :: z :: s) (0%nat, 0%Z)) with (last (z :: s) (0%nat, 0%Z)). rewrite <- IH. destruct z. reflexivity.
Qed.

Lemma sp_div_ok f c0 s : incr ((0%nat, c0) :: s) -> sres ((0%nat, c0) :: s) -> c0 <> 0 -> residues p f ->
  exists R, sp_div p f ((0%nat, c0) :: s) = Some R /\ residues p R /\
    eqs p (length f + sp_deg ((0%nat, c0) :: s) - 1) (ps_mul (spc ((0%nat, c0) :: s)) (cf R)) (cf f) /\
    ((forall k, nth k f 0 = 0) -> R = []) /\
    ((exists k, nth k f 0 <> 0) -> length R = (length f + sp_deg ((0%nat, c0) :: s) - 1)%nat).
Proof.
  intros I S N0 Rf. unfold sp_div. destruct (fps_eq_spec p M f []) as (b & Eb & Sb). rewrite Eb. cbn [obind]. destruct b.
  - pose proof (proj1 Sb eq_refl) as Z0. assert (Z1 : forall k, nth k f 0 = 0) by (intros k; rewrite Z0; destruct k; auto).
    exists []. split; auto. split; [constructor|]. split; [|split].
    + intros k _. unfold cf at 2. rewrite Z1. unfold ps_mul. rewrite (zsum_ext _ _ (fun _ => 0)), zsum_0; [reflexivity|].
      intros i _. unfold cf. destruct (k - i)%nat; cbn [nth]; ring.
    + auto.
    + intros (k & Hk). rewrite Z1 in Hk. congruence.
  - assert (NZ : exists k, nth k f 0 <> 0).
    { destruct (nz_dec f) as [Z0|NZ]; auto. exfalso. enough (false = true) by congruence. apply Sb. intros k. rewrite Z0. destruct k; auto. }
    cbn [get nth_error obind Nat.eqb andb]. destruct (Z.eqb_spec c0 0); [contradiction|]. cbn [negb guard obind].
    inversion S as [|? ? Sc Ss]; subst. cbn [snd] in Sc.
    rewrite (m_signed_ok p M), Z.mod_1_l by lia. destruct (Z.eqb_spec c0 1) as [->|N1].
    + destruct (sp_div_one_ok f s I S Rf NZ) as (R & E & L & RR & K). exists R. split; auto. split; auto. split; [now rewrite L in K|].
      split; auto. intros Z0. destruct NZ as (k & Hk). rewrite Z0 in Hk. congruence.
    + destruct (m_inv_eqm p P H31 c0 Sc N0) as (ic & Ei & Ri & Vi). rewrite Ei. cbn [obind].
      assert (Pic : 0 < ic < p).
      { destruct (Z.eq_dec ic 0) as [->|]; [|lia]. exfalso. rewrite Z.mul_0_r in Vi. symmetry in Vi. apply eqm_0 in Vi. apply Z.divide_1_r in Vi. lia. }
      rewrite sp_mul_c_ok by auto. cbn [obind]. set (s1 := map (fun '(d, v) => (d, (v * ic) mod p)) s). cbn [map].
      assert (E1 : (c0 * ic) mod p = 1) by (rewrite (proj1 (eqm_mod_eq p _ 1 ltac:(lia)) Vi); apply Z.mod_1_l; lia).
      pose proof (incr_scale _ ic I) as I1. pose proof (deg_scale ((0%nat, c0) :: s) ic) as D1.
      pose proof (spc_scale ((0%nat, c0) :: s) ic) as C1. cbn [map] in I1, D1, C1. fold s1 in I1, D1, C1 |- *. rewrite E1 in I1, D1, C1 |- *.
      assert (S1 : sres ((0%nat, 1) :: s1)).
      { constructor; [cbn; lia|]. apply Forall_forall. intros [d v] H. apply in_map_iff in H. destruct H as ([d' v'] & E & _). injection E as _ <-. apply (mod_r p M). }
      destruct (sp_div_one_ok f s1 I1 S1 Rf NZ) as (R & E & L & RR & K). rewrite E. cbn [obind].
      destruct (fps_mul_c_ok p M R ic RR Ri) as (R' & E' & L' & RR' & K'). exists R'. split; auto. split; auto. rewrite D1 in L. split; [|split].
      * rewrite <- L. intros k Hk. rewrite <- (K k Hk). unfold ps_mul. apply zsum_eqm. intros i Hi. rewrite C1. unfold cf at 1. rewrite K', eqm_mod. unfold cf.
        apply eq_eqm. ring.
      * intros Z0. destruct NZ as (k & Hk). rewrite Z0 in Hk. congruence.
      * intros _. lia.
Qed.

(** ** Terms of a vector *)
Lemma ties_cons f n : nth 0 f 0 <> 0 -> (0 < n)%nat -> ties f 0 n = (0%nat, nth 0 f 0) :: ties f 1 (n - 1).
Proof.
  intros N H. destruct n; [lia|]. unfold ties. cbn [seq filter]. destruct (Z.eqb_spec (nth 0 f 0) 0); [contradiction|]. cbn [negb map].
  now rewrite Nat.sub_succ, Nat.sub_0_r.
Qed.
Lemma res_ties' f lo n : residues p f -> sres (ties f lo n).
Proof. intros. now apply (res_ties p P H31). Qed.

Lemma fps_inv_sparse_ok f z n : residues p f -> f <> [] -> nth 0 f 0 <> 0 -> fps_deg f z = Some n ->
  exists R, fps_inv_sparse p f z = Some R /\ length R = n /\ residues p R /\ eqs p n (ps_mul (cf f) (cf R)) (ps_c 1).
Proof.
  intros Rf Nf N0 D. unfold fps_inv_sparse.
  assert (Lf : (0 < length f)%nat) by (destruct f; [congruence|cbn; lia]).
  assert (G0 : get f 0%nat = Some (nth 0 f 0)) by (apply get_nth; auto).
  rewrite (assert0_ok false f 0 _ G0) by (destruct (Z.eqb_spec (nth 0 f 0) 0); [contradiction|auto]). cbn [obind]. rewrite D. cbn [obind].
  destruct (Nat.eqb_spec n 0) as [->|Nn].
  - exists []. split; auto. split; auto. split; [constructor|]. intros k Hk. lia.
  - rewrite sp_of_ok. cbn [obind]. pose proof (ties_incr f (Nat.min n (length f)) 0) as I. pose proof (res_ties' f 0 (Nat.min n (length f)) Rf) as S.
    pose proof (spc_ties f (Nat.min n (length f))) as C.
    rewrite ties_cons in * by (auto; lia).
    destruct (sp_inv_ok _ _ n I S N0) as (R & E & L & RR & K). exists R. split; auto. split; auto. split; auto.
    rewrite <- K. apply ps_mul_m; [|reflexivity]. intros k Hk. rewrite C. unfold cf. destruct (Nat.ltb_spec k (Nat.min n (length f))); [reflexivity|].
    rewrite nth_overflow by lia. reflexivity.
Qed.

Lemma deg_nat f n : fps_deg f (Z.of_nat n) = Some n.
Proof.
  unfold fps_deg. destruct (Z.leb_spec (-1) (Z.of_nat n)); [|lia]. cbn [guard obind]. destruct (Z.eqb_spec (Z.of_nat n) (-1)); [lia|].
  now rewrite Nat2Z.id.
Qed.
Lemma fps_inv_ok f z n N : residues p f -> f <> [] -> nth 0 f 0 <> 0 -> fps_deg f z = Some n ->
  (fps_count f (Z.of_nat n) < 100)%nat \/ (2 * n <= 2 ^ N)%nat /\ (N <= info_log_n p)%nat ->
  exists R, fps_inv p f z = Some R /\ length R = n /\ residues p R /\ eqs p n (ps_mul (cf f) (cf R)) (ps_c 1).
Proof.
  intros Rf Nf N0 D H. unfold fps_inv. rewrite D. cbn [obind]. destruct (Nat.ltb_spec (fps_count f (Z.of_nat n)) 100) as [C|C].
  - apply fps_inv_sparse_ok; auto. apply deg_nat.
  - destruct H as [H|[H1 H2]]; [lia|]. apply (fps_inv_dense_ok p P H31 f (Z.of_nat n) n N); auto. apply deg_nat.
Qed.

(** ** Remaining sparse operations *)
Lemma sp_deg_bound s d v : incr s -> In (d, v) s -> (d < sp_deg s)%nat.
Proof.
  intros I H. pose proof (last_max s (0%nat, 0%Z) I _ H) as L. cbn [fst] in L. destruct s; [destruct H|]. unfold sp_deg. lia.
Qed.
Lemma spc_high s k : incr s -> (sp_deg s <= k)%nat -> spc s k = 0.
Proof.
  intros I H. unfold spc. rewrite (lz_ext _ (fun _ => 0)).
  - clear. induction s; cbn [lz]; auto.
  - intros [d v] J. apply (sp_deg_bound s d v I) in J. destruct (Nat.eqb_spec d k); auto. lia.
Qed.

Lemma sp_to_fps_ok s : incr s -> sres s -> exists R, sp_to_fps s = Some R /\ length R = sp_deg s /\ forall k, nth k R 0 = spc s k.
Proof.
  intros I S. destruct s as [|x0 s0] eqn:Es.
  - exists []. split; auto. split; auto. intros [|]; auto.
  - rewrite <- Es in *. assert (E0 : sp_to_fps s = for_each s (fun '(d, v) res => set res d v) (repeat 0 (sp_deg s))) by (rewrite Es; reflexivity).
    rewrite E0. clear E0.
    assert (K : forall t h, incr t -> (forall d v, In (d, v) t -> (d < length h)%nat) -> exists R,
      for_each t (fun '(d, v) res => set res d v) h = Some R /\ length R = length h /\
      forall k, (forall v, In (k, v) t -> nth k R 0 = spc t k) /\ ((forall v, ~ In (k, v) t) -> nth k R 0 = nth k h 0)).
    { induction t as [|[d v] t IH]; intros h It Ht.
      - exists h. split; auto. split; auto. intros k. split; [intros v []|auto].
      - destruct (incr_tail _ _ _ It) as [It' Dt]. cbn [for_each]. rewrite set_some by (apply (Ht d v); now left). cbn [obind].
        destruct (IH (lset h d v) It') as (R & E & L & K).
        { intros; rewrite lset_length; eapply Ht; right; eauto. }
        exists R. split; auto. rewrite lset_length in L. split; auto. intros k. destruct (K k) as [K1 K2]. split.
        + intros v0 [J|J].
          * injection J as -> ->. rewrite K2.
            -- rewrite nth_lset_eq by (apply (Ht k v0); now left). rewrite spc_cons, Nat.eqb_refl.
               rewrite spc_low by (intros; eapply Dt; eauto). ring.
            -- intros v1 J. apply Dt in J. lia.
          * rewrite (K1 v0 J). rewrite spc_cons. apply Dt in J. destruct (Nat.eqb_spec d k); [lia|ring].
        + intros N. rewrite K2 by (intros v0 J; apply (N v0); now right). rewrite nth_lset_neq; auto. intros ->. apply (N v). now left. }
    destruct (K s (repeat 0 (sp_deg s)) I) as (R & E & L & K').
    { intros d v J. rewrite repeat_length. now apply (sp_deg_bound s d v). }
    exists R. split; auto. rewrite repeat_length in L. split; auto. intros k.
    destruct (in_dec Nat.eq_dec k (map fst s)) as [J|J].
    + apply in_map_iff in J. destruct J as ([d v] & <- & J). cbn [fst]. now apply (proj1 (K' d) v).
    + rewrite (proj2 (K' k)).
      * rewrite nth_repeat. symmetry. unfold spc. rewrite (lz_ext _ (fun _ => 0)); [clear; induction s; cbn [lz]; auto|].
        intros [d v] H. destruct (Nat.eqb_spec d k) as [->|]; auto. destruct J. apply in_map_iff. exists (k, v). auto.
      * intros v H. apply J. apply in_map_iff. exists (k, v). auto.
Qed.

Lemma sp_mul_ok s r : incr s -> sres s -> residues p r ->
  exists R, sp_mul p s r = Some R /\ residues p R /\ (forall k, nth k R 0 == ps_mul (spc s) (cf r) k) /\
    length R = (if (length s =? 0)%nat || (length r =? 0)%nat then 0 else sp_deg s - 1 + length r)%nat.
Proof.
  intros I S Rr. destruct s as [|x0 s0] eqn:Es.
  { exists []. split; auto. split; [constructor|]. split; auto. intros k. unfold ps_mul, spc. cbn [lz].
    rewrite (zsum_ext _ _ (fun _ => 0)), zsum_0 by auto. destruct k; reflexivity. }
  destruct r as [|r0 r1] eqn:Er.
  { exists []. split; [now destruct x0|]. split; [constructor|]. cbn [length Nat.eqb orb]. split; auto. intros k. unfold ps_mul, cf.
    rewrite (zsum_ext _ _ (fun _ => 0)), zsum_0 by (intros; destruct (k - i)%nat; cbn [nth]; ring). destruct k; reflexivity. }
  rewrite <- Es in *. rewrite <- Er in *.
  assert (Hl : ((length s =? 0)%nat || (length r =? 0)%nat) = false) by (rewrite Es, Er; reflexivity). rewrite Hl.
  assert (D1 : (1 <= sp_deg s)%nat) by (rewrite Es; unfold sp_deg; lia).
  assert (L1 : (1 <= length r)%nat) by (rewrite Er; cbn; lia).
  set (L := (sp_deg s - 1 + length r)%nat).
  assert (A : adds p L (for_each s (fun '(d, v) res =>
        for_up (length r) 0 (fun i res =>
          let* a := get r i in
          let* v := m_mul p v a in
          let* c := get res (i + d)%nat in
          set res (i + d)%nat (m_add p c v)) res)) (ps_mul (spc s) (cf r))).
  { eapply adds_ext.
    - apply (adds_each p L _ (fun x k => let '(d, v) := x in zsum (length r) (fun i => if (i + d =? k)%nat then v * nth i r 0 else 0)) s).
      intros [d v] J. pose proof (sp_deg_bound s d v I J) as Hd.
      apply (adds_for p L _ (fun i k => if (i + d =? k)%nat then v * nth i r 0 else 0) (length r) 0).
      intros i Hi h Lh Rh. rewrite (get_nth _ _ 0) by lia. cbn [obind].
      apply (mul_add_adds p P H31 L v (nth i r 0) (i + d)); auto; [apply (proj1 (Forall_forall _ _) S _ J)|now apply (res_n p M)|unfold L; lia].
    - intros k Hk. apply eq_eqm. rewrite <- spc_mul. apply lz_ext. intros [d v] J. cbn [Nat.add].
      rewrite (zsum_ext (length r) _ (fun i => if (d + i =? k)%nat then v * nth i r 0 else 0)) by (intros; now rewrite Nat.add_comm).
      rewrite (inner_sum (length r) d k v (fun i => nth i r 0)) by (intros; now apply nth_overflow).
      destruct (Nat.leb_spec d k), (Nat.ltb_spec k d); auto; lia. }
  destruct (A (repeat 0 L) (repeat_length _ _) (res_repeat p M _)) as (h & E & Lh & Rh & K).
  exists h. split.
  { rewrite <- E. unfold sp_mul. rewrite Es, Er. unfold L. rewrite Es, Er. reflexivity. }
  split; auto. split; auto. intros k. destruct (Nat.lt_ge_cases k L) as [C|C].
  - rewrite (K k C), nth_repeat. apply eq_eqm. ring.
  - rewrite nth_overflow by lia. unfold ps_mul. rewrite (zsum_ext _ _ (fun _ => 0)), zsum_0; [reflexivity|]. intros i Hi.
    destruct (Nat.lt_ge_cases i (sp_deg s)).
    + unfold cf. rewrite (nth_overflow r) by (unfold L in C; lia). ring.
    + rewrite spc_high by auto. ring.
Qed.
End P.
