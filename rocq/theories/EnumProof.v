From Coq Require Import Znumtheory.
From Verif Require Import Base BaseLemmas SearchModel NumTheory ModularModel ModularProof EnumModel.
Local Open Scope Z_scope.

(** ** Combinatorics *)
Lemma zfact_pos n : 0 < zfact n.
Proof. induction n as [|n IH]; [cbn; lia|]. cbn [zfact]. apply Z.mul_pos_pos; lia. Qed.
Lemma choose_0 p : choose p 0 = 1. Proof. now destruct p. Qed.
Lemma choose_big p : forall q, (p < q)%nat -> choose p q = 0.
Proof.
  induction p as [|p IH]; intros [|q] H; try lia; [reflexivity|]. cbn [choose].
  rewrite !IH by lia. reflexivity.
Qed.
Lemma choose_fact p : forall q, (q <= p)%nat -> choose p q * zfact q * zfact (p - q) = zfact p.
Proof.
  induction p as [|p IH]; intros q H.
  - replace q with 0%nat by lia. reflexivity.
  - destruct q as [|q]; [rewrite choose_0; cbn [zfact Nat.sub]; ring|].
    cbn [choose]. replace (S p - S q)%nat with (p - q)%nat by lia.
    destruct (Nat.eq_dec q p) as [->|N].
    + rewrite (choose_big p (S p)) by lia. pose proof (IH p ltac:(lia)) as E.
      cbn [zfact]. rewrite Z.add_0_r.
      transitivity (Z.of_nat (S p) * (choose p p * zfact p * zfact (p - p))); [ring|now rewrite E].
    + pose proof (IH q ltac:(lia)) as E1. pose proof (IH (S q) ltac:(lia)) as E2.
      assert (EF : zfact (p - q) = Z.of_nat (p - q) * zfact (p - S q)).
      { replace (p - q)%nat with (S (p - S q)) by lia. reflexivity. }
      change (zfact (S p)) with (Z.of_nat (S p) * zfact p).
      replace (Z.of_nat (S p)) with (Z.of_nat (S q) + Z.of_nat (p - q)) by lia.
      rewrite !Z.mul_add_distr_r. rewrite <- E1 at 1. rewrite <- E2. rewrite EF.
      change (zfact (S q)) with (Z.of_nat (S q) * zfact q). ring.
Qed.
Lemma falling_fact p : forall q, (q <= p)%nat -> falling p q * zfact (p - q) = zfact p.
Proof.
  induction p as [|p IH]; intros [|q] H; try lia; try (cbn [falling Nat.sub zfact]; ring).
  cbn [falling]. replace (S p - S q)%nat with (p - q)%nat by lia.
  rewrite <- Z.mul_assoc, IH by lia. reflexivity.
Qed.

Section Enum.
Variable m : Z.
Hypothesis M : 1 <= m < 2 ^ 31.
Hypothesis P : prime m.

Lemma zfact_div n : Z.of_nat n < m -> ~ (m | zfact n).
Proof.
  induction n as [|n IH]; intros H; cbn [zfact].
  - apply not_div_small; auto. pose proof (p_ge2 _ P). lia.
  - apply not_div_mul; auto; [apply not_div_small; auto; lia|apply IH; lia].
Qed.

(** The tables are right up to [en_max]. *)
Record good (s : enum) : Prop := {
  g_max : 1 <= en_max s < m;
  g_len : (Z.to_nat (en_max s) < length (en_fact s))%nat;
  g_ilen : (Z.to_nat (en_max s) < length (en_ifact s))%nat;
  g_fact : forall i, Z.of_nat i <= en_max s -> get (en_fact s) i = Some (zfact i mod m);
  g_ifact : forall i, Z.of_nat i <= en_max s ->
    exists v, get (en_ifact s) i = Some v /\ residue m v /\ eqm m (v * zfact i) 1
}.

Lemma resize_len l n : length (resize l n) = n.
Proof. unfold resize. rewrite app_length, firstn_length, repeat_length. lia. Qed.
Lemma resize_get l n i : (i < n)%nat -> (i < length l)%nat -> get (resize l n) i = get l i.
Proof.
  intros H1 H2. unfold resize. rewrite get_app_l by (rewrite firstn_length; lia). now apply get_firstn.
Qed.
Lemma mach32 x : 0 <= x < 2 ^ 31 -> mach 32 x = Some x.
Proof.
  intros H. unfold mach. change (2 ^ (32 - 1)) with (2 ^ 31).
  replace (- 2 ^ 31 <=? x) with true by lia. replace (x <? 2 ^ 31) with true by lia. reflexivity.
Qed.

Lemma set_max_n_ok s n : good s -> n < m -> (en_max s < n -> 2 * en_max s < m) ->
  exists s', set_max_n m s n = Some s' /\ good s' /\ n <= en_max s' /\ en_max s <= en_max s'.
Proof.
  intros G Hn H2. destruct G as [GM GL GI GF GIF]. unfold set_max_n.
  destruct (n <=? en_max s) eqn:En.
  { exists s. split; [reflexivity|]. split; [now constructor|lia]. }
  rewrite mach32 by lia. cbn [obind].
  assert (exists nxt, Z.max (en_max s * 2) n = nxt /\ en_max s < nxt < m /\ n <= nxt) as (nxt & EN & Hnx & Hnn).
  { eexists; split; [reflexivity|]. lia. }
  rewrite EN. rewrite mach32 by lia. cbn [obind].
  set (k := Z.to_nat (en_max s)) in *. set (N := Z.to_nat nxt).
  assert (HkN : (1 <= k < N)%nat) by lia.
  replace (Z.to_nat (nxt + 1)) with (N + 1)%nat by lia.
  match goal with |- context [for_up _ _ ?b ?s0] => set (body := b);
    destruct (@for_up_rule _ (fun i f => length f = (N + 1)%nat /\
      forall j, (j < i)%nat -> get f j = Some (zfact j mod m)) body (N - k) (k + 1) s0) as (f & E1 & L1 & F1) end.
  - split; [apply resize_len|]. intros j Hj. rewrite resize_get by lia. apply GF. lia.
  - intros i f Hi [Lf If]. unfold body. rewrite If by lia. cbn [obind].
    rewrite m_signed_ok by auto.
    rewrite m_mul_ok by (auto; apply mod_residue; auto). cbn [obind].
    rewrite set_some by lia. eexists; split; [reflexivity|]. split; [now rewrite lset_length|].
    intros j Hj. rewrite get_lset. destruct (Nat.eq_dec i j) as [->|NE].
    + rewrite Nat.eqb_refl, Lf. replace (j <? N + 1)%nat with true by lia. cbn. f_equal.
      replace j with (S (j - 1)) at 3 by lia. cbn [zfact].
      rewrite <- Z.mul_mod by lia. f_equal. replace (S (j - 1)) with j by lia. ring.
    + replace (i =? j)%nat with false by lia. cbn. apply If. lia.
  - rewrite E1. cbn [obind]. clear body E1.
    replace (k + 1 + (N - k))%nat with (N + 1)%nat in F1 by lia.
    unfold getz. replace (nxt <? 0) with false by lia. fold N. rewrite F1 by lia. cbn [obind].
    rewrite m_signed_ok by auto. rewrite (Z.mod_small 1) by (pose proof (p_ge2 _ P); lia).
    assert (ND : zfact N mod m <> 0).
    { intros E. apply Z.mod_divide in E; [|lia]. revert E. apply zfact_div. lia. }
    destruct (m_div_ok _ M P 1 (zfact N mod m)) as (q & -> & Rq & Eq); [pose proof (p_ge2 _ P); unfold residue; lia|apply mod_residue; auto|auto|].
    cbn [obind]. rewrite set_some by (rewrite resize_len; lia). cbn [obind].
    match goal with |- context [for_down _ _ ?b ?s0] => set (body := b);
      destruct (@for_down_rule _ (fun i f => length f = (N + 1)%nat /\
        (forall j, (j <= k)%nat -> get f j = get (en_ifact s) j) /\
        (forall j, (i <= j <= N)%nat -> exists v, get f j = Some v /\ residue m v /\ eqm m (v * zfact j) 1))
        body (k + 1)%nat (N - k - 1)%nat s0) as (f2 & E2 & L2 & F2 & F3) end.
    + split; [now rewrite lset_length, resize_len|]. split.
      * intros j Hj. rewrite get_lset_neq by lia. apply resize_get; lia.
      * intros j Hj. replace j with N by lia. rewrite get_lset_eq by (rewrite resize_len; lia).
        exists q. split; auto. split; auto.
        apply eqm_mod_eq; [lia|]. rewrite <- (Z.mul_mod_idemp_r q (zfact N)) by lia. rewrite Eq.
        symmetry. apply Z.mod_small. pose proof (p_ge2 _ P). lia.
    + intros i f' Hi (Lf & I1 & I2). unfold body.
      destruct (I2 (i + 1)%nat) as (v & -> & Rv & Ev); [lia|]. cbn [obind].
      rewrite m_signed_ok by auto.
      rewrite m_mul_ok by (auto; apply mod_residue; auto). cbn [obind].
      rewrite set_some by lia. eexists; split; [reflexivity|]. split; [now rewrite lset_length|]. split.
      * intros j Hj. rewrite get_lset_neq by lia. auto.
      * intros j Hj. destruct (Nat.eq_dec i j) as [->|NE].
        -- rewrite get_lset_eq by lia. eexists; split; [reflexivity|]. split; [apply mod_residue; auto|].
           eapply eqm_trans; [apply eqm_mul; [apply eqm_mod|apply eqm_refl]|].
           eapply eqm_trans; [apply eqm_mul; [apply eqm_mul; [apply eqm_refl|apply eqm_mod]|apply eqm_refl]|].
           replace (j + 1)%nat with (S j) in Ev by lia. cbn [zfact] in Ev.
           replace (Z.of_nat j + 1) with (Z.of_nat (S j)) by lia.
           rewrite <- Z.mul_assoc. exact Ev.
        -- rewrite get_lset_neq by lia. apply I2. lia.
    + replace (N - k - 1)%nat with (N - k - 1)%nat in E2 by lia. rewrite E2. cbn [obind].
      eexists; split; [reflexivity|]. cbn [en_max]. split; [|lia].
      constructor; cbn [en_max en_fact en_ifact]; try lia.
      * intros i Hi. apply F1. lia.
      * intros i Hi. destruct (Nat.le_gt_cases i k).
        -- rewrite F2 by lia. apply GIF. lia.
        -- apply F3. lia.
Qed.

Definition cap (n : option Z) : Z := match n with Some n => Z.max 1 n | None => 1 end.

Lemma grow_ok s n p : good s -> cap n <= en_max s -> e_small m n p ->
  exists s', (if en_max s <? p then set_max_n m s p else Some s) = Some s' /\ good s' /\
    cap n <= en_max s' /\ p <= en_max s'.
Proof.
  intros G C [Hp S]. fold (cap n) in S. destruct (en_max s <? p) eqn:E.
  - destruct (set_max_n_ok s p G) as (s' & -> & G' & H1 & H2); [lia|lia|]. exists s'. split; auto. split; auto. lia.
  - exists s. split; auto. split; auto. lia.
Qed.

Lemma e_fact_ok s n p : good s -> cap n <= en_max s -> e_small m n p ->
  exists s', e_fact m p s = Some (zfact (Z.to_nat p) mod m, s') /\ good s' /\ cap n <= en_max s'.
Proof.
  intros G C S. destruct (grow_ok s n p G C S) as (s' & E & G' & C' & Hp). unfold e_fact. rewrite E. cbn [obind].
  destruct S as [Hp0 _]. unfold getz. replace (p <? 0) with false by lia.
  rewrite (g_fact s' G') by lia. cbn [obind]. eauto.
Qed.
Lemma e_ifact_ok s n p : good s -> cap n <= en_max s -> e_small m n p ->
  exists v s', e_ifact m p s = Some (v, s') /\ residue m v /\ eqm m (v * zfact (Z.to_nat p)) 1 /\
    good s' /\ cap n <= en_max s'.
Proof.
  intros G C S. destruct (grow_ok s n p G C S) as (s' & E & G' & C' & Hp). unfold e_ifact. rewrite E. cbn [obind].
  destruct S as [Hp0 _]. unfold getz. replace (p <? 0) with false by lia.
  destruct (g_ifact s' G' (Z.to_nat p)) as (v & -> & R & Ev); [lia|]. cbn [obind]. exists v, s'. auto.
Qed.

(** A call that, from any good state, returns a residue satisfying [Q]. *)
Definition call_ok n (f : enum -> option (Z * enum)) (Q : Z -> Prop) : Prop :=
  forall s, good s -> cap n <= en_max s ->
  exists v s', f s = Some (v, s') /\ residue m v /\ Q v /\ good s' /\ cap n <= en_max s'.

Lemma mul_of_ok n b f g (Qf Qg : Z -> Prop) : call_ok n f Qf -> call_ok n g Qg ->
  call_ok n (mul_of m b f g) (fun v => exists x y, Qf x /\ Qg y /\ eqm m v (x * y)).
Proof.
  intros Cf Cg s G C. unfold mul_of. destruct b.
  - destruct (Cf s G C) as (x & s1 & -> & Rx & Qx & G1 & C1). cbn [obind].
    destruct (Cg s1 G1 C1) as (y & s2 & -> & Ry & Qy & G2 & C2). cbn [obind].
    rewrite m_mul_ok by auto. cbn [obind]. do 2 eexists; split; [reflexivity|].
    split; [apply mod_residue; auto|]. split; [|auto]. exists x, y. split; auto. split; auto. apply eqm_mod.
  - destruct (Cg s G C) as (y & s1 & -> & Ry & Qy & G1 & C1). cbn [obind].
    destruct (Cf s1 G1 C1) as (x & s2 & -> & Rx & Qx & G2 & C2). cbn [obind].
    rewrite m_mul_ok by auto. cbn [obind]. do 2 eexists; split; [reflexivity|].
    split; [apply mod_residue; auto|]. split; [|auto]. exists x, y. split; auto. split; auto. apply eqm_mod.
Qed.
Lemma fact_call n p : e_small m n p -> call_ok n (e_fact m p) (fun v => v = zfact (Z.to_nat p) mod m).
Proof.
  intros S s G C. destruct (e_fact_ok s n p G C S) as (s' & E & G' & C'). do 2 eexists. split; [apply E|].
  split; [apply mod_residue; auto|]. auto.
Qed.
Lemma ifact_call n p : e_small m n p -> call_ok n (e_ifact m p) (fun v => eqm m (v * zfact (Z.to_nat p)) 1).
Proof. intros S s G C. apply e_ifact_ok; auto. Qed.
Lemma small_le n p q : e_small m n p -> 0 <= q <= p -> e_small m n q.
Proof. unfold e_small. intros [A B] H. split; lia. Qed.

Lemma call_weaken n f (Q Q' : Z -> Prop) : call_ok n f Q -> (forall v, residue m v -> Q v -> Q' v) -> call_ok n f Q'.
Proof.
  intros C W s G H. destruct (C s G H) as (v & s' & E & R & K & G' & C'). exists v, s'. split; [auto|]. split; [auto|]. split; [auto|]. auto.
Qed.

Lemma step_ok n o : e_pre m n o -> call_ok n (e_step m o) (e_spec m o).
Proof.
  intros Pre. pose proof (p_ge2 _ P). destruct o as [p|p|b1 b2 p q|b p q]; cbn [e_step e_pre] in *.
  - eapply call_weaken; [apply fact_call; auto|]. intros v R Q. split; auto.
  - eapply call_weaken; [apply ifact_call; auto|]. intros v R Q. split; auto. now apply eqm_mod_eq; [lia|].
  - unfold e_cmb. destruct (p <? q) eqn:E.
    { intros s G C. do 2 eexists. split; [reflexivity|]. rewrite m_signed_ok, Z.mod_0_l by (auto; lia).
      unfold e_spec. rewrite E. assert (residue m 0) by (unfold residue; lia). auto 6. }
    destruct Pre as [Pre|[Hq S]]; [lia|]. assert (Hp : 0 <= p < m) by apply S.
    rewrite mach32 by lia. cbn [obind].
    eapply call_weaken; [apply mul_of_ok; [apply mul_of_ok; [apply fact_call; exact S|apply ifact_call; apply (small_le n p); auto; lia]
      |apply ifact_call; apply (small_le n p); auto; lia]|].
    intros v R (x & y & (x1 & x2 & Q1 & Q2 & Q3) & Qy & Qv). subst x1.
    split; [auto|]. rewrite E. apply (eqm_small m); [auto|apply mod_residue; auto|].
    eapply eqm_trans; [apply Qv|]. apply eqm_sym, eqm_mod_r, eqm_sym.
    eapply eqm_trans; [apply eqm_mul; [apply Q3|apply eqm_refl]|].
    eapply eqm_trans; [apply eqm_mul; [apply eqm_mul; [apply eqm_mod|apply eqm_refl]|apply eqm_refl]|].
    rewrite <- (choose_fact (Z.to_nat p) (Z.to_nat q)) by lia.
    replace (Z.to_nat (p - q)) with (Z.to_nat p - Z.to_nat q)%nat in Qy by lia.
    set (C := choose _ _). set (a := zfact (Z.to_nat q)) in *. set (b := zfact (_ - _)) in *.
    replace (C * a * b * x2 * y) with (C * ((x2 * a) * (y * b))) by ring.
    replace C with (C * (1 * 1)) at 2 by ring.
    apply eqm_mul; [apply eqm_refl|]. apply eqm_mul; auto.
  - unfold e_prm. destruct (p <? q) eqn:E.
    { intros s G C. do 2 eexists. split; [reflexivity|]. rewrite m_signed_ok, Z.mod_0_l by (auto; lia).
      unfold e_spec. rewrite E. assert (residue m 0) by (unfold residue; lia). auto 6. }
    destruct Pre as [Pre|[Hq S]]; [lia|]. assert (Hp : 0 <= p < m) by apply S.
    rewrite mach32 by lia. cbn [obind].
    eapply call_weaken; [apply mul_of_ok; [apply fact_call; exact S|apply ifact_call; apply (small_le n p); auto; lia]|].
    intros v R (x & y & Qx & Qy & Qv). subst x.
    split; [auto|]. rewrite E. apply (eqm_small m); [auto|apply mod_residue; auto|].
    eapply eqm_trans; [apply Qv|]. apply eqm_sym, eqm_mod_r, eqm_sym.
    eapply eqm_trans; [apply eqm_mul; [apply eqm_mod|apply eqm_refl]|].
    rewrite <- (falling_fact (Z.to_nat p) (Z.to_nat q)) by lia.
    replace (Z.to_nat (p - q)) with (Z.to_nat p - Z.to_nat q)%nat in Qy by lia.
    set (C := falling _ _). set (b' := zfact (_ - _)) in *.
    replace (C * b' * y) with (C * (y * b')) by ring.
    replace C with (C * 1) at 2 by ring.
    apply eqm_mul; [apply eqm_refl|auto].
Qed.

Lemma good_init t : (exists r, t = m_signed m 1 :: m_signed m 1 :: r) -> good (mk_enum 1 t t).
Proof.
  intros (r & ->). pose proof (p_ge2 _ P). rewrite m_signed_ok, Z.mod_small by (auto; lia).
  constructor; cbn [en_max en_fact en_ifact].
  - lia.
  - cbn. lia.
  - cbn. lia.
  - intros [|[|i]] Hi; cbn [get nth_error zfact]; try lia; f_equal; symmetry; apply Z.mod_small; lia.
  - intros [|[|i]] Hi; cbn [get nth_error zfact]; try lia; exists 1; (split; [reflexivity|]; split; [unfold residue; lia|apply eqm_refl]).
Qed.

Lemma set_max_n_first t n : good (mk_enum 1 t t) -> n < m -> 
  exists s, set_max_n m (mk_enum 1 t t) n = Some s /\ good s /\ Z.max 1 n <= en_max s.
Proof.
  intros G Hn. destruct (set_max_n_ok _ n G) as (s & E & G' & H1 & H2); [auto|cbn; lia|].
  exists s. split; auto. split; auto. cbn in H2. lia.
Qed.

Lemma e_make_ok n : (match n with Some n => - 2 ^ 31 <= n < m | None => True end) ->
  exists s, e_make m n = Some s /\ good s /\ cap n <= en_max s.
Proof.
  destruct n as [n|]; intros H; cbn [e_make].
  - unfold enum_make. replace (mach 32 (n + 1)) with (Some (n + 1)).
    2:{ unfold mach. change (2 ^ (32 - 1)) with (2 ^ 31). replace (- 2 ^ 31 <=? n + 1) with true by lia.
        replace (n + 1 <? 2 ^ 31) with true by lia. reflexivity. }
    cbn [obind]. apply set_max_n_first; [|lia]. apply good_init. eexists. reflexivity.
  - exists (enum_default m). split; [reflexivity|]. split; [apply good_init; eexists; reflexivity|cbn; lia].
Qed.

Lemma e_run_ok n h : (match n with Some n => - 2 ^ 31 <= n < m | None => True end) ->
  Forall (e_pre m n) h ->
  exists out s, e_run m n h = Some (out, s) /\ Forall2 (e_spec m) h out.
Proof.
  intros Hn F. unfold e_run. destruct (e_make_ok n Hn) as (s0 & -> & G & C). cbn [obind].
  match goal with |- context [for_each _ ?b _] => set (body := b) end.
  assert (K : forall h out s, Forall (e_pre m n) h -> good s -> cap n <= en_max s ->
    exists o2 s2, for_each h body (out, s) = Some (out ++ o2, s2) /\ Forall2 (e_spec m) h o2).
  { clear h F. induction h as [|o h IH]; intros out s F G' C'; cbn [for_each].
    - exists [], s. rewrite app_nil_r. auto.
    - inversion F as [|? ? Po F']; subst.
      destruct (step_ok n o Po s G' C') as (v & s1 & E & _ & Q & G1 & C1).
      unfold body at 1. rewrite E. cbn [obind].
      destruct (IH (out ++ [v]) s1 F' G1 C1) as (o2 & s2 & -> & FF).
      exists (v :: o2), s2. rewrite <- app_assoc. split; [reflexivity|]. constructor; auto. }
  destruct (K h [] s0 F G C) as (o & s & E & FF). exists o, s. auto.
Qed.

End Enum.
