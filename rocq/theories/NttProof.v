(** The levels of the transform carry out the decimations. *)
From Coq Require Import Setoid Morphisms Znumtheory.
From Verif Require Import Base BaseLemmas NthExtra SearchModel BitModel NumTheory ModularModel ModularProof PrimRootModel NttModel NttSum NttAlg NttPass NttRev.
Local Open Scope Z_scope.
Ltac Zify.zify_post_hook ::= idtac.

Section Levels.
Variable p : Z.
Hypothesis Hp : 2 <= p < 2 ^ 31.
Let M : 1 <= p < 2 ^ 31. Proof. lia. Qed.
Local Notation "a == b" := (eqm p a b) (at level 70).

Lemma em x : x mod p == x.
Proof. apply eqm_mod. Qed.
Lemma ep a : a + p == a.
Proof. unfold eqm. replace (a + p - a) with p by lia. apply Z.divide_refl. Qed.

Ltac emod :=
  repeat match goal with |- context [?x mod p] =>
    lazymatch x with context [_ mod p] => fail | _ =>
      let z := fresh "z" in let E := fresh "E" in pose proof (em x) as E; set (z := x mod p) in *; clearbody z end end;
  repeat match goal with E : ?z == _ |- _ => try rewrite E; clear E end; rewrite ?ep; apply eq_eqm; ring.

Lemma idx4 C h x : (0 < h)%nat -> (x < C * (4 * h))%nat ->
  exists c k i, (c < C)%nat /\ (k < 4)%nat /\ (i < h)%nat /\ x = (c * (4 * h) + (k * h + i))%nat.
Proof.
  intros Hh Hx. exists (x / (4 * h))%nat, ((x mod (4 * h)) / h)%nat, ((x mod (4 * h)) mod h)%nat.
  split; [apply Nat.div_lt_upper_bound; lia|]. pose proof (Nat.mod_upper_bound x (4 * h) ltac:(lia)).
  split; [apply Nat.div_lt_upper_bound; lia|]. split; [apply Nat.mod_upper_bound; lia|].
  rewrite (Nat.div_mod x (4 * h)) at 1 by lia.
  rewrite (Nat.div_mod (x mod (4 * h)) h) at 1 by lia. lia.
Qed.
Lemma res_intro f : (forall x, (x < length f)%nat -> 0 <= nth x f 0 < p) -> residues p f.
Proof.
  intros H. apply Forall_forall. intros y Hy. apply (In_nth _ _ 0) in Hy. destruct Hy as (n & Hn & <-). auto.
Qed.

Lemma out_f4_res w x wh a b c d k : 0 <= out_f4 p w x wh a b c d k < p.
Proof. unfold out_f4. destruct k as [|[|[|k]]]; apply Z.mod_pos_bound; lia. Qed.
Lemma out_i4_res w x wh a b c d k : 0 <= out_i4 p w x wh a b c d k < p.
Proof. unfold out_i4. destruct k as [|[|[|k]]]; apply Z.mod_pos_bound; lia. Qed.

Lemma out_f4_eqm wh a b c d A B C D W X : a == A -> b == B -> c == C -> d == D ->
  out_f4 p (W mod p) (X mod p) wh a b c d 0 == A + C + (B + D) /\
  out_f4 p (W mod p) (X mod p) wh a b c d 1 == (A + C - (B + D)) * X /\
  out_f4 p (W mod p) (X mod p) wh a b c d 2 == (A - C) * W + (B - D) * (W * wh) /\
  out_f4 p (W mod p) (X mod p) wh a b c d 3 == ((A - C) * W - (B - D) * (W * wh)) * X.
Proof.
  intros HA HB HC HD. unfold out_f4. repeat split; emod.
Qed.
Lemma out_i4_eqm wh a b c d A B C D W X : a == A -> b == B -> c == C -> d == D ->
  out_i4 p (W mod p) (X mod p) wh a b c d 0 == A + B * W + (C + D * W) * X /\
  out_i4 p (W mod p) (X mod p) wh a b c d 1 == A - B * W + (C - D * W) * (X * wh) /\
  out_i4 p (W mod p) (X mod p) wh a b c d 2 == A + B * W - (C + D * W) * X /\
  out_i4 p (W mod p) (X mod p) wh a b c d 3 == A - B * W - (C - D * W) * (X * wh).
Proof.
  intros HA HB HC HD. unfold out_i4. repeat split; emod.
Qed.

Variables (L : nat) (cf : list Z).
Hypothesis Lc : length cf = L.
Hypothesis Rc : residues p cf.
Hypothesis R1 : (1 <= L)%nat -> rt cf 1 == -1.
Hypothesis R2 : forall t, (t < L)%nat -> rt cf (S t) * rt cf (S t) == rt cf t.
Let R0 : rt cf 0 == 1. Proof. reflexivity. Qed.

Lemma get_rt i : (i < L)%nat -> get cf i = Some (rt cf (S i)) /\ 0 <= rt cf (S i) < p.
Proof.
  intros Hi. split; [apply get_nth; lia|]. cbn [rt]. apply res_nth; auto.
Qed.

Section Fix.
Variables (N : nat) (f0 : list Z).
Hypothesis HN : (N <= L)%nat.
Hypothesis N31 : (N < 31)%nat.
Hypothesis L0 : length f0 = (2 ^ N)%nat.
Hypothesis Q0 : residues p f0.
Let F (j : nat) : Z := nth j f0 0.

Definition at_dif (t : nat) (f : list Z) : Prop :=
  length f = (2 ^ N)%nat /\ residues p f /\
  forall c i, (c < 2 ^ t)%nat -> (i < 2 ^ (N - t))%nat -> nth (c * 2 ^ (N - t) + i) f 0 == dif (rt cf) N F t c i.
Definition at_dit (t : nat) (f : list Z) : Prop :=
  length f = (2 ^ N)%nat /\ residues p f /\
  forall c i, (c < 2 ^ (N - t))%nat -> (i < 2 ^ t)%nat -> nth (c * 2 ^ t + i) f 0 == dit (rt cf) F t c i.

Lemma pow_split a b : (a <= b)%nat -> (2 ^ b = 2 ^ a * 2 ^ (b - a))%nat.
Proof. intros. rewrite <- Nat.pow_add_r. f_equal. lia. Qed.
Lemma pow_pos a : (0 < 2 ^ a)%nat.
Proof. pose proof (Nat.pow_nonzero 2 a). lia. Qed.
Lemma pow_two a : (2 ^ S (S a) = 4 * 2 ^ a)%nat.
Proof. rewrite !Nat.pow_succ_r'. lia. Qed.
Lemma z63 a : (a < 31)%nat -> 0 <= Z.of_nat (2 ^ a) < 2 ^ 63.
Proof.
  intros H. split; [lia|]. rewrite Nat2Z.inj_pow. change (Z.of_nat 2) with 2. apply Z.pow_lt_mono_r; lia.
Qed.
Lemma get_val (f : list Z) x v : get f x = Some v -> nth x f 0 = v.
Proof. intros H. exact (@nth_get _ _ _ _ 0 H). Qed.

Lemma fwd4_level t f : (t + 2 <= N)%nat -> at_dif t f ->
  exists f', (let* w0 := get cf (N - t - 1) in let* w1 := get cf (N - t - 1 - 1) in
    let* wh := m_pow p w0 (Z.of_nat (2 ^ (N - t - 1) / 2)) in
    fwd4 p (2 ^ N) (2 ^ (N - t - 1)) w0 w1 wh f) = Some f' /\ at_dif (t + 2) f'.
Proof.
  intros Ht (Lf & Rf & K).
  destruct (get_rt (N - t - 1)) as [G0 B0]; [lia|]. destruct (get_rt (N - t - 1 - 1)) as [G1 B1]; [lia|].
  rewrite G0, G1. cbn [obind]. replace (S (N - t - 1)) with (N - t)%nat in * by lia.
  replace (S (N - t - 1 - 1)) with (N - S t)%nat in * by lia.
  remember (N - t - 2)%nat as e eqn:Ee. replace (N - t - 1)%nat with (S e) by lia.
  set (h := (2 ^ e)%nat). assert (Hh : (0 < h)%nat) by apply pow_pos.
  replace (2 ^ S e)%nat with (2 * h)%nat by (unfold h; now rewrite Nat.pow_succ_r').
  replace (2 * h / 2)%nat with h by (rewrite Nat.mul_comm, Nat.div_mul; lia).
  rewrite m_pow_ok by (auto; apply z63; lia). cbn [obind].
  assert (ES : (2 ^ (N - t) = 4 * h)%nat) by (replace (N - t)%nat with (S (S e)) by lia; apply pow_two).
  assert (EN : (2 ^ N = 2 ^ t * (4 * h))%nat) by (rewrite (pow_split t N) by lia; now rewrite ES).
  rewrite EN. rewrite EN in Lf.
  destruct (fwd4_ok p Hp (2 ^ t) h (rt cf (N - t)) (rt cf (N - S t)) (rt cf (N - t) ^ Z.of_nat h mod p) f Hh Lf Rf B0 B1)
    as (f' & E & L' & G); [apply Z.mod_pos_bound; lia|].
  exists f'. split; [exact E|]. split; [rewrite EN; lia|]. split.
  - apply res_intro. rewrite L', Lf. intros x Hx. destruct (idx4 _ _ _ Hh Hx) as (c & k & i & Hc & Hk & Hi & ->).
    rewrite (get_val _ _ _ (G c k i Hc Hk Hi)). apply out_f4_res.
  - replace (t + 2)%nat with (S (S t)) by lia. intros c' i. rewrite pow_two.
    replace (N - S (S t))%nat with e by lia. fold h. intros Hc' Hi.
    set (c := (c' / 4)%nat). set (k := (c' mod 4)%nat).
    assert (Ec : c' = (4 * c + k)%nat) by (apply Nat.div_mod; lia).
    assert (Hk : (k < 4)%nat) by (apply Nat.mod_upper_bound; lia).
    assert (Hc : (c < 2 ^ t)%nat) by lia. clearbody c k. subst c'.
    replace ((4 * c + k) * h + i)%nat with (c * (4 * h) + (k * h + i))%nat by ring.
    rewrite (get_val _ _ _ (G c k i Hc Hk Hi)).
    assert (V : forall q, (q < 4)%nat -> at4 f h c q i == dif (rt cf) N F t c (q * h + i)).
    { intros q Hq. unfold at4. rewrite <- ES. apply K; [lia|]. rewrite ES. nia. }
    pose proof (V 0%nat ltac:(lia)) as V0. pose proof (V 1%nat ltac:(lia)) as V1.
    pose proof (V 2%nat ltac:(lia)) as V2. pose proof (V 3%nat ltac:(lia)) as V3. clear V.
    destruct (out_f4_eqm (rt cf (N - t) ^ Z.of_nat h mod p) _ _ _ _ _ _ _ _ (pw (rt cf (N - t)) i) (pw (rt cf (N - S t)) i) V0 V1 V2 V3)
      as (O0 & O1 & O2 & O3).
    assert (DE : forall j, dif (rt cf) N F (S t) (2 * c) j = dif (rt cf) N F t c j + dif (rt cf) N F t c (j + 2 * h)).
    { intros j. rewrite (dif_even p L (rt cf) R1 R2 N F HN t) by lia. replace (N - S t)%nat with (S e) by lia. now rewrite Nat.pow_succ_r'. }
    assert (DO : forall j, dif (rt cf) N F (S t) (2 * c + 1) j ==
      (dif (rt cf) N F t c j - dif (rt cf) N F t c (j + 2 * h)) * pw (rt cf (N - t)) j).
    { intros j. rewrite (dif_odd p L (rt cf) R0 R1 R2 N F HN t c j) by lia. replace (N - S t)%nat with (S e) by lia.
      now rewrite Nat.pow_succ_r'. }
    assert (WH : pw (rt cf (N - t)) (i + h) == pw (rt cf (N - t)) i * (rt cf (N - t) ^ Z.of_nat h mod p)).
    { rewrite em. rewrite pw_add. reflexivity. }
    assert (EH : (2 ^ (N - S (S t)) = h)%nat) by (unfold h; f_equal; lia).
    destruct k as [|[|[|[|k]]]]; [| | | |lia].
    + rewrite O0. replace (4 * c + 0)%nat with (2 * (2 * c))%nat by lia.
      rewrite (dif_even p L (rt cf) R1 R2 N F HN (S t)) by lia. rewrite EH, !DE.
      replace (0 * h + i)%nat with i by lia. replace (1 * h + i)%nat with (i + h)%nat by lia.
      replace (i + h + 2 * h)%nat with (3 * h + i)%nat by lia. replace (i + 2 * h)%nat with (2 * h + i)%nat by lia. reflexivity.
    + rewrite O1. replace (4 * c + 1)%nat with (2 * (2 * c) + 1)%nat by lia.
      rewrite (dif_odd p L (rt cf) R0 R1 R2 N F HN (S t)) by lia. rewrite EH, !DE.
      replace (0 * h + i)%nat with i by lia. replace (1 * h + i)%nat with (i + h)%nat by lia.
      replace (i + h + 2 * h)%nat with (3 * h + i)%nat by lia. replace (i + 2 * h)%nat with (2 * h + i)%nat by lia. reflexivity.
    + rewrite O2. replace (4 * c + 2)%nat with (2 * (2 * c + 1))%nat by lia.
      rewrite (dif_even p L (rt cf) R1 R2 N F HN (S t)) by lia. rewrite EH, !DO, WH.
      replace (0 * h + i)%nat with i by lia. replace (1 * h + i)%nat with (i + h)%nat by lia.
      replace (i + h + 2 * h)%nat with (3 * h + i)%nat by lia. replace (i + 2 * h)%nat with (2 * h + i)%nat by lia. reflexivity.
    + rewrite O3. replace (4 * c + 3)%nat with (2 * (2 * c + 1) + 1)%nat by lia.
      rewrite (dif_odd p L (rt cf) R0 R1 R2 N F HN (S t)) by lia. rewrite EH, !DO, WH.
      replace (0 * h + i)%nat with i by lia. replace (1 * h + i)%nat with (i + h)%nat by lia.
      replace (i + h + 2 * h)%nat with (3 * h + i)%nat by lia. replace (i + 2 * h)%nat with (2 * h + i)%nat by lia. reflexivity.
Qed.

Lemma fwd2_level t f : (S t = N)%nat -> at_dif t f ->
  exists f', (let* w0 := get cf 0 in fwd2 p (2 ^ N) 1 w0 f) = Some f' /\ at_dif N f'.
Proof.
  intros Ht (Lf & Rf & K). destruct (get_rt 0) as [G0 B0]; [lia|]. rewrite G0. cbn [obind].
  assert (EN : (2 ^ N = 2 ^ t * 2)%nat) by (rewrite <- Ht, Nat.pow_succ_r'; lia).
  replace (N - t)%nat with 1%nat in K by lia. change (2 ^ 1)%nat with 2%nat in K.
  rewrite EN. rewrite EN in Lf.
  destruct (fwd2_ok p Hp (2 ^ t) (rt cf 1) f Lf Rf B0) as (f' & E & L' & G).
  exists f'. split; [exact E|]. split; [rewrite EN; lia|]. split.
  - apply res_intro. rewrite L', Lf. intros x Hx. destruct (Nat.Even_or_Odd x) as [[c ->]|[c ->]].
    + destruct (G c) as [A _]; [lia|]. replace (2 * c)%nat with (c * 2 + 0)%nat by lia. rewrite (get_val _ _ _ A). apply Z.mod_pos_bound; lia.
    + destruct (G c) as [_ A]; [lia|]. replace (2 * c + 1)%nat with (c * 2 + 1)%nat by lia. rewrite (get_val _ _ _ A). apply Z.mod_pos_bound; lia.
  - rewrite Nat.sub_diag. change (2 ^ 0)%nat with 1%nat. intros c' i Hc' Hi. assert (i = 0)%nat as -> by lia.
    rewrite EN in Hc'. rewrite Nat.mul_1_r.
    assert (E0 : (2 ^ (N - S t) = 1)%nat) by (replace (N - S t)%nat with 0%nat by lia; reflexivity).
    destruct (Nat.Even_or_Odd c') as [[c ->]|[c ->]].
    + destruct (G c) as [A _]; [lia|]. replace (2 * c + 0)%nat with (c * 2 + 0)%nat by lia. rewrite (get_val _ _ _ A), em.
      replace (dif (rt cf) N F N (2 * c) 0) with (dif (rt cf) N F (S t) (2 * c) 0) by (now rewrite Ht). rewrite (dif_even p L (rt cf) R1 R2 N F HN t) by lia. rewrite E0.
      rewrite <- (K c 0%nat), <- (K c (0 + 1)%nat) by lia. rewrite Nat.add_0_r. reflexivity.
    + destruct (G c) as [_ A]; [lia|]. replace (2 * c + 1 + 0)%nat with (c * 2 + 1)%nat by lia. rewrite (get_val _ _ _ A), em.
      replace (dif (rt cf) N F N (2 * c + 1) 0) with (dif (rt cf) N F (S t) (2 * c + 1) 0) by (now rewrite Ht). rewrite (dif_odd p L (rt cf) R0 R1 R2 N F HN t) by lia. rewrite E0.
      rewrite <- (K c 0%nat), <- (K c (0 + 1)%nat) by lia. rewrite Nat.add_0_r, pw_0, Z.mul_1_r. reflexivity.
Qed.

Lemma fwd_levels_ok : exists f', fwd_levels p N cf f0 = Some f' /\ at_dif N f'.
Proof.
  unfold fwd_levels. match goal with |- context [loop _ ?bd _] => set (body := bd) end.
  destruct (@loop_rule _ _ (fun '(k, f) => (k <= N)%nat /\ at_dif (N - k) f) (fun '(k, f) => k) (fun f => at_dif N f) body)
    with (fuel := S N) (s := (N, f0)) as (f' & E & H).
  - intros [k f] (Hk & A). unfold body. destruct (Nat.eqb_spec k 0) as [->|Nk].
    { eexists; split; [reflexivity|]. cbn. now rewrite Nat.sub_0_r in A. }
    destruct (Nat.eqb_spec (k - 1) 0) as [E1|N1].
    + destruct (fwd2_level (N - k) f) as (f' & E & A'); [lia|auto|].
      rewrite E1. change (2 ^ 0)%nat with 1%nat.
      destruct (get cf 0) as [w0|]; [|discriminate]. cbn [obind] in *. rewrite E. cbn [obind].
      eexists; split; [reflexivity|]. cbn beta iota. split; [split; [lia|]|lia].
      now replace (N - (k - 2))%nat with N by lia.
    + destruct (fwd4_level (N - k) f) as (f' & E & A'); [lia|auto|].
      replace (N - (N - k))%nat with k in E by lia.
      destruct (get cf (k - 1)) as [w0|]; [|discriminate]. cbn [obind] in *. rewrite E. cbn [obind].
      eexists; split; [reflexivity|]. cbn beta iota. split; [split; [lia|]|lia].
      now replace (N - (k - 2))%nat with (N - k + 2)%nat by lia.
  - split; [lia|]. rewrite Nat.sub_diag. split; auto. split; auto. rewrite Nat.sub_0_r.
    intros c i Hc Hi. change (2 ^ 0)%nat with 1%nat in Hc. assert (c = 0)%nat as -> by lia.
    rewrite dif_start. reflexivity.
  - cbn. lia.
  - eauto.
Qed.

Lemma inv2_level f : (1 <= N)%nat -> at_dit 0 f -> exists f', inv2 p (2 ^ N) f = Some f' /\ at_dit 1 f'.
Proof.
  intros H1 (Lf & Rf & K). rewrite Nat.sub_0_r in K. change (2 ^ 0)%nat with 1%nat in K.
  assert (EN : (2 ^ N = 2 ^ (N - 1) * 2)%nat).
  { replace N with (S (N - 1)) at 1 by lia. rewrite Nat.pow_succ_r'. lia. }
  rewrite EN in *. destruct (inv2_ok p Hp (2 ^ (N - 1)) f) as (f' & E & L' & G); auto.
  exists f'. split; [exact E|]. split; [rewrite EN; lia|]. split.
  - apply res_intro. rewrite L', Lf. intros x Hx. destruct (Nat.Even_or_Odd x) as [[c ->]|[c ->]].
    + destruct (G c) as [A _]; [lia|]. replace (2 * c)%nat with (c * 2 + 0)%nat by lia. rewrite (get_val _ _ _ A). apply Z.mod_pos_bound; lia.
    + destruct (G c) as [_ A]; [lia|]. replace (2 * c + 1)%nat with (c * 2 + 1)%nat by lia. rewrite (get_val _ _ _ A). apply Z.mod_pos_bound; lia.
  - change (2 ^ 1)%nat with 2%nat. intros c i Hc Hi. destruct (G c Hc) as [A B].
    pose proof (K (2 * c)%nat 0%nat ltac:(lia) ltac:(lia)) as K0. pose proof (K (2 * c + 1)%nat 0%nat ltac:(lia) ltac:(lia)) as K1.
    replace (2 * c * 1 + 0)%nat with (c * 2)%nat in K0 by lia. replace ((2 * c + 1) * 1 + 0)%nat with (c * 2 + 1)%nat in K1 by lia.
    assert (i = 0 \/ i = 1)%nat as [->| ->] by lia.
    + rewrite (get_val _ _ _ A), em. rewrite (dit_low p L (rt cf) R1 R2 F 0 c 0) by lia. rewrite pw_0, Z.mul_1_r, K0, K1. reflexivity.
    + rewrite (get_val _ _ _ B), em. change 1%nat with (0 + 2 ^ 0)%nat at 3.
      rewrite (dit_high p L (rt cf) R0 R1 R2 F 0 c 0) by lia. rewrite pw_0, Z.mul_1_r, K0, K1. reflexivity.
Qed.

Lemma inv4_level t f : (t + 2 <= N)%nat -> at_dit t f ->
  exists f', (let* w0 := get cf t in let* w1 := get cf (t + 1) in
    let* wh := m_pow p w1 (Z.of_nat (2 ^ (t + 1) / 2)) in
    inv4 p (2 ^ N) (2 ^ (t + 1)) w0 w1 wh f) = Some f' /\ at_dit (t + 2) f'.
Proof.
  intros Ht (Lf & Rf & K).
  replace (t + 1)%nat with (S t) by lia.
  destruct (get_rt t) as [G0 B0]; [lia|]. destruct (get_rt (S t)) as [G1 B1]; [lia|].
  rewrite G0, G1. cbn [obind].
  remember (2 ^ t)%nat as h eqn:Eh. assert (Hh : (0 < h)%nat) by (subst h; apply pow_pos).
  replace (2 ^ S t)%nat with (2 * h)%nat by (subst h; now rewrite Nat.pow_succ_r').
  replace (2 * h / 2)%nat with h by (rewrite Nat.mul_comm, Nat.div_mul; lia).
  rewrite m_pow_ok by (auto; subst h; apply z63; lia). cbn [obind].
  remember (2 ^ (N - (t + 2)))%nat as C eqn:EC.
  assert (ES : (2 ^ (N - t) = 4 * C)%nat) by (replace (N - t)%nat with (S (S (N - (t + 2)))) by lia; rewrite pow_two; now subst C).
  assert (EN : (2 ^ N = C * (4 * h))%nat).
  { rewrite (pow_split t N) by lia. rewrite ES, <- Eh. lia. }
  rewrite EN. rewrite EN in Lf.
  destruct (inv4_ok p Hp C h (rt cf (S t)) (rt cf (S (S t))) (rt cf (S (S t)) ^ Z.of_nat h mod p) f Hh Lf Rf B0 B1)
    as (f' & E & L' & G); [apply Z.mod_pos_bound; lia|].
  exists f'. split; [exact E|]. split; [rewrite EN; lia|]. split.
  - apply res_intro. rewrite L', Lf. intros x Hx. destruct (idx4 _ _ _ Hh Hx) as (c & k & i & Hc & Hk & Hi & ->).
    rewrite (get_val _ _ _ (G c k i Hc Hk Hi)). apply out_i4_res.
  - replace (2 ^ (t + 2))%nat with (4 * h)%nat by (rewrite Eh, <- pow_two; f_equal; lia).
    intros c i'. rewrite <- EC. intros Hc Hi'.
    set (k := (i' / h)%nat). set (i := (i' mod h)%nat).
    assert (Ei : i' = (k * h + i)%nat) by (rewrite (Nat.mul_comm k h); apply Nat.div_mod; lia).
    assert (Hi : (i < h)%nat) by (apply Nat.mod_upper_bound; lia).
    assert (Hk : (k < 4)%nat) by (apply Nat.div_lt_upper_bound; lia). clearbody i k. subst i'.
    rewrite (get_val _ _ _ (G c k i Hc Hk Hi)).
    assert (V : forall q, (q < 4)%nat -> at4 f h c q i == dit (rt cf) F t (4 * c + q) i).
    { intros q Hq. unfold at4. replace (c * (4 * h) + (q * h + i))%nat with ((4 * c + q) * h + i)%nat by ring.
      apply K; [|auto]. rewrite ES. lia. }
    pose proof (V 0%nat ltac:(lia)) as V0. pose proof (V 1%nat ltac:(lia)) as V1.
    pose proof (V 2%nat ltac:(lia)) as V2. pose proof (V 3%nat ltac:(lia)) as V3. clear V.
    destruct (out_i4_eqm (rt cf (S (S t)) ^ Z.of_nat h mod p) _ _ _ _ _ _ _ _ (pw (rt cf (S t)) i) (pw (rt cf (S (S t))) i) V0 V1 V2 V3)
      as (O0 & O1 & O2 & O3).
    assert (LO : forall c, dit (rt cf) F (S t) c i == dit (rt cf) F t (2 * c) i + dit (rt cf) F t (2 * c + 1) i * pw (rt cf (S t)) i)
      by (intros; apply (dit_low p L (rt cf) R1 R2); lia).
    assert (HI : forall c, dit (rt cf) F (S t) c (i + h) == dit (rt cf) F t (2 * c) i - dit (rt cf) F t (2 * c + 1) i * pw (rt cf (S t)) i)
      by (intros; rewrite Eh; apply (dit_high p L (rt cf) R0 R1 R2); lia).
    assert (WH : pw (rt cf (S (S t))) (i + h) == pw (rt cf (S (S t))) i * (rt cf (S (S t)) ^ Z.of_nat h mod p)).
    { rewrite em. rewrite pw_add. reflexivity. }
    assert (EH : (2 ^ S t = 2 * h)%nat) by (now rewrite Nat.pow_succ_r', Eh).
    replace (t + 2)%nat with (S (S t)) by lia.
    pose proof (dit_low p L (rt cf) R1 R2 F (S t) c) as LL. pose proof (dit_high p L (rt cf) R0 R1 R2 F (S t) c) as HH. rewrite EH in HH.
    destruct k as [|[|[|[|k]]]]; [| | | |lia].
    + rewrite O0. replace (0 * h + i)%nat with i by lia. rewrite LL by lia. rewrite !LO.
      replace (4 * c + 0)%nat with (2 * (2 * c))%nat by lia. replace (4 * c + 1)%nat with (2 * (2 * c) + 1)%nat by lia.
      replace (4 * c + 2)%nat with (2 * (2 * c + 1))%nat by lia. replace (4 * c + 3)%nat with (2 * (2 * c + 1) + 1)%nat by lia. reflexivity.
    + rewrite O1. replace (1 * h + i)%nat with (i + h)%nat by lia. rewrite LL by lia. rewrite !HI, WH.
      replace (4 * c + 0)%nat with (2 * (2 * c))%nat by lia. replace (4 * c + 1)%nat with (2 * (2 * c) + 1)%nat by lia.
      replace (4 * c + 2)%nat with (2 * (2 * c + 1))%nat by lia. replace (4 * c + 3)%nat with (2 * (2 * c + 1) + 1)%nat by lia. reflexivity.
    + rewrite O2. replace (2 * h + i)%nat with (i + 2 * h)%nat by lia. rewrite HH by lia. rewrite !LO.
      replace (4 * c + 0)%nat with (2 * (2 * c))%nat by lia. replace (4 * c + 1)%nat with (2 * (2 * c) + 1)%nat by lia.
      replace (4 * c + 2)%nat with (2 * (2 * c + 1))%nat by lia. replace (4 * c + 3)%nat with (2 * (2 * c + 1) + 1)%nat by lia. reflexivity.
    + rewrite O3. replace (3 * h + i)%nat with (i + h + 2 * h)%nat by lia. rewrite HH by lia. rewrite !HI, WH.
      replace (4 * c + 0)%nat with (2 * (2 * c))%nat by lia. replace (4 * c + 1)%nat with (2 * (2 * c) + 1)%nat by lia.
      replace (4 * c + 2)%nat with (2 * (2 * c + 1))%nat by lia. replace (4 * c + 3)%nat with (2 * (2 * c + 1) + 1)%nat by lia. reflexivity.
Qed.

Lemma inv_levels_ok : exists f', inv_levels p N cf f0 = Some f' /\ at_dit N f'.
Proof.
  assert (S0 : at_dit 0 f0).
  { split; auto. split; auto. change (2 ^ 0)%nat with 1%nat. intros c i Hc Hi. assert (i = 0)%nat as -> by lia.
    rewrite dit_start. rewrite Nat.mul_1_r, Nat.add_0_r. reflexivity. }
  unfold inv_levels.
  assert (S1 : exists k0 f1, (if (N mod 2 =? 1)%nat then let* f := inv2 p (2 ^ N) f0 in Some (1%nat, f) else Some (0%nat, f0)) = Some (k0, f1) /\
    (k0 <= N)%nat /\ (exists e, N = k0 + 2 * e)%nat /\ at_dit k0 f1).
  { pose proof (Nat.div_mod N 2 ltac:(lia)) as DM. pose proof (Nat.mod_upper_bound N 2 ltac:(lia)).
    destruct (Nat.eqb_spec (N mod 2) 1) as [E1|N1].
    - destruct (inv2_level f0) as (f1 & E & A); [lia|auto|]. rewrite E. cbn [obind]. exists 1%nat, f1.
      split; auto. split; [lia|]. split; auto. exists (N / 2)%nat. lia.
    - exists 0%nat, f0. split; auto. split; [lia|]. split; auto. exists (N / 2)%nat. lia. }
  destruct S1 as (k0 & f1 & -> & Hk0 & (e0 & He0) & A0). cbn [obind].
  match goal with |- context [loop _ ?bd _] => set (body := bd) end.
  destruct (@loop_rule _ _ (fun '(k, f) => (exists e, N = k + 2 * e)%nat /\ at_dit k f) (fun '(k, f) => (N - k)%nat) (fun f => at_dit N f) body)
    with (fuel := S N) (s := (k0, f1)) as (f' & E & H).
  - intros [k f] ((e & He) & A). unfold body. destruct (Nat.ltb_spec k N) as [C|C].
    + destruct (inv4_level k f) as (f' & E & A'); [lia|auto|].
      destruct (get cf k) as [w0|]; [|discriminate]. cbn [obind] in *.
      destruct (get cf (k + 1)) as [w1|]; [|discriminate]. cbn [obind] in *.
      destruct (m_pow p w1 (Z.of_nat (2 ^ (k + 1) / 2))) as [wh|]; [|discriminate]. cbn [obind] in *.
      rewrite E. cbn [obind]. eexists; split; [reflexivity|]. cbn beta iota. split; [split; auto; exists (e - 1)%nat; lia|lia].
    + eexists; split; [reflexivity|]. cbn beta iota. now replace N with k by lia.
  - split; eauto.
  - lia.
  - eauto.
Qed.
End Fix.
End Levels.
