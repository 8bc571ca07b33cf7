(** The butterfly passes: every block of the array is transformed on its own. *)
From Coq Require Import Znumtheory.
From Verif Require Import Base BaseLemmas NthExtra SearchModel BitModel NumTheory ModularModel ModularProof PrimRootModel PrimRootProof NttModel NttSum.
Local Open Scope Z_scope.
Ltac Zify.zify_post_hook ::= idtac.

Lemma idx_inj h k i k' i' : (i < h)%nat -> (i' < h)%nat -> (k * h + i = k' * h + i')%nat -> k = k' /\ i = i'.
Proof. intros Hi Hi' E. assert (k = k') by nia. subst. lia. Qed.

Lemma blocks_rule (C B : nat) (body : nat -> list Z -> option (list Z)) (f0 : list Z) (New : nat -> nat -> Z) :
  length f0 = (C * B)%nat ->
  (forall c f, (c < C)%nat -> length f = (C * B)%nat ->
     (forall j, (j < B)%nat -> get f (c * B + j)%nat = get f0 (c * B + j)%nat) ->
     exists f', body c f = Some f' /\ length f' = length f /\
       (forall j, (j < B)%nat -> get f' (c * B + j)%nat = Some (New c j)) /\
       (forall x, (x < c * B \/ c * B + B <= x)%nat -> get f' x = get f x)) ->
  exists f', for_up C 0 body f0 = Some f' /\ length f' = (C * B)%nat /\
    forall c j, (c < C)%nat -> (j < B)%nat -> get f' (c * B + j)%nat = Some (New c j).
Proof.
  intros L0 H.
  destruct (@for_up_rule _ (fun t f => length f = (C * B)%nat /\
    forall c j, (c < C)%nat -> (j < B)%nat -> get f (c * B + j)%nat = if (c <? t)%nat then Some (New c j) else get f0 (c * B + j)%nat)
    body C 0%nat f0) as (f' & E & Lf & K).
  - split; auto.
  - intros t f Ht (Lf & K). destruct (H t f) as (f' & E & Lf' & N & O); auto; [lia| |].
    { intros j Hj. rewrite (K t j) by lia. now rewrite Nat.ltb_irrefl. }
    exists f'. split; auto. split; [lia|]. intros c j Hc Hj.
    destruct (Nat.ltb_spec c (S t)) as [C1|C1].
    + destruct (Nat.eq_dec c t) as [->|Ne]; [now apply N|]. rewrite O by nia. rewrite K by auto.
      destruct (Nat.ltb_spec c t); [auto|lia].
    + rewrite O by nia. rewrite K by auto. destruct (Nat.ltb_spec c t); [lia|auto].
  - exists f'. split; auto. split; auto. intros c j Hc Hj. rewrite K by auto.
    destruct (Nat.ltb_spec c (0 + C)); [auto|lia].
Qed.

Lemma inner_rule {A} (h G base : nat) (aux : nat -> A) (bd : nat -> A * list Z -> option (A * list Z)) (f : list Z) (New : nat -> nat -> Z) :
  (forall i f1, (i < h)%nat -> length f1 = length f ->
     (forall k, (k < G)%nat -> get f1 (base + (k * h + i))%nat = get f (base + (k * h + i))%nat) ->
     exists f2, bd i (aux i, f1) = Some (aux (S i), f2) /\ length f2 = length f1 /\
       (forall k, (k < G)%nat -> get f2 (base + (k * h + i))%nat = Some (New k i)) /\
       (forall x, (forall k, (k < G)%nat -> x <> base + (k * h + i))%nat -> get f2 x = get f1 x)) ->
  exists f', for_up h 0 bd (aux 0%nat, f) = Some (aux h, f') /\ length f' = length f /\
    (forall k i, (k < G)%nat -> (i < h)%nat -> get f' (base + (k * h + i))%nat = Some (New k i)) /\
    (forall x, (x < base \/ base + G * h <= x)%nat -> get f' x = get f x).
Proof.
  intros H.
  destruct (@for_up_rule _ (fun t '(a, f1) => a = aux t /\ length f1 = length f /\
    (forall k i, (k < G)%nat -> (i < h)%nat -> get f1 (base + (k * h + i))%nat = if (i <? t)%nat then Some (New k i) else get f (base + (k * h + i))%nat) /\
    (forall x, (x < base \/ base + G * h <= x)%nat -> get f1 x = get f x))
    bd h 0%nat (aux 0%nat, f)) as ([a f'] & E & Ea & Lf & K & O).
  - repeat split; auto.
  - intros t [a f1] Ht (-> & Lf & K & O). destruct (H t f1) as (f2 & E & L2 & N & O2); auto; [lia| |].
    { intros k Hk. rewrite K by lia. now rewrite Nat.ltb_irrefl. }
    exists (aux (S t), f2). split; auto. split; auto. split; [lia|]. split.
    + intros k i Hk Hi. destruct (Nat.eq_dec i t) as [->|Ne].
      { rewrite N by auto. destruct (Nat.ltb_spec t (S t)); [auto|lia]. }
      rewrite O2.
      * rewrite K by auto. destruct (Nat.ltb_spec i t), (Nat.ltb_spec i (S t)); auto; lia.
      * intros k' Hk' E'. destruct (idx_inj h k i k' t) as [_ ?]; auto; lia.
    + intros x Hx. rewrite O2; [now apply O|]. intros k Hk. nia.
  - cbn [Nat.add] in *. subst a. exists f'. split; auto. split; auto. split; auto.
    intros k i Hk Hi. rewrite K by auto. destruct (Nat.ltb_spec i h); [auto|lia].
Qed.

(** Four assignments to different places. *)
Lemma set4 (f : list Z) ia ib ic id va vb vc vd :
  (ia < ib)%nat -> (ib < ic)%nat -> (ic < id)%nat -> (id < length f)%nat ->
  exists f', set f ia va = Some (lset f ia va) /\
    set (lset f ia va) ib vb = Some (lset (lset f ia va) ib vb) /\
    set (lset (lset f ia va) ib vb) ic vc = Some (lset (lset (lset f ia va) ib vb) ic vc) /\
    set (lset (lset (lset f ia va) ib vb) ic vc) id vd = Some f' /\ length f' = length f /\
    get f' ia = Some va /\ get f' ib = Some vb /\ get f' ic = Some vc /\ get f' id = Some vd /\
    forall x, x <> ia -> x <> ib -> x <> ic -> x <> id -> get f' x = get f x.
Proof.
  intros H1 H2 H3 H4. eexists.
  split; [apply set_some; lia|]. split; [apply set_some; rewrite lset_length; lia|].
  split; [apply set_some; rewrite !lset_length; lia|]. split; [apply set_some; rewrite !lset_length; lia|].
  split; [now rewrite !lset_length|].
  split; [rewrite !get_lset_neq by lia; apply get_lset_eq; lia|].
  split; [rewrite !get_lset_neq by lia; apply get_lset_eq; rewrite lset_length; lia|].
  split; [rewrite !get_lset_neq by lia; apply get_lset_eq; rewrite !lset_length; lia|].
  split; [apply get_lset_eq; rewrite !lset_length; lia|].
  intros x X1 X2 X3 X4. now rewrite !get_lset_neq by auto.
Qed.

Lemma mach_mul x w : - 2 ^ 32 < x < 2 ^ 32 -> 0 <= w < 2 ^ 31 -> mach 64 (x * w) = Some (x * w).
Proof.
  intros Hx Hw. apply mach_in. unfold in_range. change (2 ^ (64 - 1)) with 9223372036854775808.
  change (2 ^ 32) with 4294967296 in *. change (2 ^ 31) with 2147483648 in *. nia.
Qed.

Section Pass.
Variable p : Z.
Hypothesis Hp : 2 <= p < 2 ^ 31.
Let M : 1 <= p < 2 ^ 31. Proof. lia. Qed.

Lemma modb x : 0 <= x mod p < p. Proof. apply Z.mod_pos_bound. lia. Qed.
Lemma res_nth f i : residues p f -> 0 <= nth i f 0 < p.
Proof.
  intros R. destruct (Nat.lt_ge_cases i (length f)) as [H|H].
  - unfold residues in R. rewrite Forall_forall in R. apply R. now apply nth_In.
  - rewrite nth_overflow by auto. lia.
Qed.
Lemma pw_next w i : 0 <= w < p -> m_mul p (pw w i mod p) w = Some (pw w (S i) mod p).
Proof.
  intros Hw. rewrite m_mul_ok by (auto; unfold residue; auto using modb). f_equal.
  rewrite Z.mul_mod_idemp_l by lia. rewrite pw_S. f_equal. ring.
Qed.

(** The four outputs of a forward butterfly, as the code computes them. *)
Definition out_f4 (w x wh a b c d : Z) (k : nat) : Z :=
  let u := ((a - c + p) * w) mod p in
  let v := (((b - d + p) * w) mod p * wh) mod p in
  match k with
  | 0%nat => (a + c + (b + d)) mod p
  | 1%nat => ((a + c - (b + d)) * x) mod p
  | 2%nat => (u + v) mod p
  | _ => ((u - v) * x) mod p
  end.
Definition out_i4 (w x wh a b c d : Z) (k : nat) : Z :=
  let b := (b * w) mod p in
  let d := (d * w) mod p in
  let u := ((c + d) * x) mod p in
  let v := (((c - d + p) * x) mod p * wh) mod p in
  match k with
  | 0%nat => (a + b + u) mod p
  | 1%nat => (a - b + p + v) mod p
  | 2%nat => (a + b - u) mod p
  | _ => (a - b + p - v) mod p
  end.

Definition at4 (f : list Z) (h c k i : nat) : Z := nth (c * (4 * h) + (k * h + i)) f 0.

Lemma pass4 (bd : nat -> nat -> Z * Z * list Z -> option (Z * Z * list Z)) (out : Z -> Z -> Z -> Z -> Z -> Z -> Z -> nat -> Z)
  (C h : nat) (w0 w1 wh : Z) (f : list Z) :
  (0 < h)%nat -> length f = (C * (4 * h))%nat -> residues p f -> 0 <= w0 < p -> 0 <= w1 < p -> 0 <= wh < p ->
  (forall c i w x f1 a b cc d, (c < C)%nat -> (i < h)%nat -> 0 <= w < p -> 0 <= x < p ->
    0 <= a < p -> 0 <= b < p -> 0 <= cc < p -> 0 <= d < p ->
    length f1 = (C * (4 * h))%nat ->
    get f1 (c * (4 * h) + (0 * h + i))%nat = Some a -> get f1 (c * (4 * h) + (1 * h + i))%nat = Some b ->
    get f1 (c * (4 * h) + (2 * h + i))%nat = Some cc -> get f1 (c * (4 * h) + (3 * h + i))%nat = Some d ->
    exists f2, (let* w' := m_mul p w w0 in let* x' := m_mul p x w1 in Some (w', x', f2)) = bd c i (w, x, f1) /\
      length f2 = length f1 /\
      (forall k, (k < 4)%nat -> get f2 (c * (4 * h) + (k * h + i))%nat = Some (out w x wh a b cc d k)) /\
      (forall y, (forall k, (k < 4)%nat -> y <> c * (4 * h) + (k * h + i))%nat -> get f2 y = get f1 y)) ->
  exists f', for_up C 0 (fun c f => let* (_, _, f) := for_up h 0 (bd c) (m_signed p 1, m_signed p 1, f) in Some f) f = Some f' /\
    length f' = length f /\
    forall c k i, (c < C)%nat -> (k < 4)%nat -> (i < h)%nat ->
      get f' (c * (4 * h) + (k * h + i))%nat =
      Some (out (pw w0 i mod p) (pw w1 i mod p) wh (at4 f h c 0 i) (at4 f h c 1 i) (at4 f h c 2 i) (at4 f h c 3 i) k).
Proof.
  intros Hh Lf R W0 W1 WH H.
  set (NewI := fun c k i => out (pw w0 i mod p) (pw w1 i mod p) wh (at4 f h c 0 i) (at4 f h c 1 i) (at4 f h c 2 i) (at4 f h c 3 i) k).
  assert (GF : forall c k i, (c < C)%nat -> (k < 4)%nat -> (i < h)%nat -> get f (c * (4 * h) + (k * h + i))%nat = Some (at4 f h c k i)).
  { intros c k i Hc Hk Hi. unfold at4. apply get_nth. rewrite Lf. nia. }
  destruct (blocks_rule C (4 * h)
    (fun c f => let* (_, _, f) := for_up h 0 (bd c) (m_signed p 1, m_signed p 1, f) in Some f) f
    (fun c j => NewI c (j / h)%nat (j mod h)%nat) Lf) as (f' & E & L' & K).
  - intros c f1 Hc L1 S1.
    set (aux := fun i => (pw w0 i mod p, pw w1 i mod p)).
    destruct (inner_rule h 4 (c * (4 * h)) aux (bd c) f1 (NewI c)) as (f2 & E & L2 & K & O).
    + intros i f2 Hi L2 S2.
      assert (GG : forall k, (k < 4)%nat -> get f2 (c * (4 * h) + (k * h + i))%nat = Some (at4 f h c k i)).
      { intros k Hk. rewrite S2, S1 by (auto; nia). now apply GF. }
      destruct (H c i (pw w0 i mod p) (pw w1 i mod p) f2 (at4 f h c 0 i) (at4 f h c 1 i) (at4 f h c 2 i) (at4 f h c 3 i))
        as (f3 & E & L3 & K & O); auto using modb; try (apply res_nth; auto); try (apply GG; lia); [lia|].
      exists f3. unfold aux at 1. rewrite <- E. rewrite !pw_next by auto. cbn [obind]. auto.
    + exists f2. rewrite (m_signed_ok p M).
      change (1 mod p, 1 mod p, f1) with (aux 0%nat, f1). rewrite E. unfold aux. cbn [obind]. split; auto. split; auto.
      split; auto. intros j Hj.
      rewrite (Nat.div_mod j h) at 1 by lia. rewrite (Nat.mul_comm h).
      apply K; [apply Nat.div_lt_upper_bound; lia|apply Nat.mod_upper_bound; lia].
  - exists f'. split; [exact E|]. split; [lia|]. intros c k i Hc Hk Hi. rewrite K by (auto; nia).
    rewrite Nat.div_add_l, (Nat.div_small i h) by lia. rewrite Nat.add_0_r.
    rewrite Nat.add_comm, Nat.mod_add, Nat.mod_small by lia. reflexivity.
Qed.

Lemma half_idx h k : (k * (2 * h) / 2 = k * h)%nat.
Proof. replace (k * (2 * h))%nat with (k * h * 2)%nat by lia. apply Nat.div_mul. lia. Qed.

Lemma rem_mod x : 0 <= x -> Z.rem x p = x mod p.
Proof. intros. apply Z.rem_mod_nonneg; lia. Qed.

Lemma fwd4_ok C h w0 w1 wh f : (0 < h)%nat -> length f = (C * (4 * h))%nat -> residues p f ->
  0 <= w0 < p -> 0 <= w1 < p -> 0 <= wh < p ->
  exists f', fwd4 p (C * (4 * h)) (2 * h) w0 w1 wh f = Some f' /\ length f' = length f /\
    forall c k i, (c < C)%nat -> (k < 4)%nat -> (i < h)%nat ->
      get f' (c * (4 * h) + (k * h + i))%nat =
      Some (out_f4 (pw w0 i mod p) (pw w1 i mod p) wh (at4 f h c 0 i) (at4 f h c 1 i) (at4 f h c 2 i) (at4 f h c 3 i) k).
Proof.
  intros Hh Lf R W0 W1 WH. unfold fwd4. rewrite !half_idx. replace (2 * (2 * h))%nat with (4 * h)%nat by lia.
  rewrite Nat.div_mul by lia. replace (2 * h / 2)%nat with h by (rewrite Nat.mul_comm, Nat.div_mul; lia).
  apply pass4; auto.
  intros c i w x f1 a b cc d Hc Hi Hw Hx Ha Hb Hcc Hd L1 G0 G1 G2 G3.
  remember (c * (4 * h))%nat as base eqn:Eb.
  assert (Hbase : (base + 4 * h <= length f1)%nat) by (rewrite L1, Eb; nia).
  replace (base + i + 0 * h)%nat with (base + (0 * h + i))%nat by lia.
  replace (base + i + 1 * h)%nat with (base + (1 * h + i))%nat by lia.
  replace (base + i + 2 * h)%nat with (base + (2 * h + i))%nat by lia.
  replace (base + i + 3 * h)%nat with (base + (3 * h + i))%nat by lia.
  remember (base + (0 * h + i))%nat as ia eqn:Ia. remember (base + (1 * h + i))%nat as ib eqn:Ib.
  remember (base + (2 * h + i))%nat as ic eqn:Ic. remember (base + (3 * h + i))%nat as id eqn:Id.
  rewrite G0, G1, G2, G3. cbn [obind].
  rewrite (mach_mul (a - cc + p) w) by lia. cbn [obind].
  rewrite (mach_mul (b - d + p) w) by lia. cbn [obind].
  assert (U0 : 0 <= (a - cc + p) * w) by (apply Z.mul_nonneg_nonneg; lia). assert (V0 : 0 <= (b - d + p) * w) by (apply Z.mul_nonneg_nonneg; lia).
  rewrite (rem_mod _ U0), (rem_mod _ V0).
  pose proof (modb ((a - cc + p) * w)) as BU. pose proof (modb ((b - d + p) * w)) as BV.
  rewrite mach_mul by (clear - BU BV WH Hp; lia). cbn [obind].
  rewrite rem_mod by (apply Z.mul_nonneg_nonneg; lia). pose proof (modb (((b - d + p) * w) mod p * wh)) as BV2.
  assert (M1 : mach 64 ((a + cc - (b + d)) * x) = Some ((a + cc - (b + d)) * x)) by (apply mach_mul; clear - Ha Hb Hcc Hd Hx Hp; lia).
  remember (((a - cc + p) * w) mod p) as u eqn:Eu. remember ((((b - d + p) * w) mod p * wh) mod p) as v eqn:Ev.
  assert (M2 : mach 64 ((u - v) * x) = Some ((u - v) * x)) by (apply mach_mul; clear - BU BV2 Hx Hp; lia).
  rewrite M1, M2. cbn [obind]. rewrite !(m_signed_ok p M).
  destruct (set4 f1 ia ib ic id (out_f4 w x wh a b cc d 0) (out_f4 w x wh a b cc d 1) (out_f4 w x wh a b cc d 2) (out_f4 w x wh a b cc d 3))
    as (f2 & S1 & S2 & S3 & S4 & L2 & K0 & K1 & K2 & K3 & O); [clear - Hh Ia Ib; lia|clear - Hh Ib Ic; lia|clear - Hh Ic Id; lia|clear - Hh Id Hi Hbase; lia|].
  exists f2. unfold out_f4 in S1, S2, S3, S4. cbv zeta in S1, S2, S3, S4. rewrite <- ?Eu, <- ?Ev in S2. rewrite <- ?Eu, <- ?Ev in S3. rewrite <- ?Eu, <- ?Ev in S4.
  rewrite S1. cbn [obind]. rewrite S2. cbn [obind].
  rewrite S3. cbn [obind]. rewrite S4. cbn [obind].
  split; auto. split; auto. split.
  - intros k Hk. destruct k as [|[|[|[|k]]]]; [subst ia|subst ib|subst ic|subst id|lia]; auto.
  - intros y Hy. apply O; subst; [apply (Hy 0%nat)|apply (Hy 1%nat)|apply (Hy 2%nat)|apply (Hy 3%nat)]; lia.
Qed.

Lemma inv4_ok C h w0 w1 wh f : (0 < h)%nat -> length f = (C * (4 * h))%nat -> residues p f ->
  0 <= w0 < p -> 0 <= w1 < p -> 0 <= wh < p ->
  exists f', inv4 p (C * (4 * h)) (2 * h) w0 w1 wh f = Some f' /\ length f' = length f /\
    forall c k i, (c < C)%nat -> (k < 4)%nat -> (i < h)%nat ->
      get f' (c * (4 * h) + (k * h + i))%nat =
      Some (out_i4 (pw w0 i mod p) (pw w1 i mod p) wh (at4 f h c 0 i) (at4 f h c 1 i) (at4 f h c 2 i) (at4 f h c 3 i) k).
Proof.
  intros Hh Lf R W0 W1 WH. unfold inv4. rewrite !half_idx. replace (2 * (2 * h))%nat with (4 * h)%nat by lia.
  rewrite Nat.div_mul by lia. replace (2 * h / 2)%nat with h by (rewrite Nat.mul_comm, Nat.div_mul; lia).
  apply pass4; auto.
  intros c i w x f1 a b cc d Hc Hi Hw Hx Ha Hb Hcc Hd L1 G0 G1 G2 G3.
  remember (c * (4 * h))%nat as base eqn:Eb.
  assert (Hbase : (base + 4 * h <= length f1)%nat) by (rewrite L1, Eb; nia).
  replace (base + i + 0 * h)%nat with (base + (0 * h + i))%nat by lia.
  replace (base + i + 1 * h)%nat with (base + (1 * h + i))%nat by lia.
  replace (base + i + 2 * h)%nat with (base + (2 * h + i))%nat by lia.
  replace (base + i + 3 * h)%nat with (base + (3 * h + i))%nat by lia.
  remember (base + (0 * h + i))%nat as ia eqn:Ia. remember (base + (1 * h + i))%nat as ib eqn:Ib.
  remember (base + (2 * h + i))%nat as ic eqn:Ic. remember (base + (3 * h + i))%nat as id eqn:Id.
  rewrite G0, G1. cbn [obind]. rewrite (mach_mul b w) by lia. cbn [obind].
  rewrite G2, G3. cbn [obind]. rewrite (mach_mul d w) by lia. cbn [obind].
  assert (B0 : 0 <= b * w) by (apply Z.mul_nonneg_nonneg; lia). assert (D0 : 0 <= d * w) by (apply Z.mul_nonneg_nonneg; lia).
  rewrite (rem_mod _ B0), (rem_mod _ D0). pose proof (modb (b * w)) as BB. pose proof (modb (d * w)) as BD.
  remember ((b * w) mod p) as b' eqn:Eb'. remember ((d * w) mod p) as d' eqn:Ed'.
  rewrite (mach_mul (cc + d') x) by lia. cbn [obind].
  rewrite (mach_mul (cc - d' + p) x) by lia. cbn [obind].
  assert (U0 : 0 <= (cc + d') * x) by (apply Z.mul_nonneg_nonneg; lia). assert (V0 : 0 <= (cc - d' + p) * x) by (apply Z.mul_nonneg_nonneg; lia).
  rewrite (rem_mod _ U0), (rem_mod _ V0).
  pose proof (modb ((cc + d') * x)) as BU. pose proof (modb ((cc - d' + p) * x)) as BV.
  rewrite mach_mul by (clear - BU BV WH Hp; lia). cbn [obind].
  rewrite rem_mod by (apply Z.mul_nonneg_nonneg; lia). rewrite !(m_signed_ok p M).
  destruct (set4 f1 ia ib ic id (out_i4 w x wh a b cc d 0) (out_i4 w x wh a b cc d 1) (out_i4 w x wh a b cc d 2) (out_i4 w x wh a b cc d 3))
    as (f2 & S1 & S2 & S3 & S4 & L2 & K0 & K1 & K2 & K3 & O); [clear - Hh Ia Ib; lia|clear - Hh Ib Ic; lia|clear - Hh Ic Id; lia|clear - Hh Id Hi Hbase; lia|].
  exists f2. unfold out_i4 in S1, S2, S3, S4. cbv zeta in S1, S2, S3, S4. rewrite <- Eb', <- Ed' in S1, S2, S3, S4.
  rewrite S1. cbn [obind]. rewrite S2. cbn [obind].
  rewrite S3. cbn [obind]. rewrite S4. cbn [obind].
  split; auto. split; auto. split.
  - intros k Hk. destruct k as [|[|[|[|k]]]]; [subst ia|subst ib|subst ic|subst id|lia]; auto.
  - intros y Hy. apply O; subst; [apply (Hy 0%nat)|apply (Hy 1%nat)|apply (Hy 2%nat)|apply (Hy 3%nat)]; lia.
Qed.

(** ** Radix 2 *)
Lemma pass2 (bd : nat -> list Z -> option (list Z)) (C : nat) (f : list Z) :
  length f = (C * 2)%nat -> residues p f ->
  (forall c f1 a b, (c < C)%nat -> 0 <= a < p -> 0 <= b < p -> length f1 = (C * 2)%nat ->
     get f1 (c * 2)%nat = Some a -> get f1 (c * 2 + 1)%nat = Some b ->
     bd c f1 = Some (lset (lset f1 (c * 2) ((a + b) mod p)) (c * 2 + 1) ((a - b) mod p))) ->
  exists f', for_up C 0 bd f = Some f' /\ length f' = length f /\
    forall c, (c < C)%nat ->
      get f' (c * 2 + 0)%nat = Some ((nth (c * 2) f 0 + nth (c * 2 + 1) f 0) mod p) /\
      get f' (c * 2 + 1)%nat = Some ((nth (c * 2) f 0 - nth (c * 2 + 1) f 0) mod p).
Proof.
  intros Lf R H.
  destruct (blocks_rule C 2 bd f (fun c j =>
    if (j =? 0)%nat then (nth (c * 2) f 0 + nth (c * 2 + 1) f 0) mod p else (nth (c * 2) f 0 - nth (c * 2 + 1) f 0) mod p) Lf)
    as (f' & E & L' & K).
  - intros c f1 Hc L1 S1.
    pose proof (S1 0%nat ltac:(lia)) as G0. rewrite Nat.add_0_r in G0. pose proof (S1 1%nat ltac:(lia)) as G1.
    rewrite (get_nth _ _ 0) in G0 by lia. rewrite (get_nth f _ 0) in G0 by lia.
    rewrite (get_nth _ _ 0) in G1 by lia. rewrite (get_nth f _ 0) in G1 by lia.
    injection G0 as G0. injection G1 as G1.
    eexists; split; [apply (H c f1 (nth (c * 2) f 0) (nth (c * 2 + 1) f 0)); auto; try (apply res_nth; auto)|].
    + rewrite (get_nth _ _ 0) by lia. now rewrite G0.
    + rewrite (get_nth _ _ 0) by lia. now rewrite G1.
    + split; [now rewrite !lset_length|]. split.
      * intros j Hj. assert (j = 0 \/ j = 1)%nat as [->| ->] by lia.
        -- rewrite Nat.add_0_r. rewrite get_lset_neq by lia. rewrite get_lset_eq by lia. reflexivity.
        -- rewrite get_lset_eq by (rewrite lset_length; lia). reflexivity.
      * intros x Hx. rewrite !get_lset_neq by lia. reflexivity.
  - exists f'. split; auto. split; [lia|]. intros c Hc. split; [apply (K c 0%nat)|apply (K c 1%nat)]; lia.
Qed.

Lemma inv2_ok C f : length f = (C * 2)%nat -> residues p f ->
  exists f', inv2 p (C * 2) f = Some f' /\ length f' = length f /\
    forall c, (c < C)%nat ->
      get f' (c * 2 + 0)%nat = Some ((nth (c * 2) f 0 + nth (c * 2 + 1) f 0) mod p) /\
      get f' (c * 2 + 1)%nat = Some ((nth (c * 2) f 0 - nth (c * 2 + 1) f 0) mod p).
Proof.
  intros Lf R. unfold inv2. rewrite Nat.div_mul by lia. apply pass2; auto.
  intros c f1 a b Hc Ha Hb L1 G0 G1. rewrite G0, G1. cbn [obind].
  rewrite set_some by lia. cbn [obind]. rewrite set_some by (rewrite lset_length; lia).
  rewrite m_add_ok, m_sub_ok; auto.
Qed.

Lemma fwd2_ok C w0 f : length f = (C * 2)%nat -> residues p f -> 0 <= w0 < p ->
  exists f', fwd2 p (C * 2) 1 w0 f = Some f' /\ length f' = length f /\
    forall c, (c < C)%nat ->
      get f' (c * 2 + 0)%nat = Some ((nth (c * 2) f 0 + nth (c * 2 + 1) f 0) mod p) /\
      get f' (c * 2 + 1)%nat = Some ((nth (c * 2) f 0 - nth (c * 2 + 1) f 0) mod p).
Proof.
  intros Lf R W0. unfold fwd2. change (2 * 1)%nat with 2%nat. rewrite Nat.div_mul by lia. apply pass2; auto.
  intros c f1 a b Hc Ha Hb L1 G0 G1. cbn [for_up]. rewrite Nat.add_0_r. rewrite G0, G1. cbn [obind].
  rewrite set_some by lia. cbn [obind].
  rewrite m_sub_ok by auto. rewrite (m_signed_ok p M).
  rewrite m_mul_ok by (auto; apply modb). cbn [obind].
  rewrite set_some by (rewrite lset_length; lia). cbn [obind].
  rewrite m_mul_ok by (auto; unfold residue; auto using modb). cbn [obind].
  rewrite m_add_ok by auto. f_equal. f_equal.
  rewrite <- Z.mul_mod by lia. f_equal. ring.
Qed.
End Pass.
