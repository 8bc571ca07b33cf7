From Coq Require Import Ring.
From Verif Require Import Base BaseLemmas ListExtra FftModel FftProof.
Set Implicit Arguments.

Lemma idx_uniq a b q r m : a < m -> b < m -> q * m + a = r * m + b -> q = r /\ a = b.
Proof.
  intros Ha Hb E. assert (q = r); [|subst; lia]. destruct (Nat.lt_trichotomy q r) as [L|[L|L]]; auto; exfalso.
  - assert (S q * m <= r * m) by (apply Nat.mul_le_mono_r; lia). lia.
  - assert (S r * m <= q * m) by (apply Nat.mul_le_mono_r; lia). lia.
Qed.
Section D.
Variable A : Type.
Variables (zero one : A) (add mul sub : A -> A -> A) (opp : A -> A).
Hypothesis RT : ring_theory zero one add mul sub opp eq.
Add Ring AR : RT.
Variable tw : nat -> nat -> A.
Notation pw := (pw one mul).
Notation total := (total zero add).

(** ** One stage *)
Section Stage.
Variables (m N : nat) (X0 X1 : nat -> nat -> A).
Hypothesis Hm : 0 < m.
Notation n := (N * (2 * m)).
Definition T0 q o := add (X0 q o) (mul (X1 q o) (tw m o)).
Definition T1 q o := sub (X0 q o) (mul (X1 q o) (tw m o)).
Definition sinv (q i : nat) (g : list A) : Prop := length g = n /\ forall r o, r < N -> o < m ->
  let d := (r <? q) || ((r =? q) && (o <? i)) in
  get g (r * (2 * m) + o) = Some (if d then T0 r o else X0 r o) /\ get g (r * (2 * m) + (o + m)) = Some (if d then T1 r o else X1 r o).
Lemma step_ok q i g : q < N -> i < m -> sinv q i g -> exists g', butterfly add sub mul tw m (q * (2 * m) + i) i g = Some g' /\ sinv q (S i) g'.
Proof.
  intros Hq Hi (L & H). unfold butterfly. destruct (H q i Hq Hi) as (G0 & G1). rewrite Nat.ltb_irrefl, Nat.ltb_irrefl, andb_false_r in G0, G1. cbn [orb] in G0, G1. rewrite Nat.add_0_r, <- Nat.add_assoc, G0, G1. cbn [obind].
  assert (Lp : q * (2 * m) + (i + m) < n) by (assert (S q * (2 * m) <= n) by (apply Nat.mul_le_mono_r; lia); lia).
  rewrite set_some by lia. cbn [obind]. rewrite set_some by (rewrite lset_length; lia). eexists. split; [reflexivity|]. split; [now rewrite !lset_length|]. intros r o Hr Ho.
  assert (D : (r = q /\ o = i) \/ ((r <> q \/ o <> i) /\ (r <? q) || ((r =? q) && (o <? S i)) = (r <? q) || ((r =? q) && (o <? i)))).
  { destruct (Nat.eq_dec r q) as [->|]; [destruct (Nat.eq_dec o i) as [->|]; [now left|right]|right].
    - split; auto. f_equal. f_equal. destruct (Nat.ltb_spec o (S i)), (Nat.ltb_spec o i); auto; lia.
    - split; auto. f_equal. destruct (Nat.eqb_spec r q); [lia|]. reflexivity. }
  destruct D as [(-> & ->)|(D & ->)].
  - cbv zeta. rewrite Nat.eqb_refl. destruct (Nat.ltb_spec i (S i)); [|lia]. rewrite orb_true_r. cbn [andb]. split.
    + rewrite get_lset_neq by lia. rewrite get_lset_eq by lia. reflexivity.
    + rewrite get_lset_eq by (rewrite lset_length; lia). reflexivity.
  - assert (U : forall a b, a < 2 * m -> b < 2 * m -> r * (2 * m) + a = q * (2 * m) + b -> r = q /\ a = b) by (intros a b Ha Hb; apply idx_uniq; lia).
    cbv zeta. destruct (H r o Hr Ho) as (Q0 & Q1). split.
    + rewrite !get_lset_neq; [exact Q0| |]; intros K; apply eq_sym in K || idtac; [destruct (U o i)|destruct (U o (i + m))]; lia.
    + rewrite !get_lset_neq; [exact Q1| |]; intros K; [destruct (U (o + m) i)|destruct (U (o + m) (i + m))]; lia.
Qed.
Lemma stage_ok g : length g = n -> (forall r o, r < N -> o < m -> get g (r * (2 * m) + o) = Some (X0 r o) /\ get g (r * (2 * m) + (o + m)) = Some (X1 r o)) ->
  exists g', fft_stage add sub mul tw n m g = Some g' /\ length g' = n /\ forall r o, r < N -> o < m -> get g' (r * (2 * m) + o) = Some (T0 r o) /\ get g' (r * (2 * m) + (o + m)) = Some (T1 r o).
Proof.
  intros L H. unfold fft_stage. rewrite Nat.div_mul by lia. match goal with |- context [for_up N 0 ?bd g] => set (body := bd) end.
  destruct (@for_up_rule _ (fun q g => sinv q 0 g) body N 0 g) as (g' & E & Lg & G).
  - split; auto. intros r o Hr Ho. cbv zeta. destruct (Nat.ltb_spec r 0); [lia|]. destruct (Nat.ltb_spec o 0); [lia|]. rewrite andb_false_r. cbn [orb]. now apply H.
  - intros q g1 Hq I. unfold body. destruct (@for_up_rule _ (fun i g => sinv q i g) (fun i f => butterfly add sub mul tw m (q * (2 * m) + i) i f) m 0 g1) as (g2 & E2 & L2 & G2).
    + exact I.
    + intros i g3 Hi I3. apply step_ok; auto; lia.
    + exists g2. split; [exact E2|]. split; [exact L2|]. intros r o Hr Ho. cbv zeta. destruct (G2 r o Hr Ho) as (A1 & A2). cbn [Nat.add] in A1, A2. rewrite A1, A2. destruct (Nat.ltb_spec o m); [|lia]. destruct (Nat.ltb_spec o 0); [lia|].
      destruct (Nat.ltb_spec r q), (Nat.eqb_spec r q), (Nat.ltb_spec r (S q)), (Nat.eqb_spec r (S q)); cbn [andb orb]; auto; lia.
  - exists g'. split; [exact E|]. split; [exact Lg|]. intros r o Hr Ho. destruct (G r o Hr Ho) as (A1 & A2). cbn [Nat.add] in A1, A2. rewrite A1, A2. destruct (Nat.ltb_spec r N); [|lia]. cbn [orb]. auto.
Qed.
End Stage.

(** ** Sums and powers *)
Lemma pw_add x a b : pw x (a + b) = mul (pw x a) (pw x b).
Proof. induction a as [|a IH]; cbn [FftModel.pw Nat.add]; [ring|]. rewrite IH. ring. Qed.
Lemma pw_sq x e : pw x (2 * e) = pw (mul x x) e.
Proof. induction e as [|e IH]; [reflexivity|]. replace (2 * S e) with (S (S (2 * e))) by lia. cbn [FftModel.pw]. rewrite IH. ring. Qed.
Lemma pw_one e : pw one e = one.
Proof. induction e as [|e IH]; cbn [FftModel.pw]; [reflexivity|]. rewrite IH. ring. Qed.
Lemma pw_mul x a b : pw x (a * b) = pw (pw x a) b.
Proof. induction b as [|b IH]; [rewrite Nat.mul_0_r; reflexivity|]. rewrite Nat.mul_succ_r, pw_add, IH. cbn [FftModel.pw]. ring. Qed.
Lemma total_ext n g h : (forall i, i < n -> g i = h i) -> total n g = total n h.
Proof. induction n as [|n IH]; intros H; cbn [FftModel.total]; [reflexivity|]. rewrite IH by (intros; apply H; lia). now rewrite H by lia. Qed.
Lemma total_two n g : total (2 * n) g = add (total n (fun j => g (2 * j))) (total n (fun j => g (2 * j + 1))).
Proof.
  induction n as [|n IH]; [cbn; ring|]. replace (2 * S n) with (S (S (2 * n))) by lia. cbn [FftModel.total]. rewrite IH. replace (S (2 * n)) with (2 * n + 1) by lia. ring.
Qed.
Lemma total_mul n g c : total n (fun j => mul (g j) c) = mul (total n g) c.
Proof. induction n as [|n IH]; cbn [FftModel.total]; [ring|]. rewrite IH. ring. Qed.
Lemma total_add n g h : total n (fun j => add (g j) (h j)) = add (total n g) (total n h).
Proof. induction n as [|n IH]; cbn [FftModel.total]; [ring|]. rewrite IH. ring. Qed.

(** ** The transform *)
Variables (K : nat) (z : nat -> A).
Hypothesis Z0 : z 0 = one.
Hypothesis Z1 : 1 <= K -> z 1 = opp one.
Hypothesis Z2 : forall s, s < K -> mul (z (S s)) (z (S s)) = z s.
Hypothesis TW : forall s i, s < K -> i < 2 ^ s -> tw (2 ^ s) i = pw (z (S s)) i.
Lemma half_root s : s < K -> pw (z (S s)) (2 ^ s) = opp one.
Proof.
  induction s as [|s IH]; intros Hs; [cbn [FftModel.pw Nat.pow]; rewrite Z1 by lia; ring|]. cbn [Nat.pow]. rewrite pw_sq, Z2 by lia. apply IH. lia.
Qed.
Lemma full_root s : s <= K -> pw (z s) (2 ^ s) = one.
Proof.
  destruct s as [|s]; intros Hs; [cbn [FftModel.pw Nat.pow]; rewrite Z0; ring|]. replace (2 ^ S s) with (2 ^ s + 2 ^ s) by (cbn [Nat.pow]; lia). rewrite pw_add, half_root by lia. ring.
Qed.
Definition dft (s : nat) (h : nat -> A) (i : nat) : A := total (2 ^ s) (fun j => mul (h j) (pw (z s) (i * j))).
Lemma dft_split s h i : s < K -> dft (S s) h i = add (dft s (fun j => h (2 * j)) i) (mul (dft s (fun j => h (2 * j + 1)) i) (pw (z (S s)) i)).
Proof.
  intros Hs. unfold dft. change (2 ^ S s) with (2 * 2 ^ s). rewrite total_two. f_equal.
  - apply total_ext. intros j _. replace (i * (2 * j)) with (2 * (i * j)) by lia. now rewrite pw_sq, Z2.
  - rewrite <- total_mul. apply total_ext. intros j _. replace (i * (2 * j + 1)) with (2 * (i * j) + i) by lia. rewrite pw_add, pw_sq, Z2 by auto. ring.
Qed.
Lemma dft_period s h i : s <= K -> dft s h (i + 2 ^ s) = dft s h i.
Proof.
  intros Hs. unfold dft. apply total_ext. intros j _. rewrite Nat.mul_add_distr_r, pw_add, (pw_mul (z s) (2 ^ s)), full_root, pw_one by auto. ring.
Qed.
Lemma dft_high s h i : s < K -> dft (S s) h (i + 2 ^ s) = sub (dft s (fun j => h (2 * j)) i) (mul (dft s (fun j => h (2 * j + 1)) i) (pw (z (S s)) i)).
Proof. intros Hs. rewrite dft_split by auto. rewrite !dft_period by lia. rewrite pw_add, half_root by auto. ring. Qed.

Variable f : nat -> A.
Definition Gs (s q i : nat) : A := dft s (fun j => f (2 ^ (K - s) * j + rev (K - s) q)) i.
Definition state (s : nat) (g : list A) : Prop := length g = 2 ^ K /\ forall q i, q < 2 ^ (K - s) -> i < 2 ^ s -> get g (q * 2 ^ s + i) = Some (Gs s q i).
Lemma dft_ext s h h' i : (forall j, h j = h' j) -> dft s h i = dft s h' i.
Proof. intros E. unfold dft. apply total_ext. intros j _. now rewrite E. Qed.
Lemma state_step s g : s < K -> state s g -> exists g', fft_stage add sub mul tw (2 ^ K) (2 ^ s) g = Some g' /\ state (S s) g'.
Proof.
  intros Hs (L & H). set (N := 2 ^ (K - S s)). assert (EN : 2 ^ K = N * (2 * 2 ^ s)) by (unfold N; change (2 * 2 ^ s) with (2 ^ S s); rewrite <- Nat.pow_add_r; f_equal; lia).
  assert (E2 : 2 ^ (K - s) = 2 * N) by (unfold N; change (2 * 2 ^ (K - S s)) with (2 ^ S (K - S s)); f_equal; lia). assert (Ks : K - s = S (K - S s)) by lia.
  rewrite EN in *. destruct (@stage_ok (2 ^ s) N (fun q o => Gs s (2 * q) o) (fun q o => Gs s (2 * q + 1) o) (p2 s) g L) as (g' & E & L' & G).
  { intros r o Hr Ho. split.
    - rewrite <- H by lia. f_equal. lia.
    - rewrite <- H by lia. f_equal. lia. }
  exists g'. split; [exact E|]. split; [now rewrite EN|]. intros q i Hq Hi. fold N in Hq.
  assert (Ev : forall o, dft s (fun j => f (2 ^ (K - S s) * (2 * j) + rev (K - S s) q)) o = Gs s (2 * q) o).
  { intros o. unfold Gs. apply dft_ext. intros j. f_equal. rewrite Ks, rev_even. cbn [Nat.pow]. lia. }
  assert (Od : forall o, dft s (fun j => f (2 ^ (K - S s) * (2 * j + 1) + rev (K - S s) q)) o = Gs s (2 * q + 1) o).
  { intros o. unfold Gs. apply dft_ext. intros j. f_equal. rewrite Ks, rev_odd. cbn [Nat.pow]. lia. }
  change (2 ^ S s) with (2 * 2 ^ s) in *. destruct (Nat.lt_ge_cases i (2 ^ s)) as [Lo|Hi2].
  - destruct (G q i Hq Lo) as (G0 & _). rewrite G0. f_equal. unfold T0, Gs at 3. rewrite dft_split by auto. rewrite Ev, Od, TW by auto. reflexivity.
  - destruct (G q (i - 2 ^ s) Hq ltac:(lia)) as (_ & G1). replace (i - 2 ^ s + 2 ^ s) with i in G1 by lia. rewrite G1. f_equal. unfold T1, Gs at 3. replace i with (i - 2 ^ s + 2 ^ s) at 4 by lia. rewrite dft_high by auto. rewrite Ev, Od, TW by (auto; lia). reflexivity.
Qed.
Lemma stages d : forall s g fuel, s + d = K -> d < fuel -> state s g ->
  exists g', loop fuel (fun '(m, f) => if m <? 2 ^ K then let* f := fft_stage add sub mul tw (2 ^ K) m f in Some (inl (m * 2, f)) else Some (inr f)) (2 ^ s, g) = Some g' /\ state K g'.
Proof.
  induction d as [|d IH]; intros s g fuel E Hf I; (destruct fuel as [|fuel]; [lia|]); cbn [loop].
  - replace s with K in * by lia. rewrite Nat.ltb_irrefl. eauto.
  - assert (Lt : 2 ^ s < 2 ^ K) by (apply Nat.pow_lt_mono_r; lia). destruct (Nat.ltb_spec (2 ^ s) (2 ^ K)); [|lia]. destruct (state_step (s := s) (g := g)) as (g' & Eg & I'); [lia|exact I|]. rewrite Eg. cbn [obind]. replace (2 ^ s * 2) with (2 ^ S s) by (cbn [Nat.pow]; lia). apply IH; auto; lia.
Qed.
Lemma impl_ok g : length g = 2 ^ K -> (forall p, p < 2 ^ K -> get g p = Some (f p)) ->
  exists g', fft_impl add sub mul tw (2 ^ K) g = Some g' /\ length g' = 2 ^ K /\ forall i, i < 2 ^ K -> get g' i = Some (total (2 ^ K) (fun j => mul (f j) (pw (z K) (i * j)))).
Proof.
  intros L H. unfold fft_impl. destruct (@bitrev_ok A K g L) as (g1 & E1 & L1 & G1). rewrite E1. cbn [obind]. change 1 with (2 ^ 0) at 1.
  destruct (@stages K 0 g1 (S (2 ^ K))) as (g2 & E2 & L2 & G2); [lia|pose proof (Nat.pow_gt_lin_r 2 K); lia| |].
  - split; [exact L1|]. intros q i Hq Hi. rewrite Nat.sub_0_r in Hq. cbn [Nat.pow] in Hi. replace i with 0 by lia. cbn [Nat.pow]. rewrite Nat.mul_1_r, Nat.add_0_r. rewrite G1 by auto. rewrite H by apply rev_lt. f_equal. unfold Gs, dft. cbn [Nat.pow FftModel.total Nat.mul FftModel.pw]. rewrite Nat.sub_0_r, Nat.mul_0_r. cbn [Nat.add]. ring.
  - exists g2. split; [exact E2|]. split; [exact L2|]. intros i Hi. specialize (G2 0 i). rewrite Nat.sub_diag in G2. cbn [Nat.mul Nat.add] in G2. rewrite G2 by (auto; cbn; lia). f_equal. unfold Gs, dft. apply total_ext. intros j _. do 2 f_equal. rewrite Nat.sub_diag. cbn [Nat.pow rev]. lia.
Qed.
End D.
