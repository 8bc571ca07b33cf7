(** Power series: division, [%], logarithm. *)
From Coq Require Import Setoid Morphisms Znumtheory Sorted Ring.
From Verif Require Import Base BaseLemmas NthExtra SearchModel BitModel NumTheory ModularModel ModularProof PrimRootModel NttModel NttSum NttRev NttProof NttCore ConvModel ConvSum ConvNtt PsAlg FpsModel FpsBase FpsMul FpsInv FpsSparse.
Local Open Scope Z_scope.
Ltac Zify.zify_post_hook ::= idtac.

Section Id.
Variable p : Z.
Variable n : nat.
Add Ring psr : (ps_ring p n) (setoid (eqs_equiv p n) (ps_ring_ext p n)).
Lemma div_id r i f : eqs p n (ps_mul r (ps_mul f i)) (ps_mul f (ps_mul r i)).
Proof. ring. Qed.
Lemma mod_id f i r : eqs p n (ps_sub f (ps_mul (ps_mul f i) r)) (ps_mul f (ps_sub (ps_c 1) (ps_mul r i))).
Proof. ring. Qed.
End Id.

(** [L] is the logarithm of [F] up to [x^n]: [F L' = F'] and [L(0) = 0] *)
Definition is_log (p : Z) (n : nat) (F L : pser) : Prop :=
  L 0%nat = 0 /\ eqs p (n - 1) (ps_mul F (ps_d L)) (ps_d F).

Lemma filter_zero (f : list Z) : (forall k, nth k f 0 = 0) -> filter (fun x => negb (x =? 0)) f = [].
Proof.
  induction f as [|x f IH]; intros H; auto. cbn [filter]. pose proof (H 0%nat) as H0. cbn [nth] in H0. subst x. cbn [Z.eqb negb].
  apply IH. intros k. exact (H (S k)).
Qed.
Lemma count_1 f : (forall k, nth (S k) f 0 = 0) -> (fps_count f (-1) < 100)%nat.
Proof.
  intros H. unfold fps_count. cbn [Z.eqb]. rewrite Nat.min_id, firstn_all. destruct f as [|x f]; [cbn; lia|]. cbn [filter].
  rewrite (filter_zero f) by exact H. destruct (negb (x =? 0)); cbn; lia.
Qed.

Lemma ps_mul_m_ext f i k : length f = 1%nat -> nth 0 f 0 = 1 -> ps_mul (cf f) (cf i) k = nth k i 0.
Proof.
  intros L F0. unfold ps_mul. rewrite zsum_shift, (zsum_ext k _ (fun _ => 0)), zsum_0.
  - unfold cf. rewrite F0, Nat.sub_0_r. ring.
  - intros j _. unfold cf. rewrite (nth_overflow f) by lia. ring.
Qed.

Section P.
Variable p : Z.
Hypothesis P : prime p.
Hypothesis H31 : p < 2 ^ 31.
Local Notation "a == b" := (eqm p a b) (at level 70).
Let p2 : 2 <= p. Proof. now apply prime_ge_2. Qed.
Let M : 1 <= p < 2 ^ 31. Proof. lia. Qed.

(** the product, the left factor not empty or the right one with few terms *)
Lemma fps_mul_any f r : residues p f -> residues p r ->
  (fps_count r (-1) < 100)%nat \/ (0 < length f)%nat /\ (length f + length r - 1 <= 2 ^ info_log_n p)%nat ->
  exists R, fps_mul p f r = Some R /\ residues p R /\ (forall k, nth k R 0 == ps_mul (cf f) (cf r) k).
Proof.
  intros Rf Rr [C|[Hf HL]].
  - unfold fps_mul. destruct (Nat.ltb_spec (fps_count r (-1)) 100); [|lia].
    destruct (fps_mul_sparse_ok p P H31 f r Rf Rr) as (R & E & RR & K & _). exists R. auto.
  - destruct (fps_mul_ok p P H31 f r _ Rf Rr Hf HL (le_n _)) as (R & E & RR & K & _). exists R. auto.
Qed.

Lemma deg_default f : fps_deg f (-1) = Some (length f).
Proof. reflexivity. Qed.

Lemma fps_div_ok f r : residues p f -> residues p r -> (0 < length f)%nat -> r <> [] -> nth 0 r 0 <> 0 ->
  (length f + length r - 1 <= 2 ^ info_log_n p)%nat -> (fps_count r (-1) < 100)%nat \/ (2 * length r <= 2 ^ info_log_n p)%nat ->
  exists R i, fps_div p f r = Some R /\ residues p R /\ residues p i /\ eqs p (length r) (ps_mul (cf r) (cf i)) (ps_c 1) /\
    length i = length r /\ (forall k, nth k R 0 == ps_mul (cf f) (cf i) k) /\
    eqs p (length r) (ps_mul (cf r) (cf R)) (cf f).
Proof.
  intros Rf Rr Hf Nr N0 HL HC. unfold fps_div.
  destruct (fps_inv_ok p P H31 r (-1) (length r) (info_log_n p) Rr Nr N0 (deg_default r)) as (i & Ei & Li & Ri & Ki).
  { destruct HC as [HC|HC]; [left|right; auto]. unfold fps_count in *. cbn [Z.eqb] in HC. destruct (Z.eqb_spec (Z.of_nat (length r)) (-1)); [lia|].
    now rewrite Nat2Z.id. }
  rewrite Ei. cbn [obind]. destruct (fps_mul_any f i Rf Ri) as (R & E & RR & K); [right; split; auto; lia|].
  exists R, i. split; auto. split; auto. split; auto. split; auto. split; auto. split; auto.
  transitivity (ps_mul (cf f) (ps_mul (cf r) (cf i))).
  - rewrite <- div_id. apply ps_mul_m; [reflexivity|]. intros k _. apply K.
  - rewrite Ki. apply mul_1_r.
Qed.

Lemma log_tail_ok tb q n : inv_tab p tb -> residues p q -> (1 <= n)%nat -> Z.of_nat n < p ->
  exists R, log_tail p tb q n = Some R /\ length R = n /\ residues p R /\ nth 0 R 0 = 0 /\ eqs p (n - 1) (ps_d (cf R)) (cf q).
Proof.
  intros I Rq Hn Hp. unfold log_tail. destruct (Nat.leb_spec 1 n); [|lia]. cbn [guard obind]. unfold fps_ipre.
  destruct (fps_inte_ok p P H31 tb (vresize q (n - 1)) I (res_vresize p M _ _ Rq)) as (R & E & L & RR & R0 & K); [rewrite len_vresize; lia|].
  rewrite E. cbn [obind]. rewrite len_vresize in L. eexists. split; [reflexivity|]. split; [apply len_vresize|]. split; [now apply (res_vresize p M)|].
  rewrite nth_vresize. destruct (Nat.ltb_spec 0 n); [|lia]. split; auto. intros k Hk. unfold ps_d, cf. rewrite nth_vresize.
  destruct (Nat.ltb_spec (S k) n); [|lia]. specialize (K k). unfold ps_d, cf in K. etransitivity; [exact K|]. rewrite nth_vresize.
  destruct (Nat.ltb_spec k (n - 1)); [reflexivity|lia].
Qed.

Lemma log_core tb f d i q n : inv_tab p tb -> residues p q -> (1 <= n)%nat -> Z.of_nat n < p ->
  (forall k, nth k d 0 == ps_d (cf f) k) -> eqs p (n - 1) (ps_mul (cf f) (cf i)) (ps_c 1) -> (forall k, nth k q 0 == ps_mul (cf d) (cf i) k) ->
  exists R, log_tail p tb q n = Some R /\ length R = n /\ residues p R /\ is_log p n (cf f) (cf R).
Proof.
  intros I Rq Hn Hp Kd Ki Kq. destruct (log_tail_ok tb q n I Rq Hn Hp) as (R & E & L & RR & R0 & K). exists R. split; auto. split; auto. split; auto.
  split; auto. rewrite K. transitivity (ps_mul (cf d) (ps_mul (cf f) (cf i))).
  - rewrite <- div_id. apply ps_mul_m; [reflexivity|]. intros k _. apply Kq.
  - rewrite Ki. rewrite mul_1_r. intros k _. apply Kd.
Qed.

Lemma const_inv f i m : length f = 1%nat -> nth 0 f 0 = 1 -> residues p i -> length i = m -> eqs p m (ps_mul (cf f) (cf i)) (ps_c 1) ->
  (fps_count i (-1) < 100)%nat.
Proof.
  intros Lf F0 Ri Li K. apply count_1. intros k. destruct (Nat.lt_ge_cases (S k) m) as [C|C]; [|apply nth_overflow; lia].
  specialize (K (S k) C). apply (eqm_small p); [now apply (res_n p M)|lia|]. etransitivity; [|exact K].
  etransitivity; [|symmetry; apply eq_eqm; apply (ps_mul_m_ext f i (S k) Lf F0)]. reflexivity.
Qed.

Section Log.
Variables (tb f : list Z) (z : Z) (n : nat).
Hypothesis I : inv_tab p tb.
Hypothesis Rf : residues p f.
Hypothesis Nf : f <> [].
Hypothesis F0 : nth 0 f 0 = 1.
Hypothesis D : fps_deg f z = Some n.
Hypothesis Hn : (1 <= n)%nat.
Hypothesis Hp : Z.of_nat n < p.

Lemma log_assert : fps_assert0 true f (m_signed p 1) = Some tt.
Proof.
  rewrite (m_signed_ok p M), Z.mod_1_l by lia. apply (assert0_ok true f 1 1); auto. rewrite (get_nth _ _ 0); [now rewrite F0|].
  destruct f; [congruence|cbn; lia].
Qed.
Lemma log_deg : fps_deg f (Z.of_nat n - 1) = Some (n - 1)%nat.
Proof. replace (Z.of_nat n - 1) with (Z.of_nat (n - 1)) by lia. apply deg_nat. Qed.
Lemma log_len : (1 <= length f)%nat.
Proof. destruct f; [congruence|cbn; lia]. Qed.

Lemma log_mul d i : residues p d -> residues p i -> length d = (length f - 1)%nat -> length i = (n - 1)%nat ->
  eqs p (n - 1) (ps_mul (cf f) (cf i)) (ps_c 1) -> (length f + n <= 2 ^ info_log_n p)%nat \/ (fps_count i (-1) < 100)%nat ->
  exists R, fps_mul p d i = Some R /\ residues p R /\ (forall k, nth k R 0 == ps_mul (cf d) (cf i) k).
Proof.
  intros Rd Ri Ld Li Ki H. apply fps_mul_any; auto. destruct H as [H|H]; auto. destruct (Nat.eq_dec (length f) 1) as [E1|N1].
  - left. apply (const_inv f i (n - 1)); auto.
  - right. pose proof log_len. lia.
Qed.

Lemma fps_log_dense_ok : (length f + n <= 2 ^ info_log_n p)%nat -> (2 * n <= 2 + 2 ^ info_log_n p)%nat ->
  exists R, fps_log_dense p tb f z = Some R /\ length R = n /\ residues p R /\ is_log p n (cf f) (cf R).
Proof.
  intros H1 H2. unfold fps_log_dense. rewrite log_assert. cbn [obind]. rewrite D. cbn [obind].
  destruct (fps_diff_ok p P H31 f Rf) as (d & Ed & Ld & Rd & Kd). rewrite Ed. cbn [obind].
  destruct (fps_inv_dense_ok p P H31 f (Z.of_nat n - 1) (n - 1) (info_log_n p) Rf Nf) as (i & Ei & Li & Ri & Ki); [rewrite F0; lia|apply log_deg|lia|lia|].
  rewrite Ei. cbn [obind]. destruct (log_mul d i Rd Ri Ld Li Ki (or_introl H1)) as (q & Eq & Rq & Kq). rewrite Eq. cbn [obind].
  apply (log_core tb f d i q n); auto. intros k. rewrite Kd. apply eqm_mod.
Qed.

Lemma fps_log_ok : (length f + n <= 2 ^ info_log_n p)%nat -> (2 * n <= 2 + 2 ^ info_log_n p)%nat ->
  exists R, fps_log p tb f z = Some R /\ length R = n /\ residues p R /\ is_log p n (cf f) (cf R).
Proof.
  intros H1 H2. unfold fps_log. rewrite log_assert. cbn [obind]. rewrite D. cbn [obind].
  destruct (fps_diff_ok p P H31 f Rf) as (d & Ed & Ld & Rd & Kd). rewrite Ed. cbn [obind].
  destruct (fps_inv_ok p P H31 f (Z.of_nat n - 1) (n - 1) (info_log_n p) Rf Nf) as (i & Ei & Li & Ri & Ki); [rewrite F0; lia|apply log_deg|right; lia|].
  rewrite Ei. cbn [obind]. destruct (log_mul d i Rd Ri Ld Li Ki (or_introl H1)) as (q & Eq & Rq & Kq). rewrite Eq. cbn [obind].
  apply (log_core tb f d i q n); auto. intros k. rewrite Kd. apply eqm_mod.
Qed.

Lemma fps_log_sparse_ok : (2 <= n <= length f)%nat ->
  exists R, fps_log_sparse p tb f z = Some R /\ length R = n /\ residues p R /\ is_log p n (cf f) (cf R).
Proof.
  intros H1. unfold fps_log_sparse. rewrite log_assert. cbn [obind]. rewrite D. cbn [obind].
  destruct (fps_diff_ok p P H31 f Rf) as (d & Ed & Ld & Rd & Kd). rewrite Ed. cbn [obind]. destruct (Nat.leb_spec 1 n); [|lia]. cbn [guard obind].
  rewrite sp_of_ok. cbn [obind]. rewrite Nat.min_l by lia.
  pose proof (ties_incr f (n - 1) 0) as Ii. pose proof (res_ties' p P H31 f 0 (n - 1) Rf) as S. pose proof (spc_ties f (n - 1)) as C.
  rewrite ties_cons in * by (try rewrite F0; lia).
  destruct (sp_div_ok p P H31 d (nth 0 f 0) (ties f 1 (n - 1 - 1)) Ii S ltac:(rewrite F0; lia) Rd) as (q & Eq & Rq & Kq & _). rewrite Eq. cbn [obind].
  destruct (log_tail_ok tb q n I Rq Hn Hp) as (R & E & L & RR & R0 & K). exists R. split; auto. split; auto. split; auto.
  split; auto. rewrite K. assert (1 <= sp_deg ((0%nat, nth 0 f 0%Z) :: ties f 1 (n - 1 - 1)))%nat by (unfold sp_deg; lia).
  apply (eqs_le p _ (n - 1)) in Kq; [|lia]. transitivity (cf d); [|intros k _; unfold cf; rewrite Kd; apply eqm_mod]. rewrite <- Kq.
  apply ps_mul_m; [|reflexivity]. intros k Hk. rewrite C. destruct (Nat.ltb_spec k (n - 1)); [reflexivity|lia].
Qed.
End Log.
End P.
