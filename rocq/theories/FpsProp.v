(** C71, C72: power series, elementary operations, products, inverses, divisions. *)
From Coq Require Import Setoid Morphisms Znumtheory Sorted.
From Verif Require Import Base BaseLemmas NthExtra SearchModel BitModel NumTheory ModularModel ModularProof ModularProp PrimRootModel NttModel NttSum NttRev NttProof NttCore ConvModel ConvSum ConvNtt PsAlg FpsModel FpsBase FpsMul FpsInv FpsSparse FpsLog FpsExp FpsExpD FpsPow.
Local Open Scope Z_scope.
Ltac Zify.zify_post_hook ::= idtac.

(** ** Specification *)
(** The tables of inverses that calls [ModularUtil::inv(i)] leave behind *)
Definition table (p : Z) (tb : list Z) : Prop :=
  exists h out, Forall (fun i => (0 < i)%nat /\ Z.of_nat i < p) h /\ util_run p h = Some (out, tb).
(** Transforms of [m] entries exist modulo [p]. *)
Definition fits (p : Z) (m : nat) : Prop := exists N, (m <= 2 ^ N)%nat /\ (2 ^ Z.of_nat N | p - 1).
(** The number of terms asked for by the argument [n], with default [-1] *)
Definition terms (f : list Z) (n : Z) : nat := if n =? -1 then length f else Z.to_nat n.
(** The number of non-zero entries among the first [n] *)
Definition weight (f : list Z) (n : nat) : nat := length (filter (fun k => negb (nth k f 0 =? 0)) (seq 0 n)).
(** The coefficient of [x^k] of [f g] is [conv f g k]; here [f g = h] up to [x^n] modulo [p]. *)
Definition mul_upto (p : Z) (n : nat) (f g h : list Z) : Prop := forall k, (k < n)%nat -> conv f g k mod p = nth k h 0.
(** A sparse series: increasing degrees, residues; and the list of its coefficients *)
Definition sparse (p : Z) (s : list (nat * Z)) : Prop :=
  StronglySorted (fun x y => (fst x < fst y)%nat) s /\ Forall (fun x => 0 <= snd x < p) s.
Definition coef (s : list (nat * Z)) (k : nat) : Z :=
  match find (fun x => (fst x =? k)%nat) s with Some x => snd x | None => 0 end.
Definition plain (s : list (nat * Z)) (f : list Z) : Prop := forall k, nth k f 0 = coef s k.

(** ** Links to the proofs *)
Lemma table_inv p tb : prime p -> p < 2 ^ 31 -> table p tb -> inv_tab p tb.
Proof.
  intros P H31 (h & out & F & E). pose proof (prime_ge_2 _ P). assert (M : 1 <= p < 2 ^ 31) by lia.
  assert (K : forall h out0 tb0, inv_tab p tb0 -> Forall (fun i => (0 < i)%nat /\ Z.of_nat i < p) h ->
    forall o t, for_each h (fun i '(out, tb) => let* (v, tb) := util_inv p tb i in Some (out ++ [v], tb)) (out0, tb0) = Some (o, t) -> inv_tab p t).
  { clear - M P. induction h as [|i h IH]; intros out0 tb0 I F o t E; cbn [for_each] in E; [now injection E as _ <-|].
    inversion F as [|? ? [Hi Hm] F']; subst. unfold util_inv at 1 in E.
    destruct (util_set_inv_ok _ M P _ _ I Hm) as (tb1 & E1 & I1 & L1). rewrite E1 in E. cbn [obind] in E.
    destruct (get_lt _ L1) as [v G]. rewrite G in E. cbn [obind] in E. now apply (IH _ _ I1 F' _ _ E). }
  exact (K h [] _ (util_init_ok _ M P) F _ _ E).
Qed.

Lemma fits_log p m : prime p -> p < 2 ^ 31 -> fits p m -> (m <= 2 ^ info_log_n p)%nat.
Proof.
  intros P H31 (N & H & D). apply (log_n_div p P H31) in D. pose proof (Nat.pow_le_mono_r 2 _ _ ltac:(lia) D). lia.
Qed.

Lemma terms_deg f z : -1 <= z -> fps_deg f z = Some (terms f z).
Proof. intros H. unfold fps_deg, terms. destruct (Z.leb_spec (-1) z); [reflexivity|lia]. Qed.

Lemma weight_cons x f n : weight (x :: f) (S n) = ((if negb (x =? 0)%Z then 1 else 0) + weight f n)%nat.
Proof.
  unfold weight. change (seq 0 (S n)) with (0%nat :: seq 1 n). rewrite <- seq_shift.
  assert (E : length (filter (fun k => negb (nth k (x :: f) 0 =? 0)) (map S (seq 0 n))) = length (filter (fun k => negb (nth k f 0 =? 0)) (seq 0 n))).
  { generalize (seq 0 n). induction l as [|a l IHl]; auto. change (map S (a :: l)) with (S a :: map S l).
    cbn [filter]. change (nth (S a) (x :: f) 0) with (nth a f 0). destruct (negb (nth a f 0 =? 0)); cbn [length]; rewrite IHl; auto. }
  rewrite <- E. generalize (map S (seq 0 n)). intros l. cbn [filter]. change (nth 0 (x :: f) 0) with x. destruct (negb (x =? 0)); reflexivity.
Qed.

Lemma weight_firstn f : forall n, (n <= length f)%nat -> length (filter (fun x => negb (x =? 0)) (firstn n f)) = weight f n.
Proof.
  induction f as [|x f IH]; intros n H; destruct n as [|n]; auto; [cbn in H; lia|].
  cbn [length] in H. rewrite weight_cons, <- (IH n) by lia. cbn [firstn filter]. destruct (negb (x =? 0)); reflexivity.
Qed.

Lemma weight_over f n : weight f n = weight f (Nat.min n (length f)).
Proof.
  destruct (Nat.le_gt_cases n (length f)) as [|C]; [f_equal; lia|]. replace (Nat.min n (length f)) with (length f) by lia.
  unfold weight. replace n with (length f + (n - length f))%nat by lia. rewrite seq_app, filter_app, app_length.
  assert (filter (fun k => negb (nth k f 0 =? 0)) (seq (0 + length f) (n - length f)) = []) as ->; [|cbn; lia].
  assert (G : forall m lo, (length f <= lo)%nat -> filter (fun k => negb (nth k f 0 =? 0)) (seq lo m) = []).
  { induction m as [|m IH]; intros lo H; auto. cbn [seq filter]. rewrite nth_overflow by lia. cbn. apply IH. lia. }
  apply G. lia.
Qed.

Lemma count_weight f n : -1 <= n -> fps_count f n = weight f (terms f n).
Proof.
  intros H. unfold fps_count, terms. set (m := if n =? -1 then _ else _). cbn zeta. rewrite weight_firstn by lia. symmetry. apply weight_over.
Qed.

Lemma coef_spc s k : StronglySorted (fun x y : nat * Z => (fst x < fst y)%nat) s -> spc s k = coef s k.
Proof.
  induction s as [|[d v] s IH]; intros H; [reflexivity|]. inversion H as [|? ? H1 H2]; subst. rewrite spc_cons. unfold coef. cbn [find fst snd].
  destruct (Nat.eqb_spec d k) as [->|N]; [|rewrite IH by auto; reflexivity].
  assert (spc s k = 0) as ->; [|cbn [snd]; ring]. clear - H2. induction s as [|[d v'] s IH]; auto. inversion H2 as [|? ? G1 G2]; subst. rewrite spc_cons.
  cbn in G1. destruct (Nat.eqb_spec d k); [lia|]. rewrite IH by auto. reflexivity.
Qed.

Lemma plain_spc p s f : sparse p s -> plain s f -> forall k, spc s k = nth k f 0.
Proof. intros [S _] H k. rewrite H. now apply coef_spc. Qed.

Lemma ps_mul_ext_l a a' b k : (forall i, (i <= k)%nat -> a i = a' i) -> ps_mul a b k = ps_mul a' b k.
Proof. intros H. unfold ps_mul. apply zsum_ext. intros i Hi. rewrite H by lia. reflexivity. Qed.

Section P.
Variable p : Z.
Hypothesis P : prime p.
Hypothesis H31 : p < 2 ^ 31.
Let p2 : 2 <= p := prime_ge_2 _ P.
Let M : 1 <= p < 2 ^ 31. Proof. lia. Qed.

Lemma to_mod R x k : residues p R -> eqm p (nth k R 0) x -> nth k R 0 = x mod p.
Proof. intros RR E. rewrite <- (Z.mod_small (nth k R 0) p) by now apply (res_n p M). apply eqm_mod_eq; [lia|auto]. Qed.

Lemma to_prod f g R : residues p R -> (forall k, eqm p (nth k R 0) (ps_mul (cf f) (cf g) k)) -> forall k, nth k R 0 = conv f g k mod p.
Proof. intros RR E k. rewrite conv_cf. now apply to_mod. Qed.

Lemma to_upto n f g h : residues p h -> eqs p n (ps_mul (cf f) (cf g)) (cf h) -> mul_upto p n f g h.
Proof. intros RR E k Hk. rewrite conv_cf. symmetry. apply to_mod; auto. symmetry. exact (E k Hk). Qed.

Lemma res_one : residues p [1].
Proof. constructor; [lia|constructor]. Qed.
Lemma cf_one n : eqs p n (ps_c 1) (cf [1]).
Proof. intros k _. destruct k as [|[|k]]; reflexivity. Qed.
Lemma to_one n f g : eqs p n (ps_mul (cf f) (cf g)) (ps_c 1) -> mul_upto p n f g [1].
Proof. intros E. apply to_upto; [apply res_one|]. rewrite E. apply cf_one. Qed.
End P.

(** ** C71 *)
(** The result of [normalize] is the prefix without the final zeros. *)
Theorem C71_normalize : forall f, exists R, fps_normalize f = Some R /\ R = firstn (length R) f /\
  (forall k, nth k R 0 = nth k f 0) /\ (R = [] \/ nth (length R - 1) R 0 <> 0).
Proof. intros f. destruct (fps_normalize_ok f) as (R & E & K & N & F). exists R. auto. Qed.

(** [pre], [<<], [<<=], [>>] *)
Theorem C71_shifts : forall f m,
  length (fps_pre f m) = m /\ (forall k, nth k (fps_pre f m) 0 = if (k <? m)%nat then nth k f 0 else 0) /\
  length (fps_ipre f m) = m /\ (forall k, nth k (fps_ipre f m) 0 = if (k <? m)%nat then nth k f 0 else 0) /\
  length (fps_shl f m) = (length f + m)%nat /\ (forall k, nth k (fps_shl f m) 0 = if (k <? m)%nat then 0 else nth (k - m) f 0) /\
  fps_shl_set f m = Some (fps_shl f m) /\
  length (fps_shr f m) = (length f - m)%nat /\ (forall k, nth k (fps_shr f m) 0 = nth (k + m) f 0).
Proof.
  intros f m. unfold fps_ipre. split; [|split; [|split; [apply len_vresize|split; [intros k; apply nth_vresize|]]]].
  - unfold fps_pre. destruct (Nat.leb_spec m (length f)); [rewrite firstn_length; lia|apply len_vresize].
  - intros k. unfold fps_pre. destruct (Nat.leb_spec m (length f)); [|apply nth_vresize].
    destruct (Nat.ltb_spec k m); [now apply nth_firstn_lt|apply nth_overflow; rewrite firstn_length; lia].
  - split; [unfold fps_shl; rewrite app_length, repeat_length; lia|]. split; [intros k; apply nth_shl|]. split; [apply fps_shl_set_ok|].
    split; [apply len_shr|]. intros k. rewrite Nat.add_comm. apply nth_shr.
Qed.

(** [==] compares the series, whatever the sizes. *)
Theorem C71_eq : forall p f g, 1 <= p < 2 ^ 31 -> exists b, fps_eq p f g = Some b /\ (b = true <-> forall k, nth k f 0 = nth k g 0).
Proof. intros p f g M. now apply fps_eq_spec. Qed.

(** Scalars: [+=], [-=], [*=], [/=], [x - f], unary [-] *)
Theorem C71_scalars : forall p f x, 1 <= p < 2 ^ 31 -> residues p f -> 0 <= x < p ->
  (exists R, fps_add_c p f x = Some R /\ length R = Nat.max (length f) 1 /\ residues p R /\
    forall k, nth k R 0 = (if (k =? 0)%nat then nth 0 f 0 + x else nth k f 0) mod p) /\
  (exists R, fps_sub_c p f x = Some R /\ length R = Nat.max (length f) 1 /\ residues p R /\
    forall k, nth k R 0 = (if (k =? 0)%nat then nth 0 f 0 - x else nth k f 0) mod p) /\
  (exists R, fps_mul_c p f x = Some R /\ length R = length f /\ residues p R /\ forall k, nth k R 0 = (nth k f 0 * x) mod p) /\
  (prime p -> x <> 0 -> exists R, fps_div_c p f x = Some R /\ length R = length f /\ residues p R /\ forall k, (nth k R 0 * x) mod p = nth k f 0) /\
  (exists R, fps_neg p f = Some R /\ length R = length f /\ residues p R /\ forall k, nth k R 0 = (- nth k f 0) mod p) /\
  (exists R, fps_c_sub p x f = Some R /\ length R = Nat.max (length f) 1 /\ residues p R /\
    forall k, nth k R 0 = (if (k =? 0)%nat then x - nth 0 f 0 else - nth k f 0) mod p).
Proof.
  intros p f x M Rf Hx.
  assert (A : forall f x, residues p f -> 0 <= x < p -> exists R, fps_add_c p f x = Some R /\ length R = Nat.max (length f) 1 /\ residues p R /\
    forall k, nth k R 0 = (if (k =? 0)%nat then nth 0 f 0 + x else nth k f 0) mod p).
  { intros f0 x0 R0 H0. destruct (fps_add_c_ok p M f0 x0 R0 H0) as (R & E & L & RR & K). exists R. repeat (split; [assumption|]).
    intros k. rewrite K. unfold ps_c. destruct (Nat.eqb_spec k 0) as [->|]; auto. now rewrite Z.add_0_r. }
  split; [now apply A|]. split.
  { unfold fps_sub_c. rewrite (m_neg_ok p M) by auto. destruct (A f (- x mod p) Rf (mod_r p M _)) as (R & E & L & RR & K). exists R. repeat (split; [assumption|]).
    intros k. rewrite K. destruct (k =? 0)%nat; auto. rewrite Z.add_mod_idemp_r by lia. f_equal. }
  split; [now apply fps_mul_c_ok|]. split.
  { intros P N. unfold fps_div_c. destruct (m_inv_eqm p P ltac:(lia) x Hx N) as (i & Ei & Ri & Vi). rewrite Ei. cbn [obind].
    destruct (fps_mul_c_ok p M f i Rf Ri) as (R & E & L & RR & K). exists R. repeat (split; [assumption|]). intros k. rewrite K.
    rewrite <- (Z.mod_small (nth k f 0) p) at 2 by now apply (res_n p M). apply eqm_mod_eq; [lia|]. rewrite eqm_mod.
    transitivity (nth k f 0 * (x * i)); [apply eq_eqm; ring|rewrite Vi; apply eq_eqm; ring]. }
  split; [now apply fps_neg_ok|].
  unfold fps_c_sub. destruct (fps_neg_ok p M f Rf) as (g & Eg & Lg & Rg & Kg). rewrite Eg. cbn [obind].
  destruct (A g x Rg Hx) as (R & E & L & RR & K). exists R. split; auto. split; [lia|]. split; auto. intros k. rewrite K, !Kg.
  destruct (Nat.eqb_spec k 0); [rewrite Z.add_mod_idemp_l by lia; f_equal; ring|apply Z.mod_mod; lia].
Qed.

(** [+=], [-=], [dot] *)
Theorem C71_pointwise : forall p f r, 1 <= p < 2 ^ 31 -> residues p f -> residues p r ->
  (exists R, fps_add p f r = Some R /\ length R = Nat.max (length f) (length r) /\ residues p R /\
    forall k, nth k R 0 = (nth k f 0 + nth k r 0) mod p) /\
  (exists R, fps_sub p f r = Some R /\ length R = Nat.max (length f) (length r) /\ residues p R /\
    forall k, nth k R 0 = (nth k f 0 - nth k r 0) mod p) /\
  (exists R, fps_dot p f r = Some R /\ length R = Nat.min (length f) (length r) /\ residues p R /\
    forall k, nth k R 0 = (nth k f 0 * nth k r 0) mod p).
Proof. intros p f r M Rf Rr. split; [now apply fps_add_ok|]. split; [now apply fps_sub_ok|now apply fps_dot_ok]. Qed.

(** [count_terms] counts the non-zero terms; [term_ties] lists them in order. *)
Theorem C71_terms : forall f, (forall n, -1 <= n -> fps_count f n = weight f (terms f n)) /\
  forall lo hi, (hi <= length f)%nat -> exists s, fps_ties f lo hi = Some s /\ StronglySorted (fun x y => (fst x < fst y)%nat) s /\
    forall d v, In (d, v) s <-> (lo <= d < hi)%nat /\ v = nth d f 0 /\ v <> 0.
Proof.
  intros f. split; [intros n; apply count_weight|]. intros lo hi H. exists (ties f lo (hi - lo)). split; [now apply fps_ties_ok|].
  split; [apply ties_incr|]. intros d v. rewrite ties_In. split; intros (A & B); (split; [lia|auto]).
Qed.

(** [diff] and [inte] *)
Theorem C71_calculus : forall p tb f, prime p -> p < 2 ^ 31 -> residues p f -> table p tb ->
  (exists R, fps_diff p f = Some R /\ length R = (length f - 1)%nat /\ residues p R /\ forall k, nth k R 0 = (Z.of_nat (S k) * nth (S k) f 0) mod p) /\
  (Z.of_nat (length f) + 1 < p ->
   exists R, fps_inte p tb f = Some R /\ length R = (if (length f =? 0)%nat then 0 else length f + 1)%nat /\ residues p R /\
    nth 0 R 0 = 0 /\ (forall k, (Z.of_nat (S k) * nth (S k) R 0) mod p = nth k f 0) /\ fps_diff p R = Some f).
Proof.
  intros p tb f P H31 Rf T. pose proof (prime_ge_2 _ P). assert (M : 1 <= p < 2 ^ 31) by lia. apply (table_inv p tb P H31) in T.
  split; [now apply fps_diff_ok|]. intros Hp. destruct (fps_inte_ok p P H31 tb f T Rf Hp) as (R & E & L & RR & Z0 & K).
  exists R. repeat (split; [assumption|]).
  assert (K2 : forall k, (Z.of_nat (S k) * nth (S k) R 0) mod p = nth k f 0).
  { intros k. symmetry. apply (to_mod p P H31); auto. symmetry. apply (K k). }
  split; auto. destruct (fps_diff_ok p P H31 R RR) as (D & ED & LD & RD & KD). rewrite ED. f_equal. apply nth_ext0.
  - rewrite LD, L. destruct (Nat.eqb_spec (length f) 0); lia.
  - intros k. rewrite KD. apply K2.
Qed.

(** [*=]: the product, for operands that are distinct objects; few terms in the
    second, or a transform that is long enough. *)
Theorem C71_mul : forall p f r, prime p -> p < 2 ^ 31 -> residues p f -> residues p r ->
  (weight r (length r) < 100)%nat \/ f <> [] /\ fits p (length f + length r - 1) ->
  exists R, fps_mul p f r = Some R /\ residues p R /\ (forall k, nth k R 0 = conv f r k mod p).
Proof.
  intros p f r P H31 Rf Rr H. destruct (fps_mul_any p P H31 f r Rf Rr) as (R & E & RR & K).
  { rewrite count_weight by lia. unfold terms. cbn [Z.eqb]. destruct H as [H|[H1 H2]]; [now left|right].
    split; [destruct f; [congruence|cbn; lia]|now apply fits_log]. }
  exists R. split; auto. split; auto. now apply (to_prod p P H31).
Qed.

(** The length of a product by a series with few terms: the degree of that series is added. *)
Theorem C71_mul_sparse : forall p f r, prime p -> p < 2 ^ 31 -> residues p f -> residues p r ->
  exists R, fps_mul_sparse p f r = Some R /\ residues p R /\ (forall k, nth k R 0 = conv f r k mod p) /\
    ((forall k, nth k r 0 = 0) -> R = []) /\
    (forall d, nth d r 0 <> 0 -> (forall k, (d < k)%nat -> nth k r 0 = 0) -> length R = (length f + d)%nat).
Proof.
  intros p f r P H31 Rf Rr. destruct (fps_mul_sparse_ok p P H31 f r Rf Rr) as (R & E & RR & K & _ & Z0 & L).
  exists R. split; auto. split; auto. split; [|auto]. intros k. now apply (to_mod p P H31).
Qed.

(** SparseFps: [to_fps] and the product with a series *)
Theorem C71_sparse : forall p s, prime p -> p < 2 ^ 31 -> sparse p s ->
  (exists f, sp_to_fps s = Some f /\ length f = sp_deg s /\ plain s f) /\
  forall f r, plain s f -> residues p r -> exists R, sp_mul p s r = Some R /\ residues p R /\ (forall k, nth k R 0 = conv f r k mod p) /\
    length R = (if (length s =? 0)%nat || (length r =? 0)%nat then 0 else sp_deg s - 1 + length r)%nat.
Proof.
  intros p s P H31 S. pose proof S as [S1 S2]. split.
  { destruct (sp_to_fps_ok p s S1 S2) as (f & E & L & K). exists f. split; auto. split; auto. intros k. rewrite K. now apply coef_spc. }
  intros f r F Rr. destruct (sp_mul_ok p P H31 s r S1 S2 Rr) as (R & E & RR & K & L). exists R. split; auto. split; auto. split; auto.
  intros k. rewrite conv_cf. apply (to_mod p P H31); auto. rewrite (K k). apply eq_eqm. apply ps_mul_ext_l. intros i _. now apply (plain_spc p).
Qed.

(** ** C72 *)
(** [inv]: the inverse up to [x^n], dense, sparse, and with the choice between them *)
Theorem C72_inv : forall p f n, prime p -> p < 2 ^ 31 -> residues p f -> -1 <= n -> nth 0 f 0 <> 0 ->
  (exists R, fps_inv_sparse p f n = Some R /\ length R = terms f n /\ residues p R /\ mul_upto p (terms f n) f R [1]) /\
  (fits p (2 * terms f n) ->
   exists R, fps_inv_dense p f n = Some R /\ length R = terms f n /\ residues p R /\ mul_upto p (terms f n) f R [1]) /\
  ((weight f (terms f n) < 100)%nat \/ fits p (2 * terms f n) ->
   exists R, fps_inv p f n = Some R /\ length R = terms f n /\ residues p R /\ mul_upto p (terms f n) f R [1]).
Proof.
  intros p f n P H31 Rf Hn F0. assert (Nf : f <> []) by (intros ->; apply F0; reflexivity). pose proof (terms_deg f n Hn) as D.
  split; [|split].
  - destruct (fps_inv_sparse_ok p P H31 f n _ Rf Nf F0 D) as (R & E & L & RR & K). exists R. repeat (split; [assumption|]). now apply (to_one p P H31).
  - intros H. apply (fits_log p _ P H31) in H.
    destruct (fps_inv_dense_ok p P H31 f n _ _ Rf Nf F0 D H (le_n _)) as (R & E & L & RR & K). exists R. repeat (split; [assumption|]). now apply (to_one p P H31).
  - intros H. destruct (fps_inv_ok p P H31 f n _ (info_log_n p) Rf Nf F0 D) as (R & E & L & RR & K).
    { rewrite count_weight by lia. unfold terms at 1. destruct (Z.eqb_spec (Z.of_nat (terms f n)) (-1)); [lia|]. rewrite Nat2Z.id.
      destruct H as [H|H]; [now left|right]. split; auto. now apply fits_log. }
    exists R. repeat (split; [assumption|]). now apply (to_one p P H31).
Qed.

(** The inverse is determined by its defining equation. *)
Theorem C72_inv_unique : forall p f n R S, prime p -> p < 2 ^ 31 -> residues p R -> residues p S ->
  mul_upto p n f R [1] -> mul_upto p n f S [1] -> forall k, (k < n)%nat -> nth k R 0 = nth k S 0.
Proof.
  intros p f n R S P H31 RR RS HR HS k Hk. pose proof (prime_ge_2 _ P). assert (M : 1 <= p < 2 ^ 31) by lia.
  assert (U : ~ (p | nth 0 f 0)).
  { intros D. specialize (HR 0%nat ltac:(lia)). unfold conv in HR. cbn [zsum Nat.sub] in HR. rewrite Z.add_0_l in HR. cbn [nth] in HR.
    destruct D as [q Dq]. rewrite Dq in HR. replace (q * p * nth 0 R 0) with (q * nth 0 R 0 * p) in HR by ring. rewrite Z.mod_mul in HR by lia. discriminate. }
  assert (E : eqs p n (cf R) (cf S)).
  { apply (ps_cancel p P n (cf f)); auto. intros j Hj. specialize (HR j Hj). specialize (HS j Hj). rewrite conv_cf in HR, HS.
    apply eqm_mod_eq; [lia|congruence]. }
  apply (eqm_small p); try apply (res_n p M); auto. now apply E.
Qed.

(** [/=]: a series [R] with [r R = f] up to [x^(size of r)], which is [f] times the inverse of [r] with as many terms as [r] *)
Theorem C72_div : forall p f r, prime p -> p < 2 ^ 31 -> residues p f -> residues p r -> f <> [] -> nth 0 r 0 <> 0 ->
  fits p (length f + length r - 1) -> (weight r (length r) < 100)%nat \/ fits p (2 * length r) ->
  exists R i, fps_div p f r = Some R /\ residues p R /\ mul_upto p (length r) r R f /\
    length i = length r /\ mul_upto p (length r) r i [1] /\ forall k, nth k R 0 = conv f i k mod p.
Proof.
  intros p f r P H31 Rf Rr Nf R0 H1 H2. assert (Nr : r <> []) by (intros ->; apply R0; reflexivity).
  destruct (fps_div_ok p P H31 f r Rf Rr ltac:(destruct f; [congruence|cbn; lia]) Nr R0 (fits_log p _ P H31 H1)) as (R & i & E & RR & Ri & V & L & K & Q).
  { rewrite count_weight by lia. unfold terms. cbn [Z.eqb]. destruct H2 as [H2|H2]; [now left|right; now apply fits_log]. }
  exists R, i. split; auto. split; auto. split; [now apply (to_upto p P H31)|]. split; auto. split; [now apply (to_one p P H31)|]. now apply (to_prod p P H31).
Qed.

(** SparseFps: [inv] and the division of a series *)
Theorem C72_sparse : forall p s f, prime p -> p < 2 ^ 31 -> sparse p s -> plain s f -> coef s 0 <> 0 ->
  (forall n, exists R, sp_inv p s n = Some R /\ length R = n /\ residues p R /\ mul_upto p n f R [1]) /\
  (forall g, residues p g -> exists R, sp_div p g s = Some R /\ residues p R /\ mul_upto p (length g + sp_deg s - 1) f R g /\
    ((exists k, nth k g 0 <> 0) -> length R = (length g + sp_deg s - 1)%nat)).
Proof.
  intros p s f P H31 S F C. pose proof S as [S1 S2]. rewrite <- coef_spc in C by auto.
  assert (X : exists c0 t, s = (0%nat, c0) :: t /\ c0 <> 0).
  { destruct s as [|[d c0] t]; [now destruct C|]. exists c0, t. destruct (incr_tail d c0 t S1) as [_ Hi].
    assert (Z0 : forall t, (forall d' v, In (d', v) t -> (d < d')%nat) -> spc t 0%nat = 0).
    { induction t0 as [|[a b] t0 IH]; intros Hl; auto. rewrite spc_cons, IH by (intros; eapply Hl; right; eauto).
      specialize (Hl a b (or_introl eq_refl)). destruct (Nat.eqb_spec a 0); [lia|auto]. }
    rewrite spc_cons, (Z0 t Hi) in C. destruct (Nat.eqb_spec d 0) as [->|]; [|now destruct C]. split; auto. lia. }
  destruct X as (c0 & t & -> & C0).
  assert (X : forall n R, eqs p n (ps_mul (spc ((0%nat, c0) :: t)) (cf R)) (ps_mul (cf f) (cf R))).
  { intros n R k _. apply eq_eqm. apply ps_mul_ext_l. intros i _. now apply (plain_spc p). }
  split.
  - intros n. destruct (sp_inv_ok p P H31 c0 t n S1 S2 C0) as (R & E & L & RR & K). exists R. repeat (split; [assumption|]).
    apply (to_one p P H31). now rewrite <- X.
  - intros g Rg. destruct (sp_div_ok p P H31 g c0 t S1 S2 C0 Rg) as (R & E & RR & K & _ & L). exists R. repeat (split; [assumption|]).
    split; auto. apply (to_upto p P H31); auto. now rewrite <- X.
Qed.

(** [%] does not give the remainder of the division of polynomials: the difference of
    [f] and a multiple of [r] has the degree of [r] or more. *)
Theorem C72_mod_refuted : exists p f r R, prime p /\ p < 2 ^ 31 /\ residues p f /\ residues p r /\ f <> [] /\ nth 0 r 0 <> 0 /\
  fps_mod p f r = Some R /\ (length f < length r)%nat /\ exists k, (length r <= k)%nat /\ nth k R 0 <> 0.
Proof.
  exists 5, [1], [1; 1], [0; 0; 1]. split; [apply (prime_intro 5); [lia|]; intros n Hn; apply Zgcd_1_rel_prime; assert (n = 1 \/ n = 2 \/ n = 3 \/ n = 4) as [->|[->|[->| ->]]] by lia; reflexivity|].
  split; [lia|]. split; [repeat constructor; lia|]. split; [repeat constructor; lia|]. split; [discriminate|]. split; [discriminate|].
  split; [vm_compute; reflexivity|]. split; [cbn; lia|]. exists 2%nat. split; [cbn; lia|discriminate].
Qed.

(** Modulo 17 *)
Example C71_ex : fps_mul 17 [1; 2; 3] [4; 0; 6; 0] = Some [4; 8; 1; 12; 1] /\ fps_mul 17 [] [1; 2] = Some [0] /\
  fps_normalize [1; 0; 2; 0; 0] = Some [1; 0; 2] /\ fps_eq 17 [1] [1; 0] = Some true /\
  fps_diff 17 [5; 6; 7] = Some [6; 14] /\ fps_inte 17 (util_init 17) [6; 14] = Some [0; 6; 7] /\ fps_count [0; 3; 0; 4] (-1) = 2%nat /\
  sp_mul 17 [(0%nat, 1); (3%nat, 2)] [1; 5] = Some [1; 5; 0; 2; 10].
Proof. vm_compute. auto 10. Qed.
Example C72_ex : fps_inv 17 [1; 16] 5 = Some [1; 1; 1; 1; 1] /\ fps_inv_dense 17 [2; 1; 0; 3] 4 = fps_inv_sparse 17 [2; 1; 0; 3] 4 /\
  fps_inv_dense 17 [2; 1; 0; 3] 4 = Some [9; 4; 15; 13] /\ fps_div 17 [2; 1] [1; 16] = Some [2; 3; 1] /\
  sp_div 17 [2; 1] [(0%nat, 1); (1%nat, 16)] = Some [2; 3; 3] /\ fps_inv 17 [0; 1] 3 = None.
Proof. vm_compute. auto 10. Qed.

Print Assumptions C71_normalize.
Print Assumptions C71_shifts.
Print Assumptions C71_eq.
Print Assumptions C71_scalars.
Print Assumptions C71_pointwise.
Print Assumptions C71_terms.
Print Assumptions C71_calculus.
Print Assumptions C71_mul.
Print Assumptions C71_mul_sparse.
Print Assumptions C71_sparse.
Print Assumptions C72_inv.
Print Assumptions C72_inv_unique.
Print Assumptions C72_div.
Print Assumptions C72_sparse.
Print Assumptions C72_mod_refuted.
