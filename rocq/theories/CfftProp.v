(** * C94: [convolution_fft] with the floating transform (convolution.hpp:25-62), over a ring *)
From Coq Require Import Ring.
From Verif Require Import Base BaseLemmas ListExtra NttModel NttRev FftModel FftProof FftDft FftInv FftProp CfftModel.
Set Implicit Arguments.

(** The coefficient [l] of the product: the sum of [f[j] * g[l - j]] over [j <= l]. *)
Definition coeff A (zero : A) (add mul : A -> A -> A) (f g : list A) (l : nat) : A :=
  total zero add (S l) (fun j => mul (nth j f zero) (nth (l - j) g zero)).

Section P.
Variable A : Type.
Variables (zero one : A) (add mul sub : A -> A -> A) (opp : A -> A).
Hypothesis RT : ring_theory zero one add mul sub opp eq.
Add Ring ARc : RT.
Notation pw := (pw one mul).
Notation total := (total zero add).
Notation co := (coeff zero add mul).

Lemma ext n (g h : nat -> A) : (forall i, i < n -> g i = h i) -> total n g = total n h.
Proof. apply (@total_ext A zero add (fun _ _ => zero)). Qed.
Lemma tnil n (g : nat -> A) : (forall i, i < n -> g i = zero) -> total n g = zero.
Proof. intros H. rewrite (@ext n g (fun _ => zero) H). apply (total_zero RT). Qed.
(** The product of two transforms is the transform of the product. *)
Lemma product w N f g : length f + length g <= S N ->
  mul (total N (fun j => mul (nth j f zero) (pw w j))) (total N (fun k => mul (nth k g zero) (pw w k))) =
  total N (fun l => mul (co f g l) (pw w l)).
Proof.
  intros HN. set (b := fun j l => if j <=? l then nth (l - j) g zero else zero).
  assert (E : total N (fun l => mul (co f g l) (pw w l)) = total N (fun l => total N (fun j => mul (nth j f zero) (mul (b j l) (pw w l))))).
  { apply ext. intros l Hl. unfold coeff. rewrite <- (total_mul RT). symmetry. replace N with (S l + (N - S l)) by lia. rewrite (total_plus RT). rewrite (@tnil (N - S l)).
    - transitivity (total (S l) (fun j => mul (nth j f zero) (mul (b j l) (pw w l)))); [ring|]. apply ext. intros j Hj. unfold b. destruct (Nat.leb_spec j l); [ring|lia].
    - intros j _. unfold b. destruct (Nat.leb_spec (S l + j) l); [lia|ring]. }
  rewrite E, (total_swap RT), <- (total_mul RT). apply ext. intros j Hj. destruct (Nat.lt_ge_cases j (length f)) as [L|L].
  - assert (S1 : total N (fun k => mul (nth k g zero) (pw w k)) = total (N - j) (fun k => mul (nth k g zero) (pw w k))).
    { replace N with ((N - j) + j) at 1 by lia. rewrite (total_plus RT), (@tnil (j)); [ring|]. intros i Hi. rewrite (nth_overflow g) by lia. ring. }
    assert (S2 : total N (fun l => mul (nth j f zero) (mul (b j l) (pw w l))) = total (N - j) (fun k => mul (mul (nth k g zero) (pw w k)) (mul (nth j f zero) (pw w j)))).
    { replace N with (j + (N - j)) at 1 by lia. rewrite (total_plus RT), (@tnil (j)).
      - transitivity (total (N - j) (fun k => mul (nth j f zero) (mul (b j (j + k)) (pw w (j + k))))); [ring|]. apply ext. intros k Hk. unfold b. destruct (Nat.leb_spec j (j + k)); [|lia]. replace (j + k - j) with k by lia. rewrite (pw_add RT). ring.
      - intros i Hi. unfold b. destruct (Nat.leb_spec j i); [lia|ring]. }
    rewrite S1, S2, (total_mul RT). ring.
  - rewrite (nth_overflow f) by lia. rewrite (@tnil N (fun l => mul zero (mul (b j l) (pw w l)))); [ring|]. intros l _. ring.
Qed.

Lemma mul_loop N f g : length f = N -> length g = N ->
  exists h, cf_mul mul N g f = Some h /\ length h = N /\ forall i, i < N -> get h i = Some (mul (nth i f zero) (nth i g zero)).
Proof.
  intros Lf Lg. unfold cf_mul.
  destruct (for_up_rule (fun i h => length h = N /\ (forall p, p < i -> p < N -> get h p = Some (mul (nth p f zero) (nth p g zero))) /\ forall p, i <= p -> get h p = get f p)
    (fun i f => let* x := get f i in let* y := get g i in set f i (mul x y)) N (lo := 0) f) as (h & E & L & H & _).
  - repeat split; auto. intros; lia.
  - intros i h Hi (L & H & R). rewrite R by lia. unfold get at 1. rewrite (nth_error_nth' f zero) by lia. cbn [obind]. unfold get at 1. rewrite (nth_error_nth' g zero) by lia. cbn [obind]. rewrite set_some by lia. eexists. split; [reflexivity|]. rewrite lset_length. split; [exact L|]. split.
    + intros p Hp HpN. destruct (Nat.eq_dec p i) as [->|]; [now rewrite get_lset_eq by lia|]. rewrite get_lset_neq by lia. apply H; lia.
    + intros p Hp. rewrite get_lset_neq by lia. apply R. lia.
  - exists h. repeat split; auto.
Qed.
Lemma sqr_loop N f : length f = N ->
  exists h, cf_sqr mul N f = Some h /\ length h = N /\ forall i, i < N -> get h i = Some (mul (nth i f zero) (nth i f zero)).
Proof.
  intros Lf. unfold cf_sqr.
  destruct (for_up_rule (fun i h => length h = N /\ (forall p, p < i -> p < N -> get h p = Some (mul (nth p f zero) (nth p f zero))) /\ forall p, i <= p -> get h p = get f p)
    (fun i f => let* x := get f i in set f i (mul x x)) N (lo := 0) f) as (h & E & L & H & _).
  - repeat split; auto. intros; lia.
  - intros i h Hi (L & H & R). rewrite R by lia. unfold get at 1. rewrite (nth_error_nth' f zero) by lia. cbn [obind]. rewrite set_some by lia. eexists. split; [reflexivity|]. rewrite lset_length. split; [exact L|]. split.
    + intros p Hp HpN. destruct (Nat.eq_dec p i) as [->|]; [now rewrite get_lset_eq by lia|]. rewrite get_lset_neq by lia. apply H; lia.
    + intros p Hp. rewrite get_lset_neq by lia. apply R. lia.
  - exists h. repeat split; auto.
Qed.
Lemma real_loop re len f (v : nat -> A) : (forall i, i < len -> get f i = Some (v i)) ->
  exists h, cf_real zero re len f = Some h /\ length h = len /\ forall i, i < len -> get h i = Some (re (v i)).
Proof.
  intros F. unfold cf_real.
  destruct (for_up_rule (fun i h => length h = len /\ (forall p, p < i -> p < len -> get h p = Some (re (v p))))
    (fun i res => let* x := get f i in set res i (re x)) len (lo := 0) (repeat zero len)) as (h & E & L & H).
  - split; [apply repeat_length|]. intros; lia.
  - intros i h Hi (L & H). rewrite F by lia. cbn [obind]. rewrite set_some by lia. eexists. split; [reflexivity|]. rewrite lset_length. split; [exact L|].
    intros p Hp HpN. destruct (Nat.eq_dec p i) as [->|]; [now rewrite get_lset_eq by lia|]. rewrite get_lset_neq by lia. apply H; lia.
  - exists h. repeat split; auto.
Qed.
(** The branch for the length [2^r + 1]. *)
Lemma branch n m : 1 <= n -> 1 <= m ->
  (3 <=? n + m) && (n + m - 3 <? 2 ^ ceil_pow2 (n + m - 1) / 2) = true <-> exists r, n + m - 2 = 2 ^ r.
Proof.
  intros Hn Hm. pose proof (ceil_pow2_le (n + m - 1)) as U. split.
  - intros H. apply andb_prop in H as (H1 & H2). apply Nat.leb_le in H1. apply Nat.ltb_lt in H2. destruct (ceil_pow2 (n + m - 1)) as [|r] eqn:C; [cbn in H2; lia|].
    cbn [Nat.pow] in H2, U. replace (2 * 2 ^ r / 2) with (2 ^ r) in H2 by (rewrite Nat.mul_comm, Nat.div_mul; lia). exists r. destruct (Nat.le_gt_cases (n + m - 1) (2 ^ r)) as [D|D]; [apply ceil_pow2_min in D; lia|lia].
  - intros (r & E). pose proof (Nat.pow_nonzero 2 r). assert (C : ceil_pow2 (n + m - 1) = S r).
    { apply Nat.le_antisymm; [apply ceil_pow2_min; cbn [Nat.pow]; lia|]. destruct (Nat.le_gt_cases (S r) (ceil_pow2 (n + m - 1))) as [|D]; auto. assert (2 ^ ceil_pow2 (n + m - 1) <= 2 ^ r) by (apply Nat.pow_le_mono_r; lia). lia. }
    rewrite C. cbn [Nat.pow]. replace (2 * 2 ^ r / 2) with (2 ^ r) by (rewrite Nat.mul_comm, Nat.div_mul; lia). apply andb_true_intro. split; [apply Nat.leb_le|apply Nat.ltb_lt]; lia.
Qed.

Variables (tw tw' : nat -> nat -> A) (divn re : A -> A) (same : list A -> list A -> bool) (conv : list A -> list A -> option (list A)).
Hypothesis Same : forall f g, same f g = true -> f = g.
(** The real parts of the coefficients of the product, unless the length of the product is [2^r + 1]. *)
Theorem C94_product K z z' f g : f <> [] -> g <> [] -> K <= 30 ->
  length f + length g - 1 <= 2 ^ K -> (forall k, length f + length g - 1 <= 2 ^ k -> K <= k) ->
  (forall r, length f + length g - 2 <> 2 ^ r) ->
  roots one mul opp K z -> factors one mul K z tw -> roots one mul opp K z' -> factors one mul K z' tw' -> mul (z K) (z' K) = one ->
  (forall x, divn (mul (total (2 ^ K) (fun _ => one)) x) = x) ->
  exists h, cfft add sub mul zero tw tw' divn re same conv f g = Some h /\ length h = length f + length g - 1 /\
  forall l, l < length f + length g - 1 -> get h l = Some (re (co f g l)).
Proof.
  intros Nf Ng HK LK MK NB R T R' T' ZY D. assert (Pf : 1 <= length f) by (destruct f; [easy|cbn; lia]). assert (Pg : 1 <= length g) by (destruct g; [easy|cbn; lia]).
  unfold cfft. rewrite (proj2 (Nat.leb_le 1 (length f)) Pf), (proj2 (Nat.leb_le 1 (length g)) Pg). cbn [andb guard obind].
  assert (C : ceil_pow2 (length f + length g - 1) <= 30) by (pose proof (ceil_pow2_min _ _ LK); lia). rewrite (proj2 (Nat.leb_le _ 30) C). cbn [guard obind].
  destruct (_ && _) eqn:B. { apply branch in B as (r & B); auto. now elim (NB r). } clear B.
  destruct (C93_size (length f + length g - 1)) as (K' & EN & LN & MN). assert (K' = K). { specialize (MN K LK). specialize (MK K' LN). apply Nat.pow_le_mono_r_iff in MN; lia. } subst K'. rewrite EN. cbn [obind].
  destruct (@C93_fft A zero one add mul sub opp RT K z tw f R T) as (F & EF & LF & GF). unfold fft in EF. rewrite EF. cbn [obind].
  destruct (@C93_fft A zero one add mul sub opp RT K z tw g R T) as (G & EG & LG & GG). unfold fft in EG.
  assert (P : exists h, (if same (fft_resize zero (2 ^ K) f) (fft_resize zero (2 ^ K) g) then cf_sqr mul (2 ^ K) F else let* g0 := fft_impl add sub mul tw (2 ^ K) (fft_resize zero (2 ^ K) g) in cf_mul mul (2 ^ K) g0 F) = Some h /\ length h = 2 ^ K /\ forall i, i < 2 ^ K -> get h i = Some (mul (nth i F zero) (nth i G zero))).
  { destruct (same _ _) eqn:Sm.
    - apply Same in Sm. rewrite Sm in EF. assert (F = G) by congruence. subst G. now apply sqr_loop.
    - rewrite EG. cbn [obind]. now apply mul_loop. }
  destruct P as (h & -> & Lh & Gh). cbn [obind].
  destruct (@impl_ok A zero one add mul sub opp RT tw' K z' (r_0 R') (r_1 R') (r_2 R') T' (fun i => total (2 ^ K) (fun j => mul (co f g j) (pw (z K) (i * j)))) h Lh) as (q & -> & Lq & Gq).
  { intros i Hi. rewrite Gh by auto. f_equal. rewrite (nth_error_nth _ _ zero (GF i Hi)), (nth_error_nth _ _ zero (GG i Hi)).
    transitivity (mul (total (2 ^ K) (fun j => mul (nth j f zero) (pw (pw (z K) i) j))) (total (2 ^ K) (fun j => mul (nth j g zero) (pw (pw (z K) i) j)))).
    { f_equal; apply ext; intros j _; now rewrite (pw_mul RT). }
    rewrite product by lia. apply ext. intros j _. now rewrite (pw_mul RT). }
  cbn [obind]. apply real_loop. intros l Hl. rewrite get_map, Gq by lia. cbn [option_map]. f_equal. rewrite <- (D (co f g l)). f_equal.
  apply (@invert A zero one add mul sub opp RT K z z' (r_1 R) (r_2 R) (r_1 R') (r_2 R') ZY (co f g)). lia.
Qed.
End P.
(** When the length of the product is [2^r + 1] the loop of line 35 reads the element that line 32 has
    removed. *)
Theorem C94_read_refuted A add sub mul (zero : A) tw tw' divn re same conv f g r : f <> [] -> g <> [] ->
  length f + length g - 2 = 2 ^ r -> cfft add sub mul zero tw tw' divn re same conv f g = None.
Proof.
  intros Nf Ng Hr. assert (Pf : 1 <= length f) by (destruct f; [easy|cbn; lia]). assert (Pg : 1 <= length g) by (destruct g; [easy|cbn; lia]).
  unfold cfft. destruct (guard _); [|reflexivity]. cbn [obind]. destruct (guard _); [|reflexivity]. cbn [obind].
  rewrite (proj2 (branch Pf Pg) (ex_intro _ r Hr)). destruct (get f _); [|reflexivity]. cbn [obind]. destruct (get g _) as [gb|]; [|reflexivity]. cbn [obind]. destruct (set _ _ _) as [h|]; [|reflexivity]. cbn [obind].
  assert (N : forall n lo h0, length f - 1 < lo + n -> lo <= length f - 1 -> for_up n lo (fun i h => let* a := get (firstn (length f - 1) f) i in let* x := get h (i + (length g - 1)) in set h (i + (length g - 1)) (add x (mul a gb))) h0 = None).
  { induction n as [|n IH]; intros lo h0 H1 H2; [lia|]. cbn [for_up]. destruct (get (firstn _ f) lo) as [xa|] eqn:E; [|reflexivity]. cbn [obind].
    assert (lo < length f - 1). { assert (Q : lo < length (firstn (length f - 1) f)) by (apply nth_error_Some; unfold get in E; congruence). rewrite firstn_length in Q. lia. }
    destruct (get h0 _); [|reflexivity]. cbn [obind]. destruct (set _ _ _); [|reflexivity]. cbn [obind]. apply IH; lia. }
  unfold cf_row at 1. rewrite N by lia. reflexivity.
Qed.

(** ** Concrete cases: the Gaussian integers *)
Definition grun (f g : list (Z * Z)) : option (list (Z * Z)) :=
  cfft gadd gsub gmul (0, 0)%Z (gtw (-1)) (gtw 1) (fun x => (fst x / 4, snd x / 4)%Z) (fun x => (fst x, 0%Z)) (fun _ _ => false) (fun _ _ => None) f g.
Example C94_case : grun [(1, 0); (2, 0); (3, 0)]%Z [(4, 0); (5, 0)]%Z = Some [(4, 0); (13, 0); (22, 0); (15, 0)]%Z.
Proof. vm_compute. reflexivity. Qed.
Example C94_case_read : grun [(1, 0); (2, 0)]%Z [(4, 0); (5, 0)]%Z = None.
Proof. vm_compute. reflexivity. Qed.

Print Assumptions C94_product.
Print Assumptions C94_read_refuted.
