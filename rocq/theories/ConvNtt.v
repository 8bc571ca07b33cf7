(** The transforms as a tool for products of polynomials; [convolution_ntt]. *)
From Coq Require Import Setoid Morphisms Znumtheory.
From Verif Require Import Base BaseLemmas NthExtra SearchModel BitModel NumTheory ModularModel ModularProof PrimRootModel NttModel NttSum NttAlg NttPass NttRev NttProof NttCore ConvModel ConvSum.
Local Open Scope Z_scope.
Ltac Zify.zify_post_hook ::= idtac.

Definition hat (W : nat -> Z) (N : nat) (F : nat -> Z) (k : nat) : Z :=
  zsum (2 ^ N) (fun j => F j * pw (W N) (j * brev N k)).

Lemma ntt_tool p : prime p -> p < 2 ^ 31 -> exists W : nat -> Z,
  (forall f N, (N <= info_log_n p)%nat -> length f = (2 ^ N)%nat -> residues p f ->
    exists F, ntt_convolution p f = Some F /\ length F = (2 ^ N)%nat /\ residues p F /\
      forall k, (k < 2 ^ N)%nat -> eqm p (nth k F 0) (hat W N (fun j => nth j f 0) k)) /\
  (forall E N T (F G : nat -> nat -> Z) (a b : nat -> nat), (N <= info_log_n p)%nat -> length E = (2 ^ N)%nat -> residues p E ->
    (forall t, (t < T)%nat -> (a t + b t <= 2 ^ N + 1)%nat /\
      (forall k, (a t <= k)%nat -> F t k = 0) /\ (forall k, (b t <= k)%nat -> G t k = 0)) ->
    (forall k, (k < 2 ^ N)%nat -> eqm p (nth k E 0) (zsum T (fun t => hat W N (F t) k * hat W N (G t) k))) ->
    exists e, intt_convolution p E = Some e /\ length e = (2 ^ N)%nat /\ residues p e /\
      forall i, (i < 2 ^ N)%nat -> eqm p (nth i e 0) (zsum T (fun t => zsum (S i) (fun j => F t j * G t (i - j)%nat)))).
Proof.
  intros P H31. destruct (coeff_ok p P H31) as (g & cf & cb & T).
  pose proof T as (Eg & Hg & Gen & Ef & Eb & Lf & Lb & Rf & Rb & RB & INV & F1 & B1 & F2 & B2).
  assert (R0f : eqm p (rt cf 0) 1) by reflexivity.
  exists (rt cf). split.
  - intros f N HN Lg R. assert (C : ceil_pow2 (length f) = N) by (rewrite Lg; apply ceil_pow2_pow).
    destruct (fwd_core p P H31 g cf cb T false f) as (F & E & L & RF & K); [now rewrite C|auto|]. rewrite C in *.
    exists F. auto.
  - intros E N n F G a b HN LE RE V K. assert (C : ceil_pow2 (length E) = N) by (rewrite LE; apply ceil_pow2_pow).
    destruct (inv_core p P H31 g cf cb T false E) as (e & E2 & L2 & R2 & K2); [now rewrite C|auto|]. rewrite C in *.
    exists e. split; auto. split; auto. split; auto. intros i Hi.
    apply (n_cancel p P H31 N); auto. rewrite (K2 i Hi).
    rewrite (zsum_eqm p _ _ (fun k => zsum n (fun t => hat (rt cf) N (F t) k * hat (rt cf) N (G t) k * pw (rt cb N) (i * brev N k)))).
    2:{ intros k Hk. rewrite (K k Hk). rewrite <- zsum_mul. reflexivity. }
    rewrite zsum_swap. rewrite <- zsum_mul_l. apply zsum_eqm. intros t Ht. destruct (V t Ht) as (Vab & VF & VG).
    rewrite <- (conv_trip p (info_log_n p) (rt cf) R0f F1 F2 N (rt cb N) HN (INV N HN) (F t) (G t) (a t) (b t) i Hi Vab VF VG).
    rewrite <- (zsum_brev N (fun k => zsum (2 ^ N) (fun j => F t j * pw (rt cf N) (j * k)) *
      zsum (2 ^ N) (fun j => G t j * pw (rt cf N) (j * k)) * pw (rt cb N) (i * k))).
    reflexivity.
Qed.

Section Mul.
Variable p : Z.
Hypothesis M : 1 <= p < 2 ^ 31.
Local Notation "a == b" := (eqm p a b) (at level 70).

Lemma mul_all_ok l f g : length f = l -> length g = l -> residues p f -> residues p g ->
  exists h, mul_all p l f g = Some h /\ length h = l /\ residues p h /\ forall k, (k < l)%nat -> nth k h 0 == nth k f 0 * nth k g 0.
Proof.
  intros Lf Lg Rf Rg. unfold mul_all. match goal with |- context [for_up _ _ ?bd _] => set (body := bd) end.
  destruct (@for_up_rule _ (fun i h => length h = l /\ residues p h /\
    (forall k, (k < i)%nat -> nth k h 0 == nth k f 0 * nth k g 0) /\ (forall k, (i <= k)%nat -> nth k h 0 = nth k f 0)) body l 0%nat f)
    as (h & E & L & R & K & _).
  - split; auto. split; auto. split; [intros; lia|auto].
  - intros i h Hi (L & R & K1 & K2). unfold body. rewrite (get_nth h _ 0), (get_nth g _ 0) by lia. cbn [obind].
    rewrite m_mul_ok by (auto; now apply res_n). cbn [obind]. rewrite set_some by lia. eexists. split; [reflexivity|].
    rewrite lset_length. split; auto.
    assert (K : forall k, nth k (lset h i ((nth i h 0 * nth i g 0) mod p)) 0 = if (i =? k)%nat then (nth i h 0 * nth i g 0) mod p else nth k h 0).
    { intros k. destruct (Nat.eqb_spec i k) as [<-|N]; [rewrite nth_lset_eq by lia; auto|now rewrite nth_lset_neq]. }
    split; [|split].
    + apply res_i. intros k _. rewrite K. destruct (i =? k)%nat; [apply Z.mod_pos_bound; lia|now apply res_n].
    + intros k Hk. rewrite K. destruct (Nat.eqb_spec i k) as [<-|N].
      * rewrite eqm_mod, K2 by lia. reflexivity.
      * apply K1. lia.
    + intros k Hk. rewrite K. destruct (Nat.eqb_spec i k) as [<-|N]; [lia|]. apply K2. lia.
  - exists h. split; [exact E|]. split; auto.
Qed.

Lemma sq_all_ok l f : length f = l -> residues p f ->
  exists h, sq_all p l f = Some h /\ length h = l /\ residues p h /\ forall k, (k < l)%nat -> nth k h 0 == nth k f 0 * nth k f 0.
Proof.
  intros Lf Rf. unfold sq_all. match goal with |- context [for_up _ _ ?bd _] => set (body := bd) end.
  destruct (@for_up_rule _ (fun i h => length h = l /\ residues p h /\
    (forall k, (k < i)%nat -> nth k h 0 == nth k f 0 * nth k f 0) /\ (forall k, (i <= k)%nat -> nth k h 0 = nth k f 0)) body l 0%nat f)
    as (h & E & L & R & K & _).
  - split; auto. split; auto. split; [intros; lia|auto].
  - intros i h Hi (L & R & K1 & K2). unfold body. rewrite (get_nth h _ 0) by lia. cbn [obind].
    rewrite m_mul_ok by (auto; now apply res_n). cbn [obind]. rewrite set_some by lia. eexists. split; [reflexivity|].
    rewrite lset_length. split; auto.
    assert (K : forall k, nth k (lset h i ((nth i h 0 * nth i h 0) mod p)) 0 = if (i =? k)%nat then (nth i h 0 * nth i h 0) mod p else nth k h 0).
    { intros k. destruct (Nat.eqb_spec i k) as [<-|N]; [rewrite nth_lset_eq by lia; auto|now rewrite nth_lset_neq]. }
    split; [|split].
    + apply res_i. intros k _. rewrite K. destruct (i =? k)%nat; [apply Z.mod_pos_bound; lia|now apply res_n].
    + intros k Hk. rewrite K. destruct (Nat.eqb_spec i k) as [<-|N].
      * rewrite eqm_mod, K2 by lia. reflexivity.
      * apply K1. lia.
    + intros k Hk. rewrite K. destruct (Nat.eqb_spec i k) as [<-|N]; [lia|]. apply K2. lia.
  - exists h. split; [exact E|]. split; auto.
Qed.
End Mul.

Lemma same_eq (f g : list Z) : length f = length g -> forallb (fun '(a, b) => a =? b) (combine f g) = true -> f = g.
Proof.
  revert g. induction f as [|a f IH]; intros [|b g] L H; cbn in *; try discriminate; auto.
  apply andb_prop in H. destruct H as [A B]. apply Z.eqb_eq in A. f_equal; auto.
Qed.

Lemma res_firstn p n f : residues p f -> residues p (firstn n f).
Proof. intros R. revert n. induction R; intros [|n]; cbn; constructor; auto. apply IHR. Qed.

Section Conv.
Variable p : Z.
Hypothesis P : prime p.
Hypothesis H31 : p < 2 ^ 31.
Let M : 1 <= p < 2 ^ 31. Proof. pose proof (prime_ge_2 _ P). lia. Qed.
Local Notation "a == b" := (eqm p a b) (at level 70).

(** One transform of size [2^N]. *)
Lemma ntt_mul f g N : residues p f -> residues p g -> (0 < length f)%nat -> (0 < length g)%nat ->
  (length f + length g <= 2 ^ N + 1)%nat -> (N <= info_log_n p)%nat ->
  let f0 := vresize f (2 ^ N) in let g0 := vresize g (2 ^ N) in
  exists h, (let same := forallb (fun '(a, b) => a =? b) (combine f0 g0) in
    let* f' := ntt_convolution p f0 in
    let* f' := (if same then sq_all p (2 ^ N) f' else let* g' := ntt_convolution p g0 in mul_all p (2 ^ N) f' g') in
    intt_convolution p f') = Some h /\ length h = (2 ^ N)%nat /\ residues p h /\
    forall k, nth k h 0 == conv f g k.
Proof.
  intros Rf Rg Hf Hg HL HN f0 g0.
  destruct (vresize_ok p P H31 f (2 ^ N) ltac:(lia) Rf) as (Lf & Rf0 & Nf). fold f0 in Lf, Rf0, Nf.
  destruct (vresize_ok p P H31 g (2 ^ N) ltac:(lia) Rg) as (Lg & Rg0 & Ng). fold g0 in Lg, Rg0, Ng.
  clearbody f0 g0. destruct (ntt_tool p P H31) as (W & FW & BW).
  destruct (FW f0 N HN Lf Rf0) as (F & EF & LF & RF & KF). destruct (FW g0 N HN Lg Rg0) as (G & EG & LG & RG & KG).
  assert (X : exists h, (if forallb (fun '(a, b) => a =? b) (combine f0 g0) then sq_all p (2 ^ N) F
    else let* g' := ntt_convolution p g0 in mul_all p (2 ^ N) F g') = Some h /\ length h = (2 ^ N)%nat /\ residues p h /\
    forall k, (k < 2 ^ N)%nat -> nth k h 0 == nth k F 0 * nth k G 0).
  { destruct (forallb _ _) eqn:S.
    - apply same_eq in S; [|lia]. subst g0. assert (G = F) as -> by congruence. apply sq_all_ok; auto.
    - rewrite EG. cbn [obind]. apply mul_all_ok; auto. }
  destruct X as (E & EE & LE & RE & KE).
  destruct (BW E N 1%nat (fun _ j => nth j f 0) (fun _ j => nth j g 0) (fun _ => length f) (fun _ => length g) HN LE RE)
    as (h & Eh & Lh & Rh & Kh).
  - intros t _. split; auto. split; intros; now apply nth_overflow.
  - intros k Hk. rewrite (KE k Hk), (KF k Hk), (KG k Hk). cbn [zsum]. apply eq_eqm. unfold hat.
    rewrite (zsum_ext (2 ^ N) (fun j => nth j f0 0 * _) (fun j => nth j f 0 * pw (W N) (j * brev N k))) by (intros; now rewrite Nf).
    rewrite (zsum_ext (2 ^ N) (fun j => nth j g0 0 * _) (fun j => nth j g 0 * pw (W N) (j * brev N k))) by (intros; now rewrite Ng).
    ring.
  - exists h. cbn zeta. rewrite EF. cbn [obind]. rewrite EE. cbn [obind]. split; [exact Eh|]. split; auto. split; auto.
    intros k. destruct (Nat.lt_ge_cases k (2 ^ N)) as [C|C].
    + rewrite (Kh k C). cbn [zsum]. unfold conv. cbn [zsum]. apply eq_eqm. ring.
    + rewrite nth_overflow by lia. rewrite conv_high by lia. reflexivity.
Qed.

Lemma log_n_29 : (info_log_n p <= 29)%nat.
Proof.
  destruct (log_n_split p P H31) as (q & Hq & EQ & L31). destruct (Nat.le_gt_cases (info_log_n p) 29) as [|C]; auto. exfalso.
  assert (info_log_n p = 30)%nat as E by lia. rewrite E in EQ. change (2 ^ Z.of_nat 30) with 1073741824 in EQ.
  assert (q = 0) by lia. subst q. assert (D : p = 5 * 214748365) by lia.
  destruct (prime_divisors p P 5) as [|[|[|]]]; try lia. exists 214748365. lia.
Qed.

Lemma ceil_half x : (2 <= x)%nat -> exists r, ceil_pow2 x = S r /\ (2 ^ r < x)%nat.
Proof.
  clear. intros H. pose proof (ceil_pow2_le x) as A. destruct (ceil_pow2 x) as [|r] eqn:E; [cbn in A; lia|].
  exists r. split; auto. destruct (Nat.le_gt_cases x (2 ^ r)) as [C|]; auto. apply ceil_pow2_min in C. lia.
Qed.

(** The product of the vectors without their last entries and the rest. *)
Lemma peel_ok f g fg : residues p f -> residues p g -> (0 < length f)%nat -> (0 < length g)%nat ->
  residues p fg -> (length fg <= length f + length g - 1)%nat ->
  let n := length f in let m := length g in let f' := firstn (n - 1) f in let g' := firstn (m - 1) g in
  (forall k, nth k fg 0 == conv f' g' k) ->
  exists h, (let* fb := back f in
        let* gb := back g in
        let h := repeat 0 (n + m - 1) in
        let* v := m_mul p fb gb in
        let* h := set h (n + m - 2)%nat v in
        let* h := add_mul p (n - 1) f' gb (m - 1) h in
        let* h := add_mul p (m - 1) g' fb (n - 1) h in
        add_all p (length fg) fg 0 h) = Some h /\ length h = (n + m - 1)%nat /\ residues p h /\
    forall k, nth k h 0 == conv f g k.
Proof.
  intros Rf Rg Hf Hg Rfg Lfg n m f' g' Kfg. fold n m in Hf, Hg, Lfg.
  assert (Lf' : length f' = (n - 1)%nat) by (unfold f'; rewrite firstn_length; lia).
  assert (Lg' : length g' = (m - 1)%nat) by (unfold g'; rewrite firstn_length; lia).
  assert (Nf' : forall i, (i < n - 1)%nat -> nth i f' 0 = nth i f 0).
  { intros i Hi. unfold f'. rewrite <- (firstn_skipn (n - 1) f) at 2. rewrite app_nth1; auto. fold f'. lia. }
  assert (Ng' : forall i, (i < m - 1)%nat -> nth i g' 0 = nth i g 0).
  { intros i Hi. unfold g'. rewrite <- (firstn_skipn (m - 1) g) at 2. rewrite app_nth1; auto. fold g'. lia. }
  assert (Rf' : residues p f') by (apply (res_i p); intros; rewrite Nf' by lia; now apply (res_n p M)).
  assert (Rg' : residues p g') by (apply (res_i p); intros; rewrite Ng' by lia; now apply (res_n p M)).
  unfold back. fold n m. destruct (Nat.ltb_spec 0 n); [|lia]. destruct (Nat.ltb_spec 0 m); [|lia]. cbn [guard obind].
  rewrite (get_nth f _ 0), (get_nth g _ 0) by (fold n m; lia). cbn [obind].
  set (fb := nth (n - 1) f 0). set (gb := nth (m - 1) g 0).
  assert (Bf : 0 <= fb < p) by now apply (res_n p M). assert (Bg : 0 <= gb < p) by now apply (res_n p M).
  rewrite m_mul_ok by auto. cbn [obind]. cbn zeta.
  rewrite set_some by (rewrite repeat_length; lia). cbn [obind].
  set (L := (n + m - 1)%nat). set (h0 := lset (repeat 0 L) (n + m - 2) ((fb * gb) mod p)).
  assert (L0 : length h0 = L) by (unfold h0; now rewrite lset_length, repeat_length).
  assert (K0 : forall k, nth k h0 0 = if (n + m - 2 =? k)%nat then (fb * gb) mod p else 0).
  { intros k. unfold h0. destruct (Nat.eqb_spec (n + m - 2) k) as [<-|N].
    - rewrite nth_lset_eq; auto. rewrite repeat_length. unfold L. lia.
    - rewrite nth_lset_neq by auto. apply nth_repeat. }
  assert (R0 : residues p h0).
  { apply (res_i p). intros k _. rewrite K0. destruct (_ =? k)%nat; [apply Z.mod_pos_bound; lia|lia]. }
  destruct (add_mul_adds p M L (n - 1) f' gb (m - 1) Rf' Bg ltac:(lia) ltac:(unfold L; lia) h0 L0 R0) as (h1 & E1 & L1 & R1 & K1).
  rewrite E1. cbn [obind].
  destruct (add_mul_adds p M L (m - 1) g' fb (n - 1) Rg' Bf ltac:(lia) ltac:(unfold L; lia) h1 L1 R1) as (h2 & E2 & L2 & R2 & K2).
  rewrite E2. cbn [obind].
  destruct (add_all_adds p M L (length fg) fg 0 Rfg ltac:(lia) ltac:(unfold L; lia) h2 L2 R2) as (h3 & E3 & L3 & R3 & K3).
  exists h3. split; auto. split; auto. split; auto. intros k. destruct (Nat.lt_ge_cases k L) as [C|C].
  - rewrite (K3 k C), (K2 k C), (K1 k C), K0. rewrite conv_dbl. fold n m.
    replace (dbl n m) with (dbl (S (n - 1)) (S (m - 1))) by (f_equal; lia). rewrite dbl_peel. fold fb gb.
    rewrite Nat.sub_0_r. cbn [Nat.leb andb].
    assert (D : (if (k <? length fg)%nat then nth k fg 0 else 0) == dbl (n - 1) (m - 1) (fun i => nth i f 0) (fun j => nth j g 0) k).
    { transitivity (nth k fg 0).
      - destruct (Nat.ltb_spec k (length fg)); [reflexivity|]. rewrite nth_overflow by auto. reflexivity.
      - rewrite (Kfg k), conv_dbl, Lf', Lg'. unfold dbl. apply eq_eqm. apply zsum_ext. intros i Hi. apply zsum_ext. intros j Hj.
        rewrite Nf', Ng' by auto. auto. }
    rewrite D. replace (n - 1 + (m - 1))%nat with (n + m - 2)%nat by lia.
    rewrite (zsum_ext (n - 1) (fun i => if (i + (m - 1) =? k)%nat then nth i f' 0 * gb else 0) (fun i => if (i + (m - 1) =? k)%nat then nth i f 0 * gb else 0))
      by (intros i Hi; now rewrite Nf').
    rewrite (zsum_ext (m - 1) (fun i => if (i + (n - 1) =? k)%nat then nth i g' 0 * fb else 0) (fun i => if (i + (n - 1) =? k)%nat then nth i g 0 * fb else 0))
      by (intros i Hi; now rewrite Ng').
    destruct (n + m - 2 =? k)%nat; [rewrite eqm_mod|]; reflexivity.
  - rewrite nth_overflow by lia. rewrite conv_high; [reflexivity|]. fold n m. unfold L in C. lia.
Qed.

(** The length of the result. *)
Definition conv_ntt_len (n m : nat) : nat :=
  let l := (2 ^ ceil_pow2 (n + m - 1))%nat in
  if (3 <=? n + m)%nat && (n + m - 3 <? l / 2)%nat then (n + m - 1)%nat else l.

Lemma conv_ntt_direct fuel f g : residues p f -> residues p g -> (0 < length f)%nat -> (0 < length g)%nat ->
  (ceil_pow2 (length f + length g - 1) <= info_log_n p)%nat ->
  ((3 <=? length f + length g)%nat && (length f + length g - 3 <? 2 ^ ceil_pow2 (length f + length g - 1) / 2)%nat) = false ->
  exists h, conv_ntt (S fuel) p f g = Some h /\ length h = (2 ^ ceil_pow2 (length f + length g - 1))%nat /\ residues p h /\
    forall k, nth k h 0 == conv f g k.
Proof.
  intros Rf Rg Hf Hg HN C. cbn [conv_ntt]. rewrite C. pose proof log_n_29.
  destruct (Nat.eqb_spec (length f + length g) 0); [lia|]. cbn [negb guard obind].
  destruct (Nat.leb_spec (ceil_pow2 (length f + length g - 1)) 30); [|lia]. cbn [guard obind].
  apply (ntt_mul f g (ceil_pow2 (length f + length g - 1))); auto.
  pose proof (ceil_pow2_le (length f + length g - 1)). lia.
Qed.

Theorem conv_ntt_ok fuel f g N : residues p f -> residues p g -> (0 < length f)%nat -> (0 < length g)%nat ->
  (length f + length g - 2 <= 2 ^ N)%nat -> (N <= info_log_n p)%nat -> (2 <= fuel)%nat ->
  exists h, conv_ntt fuel p f g = Some h /\ length h = conv_ntt_len (length f) (length g) /\ residues p h /\
    forall k, nth k h 0 == conv f g k.
Proof.
  intros Rf Rg Hf Hg HL HN Hfu. destruct fuel as [|[|fuel]]; try lia. pose proof log_n_29 as L29.
  unfold conv_ntt_len.
  destruct ((3 <=? length f + length g)%nat && (length f + length g - 3 <? 2 ^ ceil_pow2 (length f + length g - 1) / 2)%nat) eqn:C.
  - remember (S fuel) as fu. cbn [conv_ntt]. rewrite C. apply andb_prop in C. destruct C as [C1 C2].
    apply Nat.leb_le in C1. apply Nat.ltb_lt in C2.
    destruct (ceil_half (length f + length g - 1) ltac:(lia)) as (r & Er & Lr). rewrite Er in C2 |- *.
    rewrite Nat.pow_succ_r', Nat.mul_comm, Nat.div_mul in C2 by lia.
    assert (E : (length f + length g - 2 = 2 ^ r)%nat) by lia.
    assert (Hr : (r <= N)%nat) by (apply (Nat.pow_le_mono_r_iff 2); lia).
    destruct (Nat.eqb_spec (length f + length g) 0); [lia|]. cbn [negb guard obind].
    destruct (Nat.leb_spec (S r) 30); [|lia]. cbn [guard obind].
    set (f' := firstn (length f - 1) f). set (g' := firstn (length g - 1) g).
    assert (Lf' : length f' = (length f - 1)%nat) by (unfold f'; rewrite firstn_length; lia).
    assert (Lg' : length g' = (length g - 1)%nat) by (unfold g'; rewrite firstn_length; lia).
    assert (Rf' : residues p f') by (now apply res_firstn). assert (Rg' : residues p g') by (now apply res_firstn).
    assert (X : exists fg, (if (length f' =? 0)%nat || (length g' =? 0)%nat then Some []
           else if (Nat.min (length f') (length g') <=? NAIVE_THRESHOLD)%nat then naive_mod p f' g' else conv_ntt fu p f' g') = Some fg /\
        residues p fg /\ (length fg <= length f + length g - 1)%nat /\ forall k, nth k fg 0 == conv f' g' k).
    { destruct (Nat.eqb_spec (length f') 0) as [E0|E0]; [|destruct (Nat.eqb_spec (length g') 0) as [E1|E1]]; cbn [orb].
      - exists []. split; auto. split; [constructor|]. split; [cbn; lia|]. intros k. rewrite nth_overflow by (cbn; lia).
        unfold conv. apply eq_eqm. rewrite (zsum_ext _ _ (fun _ => 0)), zsum_0; auto. intros i _. rewrite (nth_overflow f') by lia. ring.
      - exists []. split; auto. split; [constructor|]. split; [cbn; lia|]. intros k. rewrite nth_overflow by (cbn; lia).
        unfold conv. apply eq_eqm. rewrite (zsum_ext _ _ (fun _ => 0)), zsum_0; auto. intros i _. rewrite (nth_overflow g') by lia. ring.
      - destruct (Nat.leb_spec (Nat.min (length f') (length g')) NAIVE_THRESHOLD) as [T|T].
        + destruct (naive_ok p M f' g' Rf' Rg') as (fg & Efg & Lfg & Rfg & Kfg); try lia. exists fg. split; auto. split; auto. split; auto. lia.
        + unfold NAIVE_THRESHOLD in T. subst fu. set (x := (length f' + length g')%nat).
          assert (Ex : x = (2 ^ r)%nat) by lia.
          assert (r1 : (1 <= r)%nat) by (destruct r; [cbn in Ex; lia|lia]).
          assert (E2 : (2 ^ r = 2 * 2 ^ (r - 1))%nat) by (rewrite <- Nat.pow_succ_r'; f_equal; lia).
          assert (Ec : ceil_pow2 (x - 1) = r).
          { apply Nat.le_antisymm; [apply ceil_pow2_min; lia|].
            destruct (Nat.le_gt_cases r (ceil_pow2 (x - 1))) as [|D]; auto. exfalso.
            pose proof (ceil_pow2_le (x - 1)). assert (2 ^ ceil_pow2 (x - 1) <= 2 ^ (r - 1))%nat by (apply Nat.pow_le_mono_r; lia). lia. }
          destruct (conv_ntt_direct fuel f' g' Rf' Rg') as (fg & Efg & Lfg & Rfg & Kfg); try lia.
          * fold x. rewrite Ec. lia.
          * fold x. rewrite Ec. replace (2 ^ r / 2)%nat with (2 ^ (r - 1))%nat by (rewrite E2, Nat.mul_comm, Nat.div_mul; lia).
            destruct (Nat.ltb_spec (x - 3) (2 ^ (r - 1))); [lia|]. apply Bool.andb_false_r.
          * exists fg. split; auto. split; auto. split; [|auto]. rewrite Lfg. fold x. rewrite Ec. lia. }
    destruct X as (fg & Efg & Rfg & Lfg & Kfg). rewrite Efg. cbn [obind].
    apply (peel_ok f g fg Rf Rg Hf Hg Rfg Lfg Kfg).
  - apply conv_ntt_direct; auto. destruct (Nat.le_gt_cases (length f + length g) 2) as [C2|C2].
    + replace (length f + length g - 1)%nat with 1%nat by lia. cbn. lia.
    + destruct (Nat.leb_spec 3 (length f + length g)); [|lia]. cbn [andb] in C. apply Nat.ltb_ge in C.
      destruct (ceil_half (length f + length g - 1) ltac:(lia)) as (r & Er & Lr). rewrite Er in C |- *.
      rewrite Nat.pow_succ_r', Nat.mul_comm, Nat.div_mul in C by lia.
      assert (r < N)%nat; [|lia]. apply (Nat.pow_lt_mono_r_iff 2); lia.
Qed.

(** [convolution] *)
Theorem convolution_ok f g N : residues p f -> residues p g -> (0 < length f)%nat -> (0 < length g)%nat ->
  ((Nat.min (length f) (length g) <= NAIVE_THRESHOLD)%nat \/ (length f + length g - 2 <= 2 ^ N)%nat /\ (N <= info_log_n p)%nat) ->
  exists h, convolution p f g = Some h /\ residues p h /\
    length h = (if (Nat.min (length f) (length g) <=? NAIVE_THRESHOLD)%nat then (length f + length g - 1)%nat
                else conv_ntt_len (length f) (length g)) /\
    forall k, nth k h 0 == conv f g k.
Proof.
  intros Rf Rg Hf Hg H. unfold convolution.
  destruct (Nat.eqb_spec (length f) 0); [lia|]. destruct (Nat.eqb_spec (length g) 0); [lia|]. cbn [orb].
  destruct (Nat.leb_spec (Nat.min (length f) (length g)) NAIVE_THRESHOLD).
  - destruct (naive_ok p M f g Rf Rg Hf Hg) as (h & E & L & R & K). exists h. auto.
  - destruct H as [H|[HL HN]]; [lia|].
    destruct (conv_ntt_ok (length f + length g) f g N Rf Rg Hf Hg HL HN ltac:(lia)) as (h & E & L & R & K). exists h. auto.
Qed.
End Conv.
