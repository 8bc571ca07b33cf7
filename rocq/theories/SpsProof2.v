From Coq Require Import Lia Ring_theory Ring.
From Verif Require Import Base BaseLemmas ListExtra NthExtra RSum BitConvModel BitConvSweep BitConvProof BitConvSubset SpsModel SpsAlg SpsRep SpsProof.

Section Proof.
Variable T : Type.
Variables (zero one : T) (add mul sub : T -> T -> T) (opp : T -> T) (eqb : T -> T -> bool).
Hypothesis RT : ring_theory zero one add mul sub opp eq.
Hypothesis EQ : forall x y, eqb x y = true <-> x = y.
Add Ring Tring : RT.
Variable LIM : nat.
Notation sum := (sum T zero add).
Notation row_ok := (row_ok T LIM).
Notation at2 := (at2 T zero).
Notation sconv := (sconv T zero add mul).
Notation hi := (hi T).
Notation rep := (rep T zero add).
Notation mem := (mem T LIM).
Notation cmp := (cmp T zero one add mul).
Notation pk := (pk T zero one add mul).
Notation spow := (spow T zero one add mul).
Notation ffact := (ffact T zero one add mul).
Notation delta := (delta T zero one).
Notation ofn := (of_nat zero one add).
Notation vec A := (fun t => nth t A zero).
Let SR := SRT T zero one add mul sub opp RT.
Infix "+" := add. Infix "*" := mul. Infix "-" := sub.

Lemma cmp_base n : forall a a' F s, s < 2 ^ n -> (forall t, t < 2 ^ n -> a t = a' t) -> cmp a F s = cmp a' F s.
Proof.
  induction n as [|n IH]; intros a a' F s Hs H.
  - assert (s = 0)%nat by (cbn in Hs; lia). subst. now rewrite !(cmp_0 T zero one add mul sub opp RT).
  - pose proof (Nat.pow_succ_r' 2 n). destruct (split_lt n s Hs) as [Hl|(r & -> & Hl)]; [apply IH; auto; intros; apply H; lia|].
    rewrite !(cmp_hi T zero one add mul sub opp RT) by auto. apply (sconv_ext T zero one add mul sub opp RT n); auto.
    + intros t Ht. apply H. lia.
    + intros t Ht. apply IH; auto. intros u Hu. apply H. lia.
Qed.
Lemma spow_base n : forall a a' k s, s < 2 ^ n -> (forall t, t < 2 ^ n -> a t = a' t) -> spow a k s = spow a' k s.
Proof.
  intros a a' k. induction k as [|k IH]; intros s Hs H; auto. cbn [SpsAlg.spow]. apply (sconv_ext T zero one add mul sub opp RT n); auto.
Qed.
Lemma cmp_coef n a F F' s : s < 2 ^ n -> (forall k, k <= n -> F k = F' k) -> cmp a F s = cmp a F' s.
Proof.
  intros Hs H. rewrite !(cmp_sum T zero one add mul sub opp RT a n) by auto. apply sum_ext. intros k Hk. apply in_seq in Hk. rewrite H by lia. reflexivity.
Qed.

(** * Composition with a polynomial *)

Fixpoint tc (c : T) (i j : nat) : T :=
  match i with O => kron zero one 0 j | S i => tc c i j * c + (if j =? 0 then zero else tc c i (j - 1)) end.
Lemma spow_shift n a b c : b 0%nat = zero -> (forall t, t < 2 ^ n -> a t = c * delta t + b t) -> forall i s, s < 2 ^ n ->
  spow a i s = sum (seq 0 (n + 1)) (fun j => tc c i j * ffact j * pk b j s).
Proof.
  intros B0 Ha. induction i as [|i IH]; intros s Hs.
  - cbn [SpsAlg.spow tc]. rewrite Nat.add_1_r. change (seq 0 (S n)) with (0%nat :: seq 1 n). rewrite sum_cons.
    rewrite (sum_zero_ext _ _ _ _ _ SR (seq 1 n)).
    + rewrite (pk_0 T zero one add mul sub opp RT). unfold kron. cbn [Nat.eqb SpsAlg.ffact]. ring.
    + intros j Hj. apply in_seq in Hj. unfold kron. destruct (Nat.eqb_spec 0 j); [lia|]. ring.
  - cbn [SpsAlg.spow]. rewrite (sconv_ext T zero one add mul sub opp RT n a (fun t => c * delta t + b t) (spow a i) (fun t => sum (seq 0 (n + 1)) (fun j => tc c i j * ffact j * pk b j t)) s) by auto.
    rewrite (sconv_add_l T zero one add mul sub opp RT), (sconv_scale_l T zero one add mul sub opp RT), (sconv_delta_l T zero one add mul sub opp RT n) by auto.
    rewrite (sconv_sum_r T zero one add mul sub opp RT).
    rewrite (sum_ext _ _ _ (seq 0 (n + 1)) (fun x => sconv b (fun t => tc c i x * ffact x * pk b x t) s) (fun j => tc c i j * ffact (S j) * pk b (S j) s)).
    2: { intros j _. rewrite (sconv_scale_r T zero one add mul sub opp RT). rewrite (pk_step T zero one add mul sub opp RT b B0 n) by auto. cbn [SpsAlg.ffact]. ring. }
    rewrite (sum_ext _ _ _ (seq 0 (n + 1)) (fun j => tc c (S i) j * ffact j * pk b j s)
       (fun j => c * (tc c i j * ffact j * pk b j s) + (if j =? 0 then zero else tc c i (j - 1) * ffact j * pk b j s))).
    2: { intros j _. cbn [tc]. destruct (j =? 0); ring. }
    rewrite (sum_add _ _ _ _ _ SR), (sum_mul _ _ _ _ _ SR). f_equal.
    rewrite Nat.add_1_r, seq_S, (sum_app _ _ _ _ _ SR). cbn [Nat.add]. rewrite sum_cons, sum_nil. rewrite (pk_big T zero one add mul sub opp RT b n (S n)) by (auto; lia).
    change (0%nat :: seq 0 n) with (0%nat :: seq 0 n). transitivity (sum (seq 0 n) (fun j => tc c i j * ffact (S j) * pk b (S j) s)); [ring|].
    replace ((seq 0 n ++ [n])%list) with (seq 0 (S n)) by (rewrite seq_S; reflexivity). change (seq 0 (S n)) with (0%nat :: seq 1 n). rewrite sum_cons, <- seq_shift, sum_map. cbn [Nat.eqb].
    transitivity (sum (seq 0 n) (fun x => tc c i (S x - 1) * ffact (S x) * pk b (S x) s)); [|ring].
    apply sum_ext. intros j _. replace (S j - 1)%nat with j by lia. reflexivity.
Qed.

Lemma taylor_ok d c F : exists g pow, forall s0, s0 = lset (repeat zero (d + 1)) 0 one ->
  for_up (length F) 0 (taylor_step zero add mul d c F) (repeat zero (d + 1), s0) = Some (g, pow) /\ length g = (d + 1)%nat /\
  forall j, j <= d -> nth j g zero = sum (seq 0 (length F)) (fun i => nth i F zero * tc c i j).
Proof.
  destruct (@for_up_rule _ (fun i '(g, pow) => length g = (d + 1)%nat /\ length pow = (d + 1)%nat /\ (forall j, j <= d -> nth j pow zero = tc c i j) /\
     forall j, j <= d -> nth j g zero = sum (seq 0 i) (fun i => nth i F zero * tc c i j)) (taylor_step zero add mul d c F) (length F) 0
     (repeat zero (d + 1), lset (repeat zero (d + 1)) 0 one)) as ((g & pow) & E & Lg & _ & _ & Vg).
  - split; [apply repeat_length|]. split; [rewrite lset_length; apply repeat_length|]. split.
    + intros j Hj. rewrite nth_lset, repeat_length, nth_repeat. destruct (Nat.ltb_spec 0 (d + 1)); [|lia]. rewrite andb_true_r. reflexivity.
    + intros j Hj. apply nth_repeat.
  - intros i (g & pow) Hi (Lg & Lp & Vp & Vg). unfold taylor_step. rewrite (get_nth F i zero) by lia. cbn [obind].
    match goal with |- context [for_up _ _ ?bd g] => set (b1 := bd) end.
    destruct (@for_up_rule _ (fun k g' => length g' = (d + 1)%nat /\ forall j, j <= d -> nth j g' zero = if j <? k then nth j g zero + nth i F zero * tc c i j else nth j g zero) b1 (d + 1) 0 g) as (g1 & E1 & L1 & V1).
    + split; auto.
    + intros k g' Hk (L' & V'). unfold b1. rewrite (get_nth g' k zero), (get_nth pow k zero) by lia. cbn [obind]. rewrite set_some by lia. eexists. split; [reflexivity|].
      rewrite lset_length. split; auto. intros j Hj. rewrite nth_lset, L', (V' j) by auto. destruct (Nat.ltb_spec k (d + 1)); [|lia]. rewrite andb_true_r.
      destruct (Nat.eqb_spec k j) as [Ekj|Ne].
      * subst j. rewrite V', Vp by lia. destruct (Nat.ltb_spec k k); [lia|]. destruct (Nat.ltb_spec k (S k)); [auto|lia].
      * destruct (Nat.ltb_spec j k), (Nat.ltb_spec j (S k)); try lia; auto.
    + rewrite E1. cbn [obind]. match goal with |- context [for_down _ _ ?bd pow] => set (b2 := bd) end.
      destruct (@for_down_rule _ (fun k p => length p = (d + 1)%nat /\ forall j, j <= d -> nth j p zero = if k <=? j then tc c (S i) j else tc c i j) b2 0 (d + 1) pow) as (p1 & E2 & L2 & V2).
      * split; auto. intros j Hj. rewrite Vp by auto. destruct (Nat.leb_spec (0 + (d + 1))%nat j); [lia|auto].
      * intros k p Hk (L' & V'). unfold b2. rewrite (get_nth p k zero) by lia. cbn [obind].
        assert (EQQ : (if k =? 0 then Some zero else get p (k - 1)) = Some (if k =? 0 then zero else tc c i (k - 1))).
        { destruct (Nat.eqb_spec k 0); auto. rewrite (get_nth p (k - 1) zero) by lia. rewrite V' by lia. destruct (Nat.leb_spec (S k) (k - 1)); [lia|auto]. }
        rewrite EQQ. cbn [obind]. rewrite set_some by lia. eexists. split; [reflexivity|]. rewrite lset_length. split; auto. intros j Hj. rewrite nth_lset, L'.
        destruct (Nat.ltb_spec k (d + 1)); [|lia]. rewrite andb_true_r. rewrite !V' by lia. destruct (Nat.leb_spec (S k) k); [lia|].
        destruct (Nat.eqb_spec k j) as [Ekj|Ne].
        -- subst j. destruct (Nat.leb_spec k k); [reflexivity|lia].
        -- destruct (Nat.leb_spec k j), (Nat.leb_spec (S k) j); try lia; auto.
      * rewrite E2. cbn [obind]. eexists. split; [reflexivity|]. split; [auto|]. split; [auto|]. split.
        -- intros j Hj. rewrite V2 by auto. reflexivity.
        -- intros j Hj. rewrite V1 by auto. destruct (Nat.ltb_spec j (0 + (d + 1))%nat); [|lia]. rewrite seq_S, (sum_app _ _ _ _ _ SR), Vg by auto. cbn [Nat.add]. rewrite sum_cons, sum_nil. ring.
  - exists g, pow. intros s0 ->. split; auto.
Qed.
Lemma to_egf_ok d g : length g = (d + 1)%nat -> exists g' x, for_up (d + 1) 0 (egf_step zero one add mul) (g, one) = Some (g', x) /\ length g' = (d + 1)%nat /\
  forall j, j <= d -> nth j g' zero = nth j g zero * ffact j.
Proof.
  intros L. destruct (@for_up_rule _ (fun k '(g', x) => length g' = (d + 1)%nat /\ x = ffact k /\ forall j, j <= d -> nth j g' zero = if j <? k then nth j g zero * ffact j else nth j g zero)
    (egf_step zero one add mul) (d + 1) 0 (g, one)) as ((g' & x) & E & L' & _ & V).
  - split; auto.
  - intros k (g' & x) Hk (L' & -> & V). unfold egf_step. rewrite (get_nth g' k zero) by lia. cbn [obind]. rewrite set_some by lia. cbn [obind]. eexists. split; [reflexivity|]. cbv beta iota.
    rewrite lset_length. split; auto. split; [cbn [SpsAlg.ffact]; now rewrite Nat.add_1_r|]. intros j Hj. rewrite nth_lset, L'. destruct (Nat.ltb_spec k (d + 1)); [|lia]. rewrite andb_true_r.
    rewrite !V by lia. destruct (Nat.ltb_spec k k); [lia|]. destruct (Nat.eqb_spec k j), (Nat.ltb_spec j k), (Nat.ltb_spec j (S k)); subst; try lia; auto.
  - exists g', x. split; auto. split; auto. intros j Hj. rewrite V by auto. destruct (Nat.ltb_spec j (0 + (d + 1))%nat); [auto|lia].
Qed.
Lemma nth_vresize w (l : list T) t : t < w -> nth t (vresize w zero l) zero = nth t l zero.
Proof.
  intros H. unfold vresize. destruct (Nat.lt_ge_cases t (length l)).
  - rewrite app_nth1 by (rewrite firstn_length; lia). now apply nth_first.
  - rewrite app_nth2 by (rewrite firstn_length; lia). rewrite nth_repeat. now rewrite nth_overflow.
Qed.
Lemma vresize_length w (l : list T) : length (vresize w zero l) = w.
Proof. unfold vresize. rewrite app_length, firstn_length, repeat_length. lia. Qed.
Lemma nth_vresize_ge w (l : list T) t : w <= t -> nth t (vresize w zero l) zero = zero.
Proof. intros H. apply nth_overflow. now rewrite vresize_length. Qed.

Lemma comp_poly_ok n F A : n <= LIM + 1 -> 0 < length A -> (n < length F \/ length F = 1)%nat ->
  exists R, comp_poly zero one add sub mul eqb LIM n F A = Some R /\ length R = 2 ^ n /\ forall s, s < 2 ^ n ->
    (nth 0 A zero <> zero -> nth s R zero = sum (seq 0 (length F)) (fun i => nth i F zero * spow (vec A) i s)) /\
    (nth 0 A zero = zero -> nth s R zero = cmp (vec A) (vec F) s).
Proof.
  intros Hn LA HF. pose proof (pow2_pos n). unfold comp_poly. destruct F as [|f0 F'] eqn:EF; [cbn [length] in HF; lia|]. rewrite <- EF in *. clear EF f0 F'.
  rewrite (get_nth A 0 zero) by auto. cbn [obind]. rewrite set_some by auto. cbn [obind]. set (c := nth 0 A zero). set (B := vresize (2 ^ n) zero (lset A 0 zero)).
  assert (LB : length B = 2 ^ n) by apply vresize_length.
  assert (VB : forall t, t < 2 ^ n -> nth t B zero = if t =? 0 then zero else nth t A zero).
  { intros t Ht. unfold B. rewrite nth_vresize, nth_lset by auto. destruct (Nat.ltb_spec 0 (length A)); [|lia]. rewrite andb_true_r, Nat.eqb_sym. reflexivity. }
  assert (B0 : nth 0 B zero = zero) by now rewrite VB.
  destruct (eqb c zero) eqn:Ec.
  - apply EQ in Ec. destruct (comp_egf_ok T zero one add mul sub opp eqb RT EQ LIM F B n) as (R & E & LR & VR); auto; try lia. exists R. split; [auto|]. split; [auto|].
    intros s Hs. split; [now intros Nc|]. intros _. rewrite VR by auto. apply (cmp_base n); auto. intros t Ht. rewrite VB by auto. destruct (Nat.eqb_spec t 0) as [Et|]; auto. rewrite Et. symmetry. exact Ec.
  - assert (Nc : c <> zero) by (intros E; apply EQ in E; congruence). set (d := min (length F - 1) n).
    rewrite set_some by (rewrite repeat_length; lia). cbn [obind]. destruct (taylor_ok d c F) as (g & pow & TG). destruct (TG _ eq_refl) as (E1 & Lg & Vg). rewrite E1. cbn [obind].
    destruct (to_egf_ok d g Lg) as (g' & x & E2 & Lg' & Vg'). rewrite E2. cbn [obind].
    destruct (comp_egf_ok T zero one add mul sub opp eqb RT EQ LIM g' B n) as (R & E & LR & VR); auto; try lia. exists R. split; [auto|]. split; [auto|].
    intros s Hs. split; [intros _|now intros C0]. rewrite VR by auto. rewrite (cmp_sum T zero one add mul sub opp RT (vec B) n) by auto.
    rewrite (sum_ext _ _ _ (seq 0 (length F)) _ (fun i => sum (seq 0 (n + 1)) (fun j => nth i F zero * (tc c i j * ffact j * pk (vec B) j s)))).
    + rewrite (sum_swap _ _ _ _ _ SR). apply sum_ext. intros j Hj. apply in_seq in Hj.
      rewrite (sum_ext _ _ _ (seq 0 (length F)) _ (fun i => nth i F zero * tc c i j * (ffact j * pk (vec B) j s))) by (intros; ring).
      rewrite (sum_mul_r _ _ _ _ _ SR). destruct (Nat.lt_ge_cases d j) as [Hd|Hd].
      * assert (L1 : length F = 1%nat) by lia. rewrite (nth_overflow g') by lia. rewrite L1. cbn [seq]. rewrite sum_cons, sum_nil. cbn [tc]. unfold kron. destruct (Nat.eqb_spec 0 j); [lia|]. ring.
      * rewrite Vg', Vg by auto. ring.
    + intros i _. rewrite (sum_mul _ _ _ _ _ SR). f_equal. apply (spow_shift n); auto. intros t Ht. cbn beta. rewrite VB by auto. unfold SpsAlg.delta.
      destruct (Nat.eqb_spec t 0); [subst; unfold c; ring|ring].
Qed.

(** * Logarithm *)

Lemma log_coef_ok n : exists f x, for_up n 1 (log_coef zero one add mul opp) (repeat zero (n + 1), one) = Some (f, x) /\ length f = (n + 1)%nat /\ nth 0 f zero = zero /\
  forall k, k < n -> nth (S k) f zero = opp (ffact k).
Proof.
  destruct (@for_up_rule _ (fun i '(f, x) => length f = (n + 1)%nat /\ nth 0 f zero = zero /\ x = ffact (i - 1) /\ forall k, S k < i -> nth (S k) f zero = opp (ffact k))
    (log_coef zero one add mul opp) n 1 (repeat zero (n + 1), one)) as ((f & x) & E & L & V0 & _ & V).
  - split; [apply repeat_length|]. split; [apply nth_repeat|]. split; auto. lia.
  - intros i (f & x) Hi (L & V0 & -> & V). unfold log_coef. rewrite set_some by lia. cbn [obind]. eexists. split; [reflexivity|]. cbv beta iota. rewrite lset_length. split; auto. split.
    + rewrite nth_lset_neq by lia. auto.
    + split; [destruct i as [|i]; [lia|]; replace (S (S i) - 1)%nat with (S i) by lia; replace (S i - 1)%nat with i by lia; reflexivity|].
      intros k Hk. rewrite nth_lset, L. destruct (Nat.ltb_spec i (n + 1)); [|lia]. rewrite andb_true_r. destruct (Nat.eqb_spec i (S k)); [subst; do 2 f_equal; lia|apply V; lia].
  - exists f, x. split; [auto|]. split; [auto|]. split; [auto|]. intros k Hk. apply V. lia.
Qed.
Lemma sps_log_ok n s : n <= LIM -> 0 < length s -> nth 0 s zero = one -> exists L, sps_log zero one add sub mul opp eqb LIM n s = Some L /\ length L = 2 ^ n /\ nth 0 L zero = zero /\
  forall r, r < 2 ^ n -> cmp (vec L) (fun _ => one) r = nth r s zero.
Proof.
  intros Hn Ls S0. pose proof (pow2_pos n). unfold sps_log. destruct (Nat.leb_spec n LIM); [|lia]. cbn [guard obind]. rewrite (get_nth s 0 zero) by auto. cbn [obind].
  rewrite S0, (proj2 (EQ one one) eq_refl). cbn [guard obind]. destruct (log_coef_ok n) as (f & x & Ef & Lf & f0 & Vf). rewrite Ef. cbn [obind]. rewrite set_some by auto. cbn [obind].
  set (B := vresize (2 ^ n) zero (lset s 0 zero)). assert (LB : length B = 2 ^ n) by apply vresize_length.
  assert (VB : forall t, t < 2 ^ n -> nth t B zero = if t =? 0 then zero else nth t s zero).
  { intros t Ht. unfold B. rewrite nth_vresize, nth_lset by auto. destruct (Nat.ltb_spec 0 (length s)); [|lia]. rewrite andb_true_r, Nat.eqb_sym. reflexivity. }
  match goal with |- context [for_up _ 1 ?bd B] => set (body := bd) end.
  destruct (@for_up_rule _ (fun i b => length b = 2 ^ n /\ forall t, t < 2 ^ n -> nth t b zero = if (0 <? t) && (t <? i) then opp (nth t B zero) else nth t B zero) body (2 ^ n - 1) 1 B) as (b & E & Lb & Vb).
  - split; auto. intros t Ht. destruct (Nat.ltb_spec 0 t), (Nat.ltb_spec t 1); cbn [andb]; auto; lia.
  - intros i b Hi (Lb & Vb). unfold body. rewrite (get_nth b i zero) by lia. cbn [obind]. rewrite set_some by lia. eexists. split; [reflexivity|]. rewrite lset_length. split; auto.
    intros t Ht. rewrite nth_lset, Lb. destruct (Nat.ltb_spec i (2 ^ n)); [|lia]. rewrite andb_true_r. rewrite !Vb by lia.
    destruct (Nat.eqb_spec i t), (Nat.ltb_spec 0 t), (Nat.ltb_spec t i), (Nat.ltb_spec t (S i)); subst; cbn [andb]; try lia; auto.
    destruct (Nat.ltb_spec 0 t), (Nat.ltb_spec t t); cbn [andb]; auto; lia.
  - rewrite E. cbn [obind]. assert (Vb' : forall t, t < 2 ^ n -> nth t b zero = if t =? 0 then zero else opp (nth t s zero)).
    { intros t Ht. rewrite Vb, VB by auto. destruct (Nat.eqb_spec t 0), (Nat.ltb_spec 0 t), (Nat.ltb_spec t (1 + (2 ^ n - 1))%nat); cbn [andb]; auto; lia. }
    destruct (comp_egf_ok T zero one add mul sub opp eqb RT EQ LIM f b n) as (L & EL & LL & VL); auto; try lia; [now rewrite Vb' by auto|].
    exists L. split; [auto|]. split; [auto|]. set (ff := fun k => match k with O => zero | S k => opp (ffact k) end).
    assert (VL' : forall t, t < 2 ^ n -> nth t L zero = cmp (vec b) ff t).
    { intros t Ht. rewrite VL by auto. apply (cmp_coef n); auto. intros [|k] Hk; cbn [ff]; [exact f0|]. apply Vf. lia. }
    split; [rewrite VL' by auto; now rewrite (cmp_0 T zero one add mul sub opp RT)|]. intros r Hr.
    rewrite (cmp_base n (vec L) (cmp (vec b) ff)) by auto.
    rewrite (log_exp T zero one add mul sub opp RT (fun t => if t <? 2 ^ n then nth t s zero else zero) (vec b) ff); auto.
    + destruct (Nat.ltb_spec r (2 ^ n)); [auto|lia].
    + destruct (Nat.ltb_spec 0 (2 ^ n)); [auto|lia].
    + intros t. cbn beta. destruct (Nat.ltb_spec t (2 ^ n)); [now apply Vb'|]. rewrite nth_overflow by lia. destruct (t =? 0); ring.
Qed.

(** * Inverse *)

Lemma inv_row_ok n row g : n <= LIM -> length row = (LIM + 1)%nat -> length g = (LIM + 1)%nat ->
  exists g', inv_row zero one sub mul n row g = Some g' /\ length g' = (LIM + 1)%nat /\ nth 0 g' zero = one /\
  forall j, 1 <= j <= n -> nth j g' zero = opp (sum (seq 0 j) (fun k => nth k g' zero * nth (j - k) row zero)).
Proof.
  intros Hn Lr Lg. unfold inv_row. rewrite set_some by lia. cbn [obind]. match goal with |- context [for_up n _ ?bd _] => set (body := bd) end.
  destruct (@for_up_rule _ (fun i g' => length g' = (LIM + 1)%nat /\ nth 0 g' zero = one /\ forall j, 1 <= j < i -> nth j g' zero = opp (sum (seq 0 j) (fun k => nth k g' zero * nth (j - k) row zero)))
    body n 1 (lset g 0 one)) as (g' & E & L & V0 & V).
  - rewrite lset_length. split; auto. split; [apply nth_lset_eq; lia|]. lia.
  - intros j g1 Hj (L & V0 & V). unfold body. rewrite set_some by lia. cbn [obind]. match goal with |- context [for_up j 0 ?bd _] => set (b2 := bd) end.
    destruct (@for_up_rule _ (fun k g2 => g2 = lset g1 j (opp (sum (seq 0 k) (fun k => nth k g1 zero * nth (j - k) row zero)))) b2 j 0 (lset g1 j zero)) as (g2 & E2 & ->).
    + f_equal. cbn [seq]. rewrite sum_nil. ring.
    + intros k g2 Hk ->. unfold b2. rewrite get_lset_eq by lia. cbn [obind]. rewrite (get_nth _ k zero) by (rewrite lset_length; lia). cbn [obind].
      rewrite (get_nth row (j - k) zero) by lia. cbn [obind]. rewrite set_some by (rewrite lset_length; lia). eexists. split; [reflexivity|]. rewrite lset_lset. f_equal.
      rewrite nth_lset_neq by lia. rewrite seq_S, (sum_app _ _ _ _ _ SR). cbn [Nat.add]. rewrite sum_cons, sum_nil. ring.
    + exists (lset g1 j (opp (sum (seq 0 (0 + j)) (fun k => nth k g1 zero * nth (j - k) row zero)))). split; [exact E2|]. rewrite lset_length. split; auto. split; [rewrite nth_lset_neq by lia; auto|].
      intros i Hi. destruct (Nat.eq_dec i j) as [->|Ne].
      * rewrite nth_lset_eq by lia. cbn [Nat.add]. f_equal. apply sum_ext. intros k Hk. apply in_seq in Hk. now rewrite nth_lset_neq by lia.
      * rewrite nth_lset_neq by lia. rewrite V by lia. f_equal. apply sum_ext. intros k Hk. apply in_seq in Hk. now rewrite nth_lset_neq by lia.
  - exists g'. split; [exact E|]. split; [auto|]. split; [auto|]. intros j Hj. apply V. lia.
Qed.
Lemma zs_opp n D s : zs T zero add n (fun t => opp (D t)) s = opp (zs T zero add n D s).
Proof.
  unfold zs. transitivity (sum (seq 0 (2 ^ n)) (fun t => opp one * (if subset t s then D t else zero))).
  - apply sum_ext. intros t _. destruct (subset t s); ring.
  - rewrite (sum_mul _ _ _ _ _ SR). ring.
Qed.
Fixpoint mob (n : nat) (z : nat -> T) (t : nat) : T :=
  match n with O => z t | S n => if t <? 2 ^ n then mob n z t else mob n (fun s => z (2 ^ n + s)%nat - z s) (t - 2 ^ n)%nat end.
Lemma zs_mob n : forall z s, s < 2 ^ n -> zs T zero add n (mob n z) s = z s.
Proof.
  induction n as [|n IH]; intros z s Hs.
  - assert (s = 0)%nat by (cbn in Hs; lia). subst. now rewrite (zs_0 T zero one add mul sub opp RT).
  - assert (El : forall r, r < 2 ^ n -> zs T zero add n (mob (S n) z) r = z r).
    { intros r Hr. rewrite <- (IH z r) by auto. apply zs_ext. intros t Ht. cbn [mob]. destruct (Nat.ltb_spec t (2 ^ n)); [auto|lia]. }
    destruct (split_lt n s Hs) as [H|(r & -> & H)]; [rewrite (zs_lo T zero one add mul sub opp RT) by auto; auto|]. rewrite (zs_hi T zero one add mul sub opp RT), El by auto.
    rewrite (zs_ext T zero add n (hi n (mob (S n) z)) (mob n (fun s => z (2 ^ n + s)%nat - z s))).
    + rewrite IH by auto. ring.
    + intros t Ht. unfold SpsAlg.hi. cbn [mob]. destruct (Nat.ltb_spec (2 ^ n + t) (2 ^ n)); [lia|]. f_equal. lia.
Qed.
Lemma rep_delta n : rep n (fun _ d => if d =? 0 then one else zero) delta.
Proof.
  exists (fun d t => if d =? 0 then delta t else zero). split; [|split].
  - intros d s Hd Hs. destruct (Nat.eqb_spec d 0).
    + unfold zs. pose proof (pow2_pos n). replace (2 ^ n) with (S (2 ^ n - 1)) by lia. change (seq 0 (S (2 ^ n - 1))) with (0%nat :: seq 1 (2 ^ n - 1)). rewrite sum_cons.
      rewrite (sum_zero_ext _ _ _ _ _ SR (seq 1 (2 ^ n - 1))).
      * unfold SpsAlg.delta, subset. cbn. ring.
      * intros t Ht. apply in_seq in Ht. unfold SpsAlg.delta. destruct (Nat.eqb_spec t 0); [lia|]. now destruct (subset t s).
    + symmetry. apply (sum_zero_ext _ _ _ _ _ SR). intros t _. now destruct (subset t s).
  - intros d t Hd Ht Hp. destruct (Nat.eqb_spec d 0); auto. unfold SpsAlg.delta. destruct (Nat.eqb_spec t 0); auto. subst. cbn in Hp. lia.
  - intros t Ht. destruct (Nat.eqb_spec (popcount t) 0) as [E|E].
    + auto.
    + unfold SpsAlg.delta. destruct (Nat.eqb_spec t 0); auto. subst. now cbn in E.
Qed.
Lemma rep_inv n v w f : rep n v f -> f 0%nat = one -> (forall s, s < 2 ^ n -> w s 0%nat = one) ->
  (forall s d, s < 2 ^ n -> 1 <= d <= n -> w s d = opp (sum (seq 0 d) (fun k => w s k * v s (d - k)%nat))) ->
  exists h, rep n w h /\ forall t, t < 2 ^ n -> sconv h f t = delta t.
Proof.
  intros (D & H1 & H2 & H3) F0 W0 WS. set (E := fun d => mob n (fun s => w s d)).
  assert (EZ : forall d s, s < 2 ^ n -> w s d = zs T zero add n (E d) s) by (intros; unfold E; now rewrite zs_mob).
  assert (EV : forall d, d <= n -> forall t, t < 2 ^ n -> (d < popcount t)%nat -> E d t = zero).
  { induction d as [d IH] using lt_wf_ind. intros Hd t Ht Hp. destruct (Nat.eq_dec d 0) as [->|Nd].
    - rewrite (zs_inj T zero one add mul sub opp RT n (E 0) delta) with (t := t); auto.
      + unfold SpsAlg.delta. destruct (Nat.eqb_spec t 0); auto. subst. cbn in Hp. lia.
      + intros s Hs. rewrite <- EZ, W0 by auto. destruct (rep_delta n) as (D0 & K1 & K2 & K3).
        assert (PE : forall t, t < 2 ^ n -> D0 0%nat t = delta t).
        { intros u Hu. destruct (Nat.eq_dec (popcount u) 0) as [Ep|Ep]; [rewrite <- Ep at 1; now apply K3|]. rewrite K2 by lia. unfold SpsAlg.delta. destruct (Nat.eqb_spec u 0); auto. subst. now cbn in Ep. }
        transitivity (zs T zero add n (D0 0%nat) s); [rewrite <- K1 by lia; reflexivity|]. apply zs_ext. exact PE.
    - rewrite (zs_inj T zero one add mul sub opp RT n (E d) (fun u => opp (sum (seq 0 d) (fun k => lorc T zero add mul n (E k) (D (d - k)%nat) u)))) with (t := t); auto.
      + rewrite (sum_zero_ext _ _ _ _ _ SR); [ring|]. intros j Hj. apply in_seq in Hj. apply (sum_zero_ext _ _ _ _ _ SR). intros i Hi. apply in_seq in Hi.
        apply (sum_zero_ext _ _ _ _ _ SR). intros i' Hi'. apply in_seq in Hi'. destruct (Nat.eqb_spec (Nat.lor i i') t) as [El|]; auto.
        pose proof (pop_lor n i i') as PL. rewrite El in PL. destruct (Nat.lt_ge_cases j (popcount i)); [rewrite (IH j) by lia; ring|]. rewrite (H2 (d - j)%nat i') by lia. ring.
      + intros s Hs. rewrite <- EZ, WS by (auto; lia). rewrite zs_opp. f_equal. rewrite (zs_sum T zero one add mul sub opp RT). apply sum_ext. intros k Hk. apply in_seq in Hk.
        rewrite <- (zs_mul T zero one add mul sub opp RT). rewrite (EZ k), H1 by (auto; lia). reflexivity. }
  set (h := fun t => E (popcount t) t). assert (RW : rep n w h) by (exists E; split; [auto|split; auto]). exists h. split; auto.
  apply (rep_unique T zero one add mul sub opp RT n (fun _ d => if d =? 0 then one else zero)); [|apply rep_delta].
  apply (rep_mul T zero one add mul sub opp RT n w v); auto; [exists D; auto|]. intros s d Hs Hd. unfold cauchy. rewrite Nat.add_1_r, seq_S, (sum_app _ _ _ _ _ SR). cbn [Nat.add].
  rewrite sum_cons, sum_nil, Nat.sub_diag. assert (V0 : v s 0%nat = one).
  { rewrite H1 by (auto; lia). transitivity (zs T zero add n delta s).
    - apply zs_ext. intros t Ht. unfold SpsAlg.delta. destruct (Nat.eqb_spec t 0) as [->|Nt]; [rewrite <- F0; now apply (H3 0%nat)|]. apply H2; auto; [lia|].
      rewrite (popcount_cnt n) by auto. destruct (cnt n t) eqn:Ec; [|lia]. apply cnt_0 in Ec; auto. lia.
    - destruct (rep_delta n) as (D0 & K1 & K2 & K3). transitivity (zs T zero add n (D0 0%nat) s); [|rewrite <- K1 by lia; reflexivity]. apply zs_ext. intros u Hu. symmetry.
      destruct (Nat.eq_dec (popcount u) 0) as [Ep|Ep]; [rewrite <- Ep at 1; now apply K3|]. rewrite K2 by lia. unfold SpsAlg.delta. destruct (Nat.eqb_spec u 0); auto. subst. now cbn in Ep. }
  rewrite V0. destruct (Nat.eqb_spec d 0) as [->|Nd].
  - cbn [seq]. rewrite sum_nil, W0 by auto. ring.
  - rewrite (WS s d) by (auto; lia). ring.
Qed.
Lemma sps_inv_ok n s : n <= LIM -> length s <= 2 ^ n -> nth 0 s zero = one -> exists R, sps_inv zero one add sub mul LIM n s = Some R /\ length R = 2 ^ n /\
  forall t, t < 2 ^ n -> sconv (vec R) (vec s) t = delta t.
Proof.
  intros Hn Ls S0. unfold sps_inv. destruct (rep_zeta T zero one add mul sub opp RT LIM n s) as (Z & E & L & G & R); auto. rewrite E. cbn [obind].
  match goal with |- context [for_up (2 ^ n) _ ?bd _] => set (body := bd) end.
  destruct (@for_up_rule _ (fun i '(Y, g) => mem (2 ^ n) Y /\ length g = (LIM + 1)%nat /\ forall r, r < 2 ^ n -> (i <= r -> nth r Y [] = nth r Z []) /\
     (r < i -> at2 Y r 0 = one /\ forall d, 1 <= d <= n -> at2 Y r d = opp (sum (seq 0 d) (fun k => at2 Y r k * at2 Z r (d - k)%nat))))
     body (2 ^ n) 0 (Z, repeat zero (LIM + 1))) as ((Y & g) & EY & MY & _ & VY).
  - split; [now split|]. split; [apply repeat_length|]. intros r Hr. split; auto. lia.
  - intros i (Y & g) Hi ((LY & GY) & Lg & VY). unfold body. rewrite (get_nth Y i []) by lia. cbn [obind]. destruct (VY i) as [VZ _]; [lia|]. rewrite VZ by lia.
    destruct (inv_row_ok n (nth i Z []) g) as (g' & Eg & Lg' & V0 & Vg); auto; [apply (rows_nth T LIM); auto; lia|]. rewrite Eg. cbn [obind]. rewrite set_some by lia. cbn [obind].
    eexists. split; [reflexivity|]. split; [split; [now rewrite lset_length|]|split; [auto|]].
    + apply (rows_nth T LIM). intros r Hr. rewrite lset_length in Hr. rewrite nth_lset. destruct (_ && _); [exact Lg'|]. apply (rows_nth T LIM); auto.
    + intros r Hr. destruct (VY r Hr) as [Va Vb]. split.
      * intros Hir. rewrite nth_lset_neq by lia. apply Va. lia.
      * intros Hri. unfold BitConvSubset.at2. destruct (Nat.eq_dec r i) as [->|Ne]; [rewrite nth_lset_eq by lia; auto|]. rewrite nth_lset_neq by lia. apply Vb. lia.
  - rewrite EY. cbn [obind]. destruct (rep_inv n (at2 Z) (at2 Y) (vec s)) as (h & Rh & Vh); auto.
    + intros r Hr. apply (VY r Hr). lia.
    + intros r d Hr Hd. apply (VY r Hr); lia.
    + destruct MY as [LY GY]. rewrite (rep_mobius T zero one add mul sub opp RT LIM n Y h) by auto. eexists. split; [reflexivity|]. rewrite map_length, seq_length. split; auto.
      intros t Ht. rewrite <- Vh by auto. apply (sconv_ext T zero one add mul sub opp RT n); auto. intros u Hu. now rewrite map_seq_nth.
Qed.
End Proof.
