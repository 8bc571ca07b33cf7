From Coq Require Import Lia Ring_theory Ring.
From Verif Require Import Base BaseLemmas ListExtra NthExtra RSum DirichletMult BitConvModel BitConvSweep.

(** * Bits *)

Lemma tb_lt a n i : a < 2 ^ n -> n <= i -> Nat.testbit a i = false.
Proof. intros H Hi. rewrite <- (Nat.mod_small a (2 ^ n)) by auto. now apply Nat.mod_pow2_bits_high. Qed.
Lemma lt_tb a n : (forall i, n <= i -> Nat.testbit a i = false) -> a < 2 ^ n.
Proof.
  intros H. replace a with (a mod 2 ^ n); [apply Nat.mod_upper_bound; pose proof (pow2_pos n); lia|].
  apply Nat.bits_inj. intros i. destruct (Nat.lt_ge_cases i n).
  - now apply Nat.mod_pow2_bits_low.
  - rewrite H by auto. now apply Nat.mod_pow2_bits_high.
Qed.
Lemma tb_add n a i : a < 2 ^ n -> Nat.testbit (2 ^ n + a) i = (n =? i) || Nat.testbit a i.
Proof.
  intros H. rewrite Nat.add_nocarry_lxor.
  - rewrite Nat.lxor_spec, Nat.pow2_bits_eqb. destruct (Nat.eqb_spec n i); [subst; now rewrite (tb_lt a i i)|now destruct (Nat.testbit a i)].
  - apply Nat.bits_inj. intros j. rewrite Nat.land_spec, Nat.pow2_bits_eqb, Nat.bits_0.
    destruct (Nat.eqb_spec n j); auto. subst. now rewrite (tb_lt a j j).
Qed.
Lemma lor_lt a b n : a < 2 ^ n -> b < 2 ^ n -> Nat.lor a b < 2 ^ n.
Proof. intros Ha Hb. apply lt_tb. intros i Hi. now rewrite Nat.lor_spec, (tb_lt a n), (tb_lt b n). Qed.
Lemma lxor_lt a b n : a < 2 ^ n -> b < 2 ^ n -> Nat.lxor a b < 2 ^ n.
Proof. intros Ha Hb. apply lt_tb. intros i Hi. now rewrite Nat.lxor_spec, (tb_lt a n), (tb_lt b n). Qed.
Lemma land_lt a b n : a < 2 ^ n -> Nat.land a b < 2 ^ n.
Proof. intros Ha. apply lt_tb. intros i Hi. now rewrite Nat.land_spec, (tb_lt a n). Qed.

Lemma subset_spec t s : subset t s = true <-> forall i, Nat.testbit t i = true -> Nat.testbit s i = true.
Proof.
  unfold subset. rewrite Nat.eqb_eq. split.
  - intros E i Hi. rewrite <- E, Nat.land_spec in Hi. now apply andb_prop in Hi.
  - intros H. apply Nat.bits_inj. intros i. rewrite Nat.land_spec. specialize (H i). destruct (Nat.testbit t i); [now rewrite H|auto].
Qed.
Lemma bool_iff (a b : bool) : (a = true <-> b = true) -> a = b.
Proof. destruct a, b; intuition; try (symmetry; intuition). Qed.
Lemma subset_hi_lo n t s : t < 2 ^ n -> s < 2 ^ n -> subset (2 ^ n + t) s = false.
Proof.
  intros Ht Hs. destruct (subset (2 ^ n + t) s) eqn:E; auto. rewrite subset_spec in E. specialize (E n).
  rewrite tb_add, Nat.eqb_refl, (tb_lt s n n) in E by auto. now discriminate E.
Qed.
Lemma subset_lo_hi n t s : t < 2 ^ n -> s < 2 ^ n -> subset t (2 ^ n + s) = subset t s.
Proof.
  intros Ht Hs. apply bool_iff. rewrite !subset_spec. split; intros H i Hi; specialize (H i Hi).
  - rewrite tb_add in H by auto. destruct (Nat.eqb_spec n i); auto. subst. now rewrite (tb_lt t i i) in Hi.
  - rewrite tb_add, H by auto. apply orb_true_r.
Qed.
Lemma subset_hi_hi n t s : t < 2 ^ n -> s < 2 ^ n -> subset (2 ^ n + t) (2 ^ n + s) = subset t s.
Proof.
  intros Ht Hs. apply bool_iff. rewrite !subset_spec. split; intros H i Hi; specialize (H i).
  - rewrite !tb_add in H by auto. destruct (Nat.eqb_spec n i); [|auto]. subst. now rewrite (tb_lt t i i) in Hi.
  - rewrite !tb_add in * by auto. destruct (n =? i); auto.
Qed.
Lemma subset_lor i j s : subset (Nat.lor i j) s = subset i s && subset j s.
Proof.
  apply bool_iff. rewrite andb_true_iff, !subset_spec. split.
  - intros H. split; intros k Hk; apply H; rewrite Nat.lor_spec, Hk; auto using orb_true_r.
  - intros [H1 H2] k Hk. rewrite Nat.lor_spec in Hk. apply orb_prop in Hk as [Hk|Hk]; auto.
Qed.

(** * Lists *)

Lemma firstn_S_get {A} (l : list A) : forall i v, get l i = Some v -> firstn (S i) l = firstn i l ++ [v].
Proof. induction l as [|x l IH]; intros [|i] v H; try discriminate; [injection H as ->; reflexivity|]. cbn [firstn app]. f_equal. apply IH, H. Qed.

Definition zipw {A B C} (g : A -> B -> C) (X : list A) (Y : list B) : list C := map (fun p => g (fst p) (snd p)) (combine X Y).
Lemma zipw_length {A B C} (g : A -> B -> C) X Y n : length X = n -> length Y = n -> length (zipw g X Y) = n.
Proof. intros H1 H2. unfold zipw. rewrite map_length, combine_length, H1, H2. lia. Qed.
Lemma zipw_cons {A B C} (g : A -> B -> C) x X y Y : zipw g (x :: X) (y :: Y) = g x y :: zipw g X Y.
Proof. reflexivity. Qed.
Lemma zipw_nth {A B C} (g : A -> B -> C) X Y i a b c : i < length X -> i < length Y -> nth i (zipw g X Y) c = g (nth i X a) (nth i Y b).
Proof.
  revert Y i. induction X as [|x X IH]; intros [|y Y] i H1 H2; cbn [length] in *; try lia. rewrite zipw_cons. destruct i as [|i]; auto.
  cbn [nth]. apply IH; lia.
Qed.
Lemma zipw_app {A B C} (g : A -> B -> C) X X' Y Y' : length X = length Y -> zipw g (X ++ X') (Y ++ Y') = zipw g X Y ++ zipw g X' Y'.
Proof. revert Y. induction X as [|x X IH]; intros [|y Y] H; try discriminate; auto. cbn [app]. rewrite !zipw_cons, IH by auto. reflexivity. Qed.
Lemma zipw_firstn {A B C} (g : A -> B -> C) n X Y : firstn n (zipw g X Y) = zipw g (firstn n X) (firstn n Y).
Proof. unfold zipw. now rewrite firstn_map, combine_firstn. Qed.
Lemma zipw_skipn {A B C} (g : A -> B -> C) n : forall X Y, skipn n (zipw g X Y) = zipw g (skipn n X) (skipn n Y).
Proof.
  induction n as [|n IH]; intros [|x X] [|y Y]; auto.
  - cbn. unfold zipw. now destruct (skipn n X).
  - rewrite zipw_cons. cbn [skipn]. apply IH.
Qed.
Lemma zipw_four {A} (F g : A -> A -> A) : (forall a b c d, F (g a c) (g b d) = g (F a b) (F c d)) ->
  forall a b c d, zipw F (zipw g a c) (zipw g b d) = zipw g (zipw F a b) (zipw F c d).
Proof.
  intros H a. induction a as [|x a IH]; intros b c d; auto. destruct c as [|z c].
  - unfold zipw at 1 2 3 4. destruct b; cbn; auto.
  - destruct b as [|y b]; auto. destruct d as [|u d]; [reflexivity|].
    rewrite !zipw_cons, IH, H. reflexivity.
Qed.
Lemma zipw_fst {A B} (X : list A) (Y : list B) : length X = length Y -> zipw (fun a _ => a) X Y = X.
Proof. revert Y. induction X as [|x X IH]; intros [|y Y] H; try discriminate; auto. rewrite zipw_cons, IH; auto. Qed.
Lemma split_pow n {A} (X : list A) : length X = 2 ^ S n ->
  exists L R, X = L ++ R /\ length L = 2 ^ n /\ length R = 2 ^ n /\ firstn (2 ^ n) X = L /\ skipn (2 ^ n) X = R.
Proof.
  intros H. rewrite Nat.pow_succ_r' in H. exists (firstn (2 ^ n) X), (skipn (2 ^ n) X).
  rewrite firstn_skipn, firstn_length, skipn_length. repeat split; lia.
Qed.
Lemma trans_S {T} (f : T -> T -> T * T) n L R : length L = 2 ^ n ->
  trans f (S n) (L ++ R) = zipw (fun a b => fst (f a b)) (trans f n L) (trans f n R) ++ zipw (fun a b => snd (f a b)) (trans f n L) (trans f n R).
Proof. intros H. cbn [trans]. rewrite <- H, firstn_app, skipn_app, Nat.sub_diag, firstn_all, skipn_all, app_nil_r. reflexivity. Qed.
Lemma trans_zip {T} (f : T -> T -> T * T) (g : T -> T -> T) :
  (forall a b c d, fst (f (g a c) (g b d)) = g (fst (f a b)) (fst (f c d))) ->
  (forall a b c d, snd (f (g a c) (g b d)) = g (snd (f a b)) (snd (f c d))) ->
  forall n X Y, length X = 2 ^ n -> length Y = 2 ^ n -> trans f n (zipw g X Y) = zipw g (trans f n X) (trans f n Y).
Proof.
  intros H1 H2. induction n as [|n IH]; intros X Y HX HY; auto.
  destruct (split_pow n X HX) as (L & R & -> & HL & HR & _). destruct (split_pow n Y HY) as (L' & R' & -> & HL' & HR' & _).
  rewrite zipw_app by congruence. rewrite !trans_S by (try apply zipw_length; auto). rewrite !IH by auto.
  rewrite zipw_app by (rewrite !(zipw_length _ _ _ (2 ^ n)); auto; now apply trans_length).
  f_equal; apply zipw_four; auto.
Qed.
Lemma bitlen_pow2 n : bitlen (2 ^ n - 1) = n.
Proof.
  unfold bitlen. pose proof (pow2_pos n). destruct (Nat.eqb_spec (2 ^ n - 1) 0) as [E|E].
  - destruct n as [|n]; auto. rewrite Nat.pow_succ_r' in E. pose proof (pow2_pos n). lia.
  - destruct n as [|n]; [cbn in E; lia|]. f_equal. apply Nat.log2_unique; [lia|]. rewrite !Nat.pow_succ_r' in *. pose proof (pow2_pos n). lia.
Qed.

(** * Sums *)

Section Ring.
Variable T : Type.
Variables (zero one : T) (add mul sub : T -> T -> T) (opp : T -> T).
Hypothesis RT : ring_theory zero one add mul sub opp eq.
Add Ring Tring : RT.
Lemma SRT : semi_ring_theory zero one add mul eq.
Proof. constructor; intros; ring. Qed.
Notation sum := (sum T zero add).
Infix "+" := add. Infix "*" := mul. Infix "-" := sub.

Lemma total_sum {X} (l : list X) f : total zero add l f = sum l f. Proof. reflexivity. Qed.
Lemma sum_prod {X Y} (l : list X) (r : list Y) f : sum (list_prod l r) f = sum l (fun x => sum r (fun y => f (x, y))).
Proof.
  induction l as [|x l IH]; auto. cbn [list_prod]. rewrite (sum_app _ _ _ _ _ SRT), IH, sum_cons. f_equal. apply sum_map.
Qed.
Lemma sum_delta (l : list nat) k v : NoDup l -> In k l -> sum l (fun x => if x =? k then v else zero) = v.
Proof.
  induction l as [|x l IH]; intros N I; [easy|]. inversion N as [|? ? Nx Nl]; subst. rewrite sum_cons.
  destruct (Nat.eqb_spec x k) as [->|E].
  - rewrite (sum_zero_ext _ _ _ _ _ SRT); [ring|]. intros y Hy. destruct (Nat.eqb_spec y k); [subst; easy|auto].
  - rewrite IH; [ring|auto|]. destruct I; [easy|auto].
Qed.
Lemma seq_pow2 n : seq 0 (2 ^ S n) = (seq 0 (2 ^ n) ++ map (fun x => (2 ^ n + x)%nat) (seq 0 (2 ^ n)))%list.
Proof. rewrite <- seq_shift_map, Nat.add_0_r, <- seq_app. f_equal. rewrite Nat.pow_succ_r'. lia. Qed.

(** * Zeta and Moebius *)

Definition fz (a b : T) : T * T := (a, b + a).
Definition fm (a b : T) : T * T := (a, b - a).
Definition fh (a b : T) : T * T := (a + b, a - b).

Lemma lset_self {A} (l : list A) i d : i < length l -> lset l i (nth i l d) = l.
Proof. revert i. induction l as [|x l IH]; intros [|i] H; cbn [length lset nth] in *; try lia; auto. now rewrite IH by lia. Qed.
Lemma zeta_step_ok w t A d : w <= t -> 0 < w -> t < length A ->
  zeta_step add w t A = Some (lset (lset A (t - w) (fst (fz (nth (t - w) A d) (nth t A d)))) t (snd (fz (nth (t - w) A d) (nth t A d)))).
Proof.
  intros H1 H2 H3. unfold zeta_step. rewrite (get_nth A t d), (get_nth A (t - w) d) by lia. cbn [obind fz fst snd].
  rewrite lset_self by lia. now apply set_some.
Qed.
Lemma mobius_step_ok w t A d : w <= t -> 0 < w -> t < length A ->
  mobius_step sub w t A = Some (lset (lset A (t - w) (fst (fm (nth (t - w) A d) (nth t A d)))) t (snd (fm (nth (t - w) A d) (nth t A d)))).
Proof.
  intros H1 H2 H3. unfold mobius_step. rewrite (get_nth A t d), (get_nth A (t - w) d) by lia. cbn [obind fm fst snd].
  rewrite lset_self by lia. now apply set_some.
Qed.
Lemma hadamard_step_ok w t A d : w <= t -> 0 < w -> t < length A ->
  hadamard_step add sub w t A = Some (lset (lset A (t - w) (fst (fh (nth (t - w) A d) (nth t A d)))) t (snd (fh (nth (t - w) A d) (nth t A d)))).
Proof.
  intros H1 H2 H3. unfold hadamard_step. rewrite (get_nth A t d), (get_nth A (t - w) d) by lia. cbn [obind fh fst snd].
  rewrite set_some by lia. cbn [obind]. apply set_some. rewrite lset_length. lia.
Qed.
Lemma all_true (A : list T) : Forall (fun _ => True) A.
Proof. apply Forall_forall. auto. Qed.
Lemma sweep_zeta n A : length A = 2 ^ n -> sweep (zeta_step add) n A = Some (trans fz n A).
Proof. intros H. apply (@sweep_trans T fz (fun _ => True)); auto using all_true. intros w t B d _. apply zeta_step_ok. Qed.
Lemma sweep_mobius n A : length A = 2 ^ n -> sweep (mobius_step sub) n A = Some (trans fm n A).
Proof. intros H. apply (@sweep_trans T fm (fun _ => True)); auto using all_true. intros w t B d _. apply mobius_step_ok. Qed.
Lemma sweep_hadamard n A : length A = 2 ^ n -> sweep (hadamard_step add sub) n A = Some (trans fh n A).
Proof. intros H. apply (@sweep_trans T fh (fun _ => True)); auto using all_true. intros w t B d _. apply hadamard_step_ok. Qed.

Lemma zipw_fz_fst L R : length L = length R -> zipw (fun a b => fst (fz a b)) L R = L.
Proof. apply (zipw_fst L R). Qed.
Lemma mobius_zeta n : forall X, length X = 2 ^ n -> trans fm n (trans fz n X) = X.
Proof.
  induction n as [|n IH]; intros X HX; auto. destruct (split_pow n X HX) as (L & R & -> & HL & HR & _).
  assert (TL : length (trans fz n L) = 2 ^ n) by now apply trans_length.
  assert (TR : length (trans fz n R) = 2 ^ n) by now apply trans_length.
  rewrite (trans_S fz n L R HL), zipw_fz_fst by congruence. rewrite (trans_S fm n _ _ TL).
  rewrite (trans_zip fm (fun a b => snd (fz a b))) by (auto; intros; unfold fm, fz; cbn [fst snd]; ring).
  rewrite !IH by auto. f_equal.
  - apply (zipw_fst L). now rewrite (zipw_length _ _ _ (2 ^ n)).
  - unfold fm, fz. cbn [fst snd]. clear -HL HR RT. rewrite <- HR in HL. clear HR. revert R HL. induction L as [|a L IH]; intros [|b R] H; try discriminate; auto.
    rewrite !zipw_cons, IH by auto. f_equal. ring.
Qed.
Lemma zeta_mobius n : forall X, length X = 2 ^ n -> trans fz n (trans fm n X) = X.
Proof.
  induction n as [|n IH]; intros X HX; auto. destruct (split_pow n X HX) as (L & R & -> & HL & HR & _).
  assert (TL : length (trans fm n L) = 2 ^ n) by now apply trans_length.
  assert (TR : length (trans fm n R) = 2 ^ n) by now apply trans_length.
  rewrite (trans_S fm n L R HL). replace (zipw (fun a b => fst (fm a b)) (trans fm n L) (trans fm n R)) with (trans fm n L) by (symmetry; apply zipw_fst; congruence).
  rewrite (trans_S fz n _ _ TL).
  rewrite (trans_zip fz (fun a b => snd (fm a b))) by (auto; intros; unfold fm, fz; cbn [fst snd]; ring).
  rewrite !IH by auto. f_equal.
  - apply (zipw_fst L). now rewrite (zipw_length _ _ _ (2 ^ n)).
  - unfold fm, fz. cbn [fst snd]. clear -HL HR RT. rewrite <- HR in HL. clear HR. revert R HL. induction L as [|a L IH]; intros [|b R] H; try discriminate; auto.
    rewrite !zipw_cons, IH by auto. f_equal. ring.
Qed.

(** A transform given by a kernel. *)
Definition ksum (e : nat -> T) (X : list T) : T := sum (seq 0 (length X)) (fun t => e t * nth t X zero).
Definition ez (s t : nat) : T := if subset t s then one else zero.
Lemma trans_nth_lo f n L R s : length L = 2 ^ n -> length R = 2 ^ n -> s < 2 ^ n ->
  nth s (trans f (S n) (L ++ R)) zero = fst (f (nth s (trans f n L) zero) (nth s (trans f n R) zero)).
Proof.
  intros HL HR Hs. assert (TL : length (trans f n L) = 2 ^ n) by now apply trans_length.
  assert (TR : length (trans f n R) = 2 ^ n) by now apply trans_length.
  rewrite trans_S by auto. rewrite app_nth1 by (erewrite zipw_length; eauto). apply (zipw_nth (fun a b => fst (f a b))); lia.
Qed.
Lemma trans_nth_hi f n L R s : length L = 2 ^ n -> length R = 2 ^ n -> s < 2 ^ n ->
  nth (2 ^ n + s)%nat (trans f (S n) (L ++ R)) zero = snd (f (nth s (trans f n L) zero) (nth s (trans f n R) zero)).
Proof.
  intros HL HR Hs. assert (TL : length (trans f n L) = 2 ^ n) by now apply trans_length.
  assert (TR : length (trans f n R) = 2 ^ n) by now apply trans_length.
  rewrite trans_S by auto. rewrite app_nth2 by (rewrite (zipw_length _ _ _ (2 ^ n)) by auto; lia). rewrite (zipw_length _ _ _ (2 ^ n)) by auto.
  replace (2 ^ n + s - 2 ^ n)%nat with s by lia. apply (zipw_nth (fun a b => snd (f a b))); lia.
Qed.
Lemma ksum_split e n L R : length L = 2 ^ n -> length R = 2 ^ n ->
  ksum e (L ++ R) = ksum e L + ksum (fun t => e (2 ^ n + t)%nat) R.
Proof.
  intros HL HR. unfold ksum. rewrite app_length, HL, HR. replace (2 ^ n + 2 ^ n)%nat with (2 ^ S n)%nat by (rewrite Nat.pow_succ_r'; lia).
  rewrite seq_pow2, (sum_app _ _ _ _ _ SRT), sum_map. f_equal; apply sum_ext; intros t Ht; apply in_seq in Ht.
  - rewrite app_nth1 by lia. reflexivity.
  - rewrite app_nth2 by lia. now replace (2 ^ n + t - length L)%nat with t by lia.
Qed.
Lemma ksum_ext e e' X : (forall t, t < length X -> e t = e' t) -> ksum e X = ksum e' X.
Proof. intros H. apply sum_ext. intros t Ht. apply in_seq in Ht. rewrite H by lia. reflexivity. Qed.
Lemma ksum_zero e X : (forall t, t < length X -> e t = zero) -> ksum e X = zero.
Proof. intros H. apply (sum_zero_ext _ _ _ _ _ SRT). intros t Ht. apply in_seq in Ht. rewrite H by lia. ring. Qed.
Lemma zeta_sem n : forall X s, length X = 2 ^ n -> s < 2 ^ n -> nth s (trans fz n X) zero = ksum (ez s) X.
Proof.
  induction n as [|n IH]; intros X s HX Hs.
  - destruct X as [|x [|y X]]; try discriminate. assert (s = 0%nat) as -> by (cbn in Hs; lia). cbn. unfold ez. cbn. ring.
  - destruct (split_pow n X HX) as (L & R & -> & HL & HR & _). rewrite (ksum_split _ n) by auto.
    destruct (Nat.lt_ge_cases s (2 ^ n)) as [Hl|Hl].
    + rewrite trans_nth_lo by auto. cbn [fz fst]. rewrite IH by auto.
      rewrite (ksum_zero _ R); [ring|]. intros t Ht. unfold ez. rewrite subset_hi_lo by lia. auto.
    + rewrite Nat.pow_succ_r' in Hs. replace s with (2 ^ n + (s - 2 ^ n))%nat by lia. set (u := (s - 2 ^ n)%nat). assert (Hu : u < 2 ^ n) by lia.
      rewrite trans_nth_hi by auto. cbn [fz snd]. rewrite !IH by auto. rewrite (SRadd_comm SRT). f_equal; apply ksum_ext; intros t Ht; unfold ez.
      * rewrite subset_lo_hi by lia. auto.
      * rewrite subset_hi_hi by lia. auto.
Qed.

(** * Convolutions by multiplicative kernels *)

Lemma conv_sum op A B k : conv zero add mul op A B k =
  sum (seq 0 (length A)) (fun i => sum (seq 0 (length B)) (fun j => if op i j =? k then nth i A zero * nth j B zero else zero)).
Proof. unfold conv. rewrite total_sum, (sum_filter _ _ _ _ _ SRT), sum_prod. reflexivity. Qed.
Lemma kernel_conv op n e A B C : length A = 2 ^ n -> length B = 2 ^ n -> length C = 2 ^ n ->
  (forall i j, i < 2 ^ n -> j < 2 ^ n -> op i j < 2 ^ n) ->
  (forall i j, i < 2 ^ n -> j < 2 ^ n -> e (op i j) = e i * e j) ->
  (forall k, k < 2 ^ n -> nth k C zero = conv zero add mul op A B k) ->
  ksum e A * ksum e B = ksum e C.
Proof.
  intros HA HB HC Hop He HCv. unfold ksum. rewrite HA, HB, HC. set (Q := seq 0 (2 ^ n)).
  assert (HQ : forall x, In x Q -> x < 2 ^ n) by (intros x Hx; apply in_seq in Hx; lia).
  rewrite (sum_ext _ _ _ Q (fun k => e k * nth k C zero) (fun k => sum Q (fun i => sum Q (fun j => if k =? op i j then e (op i j) * (nth i A zero * nth j B zero) else zero)))).
  2: { intros k Hk. rewrite HCv, conv_sum, HA, HB by auto. rewrite <- (sum_mul _ _ _ _ _ SRT). apply sum_ext. intros i Hi.
       rewrite <- (sum_mul _ _ _ _ _ SRT). apply sum_ext. intros j Hj. rewrite (Nat.eqb_sym k). destruct (Nat.eqb_spec (op i j) k); [subst; auto|ring]. }
  rewrite <- (sum_mul_r _ _ _ _ _ SRT), (sum_swap _ _ _ _ _ SRT). apply sum_ext. intros i Hi.
  rewrite <- (sum_mul _ _ _ _ _ SRT), (sum_swap _ _ _ _ _ SRT). apply sum_ext. intros j Hj.
  rewrite sum_delta; [rewrite He by auto; ring|apply seq_NoDup|]. apply in_seq. specialize (Hop i j (HQ i Hi) (HQ j Hj)). lia.
Qed.
Definition conv_list op n A B : list T := map (conv zero add mul op A B) (seq 0 (2 ^ n)).
Lemma conv_list_length op n A B : length (conv_list op n A B) = 2 ^ n.
Proof. unfold conv_list. now rewrite map_length, seq_length. Qed.
Lemma map_seq_nth {X} (g : nat -> X) n k d : k < n -> nth k (map g (seq 0 n)) d = g k.
Proof. intros H. rewrite (nth_indep _ d (g 0%nat)) by (rewrite map_length, seq_length; auto). rewrite map_nth, seq_nth by auto. reflexivity. Qed.
Lemma conv_list_nth op n A B k : k < 2 ^ n -> nth k (conv_list op n A B) zero = conv zero add mul op A B k.
Proof. intros H. now apply map_seq_nth. Qed.
Lemma ez_lor s i j : ez s (Nat.lor i j) = ez s i * ez s j.
Proof. unfold ez. rewrite subset_lor. destruct (subset i s), (subset j s); cbn; ring. Qed.
Lemma zeta_conv n A B : length A = 2 ^ n -> length B = 2 ^ n ->
  zipw mul (trans fz n A) (trans fz n B) = trans fz n (conv_list Nat.lor n A B).
Proof.
  intros HA HB. assert (TA : length (trans fz n A) = 2 ^ n) by now apply trans_length.
  assert (TB : length (trans fz n B) = 2 ^ n) by now apply trans_length.
  assert (TC : length (conv_list Nat.lor n A B) = 2 ^ n) by apply conv_list_length.
  apply (nth_ext_len _ _ zero).
  - rewrite (zipw_length _ _ _ (2 ^ n)), trans_length; auto.
  - rewrite (zipw_length _ _ _ (2 ^ n)) by auto. intros s Hs. rewrite (zipw_nth mul _ _ s zero zero) by lia.
    rewrite !zeta_sem by auto. apply (kernel_conv Nat.lor n); auto.
    + intros. now apply lor_lt.
    + intros. apply ez_lor.
    + intros. now apply conv_list_nth.
Qed.

(** * The functions *)

Lemma nonempty_pow2 {X} (A : list X) n : length A = 2 ^ n -> A <> [].
Proof. intros H ->. pose proof (pow2_pos n). cbn in H. lia. Qed.
Lemma zeta_inline_eq A n : length A = 2 ^ n -> zeta_inline add A = Some (trans fz n A).
Proof. intros H. unfold zeta_inline. destruct A eqn:E; [now apply nonempty_pow2 in H|]. rewrite H, bitlen_pow2. now apply sweep_zeta. Qed.
Lemma mobius_inline_eq A n : length A = 2 ^ n -> mobius_inline sub A = Some (trans fm n A).
Proof. intros H. unfold mobius_inline. destruct A eqn:E; [now apply nonempty_pow2 in H|]. rewrite H, bitlen_pow2. now apply sweep_mobius. Qed.
Lemma copy_pow2_eq (A : list T) n : length A = 2 ^ n -> copy_pow2 n A = Some A.
Proof. intros H. unfold copy_pow2. rewrite H, Nat.leb_refl. cbn [guard obind]. rewrite <- H. now rewrite firstn_all. Qed.
Lemma mobius_eq A n : length A = 2 ^ n -> mobius sub A = Some (trans fm n A).
Proof.
  intros H. unfold mobius. destruct A eqn:E; [now apply nonempty_pow2 in H|]. rewrite H, bitlen_pow2, copy_pow2_eq by auto. cbn [obind]. now apply sweep_mobius.
Qed.
Lemma pointwise_eq A B : length A = length B -> pointwise mul A B = Some (zipw mul A B).
Proof.
  intros H. unfold pointwise.
  destruct (@for_up_rule _ (fun i C => C = zipw mul (firstn i A) (firstn i B) ++ skipn i A) (fun i A =>
    let* a := get A i in let* b := get B i in set A i (mul a b)) (length A) 0 A) as (C & E & HC).
  - reflexivity.
  - intros i C Hi ->. cbn [Nat.add] in Hi.
    assert (L1 : length (zipw mul (firstn i A) (firstn i B)) = i) by (apply zipw_length; rewrite firstn_length; lia).
    assert (Ha : exists a, get A i = Some a) by (apply get_lt; lia). destruct Ha as (a & Ga).
    assert (Hb : exists b, get B i = Some b) by (apply get_lt; lia). destruct Hb as (b & Gb).
    assert (Ea : skipn i A = a :: skipn (S i) A) by (apply skipn_get_cons; auto).
    rewrite Ea.
    assert (G : get (zipw mul (firstn i A) (firstn i B) ++ a :: skipn (S i) A) i = Some a).
    { unfold get. rewrite nth_error_app2, L1, Nat.sub_diag by lia. reflexivity. }
    rewrite G, Gb. cbn [obind]. rewrite set_some by (rewrite app_length; cbn; lia). eexists. split; [reflexivity|].
    pose proof (lset_mid (zipw mul (firstn i A) (firstn i B)) (skipn (S i) A) a (mul a b)) as E. rewrite L1 in E. rewrite E. rewrite (firstn_S_get A i a Ga), (firstn_S_get B i b Gb).
    rewrite zipw_app by (rewrite !firstn_length; lia). rewrite <- app_assoc. reflexivity.
  - rewrite E. f_equal. rewrite HC. cbn [Nat.add]. rewrite !skipn_all, app_nil_r, firstn_all, H, firstn_all. reflexivity.
Qed.
Lemma or_inline_eq A B n : length A = 2 ^ n -> length B = 2 ^ n -> or_inline add sub mul A B = Some (conv_list Nat.lor n A B).
Proof.
  intros HA HB. unfold or_inline. rewrite (zeta_inline_eq A n), (zeta_inline_eq B n) by auto. cbn [obind].
  rewrite pointwise_eq by (rewrite !(trans_length _ n); auto). cbn [obind]. rewrite zeta_conv by auto.
  rewrite (mobius_inline_eq _ n) by (apply trans_length, conv_list_length). now rewrite mobius_zeta by apply conv_list_length.
Qed.

(** * AND *)

Lemma nth_padded (A : list T) m i : nth i (A ++ repeat zero m) zero = nth i A zero.
Proof.
  destruct (Nat.lt_ge_cases i (length A)); [now rewrite app_nth1|]. rewrite app_nth2, (nth_overflow A) by auto.
  rewrite nth_repeat. reflexivity.
Qed.
Lemma sum_seq_le f a b : a <= b -> (forall i, a <= i < b -> f i = zero) -> sum (seq 0 b) f = sum (seq 0 a) f.
Proof.
  intros H Hz. replace b with (a + (b - a))%nat by lia. rewrite seq_app, (sum_app _ _ _ _ _ SRT).
  rewrite (sum_zero_ext _ _ _ _ _ SRT (seq (0 + a) (b - a))); [ring|]. intros i Hi. apply in_seq in Hi. apply Hz. lia.
Qed.
Lemma conv_pad op A B k n m : length A <= n -> length B <= m ->
  sum (seq 0 n) (fun i => sum (seq 0 m) (fun j => if op i j =? k then nth i A zero * nth j B zero else zero)) = conv zero add mul op A B k.
Proof.
  intros HA HB. rewrite conv_sum. rewrite (sum_seq_le _ _ _ HA).
  - apply sum_ext. intros i Hi. apply (sum_seq_le _ _ _ HB). intros j Hj. rewrite (nth_overflow B) by lia. destruct (op i j =? k); ring.
  - intros i Hi. apply (sum_zero_ext _ _ _ _ _ SRT). intros j Hj. rewrite (nth_overflow A) by lia. destruct (op i j =? k); ring.
Qed.
Lemma rev_seq N : rev (seq 0 N) = map (fun i => (N - 1 - i)%nat) (seq 0 N).
Proof.
  apply (nth_ext_len _ _ 0%nat); [now rewrite rev_length, map_length|]. rewrite rev_length, seq_length. intros i Hi.
  rewrite rev_nth, seq_length, seq_nth, map_seq_nth by (rewrite ?seq_length; lia). lia.
Qed.
Lemma sum_rev N f : sum (seq 0 N) f = sum (seq 0 N) (fun i => f (N - 1 - i)%nat).
Proof. rewrite (sum_perm _ _ _ _ _ SRT _ (rev (seq 0 N))) by apply Permutation.Permutation_rev. rewrite rev_seq. apply sum_map. Qed.
Lemma compl n i : i < 2 ^ n -> (2 ^ n - 1 - i)%nat = Nat.lnot i n.
Proof.
  intros H. assert (E : (i + Nat.lnot i n)%nat = Nat.ones n).
  { rewrite Nat.add_nocarry_lxor; [unfold Nat.lnot; now rewrite <- Nat.lxor_assoc, Nat.lxor_nilpotent, Nat.lxor_0_l|].
    apply Nat.bits_inj. intros b. rewrite Nat.land_spec, Nat.bits_0. destruct (Nat.lt_ge_cases b n).
    - rewrite Nat.lnot_spec_low by auto. apply andb_negb_r.
    - now rewrite (tb_lt i n). }
  rewrite Nat.ones_equiv in E. lia.
Qed.
Lemma de_morgan n i j k : i < 2 ^ n -> j < 2 ^ n -> k < 2 ^ n ->
  (Nat.lor (2 ^ n - 1 - i) (2 ^ n - 1 - j) =? 2 ^ n - 1 - k)%nat = (Nat.land i j =? k).
Proof.
  intros Hi Hj Hk. rewrite !compl by auto. apply bool_iff. rewrite !Nat.eqb_eq. rewrite <- !Nat.bits_inj_iff. split; intros E b; specialize (E b).
  - rewrite Nat.land_spec. rewrite Nat.lor_spec in E. destruct (Nat.lt_ge_cases b n).
    + rewrite !Nat.lnot_spec_low in E by auto. destruct (Nat.testbit i b), (Nat.testbit j b), (Nat.testbit k b); auto.
    + now rewrite (tb_lt i n), (tb_lt k n).
  - rewrite Nat.land_spec in E. rewrite Nat.lor_spec. destruct (Nat.lt_ge_cases b n).
    + rewrite !Nat.lnot_spec_low by auto. rewrite <- E. now destruct (Nat.testbit i b), (Nat.testbit j b).
    + rewrite !Nat.lnot_spec_high by auto. now rewrite (tb_lt i n), (tb_lt j n), (tb_lt k n).
Qed.
Lemma bitlen_bound x : x < 2 ^ bitlen x.
Proof. unfold bitlen. destruct (Nat.eqb_spec x 0); [subst; cbn; lia|]. apply Nat.log2_spec. lia. Qed.
Lemma and_convolution_eq A B : 0 < max (length A) (length B) ->
  and_convolution zero add sub mul A B = Some (conv_list Nat.land (bitlen (max (length A) (length B) - 1)) A B).
Proof.
  intros H0. unfold and_convolution. destruct (Nat.ltb_spec 0 (max (length A) (length B))); [|lia]. cbn [guard obind].
  set (n := bitlen (max (length A) (length B) - 1)). pose proof (bitlen_bound (max (length A) (length B) - 1)) as Hn. fold n in Hn.
  unfold padded. destruct (Nat.leb_spec (length A) (2 ^ n)); [|lia]. destruct (Nat.leb_spec (length B) (2 ^ n)); [|lia]. cbn [guard obind].
  set (PA := (A ++ repeat zero (2 ^ n - length A))%list). set (PB := (B ++ repeat zero (2 ^ n - length B))%list).
  assert (LA : length PA = 2 ^ n) by (unfold PA; rewrite app_length, repeat_length; lia).
  assert (LB : length PB = 2 ^ n) by (unfold PB; rewrite app_length, repeat_length; lia).
  rewrite (or_inline_eq _ _ n) by (rewrite rev_length; auto). cbn [obind]. f_equal.
  apply (nth_ext_len _ _ zero); rewrite rev_length, !conv_list_length; auto. intros k Hk.
  rewrite rev_nth, conv_list_length, !conv_list_nth by (rewrite ?conv_list_length; lia).
  rewrite conv_sum, !rev_length, LA, LB. rewrite <- (conv_pad _ _ _ _ (2 ^ n) (2 ^ n)) by auto.
  rewrite sum_rev. apply sum_ext. intros i Hi. apply in_seq in Hi. rewrite sum_rev. apply sum_ext. intros j Hj. apply in_seq in Hj.
  replace (2 ^ n - S k)%nat with (2 ^ n - 1 - k)%nat by lia. rewrite de_morgan by lia.
  rewrite !rev_nth, LA, LB by lia.
  replace (2 ^ n - S (2 ^ n - 1 - i))%nat with i by lia. replace (2 ^ n - S (2 ^ n - 1 - j))%nat with j by lia.
  unfold PA, PB. now rewrite !nth_padded.
Qed.

(** * Popcount *)

Definition cnt (n x : nat) : nat := length (filter (Nat.testbit x) (seq 0 n)).
Lemma filter_none {X} (p : X -> bool) l : (forall x, In x l -> p x = false) -> filter p l = [].
Proof. induction l as [|x l IH]; intros H; auto. cbn. rewrite (H x) by now left. apply IH. intros y Hy. apply H. now right. Qed.
Lemma popcount_cnt n x : x < 2 ^ n -> popcount x = cnt n x.
Proof.
  intros H. unfold popcount, cnt. assert (B : bitlen x <= n).
  { unfold bitlen. destruct (Nat.eqb_spec x 0); [lia|]. apply Nat.log2_lt_pow2; lia. }
  replace n with (bitlen x + (n - bitlen x))%nat by lia. rewrite seq_app, filter_app.
  rewrite (filter_none _ (seq (0 + bitlen x) _)); [now rewrite app_nil_r|]. intros b Hb. apply in_seq in Hb.
  apply (tb_lt x (bitlen x)); [apply bitlen_bound|lia].
Qed.
Lemma cnt_S n x : cnt (S n) x = (cnt n x + if Nat.testbit x n then 1 else 0)%nat.
Proof. unfold cnt. rewrite seq_S, filter_app, app_length. cbn [filter Nat.add]. now destruct (Nat.testbit x n). Qed.
Lemma cnt_ext n x y : (forall i, i < n -> Nat.testbit x i = Nat.testbit y i) -> cnt n x = cnt n y.
Proof. induction n as [|n IH]; intros H; auto. rewrite !cnt_S, H, IH by auto. reflexivity. Qed.
Lemma cnt_xor n x y : Nat.odd (cnt n (Nat.lxor x y)) = xorb (Nat.odd (cnt n x)) (Nat.odd (cnt n y)).
Proof.
  induction n as [|n IH]; auto. rewrite !cnt_S, !Nat.odd_add, IH, Nat.lxor_spec.
  destruct (Nat.testbit x n), (Nat.testbit y n), (Nat.odd (cnt n x)), (Nat.odd (cnt n y)); reflexivity.
Qed.
Lemma cnt_or_and n x y : (cnt n x + cnt n y = cnt n (Nat.lor x y) + cnt n (Nat.land x y))%nat.
Proof.
  induction n as [|n IH]; auto. rewrite !cnt_S, Nat.lor_spec, Nat.land_spec.
  destruct (Nat.testbit x n), (Nat.testbit y n); cbn [orb andb]; lia.
Qed.
Lemma cnt_le n x : cnt n x <= n.
Proof. induction n as [|n IH]; auto. rewrite cnt_S. destruct (Nat.testbit x n); lia. Qed.
Lemma cnt_0 n x : x < 2 ^ n -> cnt n x = 0%nat -> x = 0%nat.
Proof.
  intros H E. apply Nat.bits_inj. intros i. rewrite Nat.bits_0. destruct (Nat.lt_ge_cases i n) as [Hi|Hi]; [|now apply (tb_lt x n)].
  unfold cnt in E. apply length_zero_iff_nil in E. destruct (Nat.testbit x i) eqn:Ti; auto.
  assert (I : In i (filter (Nat.testbit x) (seq 0 n))) by (apply filter_In; split; auto; apply in_seq; lia). now rewrite E in I.
Qed.

(** * Hadamard and XOR *)

Definition eh (s t : nat) : T := if odd_common s t then opp one else one.
Lemma odd_common_cnt n s t : s < 2 ^ n -> odd_common s t = Nat.odd (cnt n (Nat.land s t)).
Proof. intros H. unfold odd_common. rewrite (popcount_cnt n); auto. now apply land_lt. Qed.
Lemma odd_lo_lo n s t : s < 2 ^ n -> t < 2 ^ n -> odd_common s (2 ^ n + t) = odd_common s t.
Proof.
  intros Hs Ht. rewrite !(odd_common_cnt n) by auto. f_equal. apply cnt_ext. intros i Hi. rewrite !Nat.land_spec, tb_add by auto.
  destruct (Nat.eqb_spec n i); [lia|auto].
Qed.
Lemma odd_hi_lo n s t : s < 2 ^ n -> t < 2 ^ n -> odd_common (2 ^ n + s) t = odd_common s t.
Proof. intros Hs Ht. unfold odd_common. rewrite !(Nat.land_comm _ t). now apply odd_lo_lo. Qed.
Lemma odd_hi_hi n s t : s < 2 ^ n -> t < 2 ^ n -> odd_common (2 ^ n + s) (2 ^ n + t) = negb (odd_common s t).
Proof.
  intros Hs Ht. rewrite (odd_common_cnt (S n)) by (rewrite Nat.pow_succ_r'; lia). rewrite (odd_common_cnt n) by auto.
  rewrite cnt_S, Nat.land_spec, !tb_add, Nat.eqb_refl by auto. cbn [orb andb]. rewrite Nat.add_1_r, Nat.odd_succ, <- Nat.negb_odd. f_equal. f_equal.
  apply cnt_ext. intros i Hi. rewrite !Nat.land_spec, !tb_add by auto. destruct (Nat.eqb_spec n i); [lia|auto].
Qed.
Lemma eh_xor n s i j : s < 2 ^ n -> eh s (Nat.lxor i j) = eh s i * eh s j.
Proof.
  intros Hs. unfold eh. rewrite !(odd_common_cnt n) by auto.
  rewrite (cnt_ext n _ (Nat.lxor (Nat.land s i) (Nat.land s j))).
  2: { intros b _. rewrite Nat.lxor_spec, !Nat.land_spec, Nat.lxor_spec. now destruct (Nat.testbit s b), (Nat.testbit i b), (Nat.testbit j b). }
  rewrite cnt_xor. destruct (Nat.odd (cnt n (Nat.land s i))), (Nat.odd (cnt n (Nat.land s j))); cbn [xorb]; ring.
Qed.
Lemma ksum_opp e X : ksum (fun t => opp one * e t) X = opp (ksum e X).
Proof.
  unfold ksum. rewrite (sum_ext _ _ _ _ _ (fun t => opp one * (e t * nth t X zero))) by (intros; ring).
  rewrite (sum_mul _ _ _ _ _ SRT). ring.
Qed.
Lemma hadamard_sem n : forall X s, length X = 2 ^ n -> s < 2 ^ n -> nth s (trans fh n X) zero = ksum (eh s) X.
Proof.
  induction n as [|n IH]; intros X s HX Hs.
  - destruct X as [|x [|y X]]; try discriminate. assert (s = 0%nat) as -> by (cbn in Hs; lia). cbn. unfold eh. cbn. ring.
  - destruct (split_pow n X HX) as (L & R & -> & HL & HR & _). rewrite (ksum_split _ n) by auto.
    destruct (Nat.lt_ge_cases s (2 ^ n)) as [Hl|Hl].
    + rewrite trans_nth_lo by auto. cbn [fh fst]. rewrite !IH by auto. f_equal. apply ksum_ext. intros t Ht. unfold eh.
      now rewrite odd_lo_lo by lia.
    + rewrite Nat.pow_succ_r' in Hs. replace s with (2 ^ n + (s - 2 ^ n))%nat by lia. set (u := (s - 2 ^ n)%nat). assert (Hu : u < 2 ^ n) by lia.
      rewrite trans_nth_hi by auto. cbn [fh snd]. rewrite !IH by auto.
      rewrite (ksum_ext (eh (2 ^ n + u)) (eh u) L) by (intros t Ht; unfold eh; now rewrite odd_hi_lo by lia).
      rewrite (ksum_ext (fun t => eh (2 ^ n + u) (2 ^ n + t)) (fun t => opp one * eh u t) R).
      2: { intros t Ht. unfold eh. rewrite odd_hi_hi by lia. destruct (odd_common u t); cbn [negb]; ring. }
      rewrite ksum_opp. ring.
Qed.
Lemma hadamard_conv n A B : length A = 2 ^ n -> length B = 2 ^ n ->
  zipw mul (trans fh n A) (trans fh n B) = trans fh n (conv_list Nat.lxor n A B).
Proof.
  intros HA HB. assert (TA : length (trans fh n A) = 2 ^ n) by now apply trans_length.
  assert (TB : length (trans fh n B) = 2 ^ n) by now apply trans_length.
  assert (TC : length (conv_list Nat.lxor n A B) = 2 ^ n) by apply conv_list_length.
  apply (nth_ext_len _ _ zero).
  - rewrite (zipw_length _ _ _ (2 ^ n)), trans_length; auto.
  - rewrite (zipw_length _ _ _ (2 ^ n)) by auto. intros s Hs. rewrite (zipw_nth mul _ _ s zero zero) by lia.
    rewrite !hadamard_sem by auto. apply (kernel_conv Nat.lxor n); auto.
    + intros. now apply lxor_lt.
    + intros. now apply (eh_xor n).
    + intros. now apply conv_list_nth.
Qed.
Lemma zipw_map {X Y Z U V} (g : Y -> V -> Z) (h : X -> Y) (k : U -> V) A B : zipw g (map h A) (map k B) = zipw (fun a b => g (h a) (k b)) A B.
Proof. revert B. induction A as [|a A IH]; intros [|b B]; auto. cbn [map]. rewrite !zipw_cons, IH. reflexivity. Qed.
Lemma times_S n a : times_pow2 add (S n) a = times_pow2 add n a + times_pow2 add n a.
Proof. reflexivity. Qed.
Lemma hadamard_twice n : forall X, length X = 2 ^ n -> trans fh n (trans fh n X) = map (times_pow2 add n) X.
Proof.
  induction n as [|n IH]; intros X HX; [now rewrite map_id|]. destruct (split_pow n X HX) as (L & R & -> & HL & HR & _).
  assert (TL : length (trans fh n L) = 2 ^ n) by now apply trans_length.
  assert (TR : length (trans fh n R) = 2 ^ n) by now apply trans_length.
  rewrite (trans_S fh n L R HL). rewrite (trans_S fh n) by now apply zipw_length.
  rewrite (trans_zip fh (fun a b => fst (fh a b))), (trans_zip fh (fun a b => snd (fh a b))) by (auto; intros; unfold fh; cbn [fst snd]; ring).
  rewrite !IH by auto. unfold fh. cbn [fst snd]. rewrite !zipw_map, map_app. clear - HL HR RT. rewrite <- HR in HL. clear HR.
  f_equal; revert R HL; induction L as [|a L IH]; intros [|b R] H; try discriminate; auto;
    rewrite !zipw_cons; cbn [map]; rewrite IH by auto; f_equal; rewrite times_S; ring.
Qed.
Lemma hadamard_eq A n : length A = 2 ^ n -> hadamard add sub A = Some (trans fh n A).
Proof.
  intros H. unfold hadamard. destruct A eqn:E; [now apply nonempty_pow2 in H|]. rewrite H, bitlen_pow2, copy_pow2_eq by auto. cbn [obind]. now apply sweep_hadamard.
Qed.
Lemma hadamard_sum_ksum A s : hadamard_sum zero add sub A s = ksum (eh s) A.
Proof. apply sum_ext. intros t _. unfold eh. destruct (odd_common s t); ring. Qed.
Lemma subset_sum_ksum A s : subset_sum zero add A s = ksum (ez s) A.
Proof. unfold subset_sum. rewrite total_sum, (sum_filter _ _ _ _ _ SRT). apply sum_ext. intros t _. unfold ez. destruct (subset t s); ring. Qed.
Lemma xor_convolution_eq scale A B n : length A = 2 ^ n -> length B = 2 ^ n ->
  xor_convolution add sub mul scale A B = Some (map (fun c => scale n (times_pow2 add n c)) (conv_list Nat.lxor n A B)).
Proof.
  intros HA HB. unfold xor_convolution. pose proof (pow2_pos n). destruct (Nat.ltb_spec 0 (length A)); [|lia]. cbn [guard obind].
  rewrite (hadamard_eq A n), (hadamard_eq B n) by auto. cbn [obind]. rewrite pointwise_eq by (rewrite !(trans_length _ n); auto). cbn [obind].
  rewrite HA, bitlen_pow2, hadamard_conv, sweep_hadamard by (auto; apply trans_length, conv_list_length). cbn [obind].
  rewrite hadamard_twice by apply conv_list_length. now rewrite map_map.
Qed.
End Ring.
