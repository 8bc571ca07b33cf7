From Coq Require Import Lia Ring_theory Ring.
From Verif Require Import Base BaseLemmas ListExtra NthExtra RSum BitConvModel BitConvSweep BitConvProof BitConvSubset SpsModel SpsAlg SpsRep.

Lemma nth_skip {X} o : forall (l : list X) i d, nth i (skipn o l) d = nth (o + i) l d.
Proof. induction o as [|o IH]; intros [|x l] i d; auto; [now destruct i|]. cbn [skipn Nat.add nth]. apply IH. Qed.
Lemma nth_first {X} w : forall (l : list X) i d, i < w -> nth i (firstn w l) d = nth i l d.
Proof. induction w as [|w IH]; intros [|x l] [|i] d H; auto; try lia. cbn [firstn nth]. apply IH. lia. Qed.
Lemma block_ok {X} o w (Z : list X) : o + w <= length Z -> exists Y, block o w Z = Some Y /\ length Y = w /\ forall i d, i < w -> nth i Y d = nth (o + i) Z d.
Proof.
  intros H. unfold block. destruct (Nat.leb_spec (o + w) (length Z)); [|lia]. cbn [guard obind]. eexists. split; [reflexivity|]. split.
  - rewrite firstn_length, skipn_length. lia.
  - intros i d Hi. rewrite nth_first by auto. apply nth_skip.
Qed.
Lemma put_block_ok {X} o (Y Z : list X) : o + length Y <= length Z -> exists R, put_block o Y Z = Some R /\ length R = length Z /\
  forall i d, nth i R d = if (o <=? i) && (i <? o + length Y) then nth (i - o) Y d else nth i Z d.
Proof.
  intros H. unfold put_block. destruct (Nat.leb_spec (o + length Y) (length Z)); [|lia]. cbn [guard obind]. eexists. split; [reflexivity|]. split.
  - rewrite !app_length, firstn_length, skipn_length. lia.
  - intros i d. assert (L : length (firstn o Z) = o) by (rewrite firstn_length; lia). destruct (Nat.leb_spec o i); cbn [andb].
    + rewrite app_nth2, L by lia. destruct (Nat.ltb_spec i (o + length Y)).
      * now rewrite app_nth1 by lia.
      * rewrite app_nth2 by lia. rewrite nth_skip. f_equal. lia.
    + rewrite app_nth1 by lia. now apply nth_first.
Qed.
Lemma pow2_le_lt i n : i < n -> 2 ^ i + 2 ^ i <= 2 ^ n.
Proof. intros H. assert (2 ^ S i <= 2 ^ n) by (apply Nat.pow_le_mono_r; lia). rewrite Nat.pow_succ_r' in *. lia. Qed.
Lemma in_block i j r : 2 ^ j <= r < 2 ^ j + 2 ^ j -> i <> j -> (2 ^ i <=? r) && (r <? 2 ^ i + 2 ^ i) = false.
Proof.
  intros Hr N. destruct (Nat.lt_trichotomy i j) as [H|[H|H]]; [|lia|]; apply pow2_le_lt in H;
  destruct (Nat.leb_spec (2 ^ i) r), (Nat.ltb_spec r (2 ^ i + 2 ^ i)); cbn [andb]; auto; lia.
Qed.
Lemma in_range o w r : o <= r < o + w -> (o <=? r) && (r <? o + w) = true.
Proof. intros H. apply andb_true_iff. split; [apply Nat.leb_le|apply Nat.ltb_lt]; lia. Qed.
Lemma below_block i r : r < 2 ^ i -> (2 ^ i <=? r) && (r <? 2 ^ i + 2 ^ i) = false.
Proof. intros H. destruct (Nat.leb_spec (2 ^ i) r); [lia|auto]. Qed.

Section Proof.
Variable T : Type.
Variables (zero one : T) (add mul sub : T -> T -> T) (opp : T -> T) (eqb : T -> T -> bool).
Hypothesis RT : ring_theory zero one add mul sub opp eq.
Hypothesis EQ : forall x y, eqb x y = true <-> x = y.
Add Ring Tring : RT.
Variable LIM : nat.
Notation sum := (sum T zero add).
Notation row_ok := (row_ok T LIM).
Notation at2 := (at2 T zero).
Notation sconv := (sconv T zero add mul).
Notation hi := (hi T).
Notation rep := (rep T zero add).
Notation mem := (mem T LIM).
Notation cmp := (cmp T zero one add mul).
Notation pk := (pk T zero one add mul).
Notation vec A := (fun t => nth t A zero).
Let SR := SRT T zero one add mul sub opp RT.
Infix "+" := add. Infix "*" := mul. Infix "-" := sub.

Definition view (o : nat) (Z : list (list T)) (s d : nat) : T := at2 Z (o + s)%nat d.

Lemma rows_nth Z : Forall row_ok Z <-> forall i, i < length Z -> row_ok (nth i Z []).
Proof.
  rewrite Forall_forall. split; [intros H i Hi; apply H, nth_In; auto|]. intros H r Hr. apply (In_nth _ _ []) in Hr as (i & Hi & <-). auto.
Qed.
Lemma block_mem W Z o w : mem W Z -> (o + w <= W)%nat -> exists Y, block o w Z = Some Y /\ mem w Y /\ forall s d, s < w -> at2 Y s d = at2 Z (o + s)%nat d.
Proof.
  intros (L & G) H. destruct (block_ok o w Z) as (Y & E & LY & VY); [lia|]. exists Y. split; [auto|]. split.
  - split; auto. apply rows_nth. intros i Hi. rewrite VY by lia. apply rows_nth; auto. lia.
  - intros s d Hs. unfold BitConvSubset.at2. now rewrite VY.
Qed.
Lemma put_mem W Z o w Y : mem W Z -> mem w Y -> (o + w <= W)%nat -> exists R, put_block o Y Z = Some R /\ mem W R /\
  forall i d, at2 R i d = if (o <=? i) && (i <? o + w)%nat then at2 Y (i - o)%nat d else at2 Z i d.
Proof.
  intros (L & G) (LY & GY) H. destruct (put_block_ok o Y Z) as (R & E & LR & VR); [lia|]. rewrite LY in VR. exists R. split; [auto|]. split.
  - split; [lia|]. apply rows_nth. intros i Hi. rewrite VR. destruct (Nat.leb_spec o i), (Nat.ltb_spec i (o + w)); cbn [andb]; apply rows_nth; auto; lia.
  - intros i d. unfold BitConvSubset.at2. rewrite VR. now destruct (_ && _).
Qed.
Lemma zeta_block_ok W A i Z : mem W Z -> i <= LIM -> (2 ^ i + 2 ^ i <= W)%nat -> (2 ^ i + 2 ^ i <= length A)%nat -> exists Z', zeta_block zero add LIM A i Z = Some Z' /\ mem W Z' /\
  rep i (view (2 ^ i) Z') (hi i (vec A)) /\ forall r d, (2 ^ i <=? r) && (r <? 2 ^ i + 2 ^ i)%nat = false -> at2 Z' r d = at2 Z r d.
Proof.
  intros M Hi HW HA. unfold zeta_block. destruct (block_ok (2 ^ i) (2 ^ i) A) as (Y & E & LY & VY); [auto|]. rewrite E. cbn [obind].
  destruct (rep_zeta T zero one add mul sub opp RT LIM i Y) as (z & Ez & Lz & Gz & Rz); auto; [lia|]. rewrite Ez. cbn [obind].
  destruct (put_mem W Z (2 ^ i) (2 ^ i) z) as (R & ER & MR & VR); auto; [now split|]. exists R. split; [auto|]. split; [auto|]. split.
  - eapply rep_ext; [exact Rz| |].
    + intros s d Hs Hd. unfold view. rewrite VR, in_range by lia. f_equal. lia.
    + intros t Ht. cbn beta. rewrite VY by auto. reflexivity.
  - intros r d Hr. now rewrite VR, Hr.
Qed.
Lemma product_block_ok W i zA zB zC f g : mem W zA -> mem W zB -> mem W zC -> i <= LIM -> (2 ^ i + 2 ^ i <= W)%nat -> rep i (view (2 ^ i) zA) f -> rep i (at2 zB) g ->
  exists Z', product_block zero add mul LIM zA zB i zC = Some Z' /\ mem W Z' /\ rep i (view (2 ^ i) Z') (sconv f g) /\
  forall r d, (2 ^ i <=? r) && (r <? 2 ^ i + 2 ^ i)%nat = false -> at2 Z' r d = at2 zC r d.
Proof.
  intros MA MB MC Hi HW RA RB. unfold product_block.
  destruct (block_mem W zA (2 ^ i) (2 ^ i)) as (a & Ea & (La & Ga) & Va); auto. rewrite Ea. cbn [obind].
  destruct (block_mem W zB 0 (2 ^ i)) as (b & Eb & (Lb & Gb) & Vb); auto; [lia|]. rewrite Eb. cbn [obind].
  destruct (block_mem W zC (2 ^ i) (2 ^ i)) as (o & Eo & (Lo & Go) & Vo); auto. rewrite Eo. cbn [obind].
  destruct (pointwise_to_ok T zero one add mul sub opp RT LIM false i a b o) as (z & Ez & Lz & Gz & Vz); auto; [discriminate|]. rewrite Ez. cbn [obind].
  destruct (put_mem W zC (2 ^ i) (2 ^ i) z) as (R & ER & MR & VR); auto; [now split|]. exists R. split; [auto|]. split; [auto|]. split.
  - apply (rep_mul T zero one add mul sub opp RT i (view (2 ^ i) zA) (at2 zB)); auto. intros s d Hs Hd. unfold view. rewrite VR, in_range by lia.
    replace (2 ^ i + s - 2 ^ i)%nat with s by lia. rewrite Vz by auto. unfold cauchy. apply sum_ext. intros j Hj. apply in_seq in Hj. now rewrite Va, Vb by lia.
  - intros r d Hr. now rewrite VR, Hr.
Qed.
Lemma mobius_block_ok W i zB f out : mem W zB -> length out = W -> i <= LIM -> (2 ^ i + 2 ^ i <= W)%nat -> rep i (view (2 ^ i) zB) f ->
  exists R, mobius_block sub LIM zB i out = Some R /\ length R = W /\
  forall r, nth r R zero = if (2 ^ i <=? r) && (r <? 2 ^ i + 2 ^ i)%nat then f (r - 2 ^ i)%nat else nth r out zero.
Proof.
  intros M LO Hi HW RB. unfold mobius_block. destruct (block_mem W zB (2 ^ i) (2 ^ i)) as (b & Eb & (Lb & Gb) & Vb); auto. rewrite Eb. cbn [obind].
  rewrite (rep_mobius T zero one add mul sub opp RT LIM i b f); auto.
  - cbn [obind]. assert (LM : length (map f (seq 0 (2 ^ i))) = 2 ^ i) by now rewrite map_length, seq_length.
    destruct (put_block_ok (2 ^ i) (map f (seq 0 (2 ^ i))) out) as (R & ER & LR & VR); [lia|]. exists R. split; [auto|]. split; [lia|]. intros r. rewrite VR, LM.
    destruct (Nat.leb_spec (2 ^ i) r), (Nat.ltb_spec r (2 ^ i + 2 ^ i)); cbn [andb]; auto. apply map_seq_nth. lia.
  - eapply rep_ext; [exact RB| |auto]. intros s d Hs Hd. unfold view. now rewrite Vb.
Qed.

(** * The blocks of a series *)

(** The rows below [2^i] are merged, the next block is not. *)
Definition pre (i : nat) (Z : list (list T)) (f : nat -> T) : Prop :=
  match i with O => at2 Z 0 0 = f 0%nat | S m => rep m (at2 Z) f /\ rep m (view (2 ^ m) Z) (hi m f) end.
Lemma pre_merge W i Z f : mem W Z -> i <= LIM -> 2 ^ i <= W -> pre i Z f -> exists Z', zeta_merge zero add LIM i Z = Some Z' /\ mem W Z' /\ rep i (at2 Z') f /\
  forall r d, 2 ^ i <= r -> d <= LIM -> at2 Z' r d = at2 Z r d.
Proof.
  intros M Hi HW P. destruct i as [|m].
  - exists Z. unfold zeta_merge. cbn [Nat.leb guard obind Nat.eqb]. split; [auto|]. split; [auto|]. split; [now apply (rep_0 T zero one add mul sub opp RT)|auto].
  - destruct P as [P1 P2]. destruct (zeta_merge_ok T zero add LIM W m Z) as (Z' & E & M' & V); auto. exists Z'. split; [auto|]. split; [auto|]. pose proof (Nat.pow_succ_r' 2 m). split.
    + eapply rep_ext; [eapply (rep_merge T zero one add mul sub opp RT m (at2 Z) f (hi m f)); [reflexivity|exact P1|exact P2]| |auto].
      intros s d Hs Hd. cbn beta. rewrite V by lia. destruct (Nat.ltb_spec s (2 ^ m)), (Nat.leb_spec (2 ^ m) s), (Nat.ltb_spec s (2 ^ S m)); cbn [andb]; auto; try lia.
      unfold view. replace (2 ^ m + (s - 2 ^ m))%nat with s by lia. reflexivity.
    + intros r d Hr Hd. rewrite V by auto. destruct (Nat.ltb_spec r (2 ^ S m)); [lia|]. now rewrite andb_false_r.
Qed.
Lemma pre_split W i Z f : mem W Z -> i <= LIM -> 2 ^ i <= W -> rep i (at2 Z) f -> exists Z', mobius_split zero sub LIM i Z = Some Z' /\ mem W Z' /\ pre i Z' f.
Proof.
  intros M Hi HW P. destruct i as [|m].
  - exists Z. unfold mobius_split. cbn [Nat.leb guard obind Nat.eqb]. split; [auto|]. split; [auto|]. destruct P as (D & H1 & H2 & H3). cbn [pre].
    rewrite H1 by (cbn; lia). rewrite (zs_0 T zero one add mul sub opp RT). apply (H3 0%nat). cbn. lia.
  - destruct (mobius_split_ok T zero sub LIM W m Z) as (Z' & E & M' & V1 & V2); auto. exists Z'. split; [auto|]. split; [auto|]. split.
    + eapply rep_ext; [apply (rep_lo T zero one add mul sub opp RT); exact P| |auto]. intros s d Hs Hd. now rewrite V1 by lia.
    + eapply rep_ext; [apply (rep_hi T zero one add mul sub opp RT); exact P| |auto]. intros s d Hs Hd. cbn beta. unfold view. rewrite V2 by auto. now rewrite Nat.add_1_r.
Qed.
Lemma rep_0_inv v f : rep 0 v f -> v 0%nat 0%nat = f 0%nat.
Proof. intros (D & H1 & H2 & H3). rewrite H1 by (cbn; lia). rewrite (zs_0 T zero one add mul sub opp RT). apply (H3 0%nat). cbn. lia. Qed.

(** * Exponential *)

Section Exp.
Variable A : list T.
Let a := vec A.
Let E := cmp a (fun _ => one).
Lemma E_hi i t : t < 2 ^ i -> hi i E t = sconv (hi i a) E t.
Proof. intros H. unfold SpsAlg.hi at 1, E. now rewrite (cmp_hi T zero one add mul sub opp RT). Qed.
Lemma exp_up_ok n : n <= LIM -> length A = 2 ^ n -> forall zB, mem (2 ^ n) zB -> at2 zB 0 0 = one ->
  exists zA zB', for_up n 0 (exp_up zero add mul LIM A) (ranked_new zero LIM (2 ^ n), zB) = Some (zA, zB') /\ mem (2 ^ n) zB' /\ pre n zB' E.
Proof.
  intros Hn LA zB MB B0.
  destruct (@for_up_rule _ (fun i '(zA, zB) => mem (2 ^ n) zA /\ mem (2 ^ n) zB /\ pre i zB E) (exp_up zero add mul LIM A) n 0 (ranked_new zero LIM (2 ^ n), zB)) as ((zA & zB') & EE & MA & MB' & P).
  - split; [apply mem_new|]. split; auto. cbn [pre]. unfold E. now rewrite (cmp_0 T zero one add mul sub opp RT).
  - intros i (zA & zB1) Hi (MA & MB1 & P). unfold exp_up. assert (HW := pow2_le_lt i n ltac:(lia)).
    destruct (zeta_block_ok (2 ^ n) A i zA) as (zA' & EA & MA' & RA & _); auto; try lia. rewrite EA. cbn [obind].
    destruct (pre_merge (2 ^ n) i zB1 E) as (zB2 & EM & MB2 & RB & _); auto; try lia.
    assert (EM' : (if 0 <? i then zeta_merge zero add LIM i zB1 else Some zB1) = Some zB2).
    { destruct (Nat.ltb_spec 0 i); auto. assert (i = 0)%nat by lia. subst. unfold zeta_merge in EM. cbn [Nat.leb guard obind Nat.eqb] in EM. exact EM. }
    rewrite EM'. cbn [obind].
    destruct (product_block_ok (2 ^ n) i zA' zB2 zB2 (hi i a) E) as (zB3 & EP & MB3 & RP & VP); auto; try lia. rewrite EP. cbn [obind].
    eexists. split; [reflexivity|]. split; [auto|]. split; [auto|]. cbn [pre]. split.
    + eapply rep_ext; [exact RB| |auto]. intros s d Hs Hd. rewrite VP; auto. now apply below_block.
    + eapply rep_ext; [exact RP|auto|]. intros t Ht. symmetry. now apply E_hi.
  - exists zA, zB'. auto.
Qed.
Lemma sps_exp_ok n : n <= LIM -> length A = 2 ^ n -> nth 0 A zero = zero -> exists R, sps_exp zero one add sub mul eqb LIM n A = Some R /\ length R = 2 ^ n /\
  forall s, s < 2 ^ n -> nth s R zero = E s.
Proof.
  intros Hn LA A0. pose proof (pow2_pos n). unfold sps_exp. destruct (Nat.leb_spec n LIM); [|lia]. rewrite LA, Nat.eqb_refl. cbn [guard obind].
  rewrite (get_nth A 0 zero) by lia. cbn [obind]. rewrite A0. rewrite (proj2 (EQ zero zero) eq_refl). cbn [guard obind].
  destruct (set2_mem T zero LIM (2 ^ n) (ranked_new zero LIM (2 ^ n)) 0 0 one) as (zB & EB & MB & VB); [apply mem_new|lia|lia|]. rewrite EB. cbn [obind].
  destruct (exp_up_ok n Hn LA zB MB) as (zA & zB1 & EU & MB1 & P); [rewrite VB; auto|]. rewrite EU. cbn [obind].
  destruct (@for_down_rule _ (fun i '(zB, out) => mem (2 ^ n) zB /\ pre i zB E /\ length out = 2 ^ n /\ forall s, 2 ^ i <= s < 2 ^ n -> nth s out zero = E s)
    (exp_down zero sub LIM) 0 n (zB1, repeat zero (2 ^ n))) as ((zB2 & out) & ED & MB2 & _ & LO & VO).
  - split; auto. split; auto. split; [apply repeat_length|]. cbn [Nat.add]. lia.
  - intros i (zB2 & out) Hi (MB2 & P2 & LO & VO). cbn [pre] in P2. destruct P2 as [P2 P3]. unfold exp_down. assert (HW := pow2_le_lt i n ltac:(lia)).
    destruct (mobius_block_ok (2 ^ n) i zB2 (hi i E) out) as (R & ER & LR & VR); auto; try lia. rewrite ER. cbn [obind].
    destruct (pre_split (2 ^ n) i zB2 E) as (zB3 & ES & MB3 & P4); auto; try lia.
    assert (ES' : (if 0 <? i then mobius_split zero sub LIM i zB2 else Some zB2) = Some zB3).
    { destruct (Nat.ltb_spec 0 i); auto. assert (i = 0)%nat by lia. subst. unfold mobius_split in ES. cbn [Nat.leb guard obind Nat.eqb] in ES. exact ES. }
    rewrite ES'. cbn [obind]. eexists. split; [reflexivity|]. split; [auto|]. split; [auto|]. split; [auto|]. intros s Hs. rewrite VR.
    pose proof (Nat.pow_succ_r' 2 i). destruct (Nat.leb_spec (2 ^ i) s), (Nat.ltb_spec s (2 ^ i + 2 ^ i)); cbn [andb]; try lia.
    + unfold SpsAlg.hi. f_equal. lia.
    + apply VO. lia.
  - rewrite ED. cbn [obind]. rewrite set_some by lia. eexists. split; [reflexivity|]. rewrite lset_length. split; auto. intros s Hs. rewrite nth_lset, LO.
    destruct (Nat.ltb_spec 0 (2 ^ n)); [|lia]. rewrite andb_true_r. destruct (Nat.eqb_spec 0 s).
    + subst. unfold E. now rewrite (cmp_0 T zero one add mul sub opp RT).
    + apply VO. change (2 ^ 0) with 1. lia.
Qed.
End Exp.

(** * Composition *)

Section Comp.
Variables (F A : list T).
Let a := vec A.
Definition C (k : nat) : nat -> T := cmp a (fun j => nth (k + j) F zero).
Lemma C_0 k : C k 0 = nth k F zero.
Proof. unfold C. rewrite (cmp_0 T zero one add mul sub opp RT). now rewrite Nat.add_0_r. Qed.
Lemma C_hi k i t : t < 2 ^ i -> hi i (C k) t = sconv (hi i a) (C (S k)) t.
Proof.
  intros H. unfold SpsAlg.hi at 1, C. rewrite (cmp_hi T zero one add mul sub opp RT) by auto. apply (sconv_ext T zero one add mul sub opp RT i); auto.
  intros u Hu. apply cmp_ext. intros j. unfold up. now rewrite Nat.add_succ_r.
Qed.
Definition blocks (m : nat) (Z : list (list T)) (f : nat -> T) : Prop := forall i, i < m -> rep i (view (2 ^ i) Z) (hi i f).
Lemma comp_inner W n k mg zA zB zC : n <= LIM + 1 -> W = 2 ^ n -> k < n -> mem W zA -> mem W zB -> mem W zC -> blocks n zA a ->
  at2 zB 0 0 = C (S k) 0 -> blocks (n - k - 1) zB (C (S k)) -> (mg = false -> (n - k = 1)%nat) ->
  exists zB' zC', for_up (n - k) 0 (comp_row zero add mul LIM zA mg) (zB, zC) = Some (zB', zC') /\ mem W zB' /\ mem W zC' /\ blocks (n - k) zC' (C k) /\ at2 zC' 0 0 = at2 zC 0 0.
Proof.
  intros Hn -> Hk MA MB MC BA B0 BB Hm. set (g := C (S k)) in *. change (Datatypes.S O) with 1%nat in *.
  destruct (@for_up_rule _ (fun i '(zB, zC') => mem (2 ^ n) zB /\ mem (2 ^ n) zC' /\ (match i with O => at2 zB 0 0 = g 0%nat | S m => rep m (at2 zB) g end) /\
     (forall j, (i - 1 <= j)%nat -> j < n - k - 1 -> rep j (view (2 ^ j) zB) (hi j g)) /\ blocks i zC' (C k) /\ at2 zC' 0 0 = at2 zC 0 0)
     (comp_row zero add mul LIM zA mg) (n - k) 0 (zB, zC)) as ((zB' & zC') & EE & M1 & M2 & _ & _ & B & Z0).
  - split; auto. split; auto. split; auto. split; [|split; auto; intros i Hi; lia]. intros j _ Hj. apply BB. lia.
  - intros i (zB1 & zC1) Hi (M1 & M2 & P & PB & BC & Z0). unfold comp_row. assert (HW := pow2_le_lt i n ltac:(lia)). assert (Li : (i <= LIM)%nat) by lia.
    assert (Pre : pre i zB1 g).
    { destruct i as [|m]; [exact P|]. split; [exact P|]. apply PB; lia. }
    destruct (pre_merge (2 ^ n) i zB1 g) as (zB2 & EM & MB2 & RB & VB); auto; try lia.
    assert (EM' : (if mg then zeta_merge zero add LIM i zB1 else Some zB1) = Some zB2).
    { destruct mg; auto. assert (i = 0)%nat by (specialize (Hm eq_refl); lia). subst. unfold zeta_merge in EM. cbn [Nat.leb guard obind Nat.eqb] in EM. exact EM. }
    rewrite EM'. cbn [obind].
    destruct (product_block_ok (2 ^ n) i zA zB2 zC1 (hi i a) g) as (zC2 & EP & MC2 & RP & VP); auto; try lia; [apply BA; lia|]. rewrite EP. cbn [obind].
    eexists. split; [reflexivity|]. split; [auto|]. split; [auto|]. split; [auto|]. split; [|split].
    + intros j Hj1 Hj2. eapply rep_ext; [apply PB; lia| |auto]. intros s d Hs Hd. unfold view. rewrite VB; auto; [|lia].
      assert (2 ^ i <= 2 ^ j) by (apply Nat.pow_le_mono_r; lia). lia.
    + intros j Hj. destruct (Nat.eq_dec j i) as [->|Ne].
      * eapply rep_ext; [exact RP|auto|]. intros t Ht. symmetry. now apply C_hi.
      * eapply rep_ext; [apply BC; lia| |auto]. intros s d Hs Hd. unfold view. rewrite VP; auto. apply (in_block i j); auto. lia.
    + rewrite VP; auto. apply below_block. pose proof (pow2_pos i). lia.
  - exists zB', zC'. auto.
Qed.
Lemma zeta_all n : n <= LIM + 1 -> 2 ^ n <= length A -> exists zA, for_up n 0 (zeta_block zero add LIM A) (ranked_new zero LIM (2 ^ n)) = Some zA /\ mem (2 ^ n) zA /\ blocks n zA a.
Proof.
  intros Hn LA. destruct (@for_up_rule _ (fun i zA => mem (2 ^ n) zA /\ blocks i zA a) (zeta_block zero add LIM A) n 0 (ranked_new zero LIM (2 ^ n))) as (zA & E & M & B).
  - split; [apply mem_new|]. intros i Hi. lia.
  - intros i zA Hi (M & B). assert (HW := pow2_le_lt i n ltac:(lia)). destruct (zeta_block_ok (2 ^ n) A i zA) as (zA' & EA & MA' & RA & VA); auto; try lia.
    exists zA'. split; [auto|]. split; [auto|]. intros j Hj. destruct (Nat.eq_dec j i) as [->|Ne]; auto.
    eapply rep_ext; [apply B; lia| |auto]. intros s d Hs Hd. unfold view. rewrite VA; auto. apply (in_block i j); auto. lia.
  - exists zA. auto.
Qed.
Lemma rep_zero i v : (forall s d, s < 2 ^ i -> d <= i -> v s d = zero) -> rep i v (fun _ => zero).
Proof.
  intros H. exists (fun _ _ => zero). split; [|split; auto]. intros d s Hd Hs. rewrite H by auto. symmetry. apply (sum_zero_ext _ _ _ _ _ SR). intros t _. now destruct (subset t s).
Qed.
Lemma comp_egf_ok n : n <= LIM + 1 -> 2 ^ n <= length A -> nth 0 A zero = zero -> (n < length F \/ length F <= 1)%nat ->
  exists R, comp_egf zero add sub mul eqb LIM n F A = Some R /\ length R = 2 ^ n /\ forall s, s < 2 ^ n -> nth s R zero = cmp a (vec F) s.
Proof.
  intros Hn LA A0 HF. pose proof (pow2_pos n). unfold comp_egf. destruct (Nat.leb_spec (2 ^ n) (length A)); [|lia]. cbn [guard obind].
  rewrite (get_nth A 0 zero) by lia. cbn [obind]. rewrite A0. rewrite (proj2 (EQ zero zero) eq_refl). cbn [guard obind].
  destruct F as [|f0 F'] eqn:EF.
  { eexists. split; [reflexivity|]. rewrite repeat_length. split; auto. intros s Hs. rewrite nth_repeat. symmetry.
    rewrite (cmp_ext T zero one add mul a _ (fun _ => zero)); [apply (cmp_zero T zero one add mul sub opp RT)|]. intros [|k]; reflexivity. }
  rewrite <- EF in *. assert (LF : (1 <= length F)%nat) by (rewrite EF; cbn [length]; lia). clear EF f0 F'.
  destruct (zeta_all n Hn LA) as (zA & EA & MA & BA). rewrite EA. cbn [obind]. set (d := min n (length F - 1)) in *.
  rewrite (get_nth F d zero) by lia. cbn [obind].
  destruct (set2_mem T zero LIM (2 ^ n) (ranked_new zero LIM (2 ^ n)) 0 0 (nth d F zero)) as (zB & EB & MB & VB); [apply mem_new|lia|lia|]. rewrite EB. cbn [obind].
  assert (G : exists zB' zC, for_down d 0 (comp_step zero add mul LIM n d F zA) (zB, ranked_new zero LIM (2 ^ n)) = Some (zB', zC) /\ mem (2 ^ n) zB' /\ at2 zB' 0 0 = C 0 0 /\ blocks n zB' (C 0)).
  { destruct (Nat.eq_dec d 0) as [D0|D0].
    - rewrite D0. cbn [for_down]. eexists. eexists. split; [reflexivity|]. split; [auto|]. split.
      + rewrite VB, C_0. cbn [Nat.eqb andb]. now rewrite D0.
      + intros i Hi. apply (rep_ext T zero add i (view (2 ^ i) zB) (view (2 ^ i) zB) (fun _ => zero) (hi i (C 0))); auto.
        * apply rep_zero. intros s e Hs He. unfold view. rewrite VB. pose proof (pow2_pos i). destruct (Nat.eqb_spec 0 (2 ^ i + s)); [lia|]. cbn [andb].
          apply at2_new.
        * intros t Ht. rewrite C_hi by auto. rewrite (sconv_ext T zero one add mul sub opp RT i (hi i a) (hi i a) (C 1) (fun _ => zero) t); auto; [symmetry; apply (sconv_zero_r T zero one add mul sub opp RT)|].
          intros u Hu. unfold C. rewrite (cmp_ext T zero one add mul a _ (fun _ => zero)); [apply (cmp_zero T zero one add mul sub opp RT)|]. intros j. apply nth_overflow. lia.
    - assert (Dn : d = n) by lia. clear HF.
      destruct (@for_down_rule _ (fun k '(zB, zC) => mem (2 ^ n) zB /\ mem (2 ^ n) zC /\ at2 zB 0 0 = C k 0 /\ blocks (n - k) zB (C k)) (comp_step zero add mul LIM n d F zA) 0 d
         (zB, ranked_new zero LIM (2 ^ n))) as ((zB' & zC) & ED & M1 & M2 & Z0 & B).
      + split; auto. split; [apply mem_new|]. split; [rewrite VB, C_0; reflexivity|]. intros i Hi. lia.
      + intros k (zB1 & zC1) Hk (M1 & M2 & Z0 & B). unfold comp_step. rewrite (get_nth F k zero) by lia. cbn [obind].
        destruct (set2_mem T zero LIM (2 ^ n) zC1 0 0 (nth k F zero)) as (zC2 & EC & MC & VC); auto; try lia. rewrite EC. cbn [obind].
        destruct (comp_inner (2 ^ n) n k (k <? d - 1) zA zB1 zC2) as (zB3 & zC3 & E3 & M3 & M4 & B3 & Z3); auto; try lia.
        * intros i Hi. apply B. lia.
        * rewrite E3. cbn [obind]. eexists. split; [reflexivity|]. split; [auto|]. split; [auto|]. split; [|auto]. rewrite Z3, VC, C_0. reflexivity.
      + exists zB', zC. split; [auto|]. split; [auto|]. split; auto. replace n with (n - 0)%nat by lia. exact B. }
  destruct G as (zB1 & zC1 & EL & MB1 & Z0 & B). rewrite EL. cbn [obind].
  destruct (@for_down_rule _ (fun i out => length out = 2 ^ n /\ forall s, 2 ^ i <= s < 2 ^ n -> nth s out zero = C 0 s) (mobius_block sub LIM zB1) 0 n (repeat zero (2 ^ n))) as (out & EO & LO & VO).
  - split; [apply repeat_length|]. cbn [Nat.add]. lia.
  - intros i out Hi (LO & VO). assert (HW := pow2_le_lt i n ltac:(lia)). destruct (mobius_block_ok (2 ^ n) i zB1 (hi i (C 0)) out) as (R & ER & LR & VR); auto; try lia; [apply B; lia|].
    exists R. split; [auto|]. split; [auto|]. intros s Hs. rewrite VR.
    pose proof (Nat.pow_succ_r' 2 i). destruct (Nat.leb_spec (2 ^ i) s), (Nat.ltb_spec s (2 ^ i + 2 ^ i)); cbn [andb]; try lia.
    + unfold SpsAlg.hi. f_equal. lia.
    + apply VO. lia.
  - rewrite EO. cbn [obind]. rewrite (get_nth F 0 zero) by lia. cbn [obind]. rewrite (get2_mem T zero LIM (2 ^ n)) by (auto; lia). cbn [obind]. rewrite Z0, C_0.
    rewrite (proj2 (EQ _ _) eq_refl). cbn [guard obind]. rewrite set_some by lia. eexists. split; [reflexivity|]. rewrite lset_length. split; auto. intros s Hs. rewrite nth_lset, LO.
    destruct (Nat.ltb_spec 0 (2 ^ n)); [|lia]. rewrite andb_true_r. destruct (Nat.eqb_spec 0 s).
    + subst. now rewrite (cmp_0 T zero one add mul sub opp RT).
    + rewrite VO by (change (2 ^ 0) with 1; lia). unfold C. apply cmp_ext. reflexivity.
Qed.
End Comp.
End Proof.
