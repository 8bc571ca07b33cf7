(** * C92: the bit vector with a Fenwick tree ([Bitmap] of include/mtl/bitmap.hpp) *)
From Verif Require Import Base BaseLemmas ListExtra NthExtra BitModel BitProof BmapModel BmapProof BvModel BvSel BvBlock BvProof BvOps BvProp FenwickModel FenwickProof FbmModel FbmProof FbmOps.
Set Implicit Arguments.

(** What the queries must answer for the bits [l]. [rank] reads the word of its argument, also when that
    is the size: a size that is a multiple of 64 is excluded. *)
Definition answers (s : fbm) (l : list bool) : Prop :=
  (forall i, i < length l -> fbm_get s i = Some (nth i l false)) /\
  (forall i, i <= length l -> i < length l \/ i mod 64 <> 0 \/ i = 0 -> fbm_rank s i = Some (Z.of_nat (cnt true (firstn i l)))) /\
  (forall n, n < cnt true l -> fbm_select s n = Some (Z.of_nat (kth true n l))).
Lemma inv_answers s l : finv s l -> answers s l.
Proof.
  intros I. split; [|split].
  - intros i Hi. now apply get_ok.
  - intros i Hi Hc. apply rank_ok; auto. destruct I as ((E & _) & _). cbn [bm arr bsz] in E. rewrite E. destruct Hc as [Hc|[Hc|Hc]]; [left|left|now right].
    + apply req_lt in Hc. pose proof (Nat.div_mod i 64). pose proof (m64 i). lia.
    + destruct (Nat.eq_dec i (length l)) as [Ei|]; [|assert (i < length l) as K by lia; apply req_lt in K; pose proof (Nat.div_mod i 64); pose proof (m64 i); lia].
      rewrite <- Ei. pose proof (Nat.div_mod i 64). pose proof (m64 i). assert (K : i - 1 < i) by lia. apply req_lt in K. assert ((i - 1) / 64 = i / 64) by (apply idx_eq with (i mod 64 - 1); lia). lia.
  - intros n Hn. now apply select_ok.
Qed.

(** Built over a sequence and changed by any calls of [set]: [get], [rank] and [select] answer for the
    bits as they are then. *)
Theorem C92_sequence l h : (Z.of_nat (length l) < 2 ^ 31)%Z -> (forall i b, In (i, b) h -> i < length l) ->
  exists s0 s, fbm_of l = Some s0 /\ fbm_sets s0 h = Some s /\ answers s (bits_after l h).
Proof.
  intros Hl Hh. destruct (of_ok l Hl) as (s0 & E0 & I0). destruct (sets_ok h I0 Hh) as (s & E & I). exists s0, s. split; [exact E0|]. split; [exact E|]. now apply inv_answers.
Qed.
(** The same for a vector of zeros of a given size. *)
Theorem C92_zeros n h : (Z.of_nat n < 2 ^ 31)%Z -> (forall i b, In (i, b) h -> i < n) ->
  exists s, fbm_sets (fbm_new n false) h = Some s /\ answers s (bits_after (repeat false n) h).
Proof.
  intros Hl Hh. destruct (@sets_ok h _ _ (new_inv n Hl)) as (s & E & I); [intros i b K; rewrite repeat_length; eauto|]. exists s. split; [exact E|]. now apply inv_answers.
Qed.
(** [select(n)] without [n + 1] ones reads behind the words. *)
Theorem C92_select_past l h : (Z.of_nat (length l) < 2 ^ 31)%Z -> (forall i b, In (i, b) h -> i < length l) ->
  exists s0 s, fbm_of l = Some s0 /\ fbm_sets s0 h = Some s /\ forall n, cnt true (bits_after l h) <= n -> fbm_select s n = None.
Proof.
  intros Hl Hh. destruct (of_ok l Hl) as (s0 & E0 & I0). destruct (sets_ok h I0 Hh) as (s & E & I). exists s0, s. split; [exact E0|]. split; [exact E|]. intros n Hn. eapply select_past; eauto.
Qed.
(** A vector of ones does not count its ones: every bit is set, but [rank] sees only the last word and
    [select] finds nothing. *)
Theorem C92_ones_refuted : let s := fbm_new 128 true in
  (forall i, i < 128 -> fbm_get s i = Some true) /\ fbm_rank s 64 = Some 0%Z /\ fbm_rank s 70 = Some 6%Z /\ fbm_select s 0 = None.
Proof.
  cbv zeta. split; [|vm_compute; auto]. intros i Hi. unfold fbm_get. cbn [fbm_new f_bv]. change (fword_size 128) with 2. rewrite get_repeat by (apply Nat.div_lt_upper_bound; lia). cbn [obind]. f_equal. change 1%Z with (one_at 0). rewrite land_one by lia. rewrite Z.shiftr_spec by lia. cbn [Z.of_nat Z.add]. apply wfill_bit. apply m64.
Qed.
(** [rank(size)] reads behind the words when the size is a positive multiple of 64. *)
Theorem C92_rank_end_refuted k : 0 < k -> fbm_rank (fbm_new (64 * k) false) (64 * k) = None.
Proof.
  intros Hk. unfold fbm_rank. destruct (Nat.eqb_spec (64 * k) 0); [lia|]. replace (64 * k / 64) with k by (rewrite Nat.mul_comm, Nat.div_mul; lia). destruct (fbefore _ _); [|reflexivity]. cbn [obind fbm_new f_bv].
  rewrite get_none; [reflexivity|]. rewrite repeat_length. unfold fword_size. replace ((64 * k + 64 - 1) / 64) with k; [lia|]. symmetry. apply (@idx_eq (64 * k + 64 - 1) k 63); lia.
Qed.

(** ** Concrete cases *)
Example C92_case : (let* s := fbm_of (repeat true 3 ++ repeat false 62 ++ [true; false; true]) in
  let* s := fbm_sets s [(1, false); (66, true)] in
  let* g := fbm_get s 1 in let* r := fbm_rank s 67 in let* p := fbm_select s 1 in let* q := fbm_select s 4 in Some (g, r, p, q)) = Some (false, 4, 2, 67)%Z.
Proof. vm_compute. reflexivity. Qed.

Print Assumptions C92_sequence.
Print Assumptions C92_zeros.
Print Assumptions C92_select_past.
Print Assumptions C92_ones_refuted.
Print Assumptions C92_rank_end_refuted.
