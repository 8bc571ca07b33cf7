(** [convolution_large]: products of blocks. *)
From Coq Require Import Setoid Morphisms Znumtheory.
From Verif Require Import Base BaseLemmas NthExtra SearchModel BitModel NumTheory ModularModel ModularProof PrimRootModel NttModel NttSum NttRev NttProof NttCore ConvModel ConvSum ConvNtt.
Local Open Scope Z_scope.
Ltac Zify.zify_post_hook ::= idtac.

(** ** Sums over blocks *)
Lemma zsum_block a B f : zsum (a * B) f = zsum a (fun j => zsum B (fun y => f (j * B + y)%nat)).
Proof.
  induction a as [|a IH]; auto. replace (S a * B)%nat with (a * B + B)%nat by lia. rewrite zsum_split, IH. reflexivity.
Qed.

(** Sums along antidiagonals. *)
Lemma antidiag cs ds (X : nat -> nat -> Z) : (0 < cs)%nat -> (0 < ds)%nat ->
  zsum (cs + ds - 1) (fun i => let lo := (i + 1 - ds)%nat in
    zsum (Nat.min cs (i + 1) - lo) (fun u => X (lo + u)%nat (i - (lo + u))%nat)) =
  zsum cs (fun j => zsum ds (fun t => X j t)).
Proof.
  intros Hc Hd.
  rewrite (zsum_ext _ _ (fun i => zsum cs (fun j => if (j <=? i)%nat && (i - j <? ds)%nat then X j (i - j)%nat else 0))).
  - rewrite zsum_swap. apply zsum_ext. intros j Hj.
    replace (cs + ds - 1)%nat with (j + (ds + (cs - 1 - j)))%nat by lia. rewrite zsum_split, zsum_split.
    rewrite (zsum_ext j _ (fun _ => 0)), zsum_0.
    2:{ intros i Hi. destruct (Nat.leb_spec j i); [lia|auto]. }
    rewrite (zsum_ext (cs - 1 - j) _ (fun _ => 0)), zsum_0.
    2:{ intros i Hi. destruct (Nat.ltb_spec (j + (ds + i) - j) ds); [lia|]. now rewrite Bool.andb_false_r. }
    rewrite Z.add_0_l, Z.add_0_r. apply zsum_ext. intros t Ht. destruct (Nat.leb_spec j (j + t)); [|lia].
    replace (j + t - j)%nat with t by lia. destruct (Nat.ltb_spec t ds); [auto|lia].
  - intros i Hi. cbn zeta. set (lo := (i + 1 - ds)%nat). set (hi := Nat.min cs (i + 1)).
    assert (lo <= hi)%nat by (unfold lo, hi; lia).
    replace cs with (lo + ((hi - lo) + (cs - hi)))%nat at 1 by (unfold hi in *; lia). rewrite zsum_split, zsum_split.
    rewrite (zsum_ext lo _ (fun _ => 0)), zsum_0.
    2:{ intros j Hj. destruct (Nat.ltb_spec (i - j) ds); [unfold lo in *; lia|]. now rewrite Bool.andb_false_r. }
    rewrite (zsum_ext (cs - hi) _ (fun _ => 0)), zsum_0.
    2:{ intros j Hj. destruct (Nat.leb_spec (lo + (hi - lo + j)) i); [unfold lo, hi in *; lia|auto]. }
    rewrite Z.add_0_l, Z.add_0_r. apply zsum_ext. intros u Hu.
    destruct (Nat.leb_spec (lo + u) i); [|unfold lo, hi in *; lia].
    destruct (Nat.ltb_spec (i - (lo + u)) ds); [auto|unfold lo, hi in *; lia].
Qed.

(** The product of two sequences from the products of their blocks. *)
Lemma dbl_blocks cs ds B F G k :
  dbl (cs * B) (ds * B) F G k = zsum cs (fun j => zsum ds (fun t =>
    if ((j + t) * B <=? k)%nat then dbl B B (fun y => F (j * B + y)%nat) (fun z => G (t * B + z)%nat) (k - (j + t) * B) else 0)).
Proof.
  unfold dbl at 1. rewrite zsum_block. apply zsum_ext. intros j _.
  rewrite (zsum_ext B _ (fun y => zsum ds (fun t => zsum B (fun z => if (j * B + y + (t * B + z) =? k)%nat then F (j * B + y)%nat * G (t * B + z)%nat else 0))))
    by (intros y _; apply zsum_block).
  rewrite zsum_swap. apply zsum_ext. intros t _. unfold dbl. destruct (Nat.leb_spec ((j + t) * B) k) as [C|C].
  - apply zsum_ext. intros y _. apply zsum_ext. intros z _.
    destruct (Nat.eqb_spec (j * B + y + (t * B + z)) k), (Nat.eqb_spec (y + z) (k - (j + t) * B)); auto; lia.
  - rewrite (zsum_ext B _ (fun _ => 0)), zsum_0; auto. intros y _. rewrite (zsum_ext B _ (fun _ => 0)), zsum_0; auto.
    intros z _. destruct (Nat.eqb_spec (j * B + y + (t * B + z)) k); auto. lia.
Qed.

Lemma cd_bound n m B : (B <> 0)%nat -> (0 < n)%nat -> (0 < m)%nat -> (((n - 1) / B + 1 + ((m - 1) / B + 1) - 2) * B <= n + m - 2)%nat.
Proof.
  intros NZ Hn Hm. pose proof (Nat.mul_div_le (n - 1) B NZ) as A. pose proof (Nat.mul_div_le (m - 1) B NZ) as C.
  revert A C. generalize ((n - 1) / B)%nat, ((m - 1) / B)%nat. intros a b A C.
  replace (a + 1 + (b + 1) - 2)%nat with (a + b)%nat by lia. rewrite Nat.mul_add_distr_r. lia.
Qed.

(** ** The blocks *)
Definition is_block (B : nat) (f : list Z) (j : nat) (b : list Z) : Prop :=
  length b = (2 * B)%nat /\ forall y, nth y b 0 = if (y <? B)%nat then nth (j * B + y) f 0 else 0.

Section Large.
Variable p : Z.
Hypothesis P : prime p.
Hypothesis H31 : p < 2 ^ 31.
Let M : 1 <= p < 2 ^ 31. Proof. pose proof (prime_ge_2 _ P). lia. Qed.
Local Notation "a == b" := (eqm p a b) (at level 70).

Lemma block_res B f j b : residues p f -> is_block B f j b -> residues p b.
Proof. intros R [L K]. apply (res_i p). intros y _. rewrite K. destruct (y <? B)%nat; [now apply (res_n p M)|lia]. Qed.

Lemma split_ok l k f : (length f <= k * 2 ^ l)%nat -> exists c, split_blocks l k f = Some c /\ length c = k /\
  forall j, (j < k)%nat -> exists b, get c j = Some b /\ is_block (2 ^ l) f j b.
Proof.
  intros Hk. unfold split_blocks. match goal with |- context [for_up _ _ ?bd _] => set (body := bd) end.
  pose proof (Nat.pow_nonzero 2 l ltac:(lia)) as NZ. set (B := (2 ^ l)%nat) in *.
  destruct (@for_up_rule _ (fun i c => length c = k /\ forall j, (j < k)%nat -> exists b, get c j = Some b /\ length b = (2 * B)%nat /\
      forall y, nth y b 0 = if (y <? B)%nat && (j * B + y <? i)%nat then nth (j * B + y) f 0 else 0) body (length f) 0%nat
      (repeat (repeat 0 (2 * B)) k)) as (c & E & L & K).
  - split; [apply repeat_length|]. intros j Hj. exists (repeat 0 (2 * B)). split; [now apply get_repeat|]. split; [apply repeat_length|].
    intros y. rewrite nth_repeat. now rewrite Bool.andb_false_r.
  - intros i c Hi (L & K). unfold body. rewrite (get_nth f _ 0) by lia. cbn [obind].
    assert (Hq : (i / B < k)%nat) by (apply Nat.div_lt_upper_bound; lia).
    destruct (K (i / B)%nat Hq) as (b & Gb & Lb & Nb). rewrite Gb. cbn [obind].
    pose proof (Nat.mod_upper_bound i B NZ) as Hm. pose proof (Nat.div_mod i B NZ) as DM.
    rewrite set_some by lia. cbn [obind]. rewrite set_some by lia. eexists. split; [reflexivity|]. rewrite lset_length. split; auto.
    intros j Hj. destruct (Nat.eq_dec (i / B) j) as [<-|N].
    + rewrite get_lset_eq by lia. eexists. split; [reflexivity|]. rewrite lset_length. split; auto. intros y.
      destruct (Nat.eq_dec (i mod B) y) as [<-|Ny].
      * rewrite nth_lset_eq by lia. destruct (Nat.ltb_spec (i mod B) B); [|lia].
        replace (i / B * B + i mod B)%nat with i by lia. destruct (Nat.ltb_spec i (S i)); [auto|lia].
      * rewrite nth_lset_neq by auto. rewrite Nb.
        destruct (Nat.ltb_spec y B); auto. cbn [andb].
        destruct (Nat.ltb_spec (i / B * B + y) i), (Nat.ltb_spec (i / B * B + y) (S i)); auto; lia.
    + rewrite get_lset_neq by auto. destruct (K j Hj) as (b' & Gb' & Lb' & Nb'). exists b'. split; auto. split; auto. intros y. rewrite Nb'.
      destruct (Nat.ltb_spec y B) as [Hy|]; auto. cbn [andb].
      destruct (Nat.ltb_spec (j * B + y) i), (Nat.ltb_spec (j * B + y) (S i)); auto; try lia. exfalso. apply N.
      assert (i = j * B + y)%nat by lia. subst i. rewrite Nat.div_add_l, Nat.div_small by lia. lia.
  - exists c. split; [exact E|]. split; auto. intros j Hj. destruct (K j Hj) as (b & Gb & Lb & Nb). exists b. split; auto. split; auto.
    intros y. rewrite Nb. cbn [Nat.add]. destruct (Nat.ltb_spec y B); auto. cbn [andb].
    destruct (Nat.ltb_spec (j * B + y) (length f)); auto. rewrite nth_overflow; auto.
Qed.

Lemma ntt_blocks_ok c : (forall j b, get c j = Some b -> exists F, ntt_convolution p b = Some F) ->
  exists c', ntt_blocks p c = Some c' /\ length c' = length c /\
    forall j b, get c j = Some b -> exists F, get c' j = Some F /\ ntt_convolution p b = Some F.
Proof.
  intros H. unfold ntt_blocks. match goal with |- context [for_up _ _ ?bd _] => set (body := bd) end.
  destruct (@for_up_rule _ (fun i c' => length c' = length c /\
    (forall j b, (j < i)%nat -> get c j = Some b -> exists F, get c' j = Some F /\ ntt_convolution p b = Some F) /\
    (forall j, (i <= j)%nat -> get c' j = get c j)) body (length c) 0%nat c) as (c' & E & L & K & _).
  - split; auto. split; auto. intros; lia.
  - intros i c' Hi (L & K1 & K2). unfold body. rewrite K2 by lia. destruct (@get_lt _ c i) as [b Gb]; [lia|]. rewrite Gb. cbn [obind].
    destruct (H _ _ Gb) as [F EF]. rewrite EF. cbn [obind]. rewrite set_some by lia. eexists. split; [reflexivity|].
    rewrite lset_length. split; auto. split.
    + intros j b' Hj Gb'. destruct (Nat.eq_dec i j) as [<-|N].
      * rewrite get_lset_eq by lia. exists F. split; congruence.
      * rewrite get_lset_neq by auto. apply K1; auto. lia.
    + intros j Hj. rewrite get_lset_neq by lia. apply K2. lia.
  - exists c'. split; [exact E|]. split; auto. intros j b G. apply K; auto. pose proof (get_some_lt _ _ G). lia.
Qed.

(** ** The sums of the products of blocks *)
Section Core.
Variables (W : nat -> Z) (l B n m cs ds : nat) (f g : list Z) (c' d' : list (list Z)).
Hypothesis BW : forall E N T (F G : nat -> nat -> Z) (a b : nat -> nat), (N <= info_log_n p)%nat -> length E = (2 ^ N)%nat -> residues p E ->
    (forall t, (t < T)%nat -> (a t + b t <= 2 ^ N + 1)%nat /\
      (forall k, (a t <= k)%nat -> F t k = 0) /\ (forall k, (b t <= k)%nat -> G t k = 0)) ->
    (forall k, (k < 2 ^ N)%nat -> eqm p (nth k E 0) (zsum T (fun t => hat W N (F t) k * hat W N (G t) k))) ->
    exists e, intt_convolution p E = Some e /\ length e = (2 ^ N)%nat /\ residues p e /\
      forall i, (i < 2 ^ N)%nat -> eqm p (nth i e 0) (zsum T (fun t => zsum (S i) (fun j => F t j * G t (i - j)%nat))).
Hypothesis HN : (S l <= info_log_n p)%nat.
Hypothesis E2 : (2 * B = 2 ^ S l)%nat.
Hypothesis Hcd : ((cs + ds - 2) * B <= n + m - 2)%nat.
Hypothesis Hnm : (2 <= n + m)%nat.
Let F := fun j y => if (y <? B)%nat then nth (j * B + y) f 0 else 0.
Let G := fun j y => if (y <? B)%nat then nth (j * B + y) g 0 else 0.
Hypothesis Kc2 : forall j, (j < cs)%nat -> exists H, get c' j = Some H /\ length H = (2 * B)%nat /\ residues p H /\
    forall x, (x < 2 * B)%nat -> nth x H 0 == hat W (S l) (F j) x.
Hypothesis Kd2 : forall j, (j < ds)%nat -> exists H, get d' j = Some H /\ length H = (2 * B)%nat /\ residues p H /\
    forall x, (x < 2 * B)%nat -> nth x H 0 == hat W (S l) (G j) x.

Definition X (j t k : nat) : Z := if ((j + t) * B <=? k)%nat then
    dbl B B (fun y => nth (j * B + y) f 0) (fun z => nth (t * B + z) g 0) (k - (j + t) * B) else 0.

Local Notation one := (large_one p B n m cs ds c' d').

Lemma one_ok i : (i < cs + ds - 1)%nat -> adds p (n + m - 1) (one i) (fun k => let lo := (i + 1 - ds)%nat in
      zsum (Nat.min cs (i + 1) - lo) (fun u => X (lo + u)%nat (i - (lo + u))%nat k)).
Proof.
  intros Hi res Lres Rres. unfold large_one. cbn zeta. set (lo := (i + 1 - ds)%nat). set (T := (Nat.min cs (i + 1) - lo)%nat).
    match goal with |- context [for_up T lo ?bd _] => set (fma := bd) end.
    assert (AE : adds p (2 * B) (for_up T lo fma) (fun x => zsum T (fun u => hat W (S l) (F (lo + u)%nat) x * hat W (S l) (G (i - (lo + u))%nat) x))).
    { apply (adds_for p (2 * B) fma (fun j x => hat W (S l) (F j) x * hat W (S l) (G (i - j)%nat) x) T lo).
      intros j Hj e Le Re. unfold fma. cbn zeta.
      assert (Hji : (j <= i)%nat) by (clear - Hj; unfold T, lo in *; lia). assert (Hk : (i - j < ds)%nat) by (clear - Hj Hi; unfold T, lo in *; lia).
      destruct (Nat.leb_spec j i); [|lia]. destruct (Nat.ltb_spec (i - j) ds); [|lia]. cbn [andb guard obind].
      destruct (Kc2 j ltac:(clear - Hj; unfold T, lo in *; lia)) as (H1 & G1 & L1 & R1 & K1). destruct (Kd2 (i - j)%nat Hk) as (H2 & G2 & L2 & R2 & K2).
      rewrite G1. cbn [obind]. rewrite G2. cbn [obind].
      destruct (fma_adds p M (2 * B) H1 H2 R1 R2 ltac:(lia) ltac:(lia) e Le Re) as (e' & Ee & Le' & Re' & Ke).
      exists e'. split; [exact Ee|]. split; [exact Le'|]. split; [exact Re'|]. intros x Hx. rewrite (Ke x Hx), (K1 x Hx), (K2 x Hx). reflexivity. }
    destruct (AE (repeat 0 (2 * B)) (repeat_length _ _) (res_repeat p M _)) as (e & Ee & Le & Re & Ke). rewrite Ee. cbn [obind].
    destruct (BW e (S l) T (fun u => F (lo + u)%nat) (fun u => G (i - (lo + u))%nat) (fun _ => B) (fun _ => B) HN) as (r & Er & Lr & Rr & Kr).
    - rewrite <- E2. exact Le.
    - exact Re.
    - intros u _. split; [lia|]. unfold F, G. split; intros k Hk; destruct (Nat.ltb_spec k B); auto; lia.
    - intros x Hx. rewrite (Ke x) by lia. rewrite nth_repeat. apply eq_eqm. ring.
    - rewrite Er. cbn [obind].
      assert (Hi2 : (i * B <= n + m - 2)%nat). { eapply Nat.le_trans; [|exact Hcd]. apply Nat.mul_le_mono_r. lia. }
      set (len := Nat.min (2 * B) (n + m - 1 - i * B)).
      destruct (add_all_adds p M (n + m - 1) len r (i * B) Rr ltac:(unfold len; lia) ltac:(unfold len; lia) res Lres Rres) as (h & Eh & Lh & Rh & Kh).
      exists h. split; [exact Eh|]. split; [exact Lh|]. split; [exact Rh|]. intros k Hk. rewrite (Kh k Hk). apply eqm_add_m; [reflexivity|].
      assert (KX : forall u, (u < T)%nat -> X (lo + u)%nat (i - (lo + u))%nat k =
        if (i * B <=? k)%nat then zsum (S (k - i * B)) (fun y => F (lo + u)%nat y * G (i - (lo + u))%nat (k - i * B - y)%nat) else 0).
      { intros u Hu. unfold X. replace (lo + u + (i - (lo + u)))%nat with i by (clear - Hu; unfold T, lo in *; lia).
        destruct (i * B <=? k)%nat; auto.
        rewrite <- (dbl_conv B B (F (lo + u)%nat) (G (i - (lo + u))%nat)).
        - unfold dbl, F, G. apply zsum_ext. intros y Hy. apply zsum_ext. intros z Hz.
          destruct (Nat.ltb_spec y B); [|lia]. destruct (Nat.ltb_spec z B); [|lia]. reflexivity.
        - intros y Hy. unfold F. destruct (Nat.ltb_spec y B); auto; lia.
        - intros y Hy. unfold G. destruct (Nat.ltb_spec y B); auto; lia. }
      rewrite (zsum_ext T _ _ KX). destruct (Nat.leb_spec (i * B) k) as [C|C]; cbn [andb].
      + destruct (Nat.ltb_spec (k - i * B) len) as [C2|C2].
        * rewrite (Kr (k - i * B)%nat) by (rewrite <- E2; unfold len in C2; clear - C2; lia). reflexivity.
        * rewrite (zsum_ext T _ (fun _ => 0)), zsum_0; [reflexivity|]. intros u Hu.
          rewrite (zsum_ext _ _ (fun _ => 0)), zsum_0; auto. intros y Hy. unfold F, G.
          destruct (Nat.ltb_spec y B) as [Y1|Y1]; [|apply Z.mul_0_l]. destruct (Nat.ltb_spec (k - i * B - y) B) as [Y2|Y2]; [|apply Z.mul_0_r].
          exfalso. unfold len in C2. clear - C2 Y1 Y2 Hk C Hy. lia.
      + rewrite zsum_0. reflexivity.
Qed.

Lemma sums_ok : adds p (n + m - 1) (for_up (cs + ds - 1) 0 one) (fun k => zsum (cs + ds - 1) (fun i => let lo := (i + 1 - ds)%nat in
    zsum (Nat.min cs (i + 1) - lo) (fun u => X (lo + u)%nat (i - (lo + u))%nat k))).
Proof.
  apply (adds_for p (n + m - 1) one (fun i k => let lo := (i + 1 - ds)%nat in
      zsum (Nat.min cs (i + 1) - lo) (fun u => X (lo + u)%nat (i - (lo + u))%nat k)) (cs + ds - 1) 0).
  intros i Hi. apply one_ok. lia.
Qed.
End Core.

(** ** The product *)
Lemma large_mid f g l B cs ds : residues p f -> residues p g -> (0 < length f)%nat -> (0 < length g)%nat ->
  (S l <= info_log_n p)%nat -> (2 ^ l = B)%nat -> (length f <= cs * B)%nat -> (length g <= ds * B)%nat ->
  ((cs + ds - 2) * B <= length f + length g - 2)%nat -> (0 < cs)%nat -> (0 < ds)%nat ->
  exists h, (let* c := split_blocks l cs f in
      let* d := split_blocks l ds g in
      let* c := ntt_blocks p c in
      let* d := ntt_blocks p d in
      for_up (cs + ds - 1) 0 (large_one p B (length f) (length g) cs ds c d) (repeat 0 (length f + length g - 1))) = Some h /\
    residues p h /\ length h = (length f + length g - 1)%nat /\ forall k, nth k h 0 == conv f g k.
Proof.
  intros Rf Rg Hf Hg HN EB Hc Hd Hcd Hcs Hds.
  assert (E2 : (2 * B = 2 ^ S l)%nat) by (now rewrite Nat.pow_succ_r', EB).
  destruct (split_ok l cs f) as (c & Ec & Lc & Kc); [now rewrite EB|]. destruct (split_ok l ds g) as (d & Ed & Ld & Kd); [now rewrite EB|]. rewrite EB in Kc, Kd.
  rewrite Ec, Ed. cbn [obind]. destruct (ntt_tool p P H31) as (W & FW & BW).
  destruct (ntt_blocks_ok c) as (c' & Ec' & Lc' & Kc').
  { intros j b G. pose proof (get_some_lt _ _ G). destruct (Kc j ltac:(lia)) as (b' & G' & Bb). assert (b' = b) as -> by congruence.
    destruct (FW b (S l) HN) as (F & EF & _); [rewrite <- E2; apply Bb|eapply block_res; [|exact Bb]; auto|]. eauto. }
  destruct (ntt_blocks_ok d) as (d' & Ed' & Ld' & Kd').
  { intros j b G. pose proof (get_some_lt _ _ G). destruct (Kd j ltac:(lia)) as (b' & G' & Bb). assert (b' = b) as -> by congruence.
    destruct (FW b (S l) HN) as (F & EF & _); [rewrite <- E2; apply Bb|eapply block_res; [|exact Bb]; auto|]. eauto. }
  rewrite Ec', Ed'. cbn [obind].
  set (F := fun j y => if (y <? B)%nat then nth (j * B + y) f 0 else 0).
  set (G := fun j y => if (y <? B)%nat then nth (j * B + y) g 0 else 0).
  assert (Kc2 : forall j, (j < cs)%nat -> exists H, get c' j = Some H /\ length H = (2 * B)%nat /\ residues p H /\
    forall x, (x < 2 * B)%nat -> nth x H 0 == hat W (S l) (F j) x).
  { intros j Hj. destruct (Kc j Hj) as (b & Gb & Bb). destruct (Kc' j b Gb) as (H & GH & EH). exists H. split; [exact GH|].
    destruct (FW b (S l) HN) as (H' & EF & LF & RF & KF); [rewrite <- E2; apply Bb|eapply block_res; [|exact Bb]; auto|].
    assert (H' = H) as -> by congruence. rewrite E2. split; [exact LF|]. split; [exact RF|]. intros x Hx. rewrite (KF x Hx).
    apply eq_eqm. unfold hat. apply zsum_ext. intros y _. f_equal. apply Bb. }
  assert (Kd2 : forall j, (j < ds)%nat -> exists H, get d' j = Some H /\ length H = (2 * B)%nat /\ residues p H /\
    forall x, (x < 2 * B)%nat -> nth x H 0 == hat W (S l) (G j) x).
  { intros j Hj. destruct (Kd j Hj) as (b & Gb & Bb). destruct (Kd' j b Gb) as (H & GH & EH). exists H. split; [exact GH|].
    destruct (FW b (S l) HN) as (H' & EF & LF & RF & KF); [rewrite <- E2; apply Bb|eapply block_res; [|exact Bb]; auto|].
    assert (H' = H) as -> by congruence. rewrite E2. split; [exact LF|]. split; [exact RF|]. intros x Hx. rewrite (KF x Hx).
    apply eq_eqm. unfold hat. apply zsum_ext. intros y _. f_equal. apply Bb. }
  clear Kc Kd Kc' Kd' Ec Ed Ec' Ed' Lc Ld Lc' Ld' c d.
  (* the entries that one value of i contributes *)
  pose proof (sums_ok W l B (length f) (length g) cs ds f g c' d' BW HN E2 Hcd ltac:(lia) Kc2 Kd2) as A.
  destruct (A (repeat 0 (length f + length g - 1)) (repeat_length _ _) (res_repeat p M _)) as (h & E & Lh & Rh & K).
  exists h. split; [exact E|]. split; [exact Rh|]. split; [exact Lh|]. intros k. destruct (Nat.lt_ge_cases k (length f + length g - 1)) as [C|C].
  - rewrite (K k C), nth_repeat. apply eq_eqm. rewrite (antidiag cs ds (fun j t => X B f g j t k) Hcs Hds). unfold X.
    rewrite <- (dbl_blocks cs ds B (fun i => nth i f 0) (fun j => nth j g 0) k). unfold conv.
    rewrite (dbl_conv (cs * B) (ds * B) (fun i => nth i f 0) (fun j => nth j g 0)); [ring| |]; intros; apply nth_overflow; lia.
  - rewrite nth_overflow by lia. rewrite conv_high; [reflexivity|]. lia.
Qed.

Theorem conv_large_ok f g : 2 < p -> residues p f -> residues p g -> (0 < length f)%nat -> (0 < length g)%nat ->
  Z.of_nat (length f + length g) < 2 ^ 31 -> (2 ^ info_log_n p <= length f + length g - 1)%nat ->
  exists h, conv_large p f g = Some h /\ residues p h /\ length h = (length f + length g - 1)%nat /\ forall k, nth k h 0 == conv f g k.
Proof.
  intros P3 Rf Rg Hf Hg HZ HB. unfold conv_large.
  destruct (Nat.eqb_spec (length f) 0) as [?|_]; [lia|]. destruct (Nat.eqb_spec (length g) 0) as [?|_]; [lia|]. cbn [orb].
  destruct (Nat.ltb_spec (length f + length g - 1) (2 ^ info_log_n p)) as [?|_]; [lia|].
  assert (h1 : (1 <= info_log_n p)%nat).
  { apply (log_n_div p P H31). change (2 ^ Z.of_nat 1) with 2. destruct (Z.Even_or_Odd (p - 1)) as [[y Hy]|[y Hy]]; [exists y; lia|].
    exfalso. destruct (prime_divisors p P 2) as [|[|[|]]]; try lia. exists (y + 1). lia. }
  destruct (Nat.leb_spec 1 (info_log_n p)) as [_|?]; [|lia]. cbn [guard obind].
  destruct (Z.ltb_spec (Z.of_nat (length f + length g)) (2 ^ 31)) as [_|?]; [|lia]. cbn [guard obind].
  assert (HN : (S (info_log_n p - 1) <= info_log_n p)%nat) by lia. revert HN. generalize (info_log_n p - 1)%nat. intros l HN. unfold large_blocks.
  pose proof (Nat.pow_nonzero 2 l ltac:(lia)) as NZ.
  cbn zeta. remember (2 ^ l)%nat as B eqn:EB. symmetry in EB.
  apply (large_mid f g l B ((length f - 1) / B + 1) ((length g - 1) / B + 1)); auto.
  - pose proof (Nat.div_mod (length f - 1) B NZ). pose proof (Nat.mod_upper_bound (length f - 1) B NZ). lia.
  - pose proof (Nat.div_mod (length g - 1) B NZ). pose proof (Nat.mod_upper_bound (length g - 1) B NZ). lia.
  - now apply cd_bound.
  - rewrite Nat.add_1_r. apply Nat.lt_0_succ.
  - rewrite Nat.add_1_r. apply Nat.lt_0_succ.
Qed.
End Large.
