(** The structure for range minimum queries. *)
From Verif Require Import Base BaseLemmas ListExtra NthExtra Order SparseModel SparseProp BitModel BitProof BmapModel BmapProof BvModel BvSel BvProof BvOps BvProp RmqModel RmqWord RmqTree RmqParens RmqExc RmqLca.
Set Implicit Arguments.

Lemma pair_lt_iff {T} (ltb : T -> T -> bool) p q : pair_lt ltb p q = true <-> ltb (fst p) (fst q) = true \/ (ltb (fst q) (fst p) = false /\ snd p < snd q).
Proof. unfold pair_lt. rewrite orb_true_iff, andb_true_iff, negb_true_iff, Nat.ltb_lt. tauto. Qed.
Lemma pair_order {T} (ltb : T -> T -> bool) : weak_order ltb -> weak_order (pair_lt ltb).
Proof.
  intros W. constructor.
  - intros p. unfold pair_lt. rewrite (wo_irrefl _ W), Nat.ltb_irrefl. reflexivity.
  - intros [x i] [y j] [z k]. rewrite !pair_lt_iff. cbn [fst snd]. intros [A|[A A']] [B|[B B']].
    + left. exact (wo_trans _ W _ _ _ A B).
    + left. destruct (wo_split _ W x z y A) as [|C]; auto. congruence.
    + left. destruct (wo_split _ W y x z B) as [C|]; auto. congruence.
    + right. split; [|lia]. exact (wle_trans _ _ W x y z A B).
  - intros [x i] [y j] [z k]. rewrite !pair_lt_iff. cbn [fst snd]. intros [A|[A A']].
    + destruct (wo_split _ W x y z A); auto.
    + destruct (ltb x y) eqn:E1; auto. destruct (ltb y z) eqn:E2; auto.
      assert (ltb y x = false). { destruct (ltb y x) eqn:E; auto. destruct (wo_split _ W y z x E); congruence. }
      assert (ltb z y = false). { destruct (ltb z y) eqn:E; auto. destruct (wo_split _ W z x y E); congruence. }
      destruct (Nat.lt_ge_cases i j); [left; right; auto|right; right; split; auto; lia].
Qed.
Lemma min_assoc {T} (ltb : T -> T -> bool) : weak_order ltb -> forall x y z, fn_min ltb x (fn_min ltb y z) = fn_min ltb (fn_min ltb x y) z.
Proof.
  intros W0 x y z. pose proof (pair_order W0) as W. unfold fn_min. destruct (pair_lt ltb z y) eqn:A, (pair_lt ltb y x) eqn:B; rewrite ?A, ?B; auto.
  - now rewrite (wo_trans _ W _ _ _ A B).
  - destruct (pair_lt ltb z x) eqn:C; auto. destruct (wo_split _ W z y x C); congruence.
Qed.
Lemma min_idem {T} (ltb : T -> T -> bool) x : fn_min ltb x x = x.
Proof. unfold fn_min. destruct (pair_lt ltb x x); auto. Qed.

Section One.
Variable T : Type.
Variable ltb : T -> T -> bool.
Hypothesis W : weak_order ltb.
Variable dflt : T.
Variable a : list T.
Notation f := (fun i => nth i a dflt).
Lemma fmin_first l r k : r <= length a -> fmin ltb f l r k -> first_min ltb a l r k.
Proof.
  intros Hr (H1 & H2 & H3). split; auto. exists (nth k a dflt). split; [apply get_nth; lia|]. split; intros i y Hi G; rewrite (@get_nth _ a i dflt) in G by lia; injection G as <-; auto.
Qed.
Lemma combine_get n : forall s i (l : list T), length l = n -> i < n -> get (combine l (seq s n)) i = Some (nth i l dflt, s + i).
Proof.
  induction n as [|n IH]; intros s i l L H; [lia|]. destruct l as [|x l]; [discriminate|]. cbn [seq combine]. destruct i as [|i]; cbn [get nth_error nth]; [now rewrite Nat.add_0_r|].
  fold (get (combine l (seq (S s) n)) i). rewrite IH; [|cbn in L; lia|lia]. do 2 f_equal. lia.
Qed.
Lemma fold_fmin l m : forall k j, fmin ltb f l m k -> m + j <= length a ->
  exists k', fold_left (fn_min ltb) (slice m (m + j) (combine a (seq 0 (length a)))) (f k, k) = (f k', k') /\ fmin ltb f l (m + j) k'.
Proof.
  intros k j. revert m k. induction j as [|j IH]; intros m k F H.
  - exists k. rewrite slice_nil by lia. rewrite Nat.add_0_r. auto.
  - assert (G : get (combine a (seq 0 (length a))) m = Some (f m, m)) by (rewrite combine_get with (n := length a) (s := 0); auto; lia).
    rewrite (@slice_cons _ m (m + S j) _ (f m, m)) by (auto; lia). cbn [fold_left]. replace (m + S j) with (S m + j) by lia.
    destruct F as (F1 & F2 & F3).
    assert (E : fn_min ltb (f k, k) (f m, m) = if ltb (f m) (f k) then (f m, m) else (f k, k)).
    { unfold fn_min, pair_lt. cbn [fst snd]. destruct (Nat.ltb_spec m k); [lia|]. rewrite andb_false_r, orb_false_r. reflexivity. }
    rewrite E. destruct (ltb (f m) (f k)) eqn:Q; apply IH; try lia.
    + split; [lia|]. split.
      * intros i Hi. destruct (Nat.lt_ge_cases i k); [exact (wo_trans _ W _ _ _ Q (F2 i ltac:(lia)))|].
        destruct (wo_split _ W (f m) (f i) (f k) Q) as [C|C]; auto. rewrite F3 in C by lia. discriminate.
      * intros i Hi. replace i with m by lia. apply (wo_irrefl _ W).
    + split; [lia|]. split; auto. intros i Hi. destruct (Nat.eq_dec i m) as [->|]; auto. apply F3. lia.
Qed.
Lemma sparse_ok : 0 < length a -> exists s, sparse_build ltb dflt a = Some s /\
  forall l r, l < r <= length a -> exists k, rmq_query ltb s l r = Some k /\ first_min ltb a l r k.
Proof.
  intros Hn. assert (Lc : length (combine a (seq 0 (length a))) = length a) by (rewrite combine_length, seq_length; lia).
  destruct (@C09_sparse_table _ (fn_min ltb) (dflt, 0) (min_assoc W) (min_idem ltb) (combine a (seq 0 (length a))) ltac:(lia)) as (t & E & Q).
  unfold sparse_build. rewrite E. cbn [obind]. eexists. split; [reflexivity|]. intros l r Hl. cbn [rmq_query].
  destruct (Nat.ltb_spec l r); [|lia]. cbn [guard obind]. destruct (Q l r ltac:(lia) ltac:(lia)) as (v & -> & SF). cbn [obind].
  assert (G : get (combine a (seq 0 (length a))) l = Some (f l, l)) by (rewrite combine_get with (n := length a) (s := 0); auto; lia).
  rewrite (@slice_cons _ l r _ (f l, l)) in SF by (auto; lia). cbn [sfold] in SF.
  destruct (@fold_fmin l (S l) l (r - S l)) as (k & Ek & F); [|lia|].
  - split; [lia|]. split; [intros; lia|]. intros i Hi. replace i with l by lia. apply (wo_irrefl _ W).
  - replace (S l + (r - S l)) with r in * by lia. rewrite Ek in SF. injection SF as <-. exists k. split; auto. apply fmin_first; auto. lia.
Qed.
End One.

Theorem rmq_ok h : forall T (ltb : T -> T -> bool), weak_order ltb -> forall dflt a, 0 < length a ->
  exists s, rmq_build h ltb dflt a = Some s /\ forall l r, l < r <= length a -> exists k, rmq_query ltb s l r = Some k /\ first_min ltb a l r k.
Proof.
  induction h as [|h IH]; intros T ltb W dflt a Hn; cbn [rmq_build]; [now apply sparse_ok|].
  destruct (Nat.leb_spec (length a) 8) as [C|C]; [now apply sparse_ok|].
  destruct (decalt_ok W dflt a) as (t & tr & -> & Ln & Lk & Io & Hp). cbn [obind].
  assert (Li : length (inord tr) = length a) by (rewrite Io; apply seq_length).
  destruct (@resize_ok (Bm [] 0) [] (2 * (length (d_nodes t) + 1)) false) as (b0 & E0 & _ & _); [repeat split; cbn; auto; intros; lia|cbn; lia|].
  rewrite E0. cbn [obind]. destruct (@parens_ok tr t b0 Lk ltac:(lia) E0) as (b & -> & BI & CL). cbn [obind]. fold (bp tr) in BI.
  pose proof (bitmap_rep BI CL) as R. assert (HW : 1 <= 64 <= 64) by lia. destruct (build_ok HW R) as (d & -> & D). cbn [obind].
  assert (R1 : forall i, rank1 64 (bm_vec b) d i = Some (cnt true (firstn i (bp tr)))) by exact (rank1_ok HW R D).
  assert (R0 : forall i, i <= length (bp tr) -> rank0 64 (bm_vec b) d i = Some (cnt false (firstn i (bp tr)))) by (intros i Hi; exact (rank_ok HW R D false Hi)).
  assert (SE : forall k, select 64 (bm_vec b) d false k = Some (kth false k (bp tr))) by exact (select_ok HW R D false).
  assert (NN : forall i, i < length (bp tr) -> (0 <= exc (bp tr) i)%Z) by (intros i; apply bp_nonneg).
  assert (CF : length a <= cnt false (bp tr)) by (unfold bp; cbn [cnt Bool.eqb]; rewrite cnt_app, cnt_false_pbits; lia).
  rewrite (bsz_eq BI). fold (nb (bp tr)).
  destruct (blocks_ok d BI R1 R0 SE NN) as (A & EA & AL & AB).
  assert (K : forall inner, (3 <= nb (bp tr) -> forall l r, l < r <= nb (bp tr) - 2 -> exists k, inner l r = Some k /\ first_min Nat.ltb (slice 1 (nb (bp tr) - 1) A) l r k) ->
    forall l r, l < r <= length a -> exists k, lca b d inner l (r - 1) = Some k /\ first_min ltb a l r k).
  { intros inner IN l r Hl. destruct (@fmin_ex _ ltb W (fun i => nth i a dflt) l (r - 1 - l)) as (k & F). replace (l + S (r - 1 - l)) with r in F by lia.
    exists k. split; [|now apply fmin_first with dflt; [lia|]]. pose proof F as (F1 & _).
    destruct (Nat.eq_dec l (r - 1)) as [E|E]. { unfold lca. destruct (Nat.eqb_spec l (r - 1)); [|lia]. f_equal. lia. }
    destruct (@lca_ok b d (bp tr) BI R1 R0 SE NN A AL AB inner IN l (r - 1)) as (m & L & ->); [lia|lia|].
    assert (L' : leftmin (exc (bp tr)) (kth false l (bp tr)) (S (kth false (r - 1) (bp tr))) (kth false k (bp tr))).
    { apply (@bp_key _ ltb (fun i => nth i a dflt)); auto; try lia; [now rewrite Li|]. now replace (S (r - 1)) with r by lia. }
    rewrite (leftmin_unique L L'). destruct (@kth_inv false (bp tr) k ltac:(lia)) as (_ & _ & K3). destruct (@kth_inv false (bp tr) l ltac:(lia)) as (_ & _ & K3').
    f_equal. destruct (Nat.eqb_spec (kth false k (bp tr)) (kth false l (bp tr))) as [Q|Q]; auto. rewrite Q in K3. congruence. }
  destruct (Nat.leb_spec 3 (nb (bp tr))) as [C3|C3].
  - rewrite EA. cbn [obind]. assert (Ls : length (slice 1 (nb (bp tr) - 1) A) = nb (bp tr) - 2) by (rewrite slice_length by lia; lia).
    destruct (IH nat Nat.ltb nat_weak 0 (slice 1 (nb (bp tr) - 1) A) ltac:(lia)) as (s & -> & Q). cbn [obind]. eexists. split; [reflexivity|].
    intros l r Hl. cbn [rmq_query]. destruct (Nat.ltb_spec l r); [|lia]. cbn [guard obind]. apply K; auto. intros _ l' r' Hl'. apply Q. lia.
  - eexists. split; [reflexivity|]. intros l r Hl. cbn [rmq_query]. destruct (Nat.ltb_spec l r); [|lia]. cbn [guard obind]. apply K; auto. intros; lia.
Qed.
