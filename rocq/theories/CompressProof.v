From Coq Require Import Permutation Sorted.
From Verif Require Import Base BaseLemmas StdAlgo CompressModel.

Set Implicit Arguments.

Section Proof.
Variable T : Type.
Variable ltb eqb : T -> T -> bool.
Hypothesis SO : strict_order ltb.
Hypothesis EQ : forall x y, eqb x y = true <-> x = y.

Lemma eqb_refl x : eqb x x = true. Proof. now apply EQ. Qed.
Lemma eqb_neq x y : x <> y -> eqb x y = false.
Proof. intros H; destruct (eqb x y) eqn:E; auto. apply EQ in E; congruence. Qed.

Lemma m_put_find m k v x :
  m_find eqb (m_put eqb m k v) x = if eqb x k then Some v else m_find eqb m x.
Proof.
  induction m as [|[k' v'] t IH]; simpl; auto.
  destruct (eqb k k') eqn:E; simpl.
  - apply EQ in E as ->. destruct (eqb x k'); auto.
  - destruct (eqb x k') eqn:E1; auto.
    apply EQ in E1 as ->. destruct (eqb k' k) eqn:E2; auto.
    apply EQ in E2 as ->. rewrite eqb_refl in E; discriminate.
Qed.

Lemma build_ok vs : NoDup vs ->
  exists mp, for_each vs (fun v '(mp, k) => Some (m_put eqb mp v k, k + 1)) ([], 0)
             = Some (mp, length vs) /\ decodes eqb mp vs.
Proof.
  intros ND.
  destruct (@for_each_rule _ _ (fun done rest '(mp, k) =>
     vs = done ++ rest /\ k = length done /\ decodes eqb mp done)
     (fun v '(mp, k) => Some (m_put eqb mp v k, k + 1)) vs [] ([], 0)) as ([mp k] & E & I).
  - simpl. split; auto. split; auto. intros x i; split; simpl; [discriminate|now destruct i].
  - intros done x rest [mp k] (-> & -> & D).
    eexists; split; [reflexivity|]. cbn beta iota.
    split; [now rewrite <- app_assoc|]. split; [rewrite app_length; simpl; lia|].
    intros y i. rewrite m_put_find.
    assert (Hx : ~ In x done).
    { apply NoDup_remove_2 in ND. rewrite in_app_iff in ND. tauto. }
    destruct (eqb y x) eqn:Ey.
    + apply EQ in Ey as ->. split.
      * intros [= <-]. rewrite get_app_r by lia. now rewrite Nat.sub_diag.
      * intros H. destruct (Nat.lt_ge_cases i (length done)).
        -- rewrite get_app_l in H by lia. apply get_In in H. tauto.
        -- apply get_some_lt in H. rewrite app_length in H; simpl in H. f_equal; lia.
    + rewrite (D y i). split; intros H.
      * rewrite get_app_l; auto. now apply get_some_lt in H.
      * destruct (Nat.lt_ge_cases i (length done)).
        -- now rewrite get_app_l in H by lia.
        -- rewrite get_app_r in H by lia. destruct (i - length done) as [|j]; simpl in H.
           ++ injection H as ->. now rewrite eqb_refl in Ey.
           ++ now destruct j.
  - rewrite app_nil_r in I. destruct I as (<- & -> & D). eauto.
Qed.

Lemma sorted_get vs : StronglySorted (lt ltb) vs ->
  forall i j x y, get vs i = Some x -> get vs j = Some y -> (ltb x y = true <-> i < j).
Proof.
  intros S0. assert (K : forall i j x y, i < j -> get vs i = Some x -> get vs j = Some y -> ltb x y = true).
  { induction S0 as [|a l SS IH F]; intros i j x y Hij Hx Hy; [now destruct i|].
    destruct j as [|j]; [lia|]. simpl in Hy. destruct i as [|i]; simpl in Hx.
    - injection Hx as <-. rewrite Forall_forall in F. apply F. now apply get_In in Hy.
    - apply IH with i j; auto; lia. }
  intros i j x y Hx Hy. split; intros H; [|eauto].
  destruct (Nat.lt_trichotomy i j) as [|[->|C]]; auto.
  - rewrite Hx in Hy; injection Hy as <-. rewrite (so_irrefl SO) in H; discriminate.
  - apply (K j i y x) in C; auto. rewrite (lt_asym SO) in H; auto; discriminate.
Qed.

Lemma sorted_nodup vs : StronglySorted (lt ltb) vs -> NoDup vs.
Proof.
  induction 1 as [|a l SS IH F]; constructor; auto. intros H. rewrite Forall_forall in F.
  apply F in H. unfold lt in H. rewrite (so_irrefl SO) in H. discriminate.
Qed.

Lemma release_ok vs : exists mp,
  c_release ltb eqb vs = Some (mp, std_unique eqb (std_sort ltb vs)) /\
  decodes eqb mp (std_unique eqb (std_sort ltb vs)) /\
  rank_map ltb eqb vs mp (length (std_unique eqb (std_sort ltb vs))).
Proof.
  set (us := std_unique eqb (std_sort ltb vs)).
  assert (SU : StronglySorted (lt ltb) us).
  { apply std_unique_sorted; auto. now apply std_sort_sorted. }
  assert (IU : forall x, In x us <-> In x vs).
  { intros x. unfold us. rewrite std_unique_In by auto. split; apply Permutation_in.
    - apply Permutation_sym, std_sort_perm.
    - apply std_sort_perm. }
  destruct (build_ok (sorted_nodup SU)) as (mp & E & D).
  exists mp. unfold c_release. fold us. rewrite E. cbn [obind]. split; auto. split; auto.
  constructor.
  - intros x. rewrite <- IU. split.
    + intros H. destruct (m_find eqb mp x) as [i|] eqn:F; [|congruence].
      apply D in F. now apply get_In in F.
    + intros H. apply In_get in H as (i & _ & H). apply D in H. congruence.
  - intros x y i j Hx Hy. apply D in Hx, Hy. now apply (sorted_get SU).
  - intros x i H. apply D in H. now apply get_some_lt in H.
  - intros i H. apply get_lt in H as [x H]. exists x. now apply D.
Qed.

Lemma rank_map_ext xs ys m k : (forall x, In x xs <-> In x ys) ->
  rank_map ltb eqb xs m k -> rank_map ltb eqb ys m k.
Proof. intros E [A B C D]; constructor; auto. intros x. rewrite <- E. apply A. Qed.

Lemma run_ok h : forall vs xs, (forall x, In x vs <-> In x xs) ->
  exists rs vs', c_run ltb eqb vs h = Some (rs, vs') /\ outs_ok ltb eqb xs h rs.
Proof.
  induction h as [|o h IH]; intros vs xs E; cbn [c_run].
  - exists [], vs; simpl; auto.
  - assert (K : exists r vs', c_step ltb eqb vs o = Some (r, vs') /\ out_ok ltb eqb xs o r /\
       (forall x, In x vs' <-> In x (live_step xs o))).
    { destruct o as [| x | ys | |]; cbn [c_step].
      - eexists _, _; split; [reflexivity|]. simpl. tauto.
      - eexists _, _; split; [reflexivity|]. split; [exact I|]. intros y. unfold c_add.
        rewrite in_app_iff, E. simpl. tauto.
      - eexists _, _; split; [reflexivity|]. split; [exact I|]. intros y. unfold c_add_range.
        rewrite in_app_iff, E. simpl. rewrite in_app_iff. tauto.
      - destruct (release_ok vs) as (mp & R & D & RM). rewrite R. cbn [obind].
        eexists _, _; split; [reflexivity|]. split.
        + eexists. eapply rank_map_ext; eauto.
        + intros y. rewrite std_unique_In by auto. simpl. rewrite <- E. split; apply Permutation_in.
          * apply Permutation_sym, std_sort_perm.
          * apply std_sort_perm.
      - destruct (release_ok vs) as (mp & R & D & RM). unfold c_release_tie. rewrite R. cbn [obind].
        eexists _, _; split; [reflexivity|]. split.
        + split; auto. eapply rank_map_ext; eauto.
        + simpl. tauto. }
    destruct K as (r & vs' & E1 & O & E2). rewrite E1. cbn [obind].
    destruct (IH vs' _ E2) as (rs & vs'' & E3 & O2). rewrite E3. cbn [obind].
    eexists _, _; split; [reflexivity|]. simpl. auto.
Qed.

(** In a rank map the image of [x] is the number of distinct smaller values. *)
Lemma rank_map_count dec xs m k x i :
  rank_map ltb eqb xs m k -> m_find eqb m x = Some i -> i = rank_of ltb dec xs x.
Proof.
  intros [A B C D] H. unfold rank_of.
  assert (K : exists ys, length ys = i /\ NoDup ys /\
     forall y, In y ys <-> In y xs /\ ltb y x = true).
  { assert (G : forall n, n <= i -> exists ys, length ys = n /\ NoDup ys /\
       forall y, In y ys <-> exists j, j < n /\ m_find eqb m y = Some j).
    { induction n as [|n IHn]; intros Hn.
      - exists []; simpl; repeat split; auto; [constructor|tauto|]. intros (j & Hj & _); lia.
      - destruct IHn as (ys & L & ND & P); [lia|].
        destruct (D n) as [z Hz]; [specialize (C _ _ H); lia|].
        exists (z :: ys). repeat split; simpl; auto.
        + constructor; auto. intros G. apply P in G as (j & Hj & G). rewrite Hz in G. injection G; lia.
        + intros [<-|G]; [exists n; split; auto; lia|].
          apply P in G as (j & Hj & G). exists j; split; auto; lia.
        + intros (j & Hj & G). destruct (Nat.eq_dec j n) as [->|].
          * left. destruct (ltb z y) eqn:E1.
            { apply (B _ _ _ _ Hz G) in E1; lia. }
            destruct (ltb y z) eqn:E2; [apply (B _ _ _ _ G Hz) in E2; lia|].
            now apply (so_total SO).
          * right. apply P. exists j; split; auto; lia. }
    destruct (G i) as (ys & L & ND & P); auto. exists ys; repeat split; auto.
    - apply P in H0 as (j & Hj & Hy). apply A. congruence.
    - apply P in H0 as (j & Hj & Hy). now apply (B _ _ _ _ Hy H).
    - intros (Hy & Hl). apply A in Hy. destruct (m_find eqb m y) as [j|] eqn:F; [|congruence].
      apply P. exists j; split; auto. now apply (B _ _ _ _ F H). }
  destruct K as (ys & <- & ND & P).
  apply Permutation_length. apply NoDup_Permutation; auto using NoDup_nodup.
  intros y. rewrite nodup_In, filter_In. apply P.
Qed.

End Proof.
