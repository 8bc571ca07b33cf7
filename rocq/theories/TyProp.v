(** * C75: the sequence [TY] *)
From Verif Require Import Base BaseLemmas ListExtra TyModel.
Set Implicit Arguments.

(** Specification: the sequences that can be kept. Cut into blocks of [W], every value is at least
    the first of its block and exceeds it by no more than [D]. *)
Definition storable (W : nat) (D : Z) (l : list Z) : Prop :=
  forall i h v, get l (i / W * W) = Some h -> get l i = Some v -> (h <= v <= h + D)%Z \/ i mod W = 0.

Section P.
Variables (W : nat) (sg : bool) (dmax : Z).
Hypothesis HW : 1 <= W.
Let D := ty_max W sg dmax.

Lemma D_hi : (D <= t_hi W sg)%Z.
Proof.
  unfold D, ty_max, to_t. assert (0 < 2 ^ Z.of_nat W)%Z by (apply Z.pow_pos_nonneg; lia). pose proof (Z.mod_pos_bound (dmax mod 2 ^ 32 - t_lo W sg) (2 ^ Z.of_nat W) ltac:(lia)).
  unfold t_lo, t_hi in *. destruct sg; [|lia].
  assert (2 ^ Z.of_nat W = 2 * 2 ^ (Z.of_nat W - 1))%Z by (rewrite <- Z.pow_succ_r by lia; f_equal; lia). lia.
Qed.

(** The state after pushing [l]. *)
Definition rep (l : list Z) (t : ty) : Prop :=
  length (t_head t) = (length l + W - 1) / W /\ length (t_head t) + length (t_diff t) = length l /\
  (forall q, q * W < length l -> get (t_head t) q = get l (q * W)) /\
  (forall i h v, i mod W <> 0 -> get l (i / W * W) = Some h -> get l i = Some v ->
     get (t_diff t) (i / W * (W - 1) + i mod W - 1) = Some (v - h)%Z).

Lemma divmod i : i = i / W * W + i mod W /\ i mod W < W.
Proof. pose proof (Nat.div_mod i W ltac:(lia)). pose proof (Nat.mod_upper_bound i W ltac:(lia)). lia. Qed.
Lemma heads_of n : (n + W - 1) / W = n / W + if n mod W =? 0 then 0 else 1.
Proof.
  destruct (divmod n) as (E & Lt). symmetry. destruct (Nat.eqb_spec (n mod W) 0) as [Z0|NZ].
  - apply Nat.div_unique with (W - 1); lia.
  - apply Nat.div_unique with (n mod W - 1); nia.
Qed.
Lemma get_snoc_lt (l : list Z) v i : i < length l -> get (l ++ [v]) i = get l i.
Proof. intros. apply nth_error_app1; auto. Qed.
Lemma get_snoc_eq (l : list Z) v : get (l ++ [v]) (length l) = Some v.
Proof. unfold get. rewrite nth_error_app2, Nat.sub_diag; auto. Qed.

Lemma rep_get l t i : rep l t -> i < length l -> ty_get W t i = get l i.
Proof.
  intros (L1 & L2 & Hh & Hd) Hi. destruct (divmod i) as (E & Lt). unfold ty_get. rewrite Hh by lia.
  destruct (@get_lt _ l (i / W * W) ltac:(lia)) as (h & G). rewrite G. cbn [obind]. destruct (Nat.eqb_spec (i mod W) 0) as [Z0|NZ].
  - rewrite <- G. f_equal. lia.
  - destruct (@get_lt _ l i Hi) as (v & G'). rewrite (Hd i h v NZ G G'). cbn [obind]. rewrite G'. f_equal. lia.
Qed.
Lemma push_rep l t v : rep l t ->
  (length l mod W = 0 \/ exists h, get l (length l / W * W) = Some h /\ (h <= v <= h + D)%Z) ->
  exists t', ty_push W sg dmax t v = Some t' /\ rep (l ++ [v]) t'.
Proof.
  intros (L1 & L2 & Hh & Hd) H. unfold ty_push, ty_size. rewrite L2. destruct (divmod (length l)) as (E & Lt).
  destruct (Nat.eqb_spec (length l mod W) 0) as [Z0|NZ].
  - eexists; split; [reflexivity|]. rewrite heads_of, Z0 in L1. cbn [Nat.eqb] in L1.
    repeat split; cbn [t_head t_diff]; rewrite ?app_length; cbn [length].
    + rewrite L1. apply Nat.div_unique with 0; lia.
    + lia.
    + intros q Hq. destruct (Nat.lt_ge_cases (q * W) (length l)).
      * rewrite !get_snoc_lt by nia. auto.
      * assert (q = length l / W) by nia. subst q. replace (length l / W) with (length (t_head t)) at 1 by lia. rewrite get_snoc_eq. replace (length l / W * W) with (length l) by lia. now rewrite get_snoc_eq.
    + intros i h w NZ Gh Gv. destruct (divmod i). assert (i < length l). { apply get_some_lt in Gv. rewrite app_length in Gv. cbn in Gv. destruct (Nat.eq_dec i (length l)); [subst i; lia|lia]. }
      rewrite get_snoc_lt in Gh, Gv by lia. auto.
  - destruct H as [H|(h & Gh & Hv)]; [lia|]. rewrite heads_of in L1. destruct (Nat.eqb_spec (length l mod W) 0); [lia|].
    replace (length (t_head t) - 1) with (length l / W) by lia. rewrite Hh by lia. rewrite Gh. cbn [obind]. pose proof D_hi.
    destruct (Z.leb_spec h v); [|lia]. cbn [guard obind]. fold D. destruct (Z.leb_spec (v - h) (t_hi W sg)); [|lia]. cbn [guard obind]. destruct (Z.leb_spec (v - h) D); [|lia]. cbn [guard obind].
    eexists; split; [reflexivity|]. repeat split; cbn [t_head t_diff]; rewrite ?app_length; cbn [length].
    + rewrite L1. apply Nat.div_unique with (length l mod W); lia.
    + lia.
    + intros q Hq. destruct (Nat.lt_ge_cases (q * W) (length l)); [rewrite get_snoc_lt by lia; auto|]. exfalso. assert (q = length l / W \/ q < length l / W \/ length l / W < q) by lia. nia.
    + intros i g w NZi Gg Gw. destruct (divmod i). assert (Hi : i < length l + 1) by (apply get_some_lt in Gw; rewrite app_length in Gw; exact Gw).
      destruct (Nat.eq_dec i (length l)) as [->|Ne].
      * rewrite get_snoc_lt in Gg by lia. rewrite get_snoc_eq in Gw. injection Gw as <-. assert (g = h) by congruence. subst g.
        assert (Hl : length (t_diff t) = length l / W * (W - 1) + length l mod W - 1) by (assert (length l / W * (W - 1) + length l / W = length l / W * W) by (rewrite Nat.mul_sub_distr_l; assert (length l / W * 1 <= length l / W * W) by (apply Nat.mul_le_mono_l; lia); lia); lia).
        rewrite <- Hl. apply get_snoc_eq.
      * rewrite get_snoc_lt in Gg, Gw by lia. specialize (Hd i g w NZi Gg Gw). rewrite get_snoc_lt; auto. now apply get_some_lt in Hd.
Qed.
Lemma push_bad l t v : rep l t -> ty_push W sg dmax t v <> None ->
  length l mod W = 0 \/ exists h, get l (length l / W * W) = Some h /\ (h <= v <= h + D)%Z.
Proof.
  intros (L1 & L2 & Hh & Hd) H. unfold ty_push, ty_size in H. rewrite L2 in H. destruct (divmod (length l)) as (E & Lt).
  destruct (Nat.eqb_spec (length l mod W) 0) as [Z0|NZ]; [now left|right].
  rewrite heads_of in L1. destruct (Nat.eqb_spec (length l mod W) 0); [lia|].
  replace (length (t_head t) - 1) with (length l / W) in H by lia. rewrite Hh in H by lia. destruct (get l (length l / W * W)) as [h|]; [|now cbn in H]. exists h. split; auto. cbn [obind] in H.
  destruct (Z.leb_spec h v); [|now cbn in H]. cbn [guard obind] in H. destruct (v - h <=? t_hi W sg)%Z; [|now cbn in H]. cbn [guard obind] in H. fold D in H. destruct (Z.leb_spec (v - h) D); [|now cbn in H]. lia.
Qed.
Lemma storable_snoc l v : storable W D (l ++ [v]) <->
  storable W D l /\ (length l mod W = 0 \/ exists h, get l (length l / W * W) = Some h /\ (h <= v <= h + D)%Z).
Proof.
  destruct (divmod (length l)) as (E & Lt). split.
  - intros S. split.
    + intros i h w Gh Gw. pose proof (get_some_lt _ _ Gw). destruct (divmod i). apply S; rewrite get_snoc_lt; auto; lia.
    + destruct (Nat.eq_dec (length l mod W) 0); [now left|right]. destruct (@get_lt _ l (length l / W * W) ltac:(lia)) as (h & G). exists h. split; auto.
      destruct (S (length l) h v) as [|]; auto; [rewrite get_snoc_lt by lia; auto|apply get_snoc_eq|lia].
  - intros (S & H) i h w Gh Gw. destruct (divmod i). assert (Hi : i < length l + 1) by (apply get_some_lt in Gw; rewrite app_length in Gw; exact Gw).
    destruct (Nat.eq_dec i (length l)) as [->|Ne].
    + destruct H as [H|(h' & G & Hv)]; [now right|left]. destruct (Nat.eq_dec (length l mod W) 0).
      * apply get_some_lt in G. lia.
      * rewrite get_snoc_lt in Gh by lia. rewrite get_snoc_eq in Gw. injection Gw as <-. congruence.
    + rewrite get_snoc_lt in Gh, Gw by lia. eapply S; eauto.
Qed.
Lemma pushes_snoc l v t : ty_pushes W sg dmax (l ++ [v]) t = let* t := ty_pushes W sg dmax l t in ty_push W sg dmax t v.
Proof.
  unfold ty_pushes. revert t. induction l as [|a l IH]; intros t; cbn [app for_each].
  - cbn [obind]. now destruct (ty_push W sg dmax t v).
  - destruct (ty_push W sg dmax t a); cbn [obind]; auto.
Qed.
Lemma rep_nil : rep [] ty_new.
Proof. repeat split; cbn; intros; try lia; [|destruct i; discriminate]. symmetry. apply Nat.div_small. lia. Qed.
Lemma pushes_iff l : (storable W D l -> exists t, ty_pushes W sg dmax l ty_new = Some t /\ rep l t) /\ (ty_pushes W sg dmax l ty_new <> None -> storable W D l).
Proof.
  induction l as [|v l (IH1 & IH2)] using rev_ind.
  - split; [intros _; exists ty_new; split; [reflexivity|apply rep_nil]|]. intros _ i h v G. destruct (i / W * W); discriminate.
  - rewrite storable_snoc, pushes_snoc. split.
    + intros (S & H). destruct (IH1 S) as (t & -> & R). cbn [obind]. now apply push_rep.
    + intros H. destruct (ty_pushes W sg dmax l ty_new) as [t|] eqn:Et; [|now cbn in H]. cbn [obind] in H.
      assert (S : storable W D l) by (apply IH2; discriminate). split; auto. destruct (IH1 S) as (t' & E' & R). injection E' as <-. eapply push_bad; eauto.
Qed.
End P.

(** Pushing [l] one by one satisfies the assertions exactly when [l] is storable, and then the
    values are read back. *)
Theorem C75_push W sg dmax l : 1 <= W ->
  (ty_pushes W sg dmax l ty_new <> None <-> storable W (ty_max W sg dmax) l).
Proof.
  intros HW. destruct (@pushes_iff W sg dmax HW l) as (A & B). split; auto. intros S. destruct (A S) as (t & -> & _). discriminate.
Qed.
Theorem C75_read W sg dmax l t : 1 <= W -> ty_pushes W sg dmax l ty_new = Some t ->
  ty_size t = length l /\ (forall i, i < length l -> ty_get W t i = get l i) /\
  ty_front W t = hd_error l /\ ty_back W t = get (rev l) 0.
Proof.
  intros HW E. destruct (@pushes_iff W sg dmax HW l) as (A & B). destruct A as (t' & E' & R); [apply B; congruence|]. assert (t' = t) by congruence. subst t'. clear E'.
  assert (Sz : ty_size t = length l) by (destruct R as (_ & L & _); exact L). split; [auto|]. split; [intros i Hi; eapply rep_get; eauto|]. split.
  - unfold ty_front. destruct l as [|v l].
    + injection E as <-. unfold ty_get. rewrite Nat.div_0_l by lia. reflexivity.
    + rewrite (rep_get sg dmax HW R) by (cbn; lia). reflexivity.
  - unfold ty_back. rewrite Sz. induction l as [|v l _] using rev_ind; [reflexivity|]. rewrite app_length in *. cbn [length] in *.
    destruct (Nat.ltb_spec 0 (length l + 1)); [|lia]. cbn [guard obind]. replace (length l + 1 - 1) with (length l) by lia. rewrite (rep_get sg dmax HW R) by (rewrite app_length; cbn; lia).
    rewrite get_snoc_eq, rev_app_distr. reflexivity.
Qed.
(** The constructor of a range asks that it be sorted. *)
Lemma sorted_iff l : is_sorted l = true <-> forall i a b, get l i = Some a -> get l (i + 1) = Some b -> (a <= b)%Z.
Proof.
  induction l as [|x [|y l] IH]; [split; auto; intros _ [|i]; discriminate|split; auto; intros _ [|[|i]]; discriminate|].
  cbn [is_sorted]. rewrite andb_true_iff, IH, Z.leb_le. split.
  - intros (H & K) [|i] a b Ga Gb; [injection Ga as <-; injection Gb as <-; auto|exact (K i a b Ga Gb)].
  - intros H. split; [exact (H 0 x y eq_refl eq_refl)|]. intros i a b Ga Gb. exact (H (S i) a b Ga Gb).
Qed.
Theorem C75_range W sg dmax l : 1 <= W ->
  (ty_range W sg dmax l <> None <->
    (forall i a b, get l i = Some a -> get l (i + 1) = Some b -> (a <= b)%Z) /\ storable W (ty_max W sg dmax) l) /\
  (forall t, ty_range W sg dmax l = Some t -> ty_pushes W sg dmax l ty_new = Some t).
Proof.
  intros HW. rewrite <- (C75_push sg dmax l HW), <- sorted_iff. unfold ty_range. destruct (is_sorted l); cbn [guard obind]; split; auto; try discriminate; [tauto|].
  split; [congruence|]. now intros (H & _).
Qed.
(** The class comment bounds the differences of consecutive elements: that is not enough. Whatever
    the types, there are three sorted values with differences at most [max_diff] that fail. *)
Definition steps_le (D : Z) (l : list Z) : Prop :=
  forall i a b, get l i = Some a -> get l (i + 1) = Some b -> (a <= b <= a + D)%Z.
Theorem C75_consecutive_refuted W sg dmax : 3 <= W -> (1 <= ty_max W sg dmax)%Z ->
  let D := ty_max W sg dmax in let l := [0; D; D + 1]%Z in
  steps_le D l /\ ty_range W sg dmax l = None.
Proof.
  intros HW HD D l. split.
  - intros i a b Ga Gb. unfold l in *. destruct i as [|[|[|i]]]; cbn in Ga, Gb; try discriminate; [injection Ga as <-; injection Gb as <-; lia|injection Ga as <-; injection Gb as <-; unfold D; lia|now destruct i].
  - unfold ty_range. destruct (is_sorted l) eqn:Es; [|exfalso; cbn in Es; rewrite !(proj2 (Z.leb_le _ _)) in Es; [discriminate|unfold D; lia..]]. cbn [guard obind].
    destruct (ty_pushes W sg dmax l ty_new) eqn:E; auto. exfalso. assert (S : storable W D l) by (apply (C75_push sg dmax l); [lia|congruence]).
    destruct (S 2 0%Z (D + 1)%Z) as [H|H]; [rewrite Nat.div_small by lia; reflexivity|reflexivity|lia|]. rewrite Nat.mod_small in H by lia. lia.
Qed.

Example C75_ex1 : (let* t := ty_range 32 false 32767 [5; 5; 900; 32772]%Z in
  let* a := ty_get 32 t 2 in let* b := ty_back 32 t in Some (a, b, ty_size t)) = Some (900%Z, 32772%Z, 4).
Proof. reflexivity. Qed.
Example C75_ex2 : ty_range 32 false 32767 [5; 5; 900; 32773]%Z = None.
Proof. reflexivity. Qed.
(** A cast of [max_diff] to a narrow signed type may leave nothing that fits; heads of later blocks are free. *)
Example C75_ex3 : (let* t := ty_range 4 true 127 [-8; -7; -7; -6; 7; 7]%Z in ty_get 4 t 5) = None.
Proof. reflexivity. Qed.
Example C75_ex4 : (let* t := ty_pushes 8 true 100 [-28; 60; 72; -28; 0; 0; 0; 0; 127; 127]%Z ty_new in
  let* a := ty_get 8 t 2 in let* b := ty_get 8 t 9 in Some (a, b)) = Some (72, 127)%Z.
Proof. reflexivity. Qed.
Print Assumptions C75_push.
Print Assumptions C75_read.
Print Assumptions C75_range.
Print Assumptions C75_consecutive_refuted.
