From Verif Require Import Base BaseLemmas Array2 SparseModel SparseSpec.
Set Implicit Arguments.

Lemma covering_cons {A} i l r (a : A) h : covering i ((l, r, a) :: h) =
  (if (l <=? i) && (i <? r) then [a] else []) ++ covering i h.
Proof. unfold covering. simpl. destruct (_ && _); reflexivity. Qed.

Section Dual.
  Variables (A : Type) (op : A -> A -> A) (e : A).
  Hypothesis C : cmonoid_laws op e.

  Lemma upd2_ok t h w i j a : dims t h w -> i < h -> j < w ->
    exists t' x, upd2 op t i j a = Some t' /\ get2 t i j = Some x /\ dims t' h w /\
      (forall c d, get2 t' c d = if (c =? i) && (d =? j) then Some (op x a) else get2 t c d).
  Proof.
    intros D Hi Hj. unfold upd2. destruct (@dims_get2 _ t h w i j D Hi Hj) as (x & Ex). rewrite Ex. cbn [obind].
    destruct (@dims_set2 _ t h w i j (op x a) D Hi Hj) as (t' & E & D' & G). exists t', x. auto.
  Qed.

  Section Idem.
  Hypothesis idem : forall x, op x x = x.

  Definition le a u := op a u = u.

  Lemma le_op a b u : le (op a b) u <-> le a u /\ le b u.
  Proof.
    unfold le. split.
    - intros H. split.
      + rewrite <- H at 1. rewrite !(cm_assoc C), idem. auto.
      + rewrite <- H at 1. rewrite (cm_comm C a b), !(cm_assoc C), idem. rewrite (cm_comm C b a). auto.
    - intros (H1 & H2). rewrite <- (cm_assoc C), H2. auto.
  Qed.
  Lemma le_e u : le e u.
  Proof. apply (cm_left C). Qed.
  Lemma le_antisym a b : (forall u, le a u <-> le b u) -> a = b.
  Proof.
    intros H. assert (H1 : le a b) by (apply H; apply idem). assert (H2 : le b a) by (apply H; apply idem).
    unfold le in *. rewrite (cm_comm C) in H1. congruence.
  Qed.
  Lemma le_fold l : forall x u, le (fold_left op l x) u <-> le x u /\ Forall (fun a => le a u) l.
  Proof.
    induction l; intros x u; simpl.
    - split; [intros; split; auto|tauto].
    - rewrite IHl, le_op. split.
      + intros ((? & ?) & ?). split; auto.
      + intros (? & H). inversion H; subst. tauto.
  Qed.

  (** All cells of levels [<= k] covering [p] are below [u]. *)
  Definition B u (t : list (list A)) p k := forall d j x, d <= k -> get2 t d j = Some x -> j <= p < j + 2^d -> le x u.

  Lemma B_upd u t t' p k d j x a : d <= k -> get2 t d j = Some x ->
    (forall c f, get2 t' c f = if (c =? d) && (f =? j) then Some (op x a) else get2 t c f) ->
    (B u t' p k <-> B u t p k /\ (j <= p < j + 2^d -> le a u)).
  Proof.
    intros Hd Ex G. split.
    - intros H. split.
      + intros c f y Hc Ey Hp. destruct (Nat.eq_dec c d) as [->|]; [destruct (Nat.eq_dec f j) as [->|]|].
        * rewrite Ex in Ey; inversion Ey; subst y. specialize (H d j (op x a) Hd).
          rewrite G, !Nat.eqb_refl in H. simpl in H. specialize (H eq_refl Hp). apply le_op in H. tauto.
        * apply (H d f); auto. rewrite G. rewrite (proj2 (Nat.eqb_neq f j)) by auto. rewrite andb_false_r. auto.
        * apply (H c f); auto. rewrite G. rewrite (proj2 (Nat.eqb_neq c d)) by auto. auto.
      + intros Hp. specialize (H d j (op x a) Hd).
        rewrite G, !Nat.eqb_refl in H. simpl in H. specialize (H eq_refl Hp). apply le_op in H. tauto.
    - intros (H & Ha) c f y Hc Ey Hp. rewrite G in Ey.
      destruct (Nat.eqb_spec c d) as [->|]; [destruct (Nat.eqb_spec f j) as [->|]|]; simpl in Ey.
      + inversion Ey; subst y. apply le_op. split; [apply (H d j); auto|auto].
      + apply (H d f); auto.
      + apply (H c f); auto.
  Qed.

  (** Cells reaching past the end are the identity. *)
  Definition W n (t : list (list A)) := forall d j x, 1 <= d -> get2 t d j = Some x -> n < j + 2^d -> x = e.

  Lemma W_upd n t t' d j x a : W n t -> get2 t d j = Some x ->
    (forall c f, get2 t' c f = if (c =? d) && (f =? j) then Some (op x a) else get2 t c f) ->
    (1 <= d -> n < j + 2^d -> a = e) -> W n t'.
  Proof.
    intros H Ex G Ha c f y Hc Ey Hp. rewrite G in Ey.
    destruct (Nat.eqb_spec c d) as [->|]; [destruct (Nat.eqb_spec f j) as [->|]|]; simpl in Ey.
    - inversion Ey; subst y. rewrite (H d j x); auto. rewrite Ha by auto. apply (cm_left C).
    - apply (H d f); auto.
    - apply (H c f); auto.
  Qed.

  Definition ds_inv (xs : list A) (t : list (list A)) (h : list (nat*nat*A)) :=
    let n := length xs in
    dims t (Nat.log2 n + 1) n /\ W n t /\
    forall u p, p < n -> (B u t p (Nat.log2 n) <->
      (exists x, get xs p = Some x /\ le x u) /\ Forall (fun a => le a u) (covering p h)).

  Lemma copy_len (xs row : list A) : length xs = length row -> copy_into xs row = xs.
  Proof. intros H. unfold copy_into. rewrite skipn_all2 by lia. apply app_nil_r. Qed.

  Lemma B_init xs u lg p : p < length xs ->
     (B u (xs :: repeat (repeat e (length xs)) lg) p lg <-> exists x, get xs p = Some x /\ le x u).
  Proof.
    intros Hp. split.
    - intros H. destruct (get_lt xs (i:=p)) as (x & E); auto. exists x. split; auto.
      apply (H 0 p); auto. lia. simpl. lia.
    - intros (x & E & L) d j y Hd Ey Hj. destruct d as [|d].
      + simpl in Hj. assert (j = p) by lia. subst j. unfold get2 in Ey. simpl in Ey. rewrite E in Ey. inversion Ey; subst. auto.
      + unfold get2 in Ey. simpl in Ey. unfold get in Ey at 1. simpl in Ey. fold (get (repeat (repeat e (length xs)) lg) d) in Ey.
        rewrite get_repeat in Ey by lia. cbn [obind] in Ey.
        assert (j < length xs). { apply get_some_lt in Ey. now rewrite repeat_length in Ey. }
        rewrite get_repeat in Ey by auto. inversion Ey as [Q]. rewrite <- Q. apply le_e.
  Qed.

  Lemma ds_init_ok xs : 0 < length xs -> exists t, ds_init e xs = Some t /\ ds_inv xs t [].
  Proof.
    intros Hn. unfold ds_init, ds_new. rewrite msb_pos by auto. cbn [obind]. rewrite Nat.add_1_r. cbn [repeat].
    cbn [get nth_error obind]. rewrite set_some by (simpl; lia). eexists; split; [reflexivity|].
    cbn [lset]. rewrite copy_len by (rewrite repeat_length; auto). split; [|split].
    - rewrite Nat.add_1_r. apply dims_cons; auto. apply dims_repeat.
    - intros d j x Hd Ex Hj. destruct d; [lia|]. unfold get2 in Ex. cbn in Ex.
      change (obind (get (repeat (repeat e (length xs)) (Nat.log2 (length xs))) d) (fun row => get row j) = Some x) in Ex.
      apply obind_some in Ex. destruct Ex as (row & E1 & E2).
      assert (d < Nat.log2 (length xs)) by (apply get_some_lt in E1; now rewrite repeat_length in E1).
      rewrite get_repeat in E1 by auto. inversion E1; subst row.
      assert (j < length xs) by (apply get_some_lt in E2; now rewrite repeat_length in E2).
      rewrite get_repeat in E2 by auto. congruence.
    - intros u p Hp. rewrite B_init by auto. unfold covering. simpl. split; intros; [split; auto|tauto].
  Qed.

  Lemma ds_new_init n : ds_new e n = ds_init e (repeat e n).
  Proof.
    unfold ds_init, ds_new. rewrite repeat_length. unfold msb. destruct (n =? 0); auto. cbn [obind].
    rewrite Nat.add_1_r. cbn [repeat get nth_error obind]. rewrite set_some by (simpl; lia). cbn [lset].
    rewrite copy_len by auto. auto.
  Qed.

  Lemma ds_apply_ok xs t h l r a : ds_inv xs t h -> r <= length xs ->
    exists t', ds_apply op t l r a = Some t' /\ ds_inv xs t' (h ++ [(l, r, a)]).
  Proof.
    intros (D & HW & H) Hr. unfold ds_apply. set (n := length xs) in *.
    assert (Cov : forall p, covering p (h ++ [(l,r,a)]) = covering p h ++ (if (l <=? p) && (p <? r) then [a] else [])).
    { intros p. unfold covering. rewrite filter_app, map_app. f_equal. simpl. destruct (_ && _); auto. }
    destruct (Nat.leb_spec r l).
    - exists t. split; auto. split; auto. split; auto. intros u p Hp. rewrite Cov.
      replace ((l <=? p) && (p <? r)) with false by lia. rewrite app_nil_r. apply H; auto.
    - rewrite msb_pos by lia. cbn [obind]. set (d := Nat.log2 (r-l)).
      pose proof (Nat.log2_spec (r-l)) as (L1 & L2); [lia|]. fold d in L1, L2. rewrite Nat.pow_succ_r' in L2.
      assert (Hd : d <= Nat.log2 n) by (apply Nat.log2_le_mono; unfold n; lia).
      destruct (@upd2_ok t (Nat.log2 n + 1) n d l a D) as (t1 & x1 & E1 & X1 & D1 & G1); [lia|unfold n; lia|].
      rewrite E1. cbn [obind].
      destruct (@upd2_ok t1 (Nat.log2 n + 1) n d (r-2^d) a D1) as (t2 & x2 & E2 & X2 & D2 & G2); [lia|lia|].
      rewrite E2. exists t2. split; auto. split; auto. fold n. split.
      + eapply W_upd with (t := t1); eauto; [|unfold n; lia]. eapply W_upd with (t := t); eauto. unfold n. lia.
      + intros u p Hp.
        rewrite (@B_upd u t1 t2 p (Nat.log2 n) d (r-2^d) x2 a) by auto.
        rewrite (@B_upd u t t1 p (Nat.log2 n) d l x1 a) by auto.
        rewrite H by auto. rewrite Cov. rewrite Forall_app.
        destruct ((l <=? p) && (p <? r)) eqn:Q.
        * assert (K : Forall (fun a => le a u) [a] <-> le a u).
          { split; intros X; [inversion X; auto|constructor; auto]. }
          rewrite K. assert (l <= p < l + 2^d \/ r - 2^d <= p < r - 2^d + 2^d) by lia. tauto.
        * assert (K : Forall (fun a => le a u) []) by constructor.
          assert (~ (l <= p < l + 2^d)) by lia. assert (~ (r - 2^d <= p < r - 2^d + 2^d)) by lia. tauto.
  Qed.

  Lemma ds_applies_ok xs h : forall t h0, ds_inv xs t h0 -> (forall l r a, In (l, r, a) h -> r <= length xs) ->
    exists t', ds_applies op t h = Some t' /\ ds_inv xs t' (h0 ++ h).
  Proof.
    induction h as [|((l & r) & a) h IH]; intros t h0 I Hh.
    - exists t. rewrite app_nil_r. auto.
    - destruct (@ds_apply_ok xs t h0 l r a I) as (t1 & E & I1). { eapply Hh. now left. }
      unfold ds_applies. cbn [for_each]. rewrite E. cbn [obind].
      replace (h0 ++ (l, r, a) :: h) with ((h0 ++ [(l,r,a)]) ++ h) by (rewrite <- app_assoc; reflexivity).
      apply IH; auto. intros. eapply Hh. right; eauto.
  Qed.

  Lemma ds_build_ok xs t h : 0 < length xs -> ds_inv xs t h ->
    exists t', ds_build op (length xs) t = Some t' /\
      forall p x, get xs p = Some x -> ds_get t' p = Some (fold_left op (covering p h) x).
  Proof.
    intros Hn (D & HW & H). unfold ds_build. rewrite msb_pos by auto. cbn [obind].
    set (n := length xs) in *. set (lg := Nat.log2 n) in *.
    set (spec u p := (exists x, get xs p = Some x /\ le x u) /\ Forall (fun a => le a u) (covering p h)).
    match goal with |- exists _, for_down _ _ ?b _ = _ /\ _ => set (body := b) end.
    destruct (@for_down_rule _ (fun k t => dims t (lg+1) n /\ W n t /\ forall u p, p < n -> (B u t p k <-> spec u p)) body 0 lg t) as (t' & E & D' & _ & H').
    - auto.
    - intros k s Hk (Ds & Ws & Hs). unfold body. set (w := 2^k).
      match goal with |- exists _, for_up _ _ ?b _ = _ /\ _ => set (body2 := b) end.
      destruct (@for_up_rule _ (fun i t => dims t (lg+1) n /\ W n t /\
          forall u p, p < n -> (B u t p k /\ (forall j x, i <= j -> get2 t (S k) j = Some x -> j <= p < j + 2^(S k) -> le x u) <-> spec u p))
          body2 (n - w) 0 s) as (s' & E & D' & W' & H').
      + split; auto. split; auto. intros u p Hp. rewrite <- (Hs u p Hp). split.
        * intros (H1 & H2) d j x Hd Ex Hj. destruct (Nat.eq_dec d (S k)) as [->|].
          -- apply (H2 j x); auto. lia.
          -- apply (H1 d j x); auto. lia.
        * intros HB. split.
          -- intros d j x Hd. apply HB. lia.
          -- intros j x _ Ex Hj. apply (HB (S k) j x); auto.
      + intros i v Hi (Dv & Wv & Hv). unfold body2. rewrite Nat.add_1_r.
        pose proof (pow2_pos k) as Wp. fold w in Wp.
        destruct (@dims_get2 _ v (lg+1) n (S k) i Dv) as (x & Ex); [lia|lia|].
        rewrite Ex. cbn [obind].
        destruct (@upd2_ok v (lg+1) n k i x Dv) as (v1 & y1 & E1 & Y1 & D1 & G1); [lia|lia|].
        rewrite E1. cbn [obind].
        assert (Ex1 : get2 v1 (S k) i = Some x).
        { rewrite G1. rewrite (proj2 (Nat.eqb_neq (S k) k)) by lia. auto. }
        rewrite Ex1. cbn [obind].
        destruct (@upd2_ok v1 (lg+1) n k (i+w) x D1) as (v2 & y2 & E2 & Y2 & D2 & G2); [lia|lia|].
        rewrite E2. eexists; split; [reflexivity|]. split; auto.
        assert (Up : forall j, get2 v2 (S k) j = get2 v (S k) j).
        { intros j. rewrite G2, G1. rewrite (proj2 (Nat.eqb_neq (S k) k)) by lia. auto. }
        assert (Ws2 : 2^(S k) = w + w) by (rewrite Nat.pow_succ_r'; fold w; lia).
        split.
        * assert (Xe : n < i + 2^(S k) -> x = e). { intros. apply (Wv (S k) i x); auto. lia. }
          eapply W_upd with (t := v1); eauto.
          2:{ fold w. intros. apply Xe. lia. }
          eapply W_upd with (t := v); eauto. fold w. intros. apply Xe. lia.
        * intros u p Hp. rewrite <- (Hv u p Hp).
          rewrite (@B_upd u v1 v2 p k k (i+w) y2 x) by auto.
          rewrite (@B_upd u v v1 p k k i y1 x) by auto. fold w.
          split.
          -- intros (((H1 & H2) & H3) & H4). split; auto. intros j z Hj Ez Hjp.
             destruct (Nat.eq_dec j i) as [->|].
             ++ rewrite Ex in Ez; inversion Ez; subst z. rewrite Ws2 in Hjp. destruct (Nat.lt_ge_cases p (i+w)); [apply H2|apply H3]; lia.
             ++ apply (H4 j z); auto. lia. now rewrite Up.
          -- intros (H1 & H2). split.
             ++ split; [split; auto|]; intros; apply (H2 i x); auto; lia.
             ++ intros j z Hj Ez Hjp. rewrite Up in Ez. apply (H2 j z); auto. lia.
      + exists s'. split; [exact E|]. split; auto. split; auto. intros u p Hp. rewrite <- (H' u p Hp). split; [|tauto].
        intros HB. split; auto. intros j x Hj Ex Hjp. rewrite (W' (S k) j x); auto.
        * apply le_e.
        * lia.
        * rewrite Nat.pow_succ_r'. fold w. pose proof (pow2_pos k) as Wp. fold w in Wp.
          assert (j < n). { destruct D' as (_ & R). unfold get2 in Ex. apply obind_some in Ex. destruct Ex as (row & Er & Ej).
            apply get_some_lt in Ej. rewrite (R _ _ Er) in Ej. auto. }
          cbn [plus] in Hj. lia.
    - exists t'. split; [exact E|]. intros p x Ex.
      assert (Hp : p < n) by (eapply get_some_lt; eauto).
      destruct (@dims_get2 _ t' (lg+1) n 0 p D') as (v & Ev); [lia|auto|]. unfold ds_get. rewrite Ev. f_equal.
      apply le_antisym. intros u. rewrite le_fold.
      assert (K : spec u p <-> le x u /\ Forall (fun a => le a u) (covering p h)).
      { unfold spec. split; [intros ((y & Ey & Ly) & F); rewrite Ex in Ey; inversion Ey; subst; auto|intros (? & ?); split; eauto]. }
      rewrite <- K, <- (H' u p Hp). split.
      + intros Lv d j y Hd Ey Hj. assert (d = 0) by lia. subst d. simpl in Hj. assert (j = p) by lia. subst j.
        rewrite Ev in Ey. inversion Ey; subst; auto.
      + intros HB. apply (HB 0 p v); auto. simpl; lia.
  Qed.
  End Idem.

  (** ** The disjoint table *)
  Definition row (t : list (list A)) d := nth d t [].

  Lemma get2_row t d j : d < length t -> get2 t d j = get (row t d) j.
  Proof.
    intros H. unfold get2, row. destruct (get_lt t (i:=d)) as (r & E); auto. rewrite E. cbn [obind].
    unfold get in E. now rewrite (nth_error_nth t d [] E).
  Qed.

  Lemma row_len t h w d : dims t h w -> d < h -> length (row t d) = w.
  Proof.
    intros (L & R) H. destruct (get_lt t (i:=d)) as (r & E); [lia|]. unfold row.
    unfold get in E. rewrite (nth_error_nth t d [] E). eapply R; eauto.
  Qed.

  Lemma upd2_row t h w i j a : dims t h w -> i < h -> j < w ->
    exists t' x, upd2 op t i j a = Some t' /\ get (row t i) j = Some x /\ dims t' h w /\
      row t' i = lset (row t i) j (op x a) /\ (forall c, c <> i -> row t' c = row t c).
  Proof.
    intros D Hi Hj. destruct (@upd2_ok t h w i j a D Hi Hj) as (t' & x & E & X & D' & G).
    exists t', x. split; auto. pose proof D as (L & R). pose proof D' as (L' & R').
    assert (Xr : get (row t i) j = Some x) by (rewrite <- get2_row; [auto|lia]).
    split; auto. split; auto.
    split.
    - apply get_ext_len.
      + rewrite lset_length, (row_len D'), (row_len D); auto.
      + rewrite (row_len D') by auto. intros b Hb. rewrite <- get2_row by lia. rewrite G, Nat.eqb_refl, get_lset.
        rewrite (row_len D) by auto. replace (j <? w) with true by lia. rewrite andb_true_r. simpl.
        rewrite (Nat.eqb_sym b j). destruct (j =? b); auto. apply get2_row. lia.
    - intros c Hc. destruct (Nat.lt_ge_cases c h).
      + apply get_ext_len.
        * rewrite (row_len D'), (row_len D); auto.
        * rewrite (row_len D') by auto. intros b Hb. rewrite <- !get2_row by lia. rewrite G.
          rewrite (proj2 (Nat.eqb_neq c i)) by auto. auto.
      + unfold row. rewrite !nth_overflow; auto; lia.
  Qed.

  (** The cells of level [d] that contribute to position [p]. *)
  Definition mid d p := (p / (2 * 2^d)) * (2 * 2^d) + 2^d.
  Definition lo d p := if p <? mid d p then mid d p - 2^d else p.
  Definition hi d p := if p <? mid d p then S p else mid d p + 2^d.
  Definition P (t : list (list A)) d p := product op e (slice (lo d p) (hi d p) (row t d)).
  (** Value at [p] once levels [>= k] are pushed. *)
  Definition V (t : list (list A)) lg k p x := op x (product op e (map (fun d => P t d p) (seq k (lg - k)))).

  Lemma mid_block d q p : 2*q*2^d <= p < (2*q+2)*2^d -> mid d p = (2*q+1)*2^d.
  Proof.
    intros H. unfold mid. pose proof (pow2_pos d). set (w := 2^d) in *.
    replace (p / (2*w)) with q by (apply Nat.div_unique with (p - 2*w*q); nia). ring.
  Qed.

  Lemma V_same t t' lg k p x : (forall d, k <= d < lg -> row t' d = row t d) -> V t' lg k p x = V t lg k p x.
  Proof.
    intros H. unfold V. f_equal. f_equal. apply map_ext_in. intros d Hd. apply in_seq in Hd. unfold P. rewrite H; auto. lia.
  Qed.

  (** Changing one level of [P] by [a]. *)
  Lemma V_change t t' lg p d a x : 1 <= d < lg -> (forall c, 1 <= c < lg -> c <> d -> P t' c p = P t c p) ->
    P t' d p = op (P t d p) a -> V t' lg 1 p x = op (V t lg 1 p x) a.
  Proof.
    intros Hd Ho Hs. unfold V. rewrite <- (cm_assoc C). f_equal.
    assert (K : forall s m, s + m <= lg -> 1 <= s ->
       product op e (map (fun d => P t' d p) (seq s m)) =
       if (s <=? d) && (d <? s + m) then op (product op e (map (fun d => P t d p) (seq s m))) a
       else product op e (map (fun d => P t d p) (seq s m))).
    { intros s m. revert s. induction m; intros s Hm H1.
      - replace ((s <=? d) && (d <? s + 0)) with false by lia. reflexivity.
      - cbn [seq map product fold_right]. 
        change (fold_right op e (map (fun d => P t' d p) (seq (S s) m))) with (product op e (map (fun d => P t' d p) (seq (S s) m))).
        change (fold_right op e (map (fun d => P t d p) (seq (S s) m))) with (product op e (map (fun d => P t d p) (seq (S s) m))).
        rewrite IHm by lia. destruct (Nat.eq_dec s d) as [->|].
        + rewrite Hs. replace ((S d <=? d) && (d <? S d + m)) with false by lia.
          replace ((d <=? d) && (d <? d + S m)) with true by lia.
          apply (cm_swap C).
        + rewrite Ho by lia. replace ((s <=? d) && (d <? s + S m)) with ((S s <=? d) && (d <? S s + m)) by lia.
          destruct ((S s <=? d) && (d <? S s + m)); auto. apply (cm_assoc C). }
    rewrite K by lia. replace ((1 <=? d) && (d <? 1 + (lg - 1))) with true by lia. auto.
  Qed.

  Definition dd_inv (xs : list A) (t : list (list A)) (h : list (nat*nat*A)) :=
    let lg := bitlen (length xs - 1) in
    dims t (Nat.max lg 1) (2^lg) /\
    forall p x y, get xs p = Some x -> get (row t 0) p = Some y -> V t lg 1 p y = fold_left op (covering p h) x.

  Lemma dd_init_ok xs : 0 < length xs -> exists t, dd_init e xs = Some t /\ dd_inv xs t [].
  Proof.
    intros Hn. unfold dd_init, dd_new. destruct (Nat.eqb_spec (length xs) 0); [lia|]. cbn [negb guard obind].
    set (lg := bitlen (length xs - 1)). pose proof (bitlen_le (length xs - 1)) as Hlg. fold lg in Hlg.
    set (m := Nat.max lg 1). assert (Em : exists k, m = S k) by (exists (m-1); lia). destruct Em as (m1 & Em). rewrite Em. cbn [repeat get nth_error obind].
    rewrite set_some by (simpl; lia). cbn [lset]. eexists; split; [reflexivity|]. split.
    - fold lg. fold m. rewrite Em. apply dims_cons; [|apply dims_repeat].
      unfold copy_into. rewrite app_length, skipn_length, repeat_length. lia.
    - fold lg. intros p x y Ex Ey. unfold row in Ey. simpl in Ey. unfold copy_into in Ey.
      rewrite get_app_l in Ey by (eapply get_some_lt; eauto). rewrite Ex in Ey. inversion Ey; subst y.
      unfold covering. simpl. unfold V. rewrite <- (cm_right C x) at 2. f_equal.
      transitivity (product op e (repeat e (lg-1))); [|apply (product_e C)]. f_equal.
      assert (K : forall s m', 1 <= s -> s + m' <= lg -> map (fun d => P (copy_into xs (repeat e (2^lg)) :: repeat (repeat e (2^lg)) m1) d p) (seq s m') = repeat e m').
      { intros s m'. revert s. induction m'; intros s H1 H2; [reflexivity|]. cbn [seq map repeat]. rewrite IHm' by lia. f_equal.
        unfold P, row. destruct s; [lia|]. simpl. 
        assert (Er : nth s (repeat (repeat e (2^lg)) m1) [] = repeat e (2^lg)).
        { apply nth_error_nth. change (get (repeat (repeat e (2^lg)) m1) s = Some (repeat e (2^lg))). apply get_repeat. lia. }
        rewrite Er.
        assert (Ee : forall l, (forall v, In v l -> v = e) -> product op e l = e).
        { induction l as [|v0 l IHl]; intros Hl; auto. change (op v0 (product op e l) = e). rewrite IHl by (intros; apply Hl; now right). rewrite (Hl v0) by now left. apply (cm_left C). }
        apply Ee. intros v Hv. unfold slice in Hv. apply In_get in Hv. destruct Hv as (i & Hi & E).
        apply get_In in E. 
        assert (Q : forall (l : list A) a b v, In v (firstn a (skipn b l)) -> In v l).
        { intros l a b v0 Hv0. rewrite <- (firstn_skipn b l). apply in_or_app. right. rewrite <- (firstn_skipn a (skipn b l)). apply in_or_app. now left. }
        apply Q in E. now apply repeat_spec in E. }
      destruct (Nat.eq_dec lg 0) as [Z0|]; [replace (lg-1) with 0 by lia; reflexivity|apply K; lia].
  Qed.

  Lemma dd_new_init n : dd_new e n = dd_init e (repeat e n).
  Proof.
    unfold dd_init, dd_new. rewrite repeat_length. destruct (Nat.eqb_spec n 0); auto. cbn [negb guard obind].
    set (lg := bitlen (n - 1)). pose proof (bitlen_le (n - 1)) as Hlg. fold lg in Hlg.
    set (m := Nat.max lg 1). assert (Em : exists k, m = S k) by (exists (m-1); lia). destruct Em as (m1 & Em). rewrite Em. cbn [repeat get nth_error obind].
    rewrite set_some by (simpl; lia). cbn [lset]. do 2 f_equal. unfold copy_into. rewrite repeat_length.
    apply get_ext_len.
    - rewrite app_length, skipn_length, !repeat_length. lia.
    - rewrite repeat_length. intros i Hi. rewrite get_repeat by auto. destruct (Nat.lt_ge_cases i n).
      + rewrite get_app_l by (rewrite repeat_length; auto). rewrite get_repeat by auto. auto.
      + rewrite get_app_r by (rewrite repeat_length; auto). rewrite repeat_length, get_skipn, get_repeat by lia. auto.
  Qed.

  Lemma dd_apply_ok xs t h l r a : dd_inv xs t h -> r <= length xs ->
    exists t', dd_apply op t l r a = Some t' /\ dd_inv xs t' (h ++ [(l, r, a)]).
  Proof.
    intros (D & H) Hr. unfold dd_apply. set (lg := bitlen (length xs - 1)) in *.
    pose proof (bitlen_le (length xs - 1)) as Hlg. fold lg in Hlg.
    assert (Cov : forall p x, fold_left op (covering p (h ++ [(l,r,a)])) x =
        if (l <=? p) && (p <? r) then op (fold_left op (covering p h) x) a else fold_left op (covering p h) x).
    { intros p x. unfold covering. rewrite filter_app, map_app, fold_left_app. simpl. destruct (_ && _); auto. }
    destruct (Nat.leb_spec r l) as [Hrl|Hrl].
    - exists t. split; auto. split; auto. intros p x y Ex Ey. rewrite Cov.
      replace ((l <=? p) && (p <? r)) with false by lia. apply H; auto.
    - assert (M1 : 1 <= Nat.max lg 1) by lia.
      destruct (Nat.eqb_spec (r-l) 1) as [E1|E1].
      + destruct (@upd2_row t (Nat.max lg 1) (2^lg) 0 l a D) as (t' & z & E & Z & D' & R0 & Ro); [lia|lia|].
        rewrite E. exists t'. split; auto. split; auto. fold lg. intros p x y Ex Ey. rewrite Cov.
        rewrite R0 in Ey. rewrite (@V_same t t') by (intros; apply Ro; lia).
        rewrite get_lset in Ey. rewrite (row_len D) in Ey by lia. replace (l <? 2^lg) with true in Ey by lia. rewrite andb_true_r in Ey.
        destruct (Nat.eqb_spec l p) as [->|].
        * replace ((p <=? p) && (p <? r)) with true by lia. inversion Ey; subst y.
          rewrite <- (H p x z) by auto. unfold V. apply (cm_swap C).
        * replace ((l <=? p) && (p <? r)) with false by lia. apply H; auto.
      + destruct (@lxor_split l (r-1)) as (q & d & Ed & (A1 & A2) & (B1 & B2)); [lia|].
        rewrite Nat.lxor_comm. rewrite msb_pos.
        2: { destruct (Nat.eq_dec (Nat.lxor l (r-1)) 0) as [X|]; [|lia]. apply Nat.lxor_eq in X. lia. }
        rewrite <- Ed. cbn [obind]. assert (W := pow2_pos d).
        assert (Hdlg : d < Nat.max lg 1).
        { destruct (Nat.eq_dec d 0); [lia|]. enough (d < lg) by lia. apply (Nat.pow_lt_mono_r_iff 2); [lia|]. nia. }
        destruct (@upd2_row t (Nat.max lg 1) (2^lg) d l a D) as (t1 & z1 & E1' & Z1 & D1 & R1 & Ro1); [lia|lia|].
        rewrite E1'. cbn [obind].
        destruct (@upd2_row t1 (Nat.max lg 1) (2^lg) d (r-1) a D1) as (t2 & z2 & E2 & Z2 & D2 & R2 & Ro2); [lia|lia|].
        rewrite E2. exists t2. split; auto. split; auto. fold lg. intros p x y Ex Ey. rewrite Cov.
        destruct (Nat.eq_dec d 0) as [D0|D0].
        * (* the two positions l and r-1 = l+1 directly *)
          rewrite D0 in *. simpl in *.
          rewrite (@V_same t t2) by (intros; rewrite Ro2, Ro1 by lia; auto).
          rewrite R2 in Ey. rewrite get_lset in Ey. rewrite (row_len D1) in Ey by lia. replace (r-1 <? 2^lg) with true in Ey by lia. rewrite andb_true_r in Ey.
          destruct (Nat.eqb_spec (r-1) p) as [Ep|Ep].
          -- replace ((l <=? p) && (p <? r)) with true by lia. inversion Ey; subst y.
             rewrite R1 in Z2. rewrite get_lset_neq in Z2 by lia. rewrite Ep in Z2.
             rewrite <- (H p x z2) by auto. unfold V. apply (cm_swap C).
          -- rewrite R1 in Ey. rewrite get_lset in Ey. rewrite (row_len D) in Ey by lia. replace (l <? 2^lg) with true in Ey by lia. rewrite andb_true_r in Ey.
             destruct (Nat.eqb_spec l p) as [->|].
             ++ replace ((p <=? p) && (p <? r)) with true by lia. inversion Ey; subst y.
                rewrite <- (H p x z1) by auto. unfold V. apply (cm_swap C).
             ++ replace ((l <=? p) && (p <? r)) with false by lia. apply H; auto.
        * assert (Ey' : get (row t 0) p = Some y) by (rewrite Ro2, Ro1 in Ey by lia; auto).
          rewrite <- (H p x y) by auto.
          set (w := 2^d) in *. 
          assert (PP : P t2 d p = if (l <=? p) && (p <? r) then op (P t d p) a else P t d p).
          { unfold P. rewrite R2. rewrite (product_lset C) by auto. rewrite R1. rewrite (product_lset C) by auto.
            unfold lo, hi.
            destruct (Nat.lt_ge_cases p (2*q*w)); [|destruct (Nat.lt_ge_cases p ((2*q+2)*w))].
            - (* block to the left *)
              assert (Mb : mid d p + w <= 2*q*w).
              { unfold mid. fold w. pose proof (Nat.div_mod_eq p (2*w)). pose proof (Nat.mod_upper_bound p (2*w)).
                assert (p / (2*w) < q) by (apply Nat.div_lt_upper_bound; nia). nia. }
              replace ((l <=? p) && (p <? r)) with false by lia.
              destruct (p <? mid d p); fold w; repeat (match goal with |- context [if ?b then _ else _] => replace b with false by lia end); auto.
            - rewrite (@mid_block d q p) by (fold w; lia). fold w.
              destruct (Nat.ltb_spec p ((2*q+1)*w)).
              + replace (((2*q+1)*w - w <=? r-1) && (r-1 <? S p)) with false by lia.
                replace (((2*q+1)*w - w <=? l) && (l <? S p)) with ((l <=? p) && (p <? r)) by nia. auto.
              + replace ((p <=? l) && (l <? (2*q+1)*w + w)) with false by lia.
                replace ((p <=? r-1) && (r-1 <? (2*q+1)*w + w)) with ((l <=? p) && (p <? r)) by nia. auto.
            - assert (Mb : (2*q+2)*w <= mid d p - w).
              { unfold mid. fold w. rewrite Nat.add_sub.
                assert (q + 1 <= p / (2*w)) by (apply Nat.div_le_lower_bound; nia). nia. }
              replace ((l <=? p) && (p <? r)) with false by lia.
              destruct (p <? mid d p); fold w; repeat (match goal with |- context [if ?b then _ else _] => replace b with false by lia end); auto. }
          assert (PO : forall c, 1 <= c < lg -> c <> d -> P t2 c p = P t c p).
          { intros c _ Hc. unfold P. rewrite Ro2, Ro1 by auto. auto. }
          destruct ((l <=? p) && (p <? r)).
          -- apply V_change with d; auto. lia.
          -- unfold V. f_equal. f_equal. apply map_ext_in. intros c Hc. apply in_seq in Hc.
             destruct (Nat.eq_dec c d) as [->|]; auto. apply PO; auto. lia.
  Qed.

  Lemma dd_applies_ok xs h : forall t h0, dd_inv xs t h0 -> (forall l r a, In (l, r, a) h -> r <= length xs) ->
    exists t', dd_applies op t h = Some t' /\ dd_inv xs t' (h0 ++ h).
  Proof.
    induction h as [|((l & r) & a) h IH]; intros t h0 I Hh.
    - exists t. rewrite app_nil_r. auto.
    - destruct (@dd_apply_ok xs t h0 l r a I) as (t1 & E & I1). { eapply Hh. now left. }
      unfold dd_applies. cbn [for_each]. rewrite E. cbn [obind].
      replace (h0 ++ (l, r, a) :: h) with ((h0 ++ [(l,r,a)]) ++ h) by (rewrite <- app_assoc; reflexivity).
      apply IH; auto. intros. eapply Hh. right; eauto.
  Qed.

  (** Prefix / suffix products inside a block. *)
  Lemma product_snoc l x : product op e (l ++ [x]) = op (product op e l) x.
  Proof. rewrite (product_app (cm_monoid C)). simpl. now rewrite (cm_right C). Qed.

  Lemma dd_build_ok xs t h : 0 < length xs -> dd_inv xs t h ->
    exists t', dd_build op e (bitlen (length xs - 1)) t = Some t' /\
      forall p x, get xs p = Some x -> dd_get t' p = Some (fold_left op (covering p h) x).
  Proof.
    intros Hn (D & H). unfold dd_build. set (lg := bitlen (length xs - 1)) in *.
    pose proof (bitlen_le (length xs - 1)) as Hlg. fold lg in Hlg. set (n := 2^lg) in *. set (hh := Nat.max lg 1) in *.
    match goal with |- exists _, for_up _ _ ?b _ = _ /\ _ => set (body := b) end.
    destruct (@for_up_rule _ (fun k t' => dims t' hh n /\ (forall d, 1 <= d -> row t' d = row t d) /\
        forall p y, get (row t 0) p = Some y -> exists y', get (row t' 0) p = Some y' /\ V t lg k p y' = V t lg 1 p y)
        body (lg-1) 1 t) as (t' & E & D' & _ & H').
    - split; auto. split; auto. intros p y Ey. eauto.
    - intros k s Hk (Ds & Rs & Hs). unfold body. pose proof (pow2_pos k) as W. set (w := 2^k) in *.
      assert (En : n = (n / (w*2)) * (w*2)).
      { assert (X : n = 2^(lg - S k) * (w*2)).
        { unfold n, w. rewrite (Nat.mul_comm (2^k)), <- Nat.pow_succ_r', <- Nat.pow_add_r. f_equal. lia. }
        rewrite X at 2. rewrite Nat.div_mul by lia. auto. }
      set (blocks := n / (w*2)) in *.
      match goal with |- exists _, for_up _ _ ?b _ = _ /\ _ => set (body2 := b) end.
      (* after [b] blocks, positions below [b*2w] have absorbed level k *)
      set (st := fun b (u : list (list A)) => dims u hh n /\ (forall d, 1 <= d -> row u d = row t d) /\
          forall p y, get (row s 0) p = Some y -> get (row u 0) p = Some (if b p : bool then op y (P t k p) else y)).
      destruct (@for_up_rule _ (fun b u => st (fun p => p <? b * (w*2)) u) body2 blocks 0 s) as (s' & E & D' & R' & H').
      + split; auto.
      + intros b u Hb Hu. unfold body2. cbn [plus] in Hb.
        assert (Bn : b * (w*2) + w*2 <= n) by nia.
        set (j := b * (w*2)) in *.
        assert (Mid : forall p, j <= p < j + w*2 -> mid k p = j + w).
        { intros p Hp. rewrite (@mid_block k b p) by (fold w; unfold j in Hp; lia). fold w. unfold j. ring. }
        assert (Hkh : k < hh) by (unfold hh; lia).
        assert (Lk : length (row t k) = n) by (eapply row_len; eauto).
        match goal with |- exists _, obind (for_up _ _ ?b _) _ = _ /\ _ => set (body3 := b) end.
        destruct (@for_up_rule _ (fun i '(v, ml) => st (fun p => p <? i) v /\ ml = product op e (slice j i (row t k)))
           body3 w j (u, e)) as ((v & ml) & E3 & Hv & _).
        { split; auto. rewrite slice_nil by lia. auto. }
        { intros i (v & ml) Hi ((Dv & Rv & Hv) & Eml). unfold body3.
          destruct (get_lt (row t k) (i:=i)) as (x & Ex); [lia|].
          rewrite get2_row by (destruct Dv; lia). rewrite Rv by lia. rewrite Ex. cbn [obind].
          destruct (@upd2_row v hh n 0 i (op ml x) Dv) as (v1 & z & E1 & Z & D1 & R1 & Ro); [unfold hh; lia|lia|].
          rewrite E1. cbn [obind]. eexists; split; [reflexivity|]. cbn beta iota.
          assert (Eml' : op ml x = product op e (slice j (S i) (row t k))).
          { rewrite slice_snoc with (x := x) by (auto; lia). rewrite product_snoc. congruence. }
          split; auto. split; auto. split.
          - intros d Hd. rewrite Ro by lia. auto.
          - intros p y Ey. rewrite R1. rewrite get_lset. rewrite (row_len Dv) by (unfold hh; lia). replace (i <? n) with true by lia. rewrite andb_true_r.
            pose proof (Hv p y Ey) as Hvp.
            destruct (Nat.eqb_spec i p) as [->|].
            + rewrite Z in Hvp. replace (p <? p) with false in Hvp by lia. inversion Hvp; subst z.
              replace (p <? S p) with true by lia. f_equal. f_equal. rewrite Eml'.
              unfold P, lo, hi. rewrite Mid by lia. fold w. replace (p <? j + w) with true by lia. rewrite Nat.add_sub. auto.
            + rewrite Hvp. replace (p <? S i) with (p <? i) by lia. auto. }
        rewrite E3. cbn [obind].
        match goal with |- exists _, obind (for_down _ _ ?b _) _ = _ /\ _ => set (body4 := b) end.
        destruct (@for_down_rule _ (fun i '(v, mr) => st (fun p => (p <? j+w) || (i <=? p) && (p <? j + w*2)) v /\ mr = product op e (slice i (j + w*2) (row t k)))
           body4 (j+w) w (v, e)) as ((v4 & mr) & E4 & Hv4 & _).
        { split; [|rewrite slice_nil by lia; auto].
          destruct Hv as (Dv & Rv & Hv). split; auto. split; auto. intros p y Ey. rewrite (Hv p y Ey).
          replace (p <? j+w) with ((p <? j+w) || ((j+w+w <=? p) && (p <? j+w*2))) at 1 by lia. auto. }
        { intros i (v' & mr) Hi ((Dv & Rv & Hv') & Emr). unfold body4, body3.
          destruct (get_lt (row t k) (i:=i)) as (x & Ex); [lia|].
          rewrite get2_row by (destruct Dv; lia). rewrite Rv by lia. rewrite Ex. cbn [obind].
          destruct (@upd2_row v' hh n 0 i (op mr x) Dv) as (v1 & z & E1 & Z & D1 & R1 & Ro); [unfold hh; lia|lia|].
          rewrite E1. cbn [obind]. eexists; split; [reflexivity|]. cbn beta iota.
          assert (Emr' : op mr x = product op e (slice i (j + w*2) (row t k))).
          { rewrite (@slice_cons _ i (j+w*2) (row t k) x) by (auto; lia). simpl. rewrite Emr. apply (cm_comm C). }
          split; auto. split; auto. split.
          - intros d Hd. rewrite Ro by lia. auto.
          - intros p y Ey. rewrite R1. rewrite get_lset. rewrite (row_len Dv) by (unfold hh; lia). replace (i <? n) with true by lia. rewrite andb_true_r.
            pose proof (Hv' p y Ey) as Hvp.
            destruct (Nat.eqb_spec i p) as [->|].
            + rewrite Z in Hvp. replace ((p <? j+w) || (S p <=? p) && (p <? j+w*2)) with false in Hvp by lia. inversion Hvp; subst z.
              replace ((p <? j+w) || (p <=? p) && (p <? j+w*2)) with true by lia. f_equal. f_equal. rewrite Emr'.
              unfold P, lo, hi. rewrite Mid by lia. fold w. replace (p <? j + w) with false by lia. 
              replace (j + w*2) with (j+w+w) by lia. auto.
            + rewrite Hvp. replace (S i <=? p) with (i <=? p) by lia. auto. }
        rewrite E4. cbn [obind]. eexists; split; [reflexivity|].
        destruct Hv4 as (D4 & R4 & H4). split; auto. split; auto. intros p y Ey. rewrite (H4 p y Ey).
        replace (p <? S b * (w*2)) with ((p <? j+w) || (j+w <=? p) && (p <? j+w*2)); auto.
        assert (S b * (w*2) = j + w*2) by (unfold j; lia). lia.
      + exists s'. split; [exact E|]. split; auto. split; auto. intros p y Ey.
        destruct (Hs p y Ey) as (y1 & Ey1 & V1). rewrite (H' p y1 Ey1). cbn [plus]. rewrite <- En.
        replace (p <? n) with true.
        2:{ apply get_some_lt in Ey1. rewrite (row_len Ds) in Ey1 by (unfold hh; lia). lia. }
        eexists; split; [reflexivity|]. rewrite <- V1. unfold V.
        replace (lg - k) with (S (lg - S k)) by lia. cbn [seq map]. simpl product.
        rewrite <- (cm_assoc C). reflexivity.
    - exists t'. split; [exact E|]. intros p x Ex.
      assert (Hp : p < length xs) by (eapply get_some_lt; eauto).
      unfold dd_get. rewrite get2_row by (destruct D'; unfold hh in *; lia).
      destruct (get_lt (row t 0) (i:=p)) as (y & Ey). { rewrite (row_len D) by (unfold hh; lia). fold n. lia. }
      destruct (H' p y Ey) as (y' & Ey' & Vy). rewrite Ey'. f_equal. rewrite <- (H p x y Ex Ey), <- Vy.
      unfold V. destruct (Nat.eq_dec lg 0) as [L0|L0].
      + rewrite L0. simpl. symmetry. apply (cm_right C).
      + replace (1 + (lg - 1)) with lg by lia. rewrite Nat.sub_diag. simpl. symmetry. apply (cm_right C).
  Qed.
End Dual.
