(** Proofs about the dual segment tree. *)
From Verif Require Import Base BaseLemmas Array2 FenwickModel FenwickProof LazySegModel LazySegSpec LazySegIds LazySegProof LazySegProof2.
Set Implicit Arguments.
Ltac Zify.zify_post_hook ::= Z.div_mod_to_equations.

Lemma leaf_edge_lt n p y : 1 <= n -> p < 2*n -> edge p (p+1) y -> y < n.
Proof.
  intros Hn Hp (j & HE).
  destruct j. { rewrite Nat.pow_0_r, !Nat.mod_1_r in HE. lia. }
  assert (Q2 : 2 <= 2^(S j)) by (rewrite Nat.pow_succ_r'; pose proof (pow2_pos j); lia).
  set (q := 2^(S j)) in *. clearbody q.
  destruct HE as [(HE & HE2)|(HE & HE2)].
  - pose proof (Nat.div_mod_eq p q) as D. rewrite HE in D. assert (0 <= p mod q) by lia. set (m := p mod q) in *. clearbody m. clear HE. nia.
  - pose proof (Nat.div_mod_eq (p+1) q) as D. rewrite HE in D. set (m := (p+1) mod q) in *. clearbody m. clear HE. nia.
Qed.

Section DualP.
  Variables (M : Type) (op : M -> M -> M) (e : M).
  Hypothesis Mon : monoid_laws op e.

  Definition dact (f v : M) := op v f.
  Lemma dact_id v : dact e v = v. Proof. apply (mon_right Mon). Qed.
  Lemma dact_comp a b v : dact (op a b) v = dact b (dact a v). Proof. apply (mon_assoc Mon). Qed.
  Notation U := (U dact).
  Notation s_ t := (fun j => nth j t e).
  Definition V t p := U (s_ t) p e.
  Definition dgood n (t : list M) := length t = 2*n /\ nth 0 t e = e.

  Lemma dget (t : list M) i : i < length t -> get t i = Some (nth i t e).
  Proof. apply get_nth. Qed.
  Lemma nth_ls (t : list M) i j x : i < length t -> nth j (lset t i x) e = if i =? j then x else nth j t e.
  Proof. apply nth_lset. Qed.
  Definition dUS := @U_S _ _ dact e dact_id.

  Lemma mul_ok f x t : x < length t -> du_mul op f x t = Some (lset t x (op (nth x t e) f)).
  Proof. intros. unfold du_mul. rewrite dget by auto. cbn [obind]. apply set_some; auto. Qed.

  Lemma dprop_ok n t id : dgood n t -> id < n ->
    exists t', du_propagate op e n t id = Some t' /\ dgood n t' /\ pushed dact e n (s_ t) (s_ t') id.
  Proof.
    intros (L & Z) H. unfold du_propagate. replace (n <=? id) with false by lia. rewrite dget by lia. cbn [obind].
    rewrite set_some by lia. cbn [obind]. rewrite mul_ok by (rewrite lset_length; lia). cbn [obind].
    rewrite mul_ok by (rewrite !lset_length; lia).
    eexists; split; [reflexivity|]. rewrite (@nth_ls t id (2*id) e) by lia.
    rewrite (@nth_ls _ (2*id) (2*id+1) _) by (rewrite lset_length; lia). replace (2*id =? 2*id+1) with false by lia.
    rewrite (@nth_ls t id (2*id+1) e) by lia. replace (id =? 2*id+1) with false by lia.
    set (x := nth id t e).
    assert (K : forall j, nth j (lset (lset (lset t id e) (2 * id) (op (if id =? 2*id then e else nth (2*id) t e) x)) (2*id+1) (op (nth (2*id+1) t e) x)) e =
       if 2*id+1 =? j then op (nth (2*id+1) t e) x else if 2*id =? j then op (if id =? 2*id then e else nth (2*id) t e) x else if id =? j then e else nth j t e).
    { intros j. rewrite !nth_ls by (rewrite ?lset_length; lia). auto. }
    split.
    - split; [rewrite !lset_length; auto|]. rewrite K. replace (2*id+1 =? 0) with false by lia.
      destruct (Nat.eqb_spec (2*id) 0).
      + assert (id = 0) by lia. unfold x. subst id. cbn. rewrite Z. apply (mon_left Mon).
      + replace (id =? 0) with false by lia. auto.
    - split; [|split].
      + rewrite K. replace (2*id+1 =? id) with false by lia. destruct (Nat.eqb_spec (2*id) id).
        * assert (id = 0) by lia. unfold x. subst id. cbn. rewrite Z. apply (mon_left Mon).
        * now rewrite Nat.eqb_refl.
      + intros j Hj Ej _ v. rewrite K. destruct (Nat.eqb_spec (2*id+1) j) as [E1|E1].
        * rewrite dact_comp. fold x. now rewrite E1.
        * assert (E2 : 2*id = j) by lia. rewrite E2, Nat.eqb_refl. replace (id =? j) with false by lia.
          rewrite dact_comp. auto.
      + intros j Hj [Ej|Ej]; [|lia]. rewrite K. replace (2*id+1 =? j) with false by lia. replace (2*id =? j) with false by lia.
        replace (id =? j) with false by lia. auto.
  Qed.

  Lemma dpush_V n t t' id p : dgood n t -> id < n -> pushed dact e n (s_ t) (s_ t') id -> n <= p < 2*n -> V t' p = V t p.
  Proof.
    intros (L & Z) Hid Pu Hp. unfold V. apply (U_push dact_id Pu); auto; lia.
  Qed.

  Lemma dlazy_ok n t l r : 1 <= n -> small (2*n) -> dgood n t -> l < r <= n ->
    exists t', du_lazy op e (mk_dual n t) l r = Some t' /\ dgood n t' /\
      (forall p, n <= p < 2 * n -> V t' p = V t p) /\
      forall y, 1 <= y -> edge (l+n) (r+n) y -> nth y t' e = e.
  Proof.
    intros Hn Hs Gd Hlr. unfold du_lazy. replace (l =? r) with false by lia. cbn [du_size du_tree].
    destruct (@set_ids_ok n (l+n) (r+n)) as (ids & E & Ok); auto; try lia.
    rewrite E. cbn [obind].
    assert (K : forall Q Pre, ids = Pre ++ Q -> exists t', for_each (rev Q) (fun id t => du_propagate op e n t id) t = Some t' /\
        dgood n t' /\ (forall p, n <= p < 2*n -> V t' p = V t p) /\ (forall y, 1 <= y -> In y Q -> nth y t' e = e)).
    { induction Q as [|x Q IH]; intros Pre EQ.
      - exists t. split; auto. split; auto. split; auto. intros y _ [].
      - destruct (IH (Pre ++ [x])) as (t1 & E1 & G1 & LV1 & U1). { rewrite <- app_assoc. auto. }
        assert (Hx : In x ids) by (rewrite EQ; apply in_or_app; right; now left).
        pose proof (ids_lt Ok _ Hx) as Hxn.
        destruct (@dprop_ok n t1 x G1 Hxn) as (t2 & E2 & G2 & S2).
        exists t2. cbn [rev]. split.
        { clear - E1 E2. revert t E1. generalize (rev Q) as RQ. induction RQ as [|a RQ IH]; intros t E1; simpl in *.
          - inversion E1; subst. rewrite E2. auto.
          - destruct (du_propagate op e n t a); simpl in *; [auto|discriminate]. }
        split; auto. split.
        + intros p Hp. rewrite <- LV1 by auto. eapply dpush_V; eauto.
        + intros y Hy Hin. destruct S2 as (P1 & P2 & P3).
          destruct (Nat.eq_dec y x) as [->|Nyx]; auto.
          destruct Hin as [->|Hin]; [congruence|].
          rewrite P3; auto. left. intros Eh.
          apply in_split in Hin. destruct Hin as (Q1 & Q2 & EQ2).
          pose proof (@ids_order _ _ _ _ Ok (Pre ++ x :: Q1) y Q2) as O.
          rewrite EQ, EQ2 in O. rewrite <- app_assoc in O. specialize (O eq_refl Hy x). 
          assert (In x (Pre ++ x :: Q1)) by (apply in_or_app; right; now left). specialize (O H). lia. }
    destruct (K ids [] eq_refl) as (t' & E' & G' & LV' & U'). 
    exists t'. split; auto. split; auto. split; auto. intros y Hy He. apply U'; auto. apply (ids_edge Ok); auto.
  Qed.

  Lemma dupdate_ok n t l r f : 1 <= n -> small (2*n) -> dgood n t -> l <= r <= n ->
    exists t', du_update op e (mk_dual n t) l r f = Some (mk_dual n t') /\ dgood n t' /\
      (forall p, n <= p < 2 * n -> V t' p = if (l+n <=? p) && (p <? r+n) then op (V t p) f else V t p).
  Proof.
    intros Hn Hs Gd Hlr. unfold du_update. cbn [du_size].
    destruct (Nat.eqb_spec l r) as [->|Nlr].
    { exists t. split; auto. split; auto. intros p Hp. replace ((r+n <=? p) && (p <? r+n)) with false by lia. auto. }
    destruct (@dlazy_ok n t l r) as (t1 & E1 & G1 & LV1 & U1); auto; [lia|].
    rewrite E1. cbn [obind]. clear E1.
    set (l' := l + n) in *. set (r' := r + n) in *.
    set (J := fun (t : list M) => dgood n t /\ (forall y, 1 <= y -> edge l' r' y -> nth y t e = e)).
    assert (Touch : forall k x t, J t -> inner l' r' k x -> edge l' r' (x/2) ->
       exists t', du_mul op f x t = Some t' /\ J t' /\
         forall p, n <= p < 2*n -> V t' p = if p / 2^k =? x then op (V t p) f else V t p).
    { intros k x t2 ((L2 & Z2) & U2) In Ed. pose proof In as (In1 & In2). pose proof (pow2_pos k).
      assert (Hx : 1 <= x < 2*n) by (unfold l', r' in *; nia).
      rewrite mul_ok by lia. eexists; split; [reflexivity|].
      set (t3 := lset t2 x (op (nth x t2 e) f)).
      assert (G3 : nth x t3 e = op (nth x t2 e) f) by (unfold t3; rewrite nth_ls by lia; now rewrite Nat.eqb_refl).
      assert (G3' : forall j, j <> x -> nth j t3 e = nth j t2 e).
      { intros j Hj. unfold t3. rewrite nth_ls by lia. now rewrite (proj2 (Nat.eqb_neq x j)) by auto. }
      assert (NE : ~ edge l' r' x) by (apply inner_not_edge with n k; auto; unfold l', r'; lia).
      split.
      - split; [split; [unfold t3; now rewrite lset_length|rewrite G3'; auto; lia]|].
        intros y Hy He. rewrite G3'; auto. intros ->. auto.
      - assert (Hu : forall j, 1 <= x / 2 / 2^j -> nth (x/2/2^j) t2 e = e).
        { intros j Hj. apply U2; auto. clear Hj. induction j.
          - now rewrite Nat.pow_0_r, Nat.div_1_r.
          - rewrite <- div_pow_S. now apply edge_half. }
        destruct (@U_mul _ _ dact e dact_id (s_ t2) (s_ t3) x f op dact_comp Hu ltac:(lia) G3 G3') as (A1 & A2).
        intros p Hp. unfold V. destruct (Nat.eqb_spec (p/2^k) x) as [Ep|Ep].
        + eapply A2; eauto.
        + apply A1. intros j Hj. apply Ep.
          replace k with j; auto. apply inner_height with (n := n) (l := l') (r := r') (x := x) (p := p); auto; unfold l', r'; lia. }
    destruct (@walk_rule _ (du_mul op f) (du_mul op f) l' r' (fun k a b t => J t /\ l' <= a * 2^k /\ a <= b /\ b * 2^k <= r' /\
        forall p, n <= p < 2*n -> V t p = if (l' <=? p) && (p <? r') && negb ((a <=? p/2^k) && (p/2^k <? b)) then op (V t1 p) f else V t1 p) t1)
      as (t2 & k & a & E & J2 & _ & _ & _ & LV2).
    - unfold l', r'; lia.
    - split; [split; auto|].
      rewrite Nat.pow_0_r, !Nat.mul_1_r. split; [lia|]. split; [unfold l', r'; lia|]. split; [lia|].
      intros p Hp. rewrite Nat.div_1_r. replace ((l' <=? p) && (p <? r') && negb ((l' <=? p) && (p <? r'))) with false; auto.
      destruct ((l' <=? p) && (p <? r')); auto.
    - intros k a b t2 (J2 & B1 & B2 & B3 & LV2) Oa Hab In Ed _.
      destruct (@Touch k a t2 J2 In Ed) as (t3 & E3 & J3 & LV3). exists t3. split; auto.
      split; auto. pose proof (pow2_pos k). split; [nia|]. split; [lia|]. split; auto.
      intros p Hp. rewrite LV3, LV2 by auto. pose proof In as (In1 & In2).
      pose proof (Nat.div_mod_eq p (2^k)) as D. pose proof (Nat.mod_upper_bound p (2^k) ltac:(lia)) as B.
      destruct (Nat.eqb_spec (p/2^k) a) as [Ep|Ep].
      + assert (l' <= p < r') by nia. replace (l' <=? p) with true by lia. replace (p <? r') with true by lia.
        rewrite Ep. replace (a <=? a) with true by lia. replace (a <? b) with true by lia. replace (a+1 <=? a) with false by lia. reflexivity.
      + replace (a + 1 <=? p / 2^k) with (a <=? p/2^k) by lia. auto.
    - intros k a b t2 (J2 & B1 & B2 & B3 & LV2) Oa Hab In Ed.
      destruct (@Touch k (b-1) t2 J2 In Ed) as (t3 & E3 & J3 & LV3). exists t3. split; auto.
      split; auto. pose proof (pow2_pos k). split; [nia|]. split; [lia|]. split; [nia|].
      intros p Hp. rewrite LV3, LV2 by auto. pose proof In as (In1 & In2).
      pose proof (Nat.div_mod_eq p (2^k)) as D. pose proof (Nat.mod_upper_bound p (2^k) ltac:(lia)) as B.
      destruct (Nat.eqb_spec (p/2^k) (b-1)) as [Ep|Ep].
      + assert (l' <= p < r') by nia. replace (l' <=? p) with true by lia. replace (p <? r') with true by lia.
        rewrite Ep. replace (a <=? b-1) with true by lia. replace (b-1 <? b) with true by lia. replace (b-1 <? b-1) with false by lia. reflexivity.
      + replace (p / 2^k <? b-1) with (p/2^k <? b) by lia. auto.
    - intros k a b t2 (J2 & B1 & B2 & B3 & LV2). split; auto. rewrite Nat.pow_succ_r'. split; [lia|]. split; [lia|]. split; [lia|].
      intros p Hp. rewrite LV2 by auto. replace (2 * 2^k) with (2^(S k)) by apply Nat.pow_succ_r'. rewrite <- div_pow_S.
      replace (2*a <=? p/2^k) with (a <=? p/2^k/2) by lia. replace (p/2^k <? 2*b) with (p/2^k/2 <? b) by lia. auto.
    - rewrite E. cbn [obind]. exists t2. split; auto. split; [apply J2|].
      intros p Hp. rewrite LV2, !LV1 by auto. replace ((a <=? p / 2^k) && (p / 2^k <? a)) with false by lia. rewrite andb_true_r. auto.
  Qed.

  Lemma V_leaf n t p : (forall y, 1 <= y -> edge p (p+1) y -> nth y t e = e) -> 1 <= n -> n <= p -> V t p = nth p t e.
  Proof.
    intros H Hn Hp. unfold V. rewrite dUS by lia. unfold dact at 2. rewrite (mon_left Mon).
    apply U_unit with e; [apply dact_id|]. intros j Hj. apply H; auto.
    rewrite div_shift. apply leaf_edge. lia.
  Qed.

  Lemma dget_ok n t i : 1 <= n -> small (2*n) -> dgood n t -> i < n ->
    exists t', du_get op e (mk_dual n t) i = Some (mk_dual n t', V t (n+i)) /\ dgood n t' /\
      (forall p, n <= p < 2 * n -> V t' p = V t p).
  Proof.
    intros Hn Hs Gd Hi. unfold du_get. cbn [du_size].
    destruct (@dlazy_ok n t i (i+1)) as (t1 & E1 & G1 & LV1 & U1); auto; [lia|].
    rewrite E1. cbn [obind]. rewrite dget by (destruct G1; lia). cbn [obind]. exists t1. split; auto.
    do 2 f_equal. rewrite <- LV1 by lia. symmetry. apply V_leaf with n; auto; [|lia].
    intros y Hy He. apply U1; auto. rewrite (Nat.add_comm i n). now replace (i+1+n) with (n+i+1) by lia.
  Qed.

  Lemma dset_ok n t i x : 1 <= n -> small (2*n) -> dgood n t -> i < n ->
    exists t', du_set op e (mk_dual n t) i x = Some (mk_dual n t') /\ dgood n t' /\
      (forall p, n <= p < 2 * n -> V t' p = if p =? n + i then x else V t p).
  Proof.
    intros Hn Hs Gd Hi. unfold du_set. cbn [du_size].
    destruct (@dlazy_ok n t i (i+1)) as (t1 & E1 & G1 & LV1 & U1); auto; [lia|]. destruct G1 as (L1 & Z1).
    rewrite E1. cbn [obind]. rewrite set_some by lia. cbn [obind]. eexists; split; [reflexivity|].
    split; [split; [rewrite lset_length; auto|rewrite nth_ls by lia; replace (n+i =? 0) with false by lia; auto]|].
    intros p Hp. destruct (Nat.eqb_spec p (n+i)) as [->|Np].
    - rewrite V_leaf with (n := n); auto; [|intros|lia].
      + rewrite nth_ls by lia. now rewrite Nat.eqb_refl.
      + rewrite nth_ls by lia. destruct (Nat.eqb_spec (n+i) y) as [E|_].
        * apply (@leaf_edge_lt n) in H0; lia.
        * apply U1; auto. rewrite (Nat.add_comm i n). now replace (i+1+n) with (n+i+1) by lia.
    - rewrite <- LV1 by auto. unfold V. apply (@U_ext _ _ dact e dact_id). intros j w _. rewrite nth_ls by lia.
      destruct (Nat.eqb_spec (n+i) (p/2^j)) as [E|]; auto. exfalso.
      destruct j. { rewrite Nat.pow_0_r, Nat.div_1_r in E. lia. }
      assert (p/2^(S j) <= p/2). { apply Nat.div_le_compat_l. rewrite Nat.pow_succ_r'. pose proof (pow2_pos j). lia. }
      set (u := p/2^(S j)) in *. lia.
  Qed.

  Definition drep n t xs := dgood n t /\ length xs = n /\ forall i x, get xs i = Some x -> V t (n+i) = x.

  Lemma U_const p : forall v, (forall t : list M, (forall j, nth j t e = e) -> U (s_ t) p v = v).
  Proof. intros v t H. apply U_unit with e; auto. apply dact_id. Qed.

  Lemma dbuild_ok xs : 1 <= length xs -> exists t, du_build e xs = mk_dual (length xs) t /\ drep (length xs) t xs.
  Proof.
    intros Hx. eexists; split; [reflexivity|]. set (n := length xs). set (t := repeat e n ++ xs).
    assert (H1 : forall j, j < n -> nth j t e = e).
    { intros j Hj. unfold t. rewrite app_nth1 by (rewrite repeat_length; auto). apply nth_repeat. }
    assert (H2 : forall j, n <= j -> nth j t e = nth (j-n) xs e).
    { intros j Hj. unfold t. rewrite app_nth2 by (rewrite repeat_length; auto). now rewrite repeat_length. }
    split; [split|split; auto].
    - unfold t. rewrite app_length, repeat_length. unfold n. lia.
    - apply H1. unfold n; lia.
    - intros i x E. rewrite V_leaf with (n := n); try (unfold n; lia).
      + rewrite H2 by lia. replace (n+i-n) with i by lia. unfold get in E. now apply nth_error_nth.
      + intros y Hy He. pose proof (get_some_lt _ _ E). apply H1. apply leaf_edge_lt with (n+i); auto; unfold n in *; lia.
  Qed.

  Lemma drun_ok n (Hn : 1 <= n) (Hs : small (2*n)) : forall h t xs, drep n t xs -> Forall (du_valid n) h ->
    exists T vs, du_run op e (mk_dual n t) h = Some (T, vs) /\ map Some vs = dual_spec op xs h.
  Proof.
    induction h as [|c h IH]; intros t xs R Hh; [eexists _, []; split; reflexivity|].
    inversion Hh as [|? ? V0 Hh']; subst. pose proof R as (Gd & Hl & Hv). destruct c as [l r f|i|i x]; simpl in V0; cbn [du_run dual_spec].
    - destruct (@dupdate_ok n t l r f) as (t' & E & G' & LV'); auto.
      rewrite E. cbn [obind]. apply IH; auto.
      split; auto. rewrite map_range_length by lia. split; auto. intros i x Q.
      assert (Hi : i < length xs). { apply get_some_lt in Q. now rewrite map_range_length in Q by lia. }
      destruct (get_lt xs Hi) as (y & Ey). rewrite <- Hl in V0. rewrite (get_map_range _ (l:=l) (r:=r) _ i V0 Ey) in Q. inversion Q; subst x. rewrite LV' by lia.
      replace ((l+n <=? n+i) && (n+i <? r+n)) with ((l <=? i) && (i <? r)) by lia. rewrite (Hv _ _ Ey). auto.
    - destruct (@dget_ok n t i) as (t' & E & G' & LV'); auto.
      rewrite E. cbn [obind]. destruct (IH t' xs) as (T & vs & E2 & V2); auto.
      { split; auto. split; auto. intros j x Q. rewrite LV'; auto. apply get_some_lt in Q. lia. }
      rewrite E2. cbn [obind]. eexists _, _. split; [reflexivity|]. simpl. rewrite V2. f_equal.
      destruct (get_lt xs (i:=i)) as (x & Ex); [lia|]. rewrite Ex. f_equal. auto.
    - destruct (@dset_ok n t i x) as (t' & E & G' & LV'); auto.
      rewrite E. cbn [obind]. apply IH; auto.
      split; auto. rewrite lset_length. split; auto. intros j y Q. rewrite LV'.
      + rewrite get_lset in Q. replace (i <? length xs) with true in Q by lia. rewrite andb_true_r in Q.
        replace (n + j =? n + i) with (i =? j) by lia. destruct (i =? j); [congruence|]. auto.
      + apply get_some_lt in Q. rewrite lset_length in Q. lia.
  Qed.
End DualP.
