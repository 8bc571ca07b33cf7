From Verif Require Import Base BaseLemmas Array2 FenwickModel FenwickProof LazySegModel LazySegSpec LazySegIds.
Set Implicit Arguments.
Ltac Zify.zify_post_hook ::= Z.div_mod_to_equations.

(** ** Pending operators along the path to the root *)
Section Chain.
  Variables (M A : Type) (act : A -> M -> M) (aid : A).
  Hypothesis act_id : forall v, act aid v = v.

  Fixpoint Uf (s : nat -> A) (fuel x : nat) (v : M) : M :=
    match fuel with O => v | S f => if x =? 0 then v else Uf s f (x/2) (act (s x) v) end.
  Definition U s x v := Uf s x x v.

  Lemma Uf_fuel s : forall f g x v, x <= f -> x <= g -> Uf s f x v = Uf s g x v.
  Proof.
    induction f; intros g x v Hf Hg.
    - assert (x = 0) by lia. subst. destruct g; reflexivity.
    - destruct g; cbn [Uf]; destruct (Nat.eqb_spec x 0); auto; [lia|]. apply IHf; lia.
  Qed.
  Lemma U_0 s v : U s 0 v = v. Proof. reflexivity. Qed.
  Lemma U_S s x v : 1 <= x -> U s x v = U s (x/2) (act (s x) v).
  Proof.
    intros H. unfold U. destruct x; [lia|]. cbn [Uf]. destruct (Nat.eqb_spec (S x) 0); [lia|]. apply Uf_fuel; lia.
  Qed.

  Lemma div_shift x j : x / 2 / 2^j = x / 2^(S j).
  Proof. rewrite Nat.div_div by (try apply Nat.pow_nonzero; lia). f_equal. Qed.

  Lemma U_ext s s' : forall x v, (forall j w, 1 <= x / 2^j -> act (s (x/2^j)) w = act (s' (x/2^j)) w) -> U s x v = U s' x v.
  Proof.
    induction x as [x IH] using lt_wf_ind. intros v H. destruct (Nat.eq_dec x 0) as [->|]; auto.
    rewrite !(@U_S _ x) by lia. rewrite IH.
    - f_equal. specialize (H 0). rewrite Nat.pow_0_r, Nat.div_1_r in H. apply H. lia.
    - lia.
    - intros j w. rewrite div_shift. apply H.
  Qed.

  Lemma U_unit s : forall x v, (forall j, 1 <= x / 2^j -> s (x/2^j) = aid) -> U s x v = v.
  Proof.
    induction x as [x IH] using lt_wf_ind. intros v H. destruct (Nat.eq_dec x 0) as [->|]; auto.
    rewrite (@U_S _ x) by lia. rewrite IH.
    - specialize (H 0). rewrite Nat.pow_0_r, Nat.div_1_r in H. rewrite H by lia. auto.
    - lia.
    - intros j. rewrite div_shift. apply H.
  Qed.

  Definition pushed (n : nat) (s s' : nat -> A) (id : nat) :=
    s' id = aid /\
    (forall j, j <> id -> j / 2 = id -> id < n -> forall v, act (s' j) v = act (s id) (act (s j) v)) /\
    (forall j, j <> id -> (j / 2 <> id \/ n <= id) -> s' j = s j).

  Lemma U_push n s s' id : pushed n s s' id -> (id = 0 -> s 0 = aid) ->
    forall x v, x < 2 * n -> x <> id -> U s' x v = U s x v.
  Proof.
    intros (H1 & H2 & H3) H0. induction x as [x IH] using lt_wf_ind. intros v Hx Hid.
    destruct (Nat.eq_dec x 0) as [->|]; auto.
    rewrite !(@U_S _ x) by lia. destruct (Nat.eq_dec (x/2) id) as [E|E].
    - rewrite E. rewrite H2 by lia. destruct (Nat.eq_dec id 0) as [->|].
      + rewrite !U_0. rewrite H0 by auto. auto.
      + rewrite !(@U_S _ id) by lia. rewrite H1, act_id. apply IH; lia.
    - rewrite H3 by lia. apply IH; lia.
  Qed.

  Lemma U_push_self n s s' id : pushed n s s' id -> 1 <= id -> id < 2 * n -> forall v,
    U s' id (act (s id) v) = U s id v.
  Proof.
    intros P Hid Hn v. rewrite !(@U_S _ id) by lia. destruct P as (H1 & H2 & H3). rewrite H1, act_id.
    apply U_push with n id; try (split; auto); lia.
  Qed.

  (** One more operator at node [x] below neutral ancestors. *)
  Lemma U_mul s s' x f comp : (forall a b v, act (comp a b) v = act b (act a v)) ->
    (forall j, 1 <= x / 2 / 2^j -> s (x/2/2^j) = aid) -> 1 <= x ->
    s' x = comp (s x) f -> (forall j, j <> x -> s' j = s j) ->
    (forall p v, (forall j, p / 2^j <> x) -> U s' p v = U s p v) /\
    (forall k p v, p / 2^k = x -> U s' p v = act f (U s p v)).
  Proof.
    intros comp_ok Hu Hx E H. split.
    - intros p v Hp. apply U_ext. intros j w _. rewrite H; auto.
    - induction k; intros p v Hp.
      + rewrite Nat.pow_0_r, Nat.div_1_r in Hp. subst p. rewrite !(@U_S _ x) by lia.
        rewrite E, comp_ok. rewrite !U_unit; auto. intros j Hj. rewrite H; auto.
        intros Q. assert (x / 2 / 2^j <= x / 2) by (apply Nat.div_le_upper_bound; [apply Nat.pow_nonzero; lia|pose proof (pow2_pos j); nia]). lia.
      + assert (p <> 0). { intros ->. rewrite Nat.div_0_l in Hp by (apply Nat.pow_nonzero; lia). lia. }
        rewrite !(@U_S _ p) by lia. rewrite <- div_shift in Hp. rewrite H.
        * apply IHk; auto.
        * intros ->. assert (x / 2 / 2^k <= x / 2) by (apply Nat.div_le_upper_bound; [apply Nat.pow_nonzero; lia|pose proof (pow2_pos k); nia]). lia.
  Qed.
End Chain.

Section Lists.
  Variables (T : Type) (d : T).
  Lemma get_nth (t : list T) i : i < length t -> get t i = Some (nth i t d).
  Proof. intros. unfold get. now apply nth_error_nth'. Qed.
  Lemma nth_lset (t : list T) i j x : i < length t -> nth j (lset t i x) d = if i =? j then x else nth j t d.
  Proof.
    intros H. destruct (Nat.lt_ge_cases j (length t)).
    - assert (Q : get (lset t i x) j = Some (if i =? j then x else nth j t d)).
      { rewrite get_lset. replace (i <? length t) with true by lia. rewrite andb_true_r. destruct (i =? j); auto. now apply get_nth. }
      unfold get in Q. now apply nth_error_nth.
    - rewrite !nth_overflow by (rewrite ?lset_length; lia). destruct (Nat.eqb_spec i j); auto. lia.
  Qed.
End Lists.

Section Lazy.
  Variables (M A : Type) (op : M -> M -> M) (e : M) (comp : A -> A -> A) (aid : A) (act : A -> M -> M).
  Hypothesis Mon : monoid_laws op e.
  Hypothesis act_id : forall v, act aid v = v.
  Hypothesis act_comp : forall a b v, act (comp a b) v = act b (act a v).
  Hypothesis act_op : forall a x y, act a (op x y) = op (act a x) (act a y).

  Notation node := (M * A)%type.
  Notation U := (U act).
  Definition F (t : list node) i := fst (nth i t (e, aid)).
  Definition G (t : list node) i := snd (nth i t (e, aid)).
  Definition N t x := act (G t x) (F t x).
  Definition LV t p := U (G t) p (F t p).
  Definition cons t y := F t y = op (N t (2*y)) (N t (2*y+1)).

  Lemma get_FG (t : list node) i : i < length t -> get t i = Some (F t i, G t i).
  Proof. intros. rewrite (get_nth (e, aid)) by auto. unfold F, G. f_equal. apply surjective_pairing. Qed.
  Lemma F_lset t i j m a : i < length t -> F (lset t i (m, a)) j = if i =? j then m else F t j.
  Proof. intros. unfold F. rewrite nth_lset by auto. destruct (i =? j); auto. Qed.
  Lemma G_lset t i j m a : i < length t -> G (lset t i (m, a)) j = if i =? j then a else G t j.
  Proof. intros. unfold G. rewrite nth_lset by auto. destruct (i =? j); auto. Qed.

  Definition US := @U_S _ _ act aid act_id.

  Lemma U_op s : forall x a b, U s x (op a b) = op (U s x a) (U s x b).
  Proof.
    induction x as [x IH] using lt_wf_ind. intros a b. destruct (Nat.eq_dec x 0) as [->|]; auto.
    rewrite !(@US s x) by lia. rewrite act_op. apply IH. lia.
  Qed.

  Record step n t t' id : Prop := {
    st_len : length t' = 2 * n;
    st_push : pushed act aid n (G t) (G t') id;
    st_self : F t' id = act (G t id) (F t id);
    st_other : forall j, j <> id -> F t' j = F t j
  }.

  Ltac lsimp := rewrite ?set_some by (rewrite ?lset_length; lia); cbn [obind];
    rewrite ?get_FG by (rewrite ?lset_length; lia); cbn [obind].
  Ltac lval := rewrite ?F_lset, ?G_lset by (rewrite ?lset_length; lia).

  Lemma propagate_ok n t id : length t = 2 * n -> id < 2 * n -> (id = 0 -> G t 0 = aid) ->
    exists t', lz_propagate comp aid act n t id = Some t' /\ step n t t' id.
  Proof.
    intros L Hid H0. unfold lz_propagate. rewrite get_FG by lia. cbn [obind].
    destruct (Nat.ltb_spec id n).
    - do 5 lsimp. lsimp. eexists; split; [reflexivity|]. split.
      + rewrite !lset_length. auto.
      + split; [|split].
        * lval. rewrite Nat.eqb_refl. auto.
        * intros j Hj E _ v. lval. rewrite (proj2 (Nat.eqb_neq id j)) by auto.
          destruct (Nat.eqb_spec (2*id+1) j) as [E1|E1].
          -- rewrite Nat.eqb_refl. rewrite (proj2 (Nat.eqb_neq id (2*id+1))) by lia.
             rewrite (proj2 (Nat.eqb_neq (2*id) (2*id+1))) by lia. rewrite E1. rewrite act_comp.
             destruct (Nat.eqb_spec (2*id) id); auto.
             assert (Z : id = 0) by lia. rewrite Z in *. rewrite H0 by auto. rewrite Nat.mul_0_r, Nat.eqb_refl, act_comp, !act_id. auto.
          -- assert (E2 : 2 * id = j) by lia. rewrite (proj2 (Nat.eqb_eq (2*id) j) E2). rewrite E2.
             rewrite (proj2 (Nat.eqb_neq id j)) by auto. rewrite Nat.eqb_refl. apply act_comp.
        * intros j Hj [E|E]; [|lia]. lval. rewrite (proj2 (Nat.eqb_neq id j)) by auto.
          rewrite (proj2 (Nat.eqb_neq (2*id+1) j)) by lia. rewrite (proj2 (Nat.eqb_neq (2*id) j)) by lia. auto.
      + lval. rewrite !Nat.eqb_refl. rewrite (proj2 (Nat.eqb_neq (2*id+1) id)) by lia.
        destruct (Nat.eqb_spec (2*id) id) as [Z|]; auto. assert (id = 0) by lia. subst id. auto.
      + intros j Hj. lval. rewrite !(proj2 (Nat.eqb_neq id j)) by auto.
        destruct (Nat.eqb_spec (2*id+1) j) as [E1|E1].
        * lval. rewrite (proj2 (Nat.eqb_neq (2*id) (2*id+1))) by lia. rewrite (proj2 (Nat.eqb_neq id (2*id+1))) by lia. now rewrite E1.
        * destruct (Nat.eqb_spec (2*id) j) as [E2|E2]; auto. rewrite (proj2 (Nat.eqb_neq id (2*id))) by lia. now rewrite E2.
    - lsimp. lsimp. lsimp. eexists; split; [reflexivity|]. split.
      + rewrite !lset_length. auto.
      + split; [|split].
        * lval. rewrite Nat.eqb_refl. auto.
        * intros. lia.
        * intros j Hj _. lval. rewrite (proj2 (Nat.eqb_neq id j)) by auto. auto.
      + lval. rewrite Nat.eqb_refl. auto.
      + intros j Hj. lval. rewrite (proj2 (Nat.eqb_neq id j)) by auto. auto.
  Qed.

  Lemma step_N n t t' id j : step n t t' id -> j <> id -> j / 2 <> id -> N t' j = N t j.
  Proof. intros [L (P1 & P2 & P3) S O] H1 H2. unfold N. rewrite O, P3; auto. Qed.
  Lemma step_N_self n t t' id : step n t t' id -> N t' id = N t id.
  Proof. intros [L (P1 & P2 & P3) S O]. unfold N. rewrite P1, S, act_id. auto. Qed.
  Lemma step_N_child n t t' id j : step n t t' id -> j <> id -> j / 2 = id -> id < n -> N t' j = act (G t id) (N t j).
  Proof. intros [L (P1 & P2 & P3) S O] H1 H2 H3. unfold N. rewrite O by auto. apply P2; auto. Qed.

  Lemma step_cons n t t' id y : step n t t' id -> 1 <= y < n -> cons t y -> cons t' y.
  Proof.
    intros St Hy C. unfold cons in *. destruct (Nat.eq_dec y id) as [->|Ny].
    - rewrite (st_self St), C, act_op. rewrite <- !(@step_N_child n t t' id) by (auto; lia). auto.
    - rewrite (st_other St) by auto. rewrite C.
      assert (K : forall c, c / 2 = y -> N t c = N t' c).
      { intros c Hc. destruct (Nat.eq_dec c id) as [->|]; symmetry; [eapply step_N_self|eapply step_N]; eauto. lia. }
      rewrite !K by lia. auto.
  Qed.

  Lemma step_LV n t t' id p : step n t t' id -> (id = 0 -> G t 0 = aid) -> 1 <= p < 2 * n -> LV t' p = LV t p.
  Proof.
    intros St H0 Hp. unfold LV. destruct (Nat.eq_dec p id) as [->|].
    - rewrite (st_self St). apply (U_push_self act_id (st_push St)); lia.
    - rewrite (st_other St) by auto. apply (U_push act_id (st_push St)); auto; lia.
  Qed.

  Lemma step_G0 n t t' id : step n t t' id -> 1 <= n -> G t 0 = aid -> G t' 0 = aid.
  Proof.
    intros [L (P1 & P2 & P3) S O] Hn H. destruct (Nat.eq_dec id 0) as [->|]; auto.
    rewrite P3; auto.
  Qed.

  Definition good n t := length t = 2 * n /\ G t 0 = aid /\ forall y, 1 <= y < n -> cons t y.

  (** Product of the leaf values below a node. *)
  Definition P f a b := product op e (map f (seq a (b - a))).
  Lemma P_nil f a : P f a a = e.
  Proof. unfold P. rewrite Nat.sub_diag. auto. Qed.
  Lemma P_split f a b c : a <= b <= c -> P f a c = op (P f a b) (P f b c).
  Proof.
    intros H. unfold P. replace (c - a) with ((b-a) + (c-b)) by lia.
    rewrite seq_app, map_app, (product_app Mon). replace (a + (b-a)) with b by lia. auto.
  Qed.
  Lemma P_one f a : P f a (a+1) = f a.
  Proof. unfold P. replace (a+1-a) with 1 by lia. simpl. apply (mon_right Mon). Qed.
  Lemma P_ext f g a b : (forall i, a <= i < b -> f i = g i) -> P f a b = P g a b.
  Proof. intros H. unfold P. f_equal. apply map_ext_in. intros i Hi. apply in_seq in Hi. apply H. lia. Qed.

  Lemma node_product n t : good n t -> forall k x, 1 <= x -> n <= x * 2^k -> (x+1) * 2^k <= 2 * n ->
    P (LV t) (x * 2^k) ((x+1) * 2^k) = U (G t) (x/2) (N t x).
  Proof.
    intros (L & G0 & C). induction k; intros x Hx H1 H2.
    - rewrite Nat.pow_0_r, !Nat.mul_1_r. rewrite P_one. unfold LV, N. apply US. auto.
    - rewrite Nat.pow_succ_r' in *. pose proof (pow2_pos k).
      rewrite (@P_split _ _ ((2*x+1) * 2^k)) by nia.
      replace (x * (2 * 2^k)) with ((2*x) * 2^k) by ring.
      replace ((x+1) * (2*2^k)) with ((2*x+1+1) * 2^k) by ring.
      rewrite (IHk (2*x)) by nia. rewrite (IHk (2*x+1)) by nia.
      replace (2*x/2) with x by lia. replace ((2*x+1)/2) with x by lia.
      assert (x < n) by nia.
      rewrite <- U_op, <- C by lia. apply US. auto.
  Qed.

  (** *** _lazy_propagation *)
  Lemma lazy_ok n t l r : 1 <= n -> small (2*n) -> good n t -> l < r <= n ->
    exists t' ids, lz_lazy comp aid act (mk_lz n t) l r = Some (t', ids) /\ good n t' /\
      (forall p, n <= p < 2 * n -> LV t' p = LV t p) /\ ids_ok n (l+n) (r+n) ids /\
      forall y, 1 <= y -> In y ids -> G t' y = aid.
  Proof.
    intros Hn Hs Gd Hlr. unfold lz_lazy. rewrite (proj2 (Nat.eqb_neq l r)) by lia. cbn [lz_size lz_tree].
    destruct (@set_ids_ok n (l+n) (r+n)) as (ids & E & Ok); auto; try lia.
    rewrite E. cbn [obind].
    assert (K : forall Q Pre, ids = Pre ++ Q -> exists t', for_each (rev Q) (fun id t => lz_propagate comp aid act n t id) t = Some t' /\
        good n t' /\ (forall p, n <= p < 2*n -> LV t' p = LV t p) /\ (forall y, 1 <= y -> In y Q -> G t' y = aid)).
    { induction Q as [|x Q IH]; intros Pre EQ.
      - exists t. split; auto. split; auto. split; auto. intros y _ [].
      - destruct (IH (Pre ++ [x])) as (t1 & E1 & G1 & LV1 & U1). { rewrite <- app_assoc. auto. }
        assert (Hx : In x ids) by (rewrite EQ; apply in_or_app; right; now left).
        pose proof (ids_lt Ok _ Hx) as Hxn. destruct G1 as (L1 & Z1 & C1).
        destruct (@propagate_ok n t1 x L1 ltac:(lia) ltac:(auto)) as (t2 & E2 & S2).
        exists t2. cbn [rev]. split.
        { clear - E1 E2. revert t E1. generalize (rev Q) as RQ. induction RQ as [|a RQ IH]; intros t E1; simpl in *.
          - inversion E1; subst. rewrite E2. auto.
          - destruct (lz_propagate comp aid act n t a); simpl in *; [auto|discriminate]. }
        split; [|split].
        + split; [apply (st_len S2)|]. split; [eapply step_G0; eauto|]. intros y Hy. eapply step_cons; eauto.
        + intros p Hp. rewrite <- LV1 by auto. eapply step_LV; eauto. lia.
        + intros y Hy Hin. destruct (st_push S2) as (P1 & P2 & P3).
          destruct (Nat.eq_dec y x) as [->|Nyx]; auto.
          destruct Hin as [->|Hin]; [congruence|].
          rewrite P3; auto. left. intros Eh.
          apply in_split in Hin. destruct Hin as (Q1 & Q2 & EQ2).
          pose proof (@ids_order _ _ _ _ Ok (Pre ++ x :: Q1) y Q2) as O.
          rewrite EQ, EQ2 in O. rewrite <- app_assoc in O. specialize (O eq_refl Hy x). 
          assert (In x (Pre ++ x :: Q1)) by (apply in_or_app; right; now left). specialize (O H). lia. }
    destruct (K ids [] eq_refl) as (t' & E' & G' & LV' & U'). rewrite E'. cbn [obind].
    exists t', ids. repeat (split; auto).
  Qed.

  (** The nodes above a covering node are neutral after the propagation. *)
  Lemma edge_neutral n l r ids (s : nat -> A) y v : ids_ok n l r ids ->
    (forall y, 1 <= y -> edge l r y -> s y = aid) -> edge l r y -> U s y v = v.
  Proof.
    intros Ok H E. apply U_unit with aid; auto. intros j Hj. apply H; auto.
    clear Hj. induction j.
    - now rewrite Nat.pow_0_r, Nat.div_1_r.
    - rewrite <- div_pow_S. now apply edge_half.
  Qed.

  Lemma get_edge_leaf n t p v : (forall y, 1 <= y -> edge p (p+1) y -> G t y = aid) -> n <= p -> U (G t) (p/2) v = v.
  Proof.
    intros H Hp. apply U_unit with aid; auto. intros j Hj. apply H; auto.
    rewrite div_shift. apply leaf_edge. lia.
  Qed.

  Lemma get_ok n t i : 1 <= n -> small (2*n) -> good n t -> i < n ->
    exists t', lz_get comp aid act (mk_lz n t) i = Some (mk_lz n t', LV t (n+i)) /\ good n t' /\
      (forall p, n <= p < 2 * n -> LV t' p = LV t p).
  Proof.
    intros Hn Hs Gd Hi. unfold lz_get. cbn [lz_size].
    destruct (@lazy_ok n t i (i+1)) as (t1 & ids & E1 & G1 & LV1 & Ok & U1); auto; [lia|].
    rewrite E1. cbn [obind]. destruct G1 as (L1 & Z1 & C1).
    destruct (@propagate_ok n t1 (i+n) L1 ltac:(lia) ltac:(auto)) as (t2 & E2 & S2).
    rewrite E2. cbn [obind]. rewrite get_FG by (rewrite (st_len S2); lia). cbn [obind].
    exists t2.
    assert (LV2 : forall p, n <= p < 2*n -> LV t2 p = LV t p).
    { intros p Hp. rewrite <- LV1 by auto. eapply step_LV; eauto. lia. }
    split; [|split; auto].
    - do 2 f_equal. rewrite (st_self S2). rewrite <- LV1 by lia. unfold LV. rewrite (Nat.add_comm n i).
      rewrite US by lia. symmetry. apply get_edge_leaf with n; [|lia].
      intros y Hy He. apply U1; auto. apply (ids_edge Ok); auto. now replace (i + 1 + n) with (i + n + 1) by lia.
    - split; [apply (st_len S2)|]. split; [eapply step_G0; eauto|]. intros y Hy. eapply step_cons; eauto.
  Qed.

  Lemma query_ok n t l r : 1 <= n -> small (2*n) -> good n t -> l <= r <= n ->
    exists t', lz_query op e comp aid act (mk_lz n t) l r = Some (mk_lz n t', P (LV t) (l+n) (r+n)) /\ good n t' /\
      (forall p, n <= p < 2 * n -> LV t' p = LV t p).
  Proof.
    intros Hn Hs Gd Hlr. unfold lz_query. cbn [lz_size].
    destruct (Nat.eq_dec l r) as [->|Nlr].
    { unfold lz_lazy. rewrite Nat.eqb_refl. cbn [obind lz_tree]. unfold walk.
      cbn [loop]. rewrite Nat.ltb_irrefl. cbn [obind]. rewrite P_nil, (mon_left Mon). exists t. auto. }
    destruct (@lazy_ok n t l r) as (t1 & ids & E1 & G1 & LV1 & Ok & U1); auto; [lia|].
    rewrite E1. cbn [obind]. clear E1.
    set (l' := l + n) in *. set (r' := r + n) in *.
    match goal with |- exists _, obind (walk ?a ?b _ _ _) _ = _ /\ _ => set (fl := a); set (fr := b) end.
    set (J := fun t => good n t /\ (forall p, n <= p < 2*n -> LV t p = LV t1 p) /\ (forall y, 1 <= y -> edge l' r' y -> G t y = aid)).
    assert (Touch : forall k x t, J t -> inner l' r' k x -> edge l' r' (x/2) ->
       exists t', lz_propagate comp aid act n t x = Some t' /\ get t' x = Some (F t' x, G t' x) /\ J t' /\ F t' x = P (LV t1) (x * 2^k) ((x+1)*2^k)).
    { intros k x t2 ((L2 & Z2 & C2) & LV2 & U2) In Ed. pose proof In as (In1 & In2). pose proof (pow2_pos k).
      assert (Hx : 1 <= x < 2*n) by (unfold l', r' in *; nia).
      destruct (@propagate_ok n t2 x L2 ltac:(lia) ltac:(auto)) as (t3 & E3 & S3).
      exists t3. split; auto. split; [apply get_FG; rewrite (st_len S3); lia|].
      assert (G3 : good n t3).
      { split; [apply (st_len S3)|]. split; [eapply step_G0; eauto|]. intros y Hy. eapply step_cons; eauto. }
      assert (U3 : forall y, 1 <= y -> edge l' r' y -> G t3 y = aid).
      { intros y Hy He. destruct (st_push S3) as (P1 & P2 & P3). destruct (Nat.eq_dec y x) as [->|]; auto.
        rewrite P3; auto. destruct (Nat.eq_dec (y/2) x) as [Ey|]; auto. right.
        destruct (Nat.lt_ge_cases x n); auto. exfalso.
        destruct k. { rewrite Nat.pow_0_r in In1. unfold l' in In1. lia. }
        revert He. apply inner_not_edge with n k; auto; try (unfold l', r'; lia).
        assert (Q : y = 2 * x + 0 \/ y = 2 * x + 1) by lia. destruct Q as [->| ->]; apply inner_child; auto. }
      assert (LV3 : forall p, n <= p < 2*n -> LV t3 p = LV t1 p).
      { intros p Hp. rewrite <- LV2 by auto. eapply step_LV; eauto. lia. }
      split; [split; auto|].
      transitivity (P (LV t3) (x * 2^k) ((x+1)*2^k)).
      - rewrite (node_product G3) by (unfold l', r' in *; nia).
        rewrite edge_neutral with (n := n) (l := l') (r := r') (ids := ids); auto.
        rewrite (step_N_self S3). apply (st_self S3).
      - apply P_ext. intros i Hi. apply LV3. unfold l', r' in *. lia. }
    destruct (@walk_rule _ fl fr l' r' (fun k a b '(t, lhs, rhs) => J t /\ l' <= a * 2^k /\ a * 2^k <= b * 2^k /\ b * 2^k <= r' /\
        op lhs (op (P (LV t1) (a * 2^k) (b * 2^k)) rhs) = P (LV t1) l' r') (t1, e, e)) as (((t' & lhs) & rhs) & k & a & E & J' & _ & _ & _ & HP).
    - unfold l', r'; lia.
    - split. { split; auto. split; auto. intros y Hy He. apply U1; auto. apply (ids_edge Ok); auto. }
      rewrite Nat.pow_0_r, !Nat.mul_1_r. split; [lia|]. split; [unfold l', r'; lia|]. split; [lia|]. rewrite (mon_left Mon), (mon_right Mon). auto.
    - intros k a b ((t2 & lhs) & rhs) (J2 & B1 & B2 & B3 & HP) Oa Hab In Ed _. unfold fl.
      destruct (@Touch k a t2 J2 In Ed) as (t3 & E3 & Gx & J3 & F3). rewrite E3. cbn [obind]. rewrite Gx. cbn [obind].
      eexists; split; [reflexivity|]. cbn beta iota. pose proof (pow2_pos k). split; auto. split; [nia|]. split; [nia|]. split; auto.
      rewrite <- HP, F3. rewrite (@P_split _ (a*2^k) ((a+1)*2^k) (b*2^k)) by nia.
      now rewrite !(mon_assoc Mon).
    - intros k a b ((t2 & lhs) & rhs) (J2 & B1 & B2 & B3 & HP) Ob Hab In Ed. unfold fr.
      destruct (@Touch k (b-1) t2 J2 In Ed) as (t3 & E3 & Gx & J3 & F3). rewrite E3. cbn [obind]. rewrite Gx. cbn [obind].
      eexists; split; [reflexivity|]. cbn beta iota. pose proof (pow2_pos k). split; auto. split; [nia|].
      assert (a * 2^k <= (b-1)*2^k) by (apply Nat.mul_le_mono_r; lia).
      assert ((b-1)*2^k <= b * 2^k) by (apply Nat.mul_le_mono_r; lia).
      split; [lia|]. split; [lia|].
      rewrite <- HP, F3. replace (b-1+1) with b by lia. rewrite (@P_split _ (a*2^k) ((b-1)*2^k) (b*2^k)) by lia.
      now rewrite !(mon_assoc Mon).
    - intros k a b ((t2 & lhs) & rhs). rewrite !Nat.pow_succ_r'.
      replace (a * (2 * 2^k)) with (2 * a * 2^k) by ring. replace (b * (2 * 2^k)) with (2 * b * 2^k) by ring. auto.
    - rewrite E. cbn [obind]. exists t'. rewrite P_nil, (mon_left Mon) in HP. destruct J' as (G' & LV' & _).
      split; [|split; auto].
      + rewrite HP. do 2 f_equal. apply P_ext. intros i Hi. apply LV1. unfold l', r' in *. lia.
      + intros p Hp. rewrite LV', LV1; auto.
  Qed.

  Lemma pull_ok n t id : length t = 2 * n -> id < n ->
    exists t', lz_pull op t id = Some t' /\ length t' = 2 * n /\ (forall j, G t' j = G t j) /\
      F t' id = op (F t (2*id)) (F t (2*id+1)) /\ (forall j, j <> id -> F t' j = F t j).
  Proof.
    intros L H. unfold lz_pull. do 3 lsimp. eexists; split; [reflexivity|]. rewrite lset_length. split; auto.
    split; [|split].
    - intros j. lval. destruct (Nat.eqb_spec id j); subst; auto.
    - lval. now rewrite Nat.eqb_refl.
    - intros j Hj. lval. now rewrite (proj2 (Nat.eqb_neq id j)) by auto.
  Qed.

  Lemma update_ok n t l r f : 1 <= n -> small (2*n) -> good n t -> l <= r <= n ->
    exists t', lz_update op comp aid act (mk_lz n t) l r f = Some (mk_lz n t') /\ good n t' /\
      (forall p, n <= p < 2 * n -> LV t' p = if (l+n <=? p) && (p <? r+n) then act f (LV t p) else LV t p).
  Proof.
    intros Hn Hs Gd Hlr. unfold lz_update. cbn [lz_size].
    destruct (Nat.eqb_spec l r) as [->|Nlr].
    { exists t. split; auto. split; auto. intros p Hp. replace ((r+n <=? p) && (p <? r+n)) with false by lia. auto. }
    destruct (@lazy_ok n t l r) as (t1 & ids & E1 & G1 & LV1 & Ok & U1); auto; [lia|].
    rewrite E1. cbn [obind]. clear E1.
    set (l' := l + n) in *. set (r' := r + n) in *.
    set (J := fun (t : list node) => length t = 2*n /\ G t 0 = aid /\ (forall j, F t j = F t1 j) /\
         (forall y, 1 <= y < n -> ~ edge l' r' y -> cons t y) /\ (forall y, 1 <= y -> edge l' r' y -> G t y = aid)).
    (* one multiplication *)
    assert (Touch : forall k x t, J t -> inner l' r' k x -> edge l' r' (x/2) ->
       exists t', lz_mul comp f x t = Some t' /\ J t' /\
         forall p, n <= p < 2*n -> LV t' p = if p / 2^k =? x then act f (LV t p) else LV t p).
    { intros k x t2 (L2 & Z2 & F2 & C2 & U2) In Ed. pose proof In as (In1 & In2). pose proof (pow2_pos k).
      assert (Hx : 1 <= x < 2*n) by (unfold l', r' in *; nia).
      unfold lz_mul. do 2 lsimp. eexists; split; [reflexivity|].
      set (t3 := lset t2 x (F t2 x, comp (G t2 x) f)).
      assert (F3 : forall j, F t3 j = F t2 j). { intros j. unfold t3. lval. destruct (Nat.eqb_spec x j); subst; auto. }
      assert (G3 : G t3 x = comp (G t2 x) f) by (unfold t3; lval; now rewrite Nat.eqb_refl).
      assert (G3' : forall j, j <> x -> G t3 j = G t2 j).
      { intros j Hj. unfold t3. lval. now rewrite (proj2 (Nat.eqb_neq x j)) by auto. }
      assert (NE : ~ edge l' r' x) by (apply inner_not_edge with n k; auto; unfold l', r'; lia).
      split.
      - split; [unfold t3; now rewrite lset_length|]. split; [rewrite G3'; auto; lia|].
        split; [intros; rewrite F3; auto|]. split.
        + intros y Hy Hne. specialize (C2 y Hy Hne). unfold cons, N in *. rewrite !F3, C2.
          rewrite !G3'; auto; intros Q; apply Hne; [replace y with (x/2) by lia|replace y with (x/2) by lia]; auto.
        + intros y Hy He. rewrite G3'; auto. intros ->. auto.
      - assert (Hu : forall j, 1 <= x / 2 / 2^j -> G t2 (x/2/2^j) = aid).
        { intros j Hj. apply U2; auto. clear Hj. induction j.
          - now rewrite Nat.pow_0_r, Nat.div_1_r.
          - rewrite <- div_pow_S. now apply edge_half. }
        destruct (@U_mul _ _ act aid act_id (G t2) (G t3) x f comp act_comp Hu ltac:(lia) G3 G3') as (A1 & A2).
        intros p Hp. unfold LV. rewrite F3. destruct (Nat.eqb_spec (p/2^k) x) as [Ep|Ep].
        + eapply A2; eauto.
        + apply A1. intros j Hj. apply Ep.
          replace k with j; auto. apply inner_height with (n := n) (l := l') (r := r') (x := x) (p := p); auto; unfold l', r'; lia. }
    destruct (@walk_rule _ (lz_mul comp f) (lz_mul comp f) l' r' (fun k a b t => J t /\ l' <= a * 2^k /\ a <= b /\ b * 2^k <= r' /\
        forall p, n <= p < 2*n -> LV t p = if (l' <=? p) && (p <? r') && negb ((a <=? p/2^k) && (p/2^k <? b)) then act f (LV t1 p) else LV t1 p) t1)
      as (t2 & k & a & E & J2 & _ & _ & _ & LV2).
    - unfold l', r'; lia.
    - split.
      { destruct G1 as (L1 & Z1 & C1). split; auto. split; auto. split; auto. split; [intros; apply C1; auto|].
        intros y Hy He. apply U1; auto. apply (ids_edge Ok); auto. }
      rewrite Nat.pow_0_r, !Nat.mul_1_r. split; [lia|]. split; [unfold l', r'; lia|]. split; [lia|].
      intros p Hp. rewrite Nat.div_1_r. replace ((l' <=? p) && (p <? r') && negb ((l' <=? p) && (p <? r'))) with false; auto.
      destruct ((l' <=? p) && (p <? r')); auto.
    - intros k a b t2 (J2 & B1 & B2 & B3 & LV2) Oa Hab In Ed _.
      destruct (@Touch k a t2 J2 In Ed) as (t3 & E3 & J3 & LV3). exists t3. split; auto.
      split; auto. pose proof (pow2_pos k). split; [nia|]. split; [lia|]. split; auto.
      intros p Hp. rewrite LV3, LV2 by auto. pose proof In as (In1 & In2).
      pose proof (Nat.div_mod_eq p (2^k)) as D. pose proof (Nat.mod_upper_bound p (2^k) ltac:(lia)) as B.
      destruct (Nat.eqb_spec (p/2^k) a) as [Ep|Ep].
      + assert (l' <= p < r') by nia. replace (l' <=? p) with true by lia. replace (p <? r') with true by lia.
        rewrite Ep. replace (a <=? a) with true by lia. replace (a <? b) with true by lia. replace (a+1 <=? a) with false by lia. reflexivity.
      + replace (a + 1 <=? p / 2^k) with (a <=? p/2^k) by lia. auto.
    - intros k a b t2 (J2 & B1 & B2 & B3 & LV2) Oa Hab In Ed.
      destruct (@Touch k (b-1) t2 J2 In Ed) as (t3 & E3 & J3 & LV3). exists t3. split; auto.
      split; auto. pose proof (pow2_pos k). split; [nia|]. split; [lia|]. split; [nia|].
      intros p Hp. rewrite LV3, LV2 by auto. pose proof In as (In1 & In2).
      pose proof (Nat.div_mod_eq p (2^k)) as D. pose proof (Nat.mod_upper_bound p (2^k) ltac:(lia)) as B.
      destruct (Nat.eqb_spec (p/2^k) (b-1)) as [Ep|Ep].
      + assert (l' <= p < r') by nia. replace (l' <=? p) with true by lia. replace (p <? r') with true by lia.
        rewrite Ep. replace (a <=? b-1) with true by lia. replace (b-1 <? b) with true by lia. replace (b-1 <? b-1) with false by lia. reflexivity.
      + replace (p / 2^k <? b-1) with (p/2^k <? b) by lia. auto.
    - intros k a b t2 (J2 & B1 & B2 & B3 & LV2). split; auto. rewrite Nat.pow_succ_r'. split; [lia|]. split; [lia|]. split; [lia|].
      intros p Hp. rewrite LV2 by auto. replace (2 * 2^k) with (2^(S k)) by apply Nat.pow_succ_r'. rewrite <- div_pow_S.
      replace (2*a <=? p/2^k) with (a <=? p/2^k/2) by lia. replace (p/2^k <? 2*b) with (p/2^k/2 <? b) by lia. auto.
    - rewrite E. cbn [obind]. clear E.
      assert (LV2' : forall p, n <= p < 2*n -> LV t2 p = if (l' <=? p) && (p <? r') then act f (LV t p) else LV t p).
      { intros p Hp. rewrite LV2, !LV1 by auto. replace ((a <=? p / 2^k) && (p / 2^k <? a)) with false by lia. rewrite andb_true_r. auto. }
      clear LV2 k a U1 LV1.
      match goal with |- exists _, obind (for_each _ ?b _) _ = _ /\ _ => set (body := b) end.
      assert (K : forall Q Pre t2, ids = Pre ++ Q -> length t2 = 2*n -> G t2 0 = aid -> (forall y, 1 <= y < n -> ~ In y Q -> cons t2 y) ->
        exists t', for_each Q body t2 = Some t' /\ good n t' /\ (forall p, n <= p < 2*n -> LV t' p = LV t2 p)).
      { clear t2 J2 LV2'. induction Q as [|x Q IH]; intros Pre t2 EQ L2 Z2 C2.
        - exists t2. split; auto. split; auto. split; auto. 
        - assert (Hx : In x ids) by (rewrite EQ; apply in_or_app; right; now left).
          pose proof (ids_lt Ok _ Hx) as Hxn.
          (* nothing in Q is a child of x *)
          assert (Child : forall c, 1 <= c -> c / 2 = x -> ~ In c Q).
          { intros c Hc1 Hc Hin. apply in_split in Hin. destruct Hin as (Q1 & Q2 & EQ2).
            pose proof (@ids_order _ _ _ _ Ok (Pre ++ x :: Q1) c Q2) as O.
            rewrite EQ, EQ2 in O. rewrite <- app_assoc in O. specialize (O eq_refl Hc1 x).
            assert (In x (Pre ++ x :: Q1)) by (apply in_or_app; right; now left). specialize (O H). lia. }
          cbn [for_each]. unfold body at 1.
          destruct (@propagate_ok n t2 (2*x) L2 ltac:(lia)) as (t3 & E3 & S3). { intros Q0. exact Z2. }
          rewrite E3. cbn [obind].
          assert (Z3 : G t3 0 = aid) by (eapply step_G0; eauto).
          destruct (@propagate_ok n t3 (2*x+1) (st_len S3) ltac:(lia)) as (t4 & E4 & S4). { intros. exact Z3. }
          rewrite E4. cbn [obind].
          assert (Z4 : G t4 0 = aid) by (eapply step_G0; eauto).
          destruct (@pull_ok n t4 x (st_len S4) Hxn) as (t5 & E5 & L5 & G5 & F5 & F5').
          rewrite E5. cbn [obind].
          destruct (IH (Pre ++ [x]) t5) as (t' & E' & G' & LV').
          + rewrite <- app_assoc. auto.
          + auto.
          + rewrite G5; auto.
          + intros y Hy Hny. destruct (Nat.eq_dec y x) as [->|Nyx].
            * unfold cons, N. rewrite F5, !G5. rewrite !F5' by lia.
              destruct (st_push S4) as (P1 & P2 & P3). rewrite P1. rewrite P3 by lia.
              destruct (st_push S3) as (P1' & _). rewrite P1'. rewrite !act_id. auto.
            * assert (C4 : cons t4 y).
              { eapply step_cons; eauto. eapply step_cons; eauto. apply C2; auto. intros [->|?]; auto. }
              unfold cons, N in *. rewrite !G5. rewrite F5' by auto. rewrite C4.
              assert (Hyx : y <> x / 2).
              { intros ->. destruct (ids_closed Ok _ Hx) as [?|Hin]; [lia|].
                rewrite EQ in Hin. apply in_app_or in Hin. destruct Hin as [Hin|[Q0|Hin]]; auto.
                pose proof (@ids_order _ _ _ _ Ok Pre x Q EQ ltac:(lia) _ Hin). lia. }
              rewrite !F5' by lia. auto.
          + exists t'. split; auto. split; auto. intros p Hp. rewrite LV' by auto.
            transitivity (LV t4 p).
            * unfold LV. rewrite F5' by lia. apply (@U_ext _ _ act aid act_id). intros j w _. now rewrite G5.
            * rewrite (@step_LV n t3 t4 (2*x+1)) by (auto; lia). apply (@step_LV n t2 t3 (2*x)); auto. lia. }
      destruct J2 as (L2 & Z2 & F2 & C2 & U2).
      destruct (K ids [] t2 eq_refl L2 Z2) as (t' & E' & G' & LV').
      { intros y Hy Hny. apply C2; auto. intros He. apply Hny. apply (ids_edge Ok); auto. lia. }
      rewrite E'. cbn [obind]. exists t'. split; auto. split; auto. intros p Hp. rewrite LV', LV2' by auto. auto.
  Qed.
End Lazy.
