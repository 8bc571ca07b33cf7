(** Proofs about [Seg2dModel]: every column of the rows is a one-dimensional segment tree. *)
From Verif Require Import Base BaseLemmas NthExtra SegTreeModel SegTreeProof Seg2dModel.
Set Implicit Arguments.

Section Proof.
  Variables (A : Type) (op : A -> A -> A) (e : A).
  Hypothesis CM : cmonoid_laws op e.

  Lemma M : monoid_laws op e.
  Proof. split; [apply CM|apply CM|]. intros x. rewrite (cm_comm CM). apply CM. Qed.

  Definition col (vs : list (list A)) (j : nat) : list A := map (fun v => nth j v e) vs.
  Definition rows_ok (m : nat) (tb : list (segtree A)) (vs : list (list A)) : Prop :=
    length tb = length vs /\ forall x s v, get tb x = Some s -> get vs x = Some v -> rep op s v /\ length v = m.
  Lemma col_length vs j : length (col vs j) = length vs.
  Proof. apply map_length. Qed.
  Lemma get_col vs j x a : get (col vs j) x = Some a -> exists v, get vs x = Some v /\ nth j v e = a.
  Proof. unfold col. rewrite get_map. destruct (get vs x); cbn; [intros [= <-]; eauto|discriminate]. Qed.
  Lemma get_col_some vs j x v : get vs x = Some v -> get (col vs j) x = Some (nth j v e).
  Proof. unfold col. rewrite get_map. now intros ->. Qed.
  Lemma rows_get m tb vs x : rows_ok m tb vs -> x < length vs -> exists s v, get tb x = Some s /\ get vs x = Some v /\ rep op s v /\ length v = m.
  Proof. intros [L H] Hx. destruct (@get_lt _ vs x Hx) as [v Ev]. destruct (@get_lt _ tb x) as [s Es]; [lia|]. destruct (H x s v Es Ev). eauto 8. Qed.

  Lemma row_set_ok m tb vs x j a : rows_ok m tb vs -> x < length vs -> j < m ->
    exists tb' vs', s2_row_set op tb x j a = Some tb' /\ rows_ok m tb' vs' /\ length vs' = length vs /\
      col vs' j = lset (col vs j) x a /\ forall k, k <> j -> col vs' k = col vs k.
  Proof.
    intros R Hx Hj. destruct (rows_get R Hx) as (s & v & Es & Ev & Hr & Hl). destruct R as [L H]. unfold s2_row_set. rewrite Es. cbn [obind].
    destruct (@set_rep _ op s v j a Hr) as (s' & E & Hr'); [lia|]. rewrite E. cbn [obind]. rewrite set_some by lia.
    exists (lset tb x s'), (lset vs x (lset v j a)). split; [reflexivity|]. split; [|split; [apply lset_length|split]].
    - split; [now rewrite !lset_length|]. intros y t u Et Eu. rewrite get_lset in Et. rewrite get_lset in Eu. destruct (Nat.eqb_spec x y) as [->|N].
      + destruct (Nat.ltb_spec y (length tb)); [|lia]. destruct (Nat.ltb_spec y (length vs)); [|lia]. cbn in Et, Eu. injection Et as <-. injection Eu as <-. split; [auto|now rewrite lset_length].
      + cbn in Et, Eu. eauto.
    - apply get_ext. intros y. unfold col. rewrite get_map, !get_lset, get_map, map_length. destruct (_ && _) eqn:B; [|reflexivity]. cbn. f_equal. apply nth_lset_eq. lia.
    - intros k Hk. apply get_ext. intros y. unfold col. rewrite !get_map, !get_lset. destruct (_ && _) eqn:B; [|reflexivity]. apply andb_true_iff in B as [B _]. apply Nat.eqb_eq in B. subst y. rewrite Ev. cbn. f_equal. apply nth_lset_neq. lia.
  Qed.

  Lemma set_sim m j : j < m -> forall f tb vs x t', rows_ok m tb vs ->
    loop f (fun '(t, i) => if i =? 0 then Some (inr t) else let* t' := st_pull op t i in Some (inl (t', Nat.div2 i))) (col vs j, x) = Some t' ->
    exists tb' vs', loop f (fun '(tb, x) => if x =? 0 then Some (inr tb)
      else let* lrow := get tb (2 * x) in let* a := st_get lrow j in let* rrow := get tb (2 * x + 1) in let* b := st_get rrow j in
        let* tb := s2_row_set op tb x j (op a b) in Some (inl (tb, Nat.div2 x))) (tb, x) = Some tb' /\
      rows_ok m tb' vs' /\ length vs' = length vs /\ col vs' j = t' /\ forall k, k <> j -> col vs' k = col vs k.
  Proof.
    intros Hj f. induction f as [|f IH]; intros tb vs x t' R E; [discriminate|]. cbn [loop] in *. destruct (Nat.eqb_spec x 0).
    - injection E as <-. exists tb, vs. auto 6.
    - destruct (st_pull op (col vs j) x) as [t1|] eqn:P; [|discriminate]. cbn [obind] in E. unfold st_pull in P.
      destruct (get (col vs j) (2 * x)) as [a|] eqn:Ga; [|discriminate]. cbn [obind] in P. destruct (get (col vs j) (2 * x + 1)) as [b|] eqn:Gb; [|discriminate]. cbn [obind] in P.
      apply set_inv in P as [Hx ->]. rewrite col_length in Hx. apply get_col in Ga as (va & Ga & Ea), Gb as (vb & Gb & Eb).
      destruct (rows_get R (get_some_lt _ _ Ga)) as (sa & va' & Gsa & Gva & Ra & La). rewrite Ga in Gva. injection Gva as <-.
      destruct (rows_get R (get_some_lt _ _ Gb)) as (sb & vb' & Gsb & Gvb & Rb & Lb). rewrite Gb in Gvb. injection Gvb as <-.
      rewrite Gsa, Gsb. cbn [obind]. unfold st_get. rewrite (proj1 Ra), (proj1 Rb), (rep_leaf _ Ra), (rep_leaf _ Rb), (get_nth va j e), (get_nth vb j e) by lia. cbn [obind]. rewrite Ea, Eb.
      destruct (@row_set_ok m tb vs x j (op a b) R Hx Hj) as (tb1 & vs1 & E1 & R1 & L1 & C1 & D1). rewrite E1. cbn [obind].
      rewrite <- C1 in E. destruct (IH tb1 vs1 (Nat.div2 x) t' R1 E) as (tb2 & vs2 & E2 & R2 & L2 & C2 & D2). exists tb2, vs2. split; [exact E2|]. split; [auto|]. split; [lia|]. split; [auto|].
      intros k Hk. rewrite D2, D1; auto.
  Qed.

  Definition rep2 (s : segtree2d A) (g : list (list A)) : Prop :=
    s2_n s = length g /\ (forall row, In row g -> length row = s2_m s) /\
    exists vs, length vs = 2 * s2_n s /\ rows_ok (s2_m s) (s2_tb s) vs /\ forall j, j < s2_m s -> rep op (mk_segtree (s2_n s) (col vs j)) (col g j).

  Lemma new_rep2 n m : rep2 (s2_new e n m) (repeat (repeat e m) n).
  Proof.
    unfold s2_new. split; [cbn; now rewrite repeat_length|]. cbn [s2_n s2_m s2_tb]. split; [intros row Hr; apply repeat_spec in Hr; subst; apply repeat_length|].
    exists (repeat (repeat e m) (n * 2)). split; [rewrite repeat_length; lia|]. split.
    - split; [now rewrite !repeat_length|]. intros x s v Es Ev. assert (x < n * 2) by (apply get_some_lt in Es; rewrite repeat_length in Es; lia). rewrite get_repeat in Es by auto. rewrite get_repeat in Ev by auto. injection Es as <-. injection Ev as <-.
      split; [apply rep_new, M|apply repeat_length].
    - intros j Hj. assert (C : forall k, col (repeat (repeat e m) k) j = repeat e k) by (intros k; unfold col; induction k; cbn; [auto|rewrite IHk; f_equal; apply nth_repeat]). rewrite !C. apply (rep_new M).
  Qed.
  Lemma grid_set_col g i j k v : i < length g -> (forall row, In row g -> j < length row) -> col (grid_set g i j v) k = if k =? j then lset (col g j) i v else col g k.
  Proof.
    intros Hi Hr. unfold grid_set. destruct (@get_lt _ g i Hi) as [row Er]. rewrite Er. pose proof (Hr row (get_In _ _ Er)) as Hj. apply get_ext. intros y. unfold col. destruct (Nat.eqb_spec k j) as [->|N].
    - rewrite !get_map, !get_lset, get_map, map_length. destruct (_ && _) eqn:B; [|reflexivity]. cbn. f_equal. now apply nth_lset_eq.
    - rewrite !get_map, !get_lset. destruct (_ && _) eqn:B; [|reflexivity]. apply andb_true_iff in B as [B _]. apply Nat.eqb_eq in B. subst y. rewrite Er. cbn. f_equal. apply nth_lset_neq. lia.
  Qed.
  Lemma grid_set_length g i j (v : A) : length (grid_set g i j v) = length g.
  Proof. unfold grid_set. destruct (get g i); [apply lset_length|auto]. Qed.
  Lemma grid_set_rows g i j (v : A) m : (forall row, In row g -> length row = m) -> forall row, In row (grid_set g i j v) -> length row = m.
  Proof. intros H row. unfold grid_set. destruct (get g i) as [r|] eqn:E; [|apply H]. intros Hr. apply In_lset in Hr as [->|Hr]; [rewrite lset_length; apply H; eapply get_In; eauto|auto]. Qed.

  Lemma set_rep2 s g i j v : rep2 s g -> i < s2_n s -> j < s2_m s -> exists s', s2_set op s i j v = Some s' /\ rep2 s' (grid_set g i j v) /\ s2_n s' = s2_n s /\ s2_m s' = s2_m s.
  Proof.
    intros (En & Hm & vs & Lv & R & Hc) Hi Hj. unfold s2_set. destruct (Nat.ltb_spec i (s2_n s)); [|lia]. destruct (Nat.ltb_spec j (s2_m s)); [|lia]. cbn [andb guard obind].
    destruct (@row_set_ok (s2_m s) (s2_tb s) vs (s2_n s + i) j v R) as (tb1 & vs1 & E1 & R1 & L1 & C1 & D1); [lia|auto|]. rewrite E1. cbn [obind].
    destruct (@set_rep _ op _ _ i v (Hc j Hj)) as (s' & Es & Hr'); [rewrite col_length; lia|]. unfold st_set in Es. cbn [st_size st_tree] in Es. rewrite set_some in Es by (rewrite col_length; lia). cbn [obind] in Es.
    rewrite <- C1 in Es. match type of Es with obind ?l _ = _ => destruct l as [t'|] eqn:El; [|discriminate] end. cbn [obind] in Es. injection Es as <-.
    destruct (@set_sim (s2_m s) j Hj _ _ _ _ _ R1 El) as (tb2 & vs2 & E2 & R2 & L2 & C2 & D2). rewrite E2. cbn [obind]. eexists. split; [reflexivity|]. split; [|auto].
    split; [cbn; now rewrite grid_set_length|]. cbn [s2_n s2_m s2_tb]. split; [now apply grid_set_rows|]. exists vs2. split; [lia|]. split; [auto|]. intros k Hk.
    rewrite grid_set_col by (try lia; intros row Hrow; rewrite (Hm row Hrow); lia). destruct (Nat.eqb_spec k j) as [->|N].
    - rewrite C2. auto.
    - rewrite D2, D1 by auto. auto.
  Qed.
  Lemma sets_rep2 h : forall s g, rep2 s g -> (forall i j v, In (i, j, v) h -> i < s2_n s /\ j < s2_m s) ->
    exists s', s2_sets op s h = Some s' /\ rep2 s' (grid_sets g h) /\ s2_n s' = s2_n s /\ s2_m s' = s2_m s.
  Proof.
    induction h as [|[[i j] v] h IH]; intros s g R H; [exists s; auto|]. unfold s2_sets. cbn [for_each].
    destruct (H i j v (or_introl eq_refl)) as [Hi Hj]. destruct (@set_rep2 s g i j v R Hi Hj) as (s1 & E & R1 & N1 & M1). rewrite E. cbn [obind].
    destruct (IH s1 (grid_set g i j v) R1) as (s2 & E2 & R2 & N2 & M2); [intros i' j' v' Hv; rewrite N1, M1; apply (H i' j' v'); now right|].
    exists s2. split; [exact E2|]. split; [exact R2|]. lia.
  Qed.

  (** ** Query *)
  Definition prod (f : nat -> A) (cl cr : nat) : A := product op e (map f (seq cl (cr - cl))).
  Lemma prod_ext f g cl cr : (forall j, cl <= j < cr -> f j = g j) -> prod f cl cr = prod g cl cr.
  Proof. intros H. unfold prod. f_equal. apply map_ext_in. intros j Hj. apply in_seq in Hj. apply H. lia. Qed.
  Lemma prod_op f g cl cr : prod (fun j => op (f j) (g j)) cl cr = op (prod f cl cr) (prod g cl cr).
  Proof.
    unfold prod. induction (seq cl (cr - cl)) as [|j l IH]; cbn; [now rewrite (cm_left CM)|]. unfold product in IH. rewrite IH.
    rewrite <- !(cm_assoc CM). f_equal. rewrite !(cm_assoc CM). f_equal. apply (cm_comm CM).
  Qed.
  Lemma prod_e cl cr : prod (fun _ => e) cl cr = e.
  Proof. unfold prod. induction (seq cl (cr - cl)) as [|j l IH]; cbn; [auto|]. unfold product in IH. rewrite IH. apply (cm_left CM). Qed.
  Lemma prod_slice v cl cr : cl <= cr -> cr <= length v -> product op e (slice cl cr v) = prod (fun j => nth j v e) cl cr.
  Proof.
    intros H1 H2. unfold prod. f_equal. apply get_ext_len; [rewrite slice_length, map_length, seq_length by auto; auto|]. intros i Hi. rewrite slice_length in Hi by auto.
    rewrite get_slice, get_map, get_seq by auto. cbn. apply get_nth. lia.
  Qed.

  Definition body1 (t : list A) := fun '(lhs, rhs, l, r) =>
      if l <? r then
        let* (lhs, l) :=
          (if Nat.odd l then let* x := get t l in Some (op lhs x, l + 1) else Some (lhs, l)) in
        let* (rhs, r) :=
          (if Nat.odd r then let* x := get t (r - 1) in Some (op x rhs, r - 1) else Some (rhs, r)) in
        Some (inl (lhs, rhs, Nat.div2 l, Nat.div2 r))
      else Some (inr (op lhs rhs)).
  Definition body2 (tb : list (segtree A)) cl cr := fun '(lhs, rhs, l, r) =>
      if l <? r then
        let* (lhs, l) :=
          (if Nat.odd l then let* row := get tb l in let* x := st_query op e row cl cr in Some (op lhs x, l + 1) else Some (lhs, l)) in
        let* (rhs, r) :=
          (if Nat.odd r then let* row := get tb (r - 1) in let* x := st_query op e row cl cr in Some (op x rhs, r - 1) else Some (rhs, r)) in
        Some (inl (lhs, rhs, Nat.div2 l, Nat.div2 r))
      else Some (inr (op lhs rhs)).

  Lemma query_sim m tb vs cl cr : rows_ok m tb vs -> cl <= cr -> cr <= m -> forall f l r lh rh lh0 rh0 res res0 t0, length t0 = length vs ->
    loop f (body1 t0) (lh0, rh0, l, r) = Some res0 ->
    (forall j, cl <= j < cr -> loop f (body1 (col vs j)) (lh j, rh j, l, r) = Some (res j)) ->
    loop f (body2 tb cl cr) (prod lh cl cr, prod rh cl cr, l, r) = Some (prod res cl cr).
  Proof.
    intros R Hc Hm f. induction f as [|f IH]; intros l r lh rh lh0 rh0 res res0 t0 L0 E0 E; [discriminate|]. cbn [loop] in *. unfold body1 at 1 in E0. unfold body2 at 1.
    destruct (l <? r) eqn:Hlr.
    2:{ cbn beta iota. f_equal. rewrite <- prod_op. apply prod_ext. intros j Hj. specialize (E j Hj). unfold body1 at 1 in E. rewrite Hlr in E. now injection E. }
    assert (GL : forall y, y < length vs -> exists row, get tb y = Some row /\ st_query op e row cl cr = Some (prod (fun j => nth y (col vs j) e) cl cr) /\ forall j, get (col vs j) y = Some (nth y (col vs j) e)).
    { intros y Hy. destruct (rows_get R Hy) as (row & v & Er & Ev & Rr & Lr). exists row. split; [auto|]. split.
      - rewrite (query_correct M Rr) by lia. f_equal. rewrite prod_slice by lia. apply prod_ext. intros j Hj. symmetry. apply nth_get. now apply get_col_some.
      - intros j. apply get_nth. now rewrite col_length. }
    (* left *)
    set (l' := if Nat.odd l then l + 1 else l). set (lh' := fun j => if Nat.odd l then op (lh j) (nth l (col vs j) e) else lh j).
    assert (HL : Nat.odd l = true -> l < length vs).
    { intros O. rewrite O in E0. destruct (get t0 l) eqn:G; [apply get_some_lt in G; lia|discriminate]. }
    assert (EL : (if Nat.odd l then let* row := get tb l in let* x := st_query op e row cl cr in Some (op (prod lh cl cr) x, l + 1) else Some (prod lh cl cr, l)) = Some (prod lh' cl cr, l')).
    { unfold l', lh'. destruct (Nat.odd l) eqn:O; [|auto]. destruct (GL l (HL eq_refl)) as (row & -> & Eq & _). cbn [obind]. rewrite Eq. cbn [obind]. now rewrite <- prod_op. }
    rewrite EL. cbn [obind].
    set (r' := if Nat.odd r then r - 1 else r). set (rh' := fun j => if Nat.odd r then op (nth (r - 1) (col vs j) e) (rh j) else rh j).
    assert (HR : Nat.odd r = true -> r - 1 < length vs).
    { intros O. rewrite O in E0. destruct (if Nat.odd l then _ else _) as [[? ?]|] in E0; [|discriminate]. cbn [obind] in E0. destruct (get t0 (r - 1)) eqn:G; [apply get_some_lt in G; lia|discriminate]. }
    assert (ER : (if Nat.odd r then let* row := get tb (r - 1) in let* x := st_query op e row cl cr in Some (op x (prod rh cl cr), r - 1) else Some (prod rh cl cr, r)) = Some (prod rh' cl cr, r')).
    { unfold r', rh'. destruct (Nat.odd r) eqn:O; [|auto]. destruct (GL (r - 1) (HR eq_refl)) as (row & -> & Eq & _). cbn [obind]. rewrite Eq. cbn [obind]. now rewrite <- prod_op. }
    rewrite ER. cbn [obind].
    assert (E0' : exists a b, loop f (body1 t0) (a, b, Nat.div2 l', Nat.div2 r') = Some res0).
    { unfold l', r'. destruct (Nat.odd l) eqn:O1, (Nat.odd r) eqn:O2; cbn [obind] in E0;
      repeat match type of E0 with context [obind (get t0 ?y) _] => destruct (get t0 y); [cbn [obind] in E0|discriminate] end; eauto. }
    destruct E0' as (a & b & E0'). apply (IH _ _ lh' rh' a b res res0 t0 L0 E0'). intros j Hj. specialize (E j Hj). unfold body1 at 1 in E. rewrite Hlr in E. unfold lh', rh', l', r'.
    destruct (Nat.odd l) eqn:O1, (Nat.odd r) eqn:O2; cbn [obind] in E.
    - destruct (GL l (HL eq_refl)) as (? & _ & _ & G1). destruct (GL (r - 1) (HR eq_refl)) as (? & _ & _ & G2). rewrite G1, G2 in E. exact E.
    - destruct (GL l (HL eq_refl)) as (? & _ & _ & G1). rewrite G1 in E. exact E.
    - destruct (GL (r - 1) (HR eq_refl)) as (? & _ & _ & G2). rewrite G2 in E. exact E.
    - exact E.
  Qed.

  Lemma prod_rect g m rl cl rr cr : (forall row, In row g -> length row = m) -> rl <= rr -> rr <= length g -> cl <= cr -> cr <= m ->
    prod (fun j => product op e (slice rl rr (col g j))) cl cr = product op e (rect g rl cl rr cr).
  Proof.
    intros Hm Hr Hrr Hc Hcr. unfold rect. assert (E : forall j, slice rl rr (col g j) = col (slice rl rr g) j).
    { intros j. unfold slice, col. now rewrite skipn_map, firstn_map. }
    rewrite (prod_ext _ (fun j => product op e (col (slice rl rr g) j))) by (intros; now rewrite E).
    assert (Hs : forall row, In row (slice rl rr g) -> length row = m).
    { intros row H. apply Hm. unfold slice in H. apply In_get in H as (i & _ & Ei). apply (get_In g (rl + i)). rewrite <- get_skipn. rewrite <- (get_firstn (skipn rl g) (n := rr - rl)); [exact Ei|].
      apply get_some_lt in Ei. rewrite firstn_length in Ei. lia. }
    clear E. induction (slice rl rr g) as [|row t IH]; cbn [col map flat_map]; [apply prod_e|]. rewrite (product_app M). cbn [product fold_right]. fold (@product A).
    rewrite <- IH by (intros; apply Hs; now right). rewrite (prod_slice row) by (rewrite ?(Hs row (or_introl eq_refl)); auto). rewrite <- prod_op. reflexivity.
  Qed.
  Lemma query_rep2 s g rl cl rr cr : rep2 s g -> rl <= rr -> rr <= s2_n s -> cl <= cr -> cr <= s2_m s ->
    s2_query op e s rl cl rr cr = Some (product op e (rect g rl cl rr cr)).
  Proof.
    intros (En & Hm & vs & Lv & R & Hcol) Hr Hrr Hc Hcr. unfold s2_query.
    destruct (Nat.leb_spec rl (s2_n s)); [|lia]. destruct (Nat.leb_spec rr (s2_n s)); [|lia]. destruct (Nat.leb_spec cl (s2_m s)); [|lia]. destruct (Nat.leb_spec cr (s2_m s)); [|lia]. cbn [andb guard obind].
    pose proof (rep_new M (s2_n s)) as R0. pose proof (query_correct M R0 (l := rl) (r := rr) Hr) as Q0. rewrite repeat_length in Q0. specialize (Q0 Hrr).
    rewrite <- (@prod_rect g (s2_m s)) by (auto; lia).
    pose proof (@query_sim (s2_m s) (s2_tb s) vs cl cr R Hc Hcr (S (rr + s2_n s)) (rl + s2_n s) (rr + s2_n s) (fun _ => e) (fun _ => e) e e
      (fun j => product op e (slice rl rr (col g j))) _ (repeat e (s2_n s * 2)) ltac:(rewrite repeat_length; lia) Q0) as Sm.
    rewrite prod_e in Sm. apply Sm. intros j Hj. assert (Hj' : j < s2_m s) by lia. pose proof (query_correct M (Hcol j Hj') (l := rl) (r := rr) Hr) as Q. rewrite col_length in Q. rewrite <- En in Q. exact (Q Hrr).
  Qed.
End Proof.
