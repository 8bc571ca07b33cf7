(** Construction, histories and point assignment of the lazy segment tree. *)
From Verif Require Import Base BaseLemmas Array2 FenwickModel FenwickProof LazySegModel LazySegSpec LazySegIds LazySegProof.
Set Implicit Arguments.
Ltac Zify.zify_post_hook ::= Z.div_mod_to_equations.

Lemma map_range_length {M} (g : M -> M) l r xs : l <= r <= length xs -> length (map_range g l r xs) = length xs.
Proof.
  intros. unfold map_range. rewrite !app_length, map_length, slice_length, firstn_length, skipn_length by lia. lia.
Qed.
Lemma get_map_range {M} (g : M -> M) l r xs i x : l <= r <= length xs -> get xs i = Some x ->
  get (map_range g l r xs) i = Some (if (l <=? i) && (i <? r) then g x else x).
Proof.
  intros H E. pose proof (get_some_lt _ _ E) as Hi. unfold map_range.
  assert (L1 : length (firstn l xs) = l) by (rewrite firstn_length; lia).
  assert (L2 : length (map g (slice l r xs)) = r - l) by (rewrite map_length, slice_length by lia; auto).
  destruct (Nat.lt_ge_cases i l).
  - rewrite get_app_l by lia. rewrite get_firstn by auto. replace (l <=? i) with false by lia. auto.
  - rewrite get_app_r by lia. rewrite L1. replace (l <=? i) with true by lia. cbn [andb].
    destruct (Nat.ltb_spec i r).
    + rewrite get_app_l by lia. rewrite get_map, get_slice by lia. replace (l + (i - l)) with i by lia. rewrite E. auto.
    + rewrite get_app_r by lia. rewrite L2, get_skipn. replace (r + (i - l - (r-l))) with i by lia. auto.
Qed.

Lemma bitlen_pow_lt n : 1 <= n -> 2 ^ bitlen (n-1) < 2 * n.
Proof.
  intros. unfold bitlen. destruct (Nat.eqb_spec (n-1) 0); [cbn; lia|].
  pose proof (Nat.log2_spec (n-1) ltac:(lia)). rewrite Nat.pow_succ_r'. lia.
Qed.

Section Lazy2.
  Variables (M A : Type) (op : M -> M -> M) (e : M) (comp : A -> A -> A) (aid : A) (act : A -> M -> M).
  Hypothesis Mon : monoid_laws op e.
  Hypothesis act_id : forall v, act aid v = v.
  Hypothesis act_comp : forall a b v, act (comp a b) v = act b (act a v).
  Hypothesis act_op : forall a x y, act a (op x y) = op (act a x) (act a y).

  Notation node := (M * A)%type.
  Notation U := (U act).
  Notation F := (F e aid).
  Notation G := (G e aid).
  Notation N := (N e aid act).
  Notation LV := (LV e aid act).
  Notation cons := (cons op e aid act).
  Notation good := (good op e aid act).
  Notation P := (P op e).

  Ltac lsimp := rewrite ?set_some by (rewrite ?lset_length; lia); cbn [obind];
    rewrite ?(@get_FG _ _ e aid) by (rewrite ?lset_length; lia); cbn [obind].
  Ltac lval := rewrite ?(@F_lset _ _ e aid), ?(@G_lset _ _ e aid) by (rewrite ?lset_length; lia).

  Definition clean (t : list node) := forall j v, act (G t j) v = v.

  Lemma clean_LV t p : clean t -> LV t p = F t p.
  Proof.
    intros C. unfold LazySegProof.LV. transitivity (U (fun _ => aid) p (F t p)).
    - apply (@U_ext _ _ act aid act_id). intros. rewrite act_id. apply C.
    - apply U_unit with aid; auto.
  Qed.

  Lemma new_ok n t : t = repeat (e, aid) (n * 2) -> length t = 2*n /\ (forall j, F t j = e) /\ (forall j, G t j = aid).
  Proof.
    intros ->. split; [rewrite repeat_length; lia|].
    assert (K : forall j, nth j (repeat (e, aid) (n*2)) (e, aid) = (e, aid)).
    { intros j. destruct (Nat.lt_ge_cases j (n*2)); [apply nth_repeat|]. apply nth_overflow. rewrite repeat_length. auto. }
    split; intros j; unfold LazySegProof.F, LazySegProof.G; rewrite K; auto.
  Qed.

  (** A list of length at most [n] represented by the tree. *)
  Definition rep n (t : list node) (xs : list M) := good n t /\ length xs <= n /\ forall i x, get xs i = Some x -> LV t (n+i) = x.

  Lemma build_ok xs : 1 <= length xs ->
    exists n t, lz_build op e aid xs = Some (mk_lz n t) /\ 1 <= n < 2 * length xs /\ rep n t xs /\ clean t.
  Proof.
    intros Hx. unfold lz_build, lz_new. replace (negb (length xs =? 0)) with true by (destruct (Nat.eqb_spec (length xs) 0); auto; lia).
    cbn [guard obind lz_size lz_tree]. set (n := 2 ^ bitlen (length xs - 1)).
    assert (Hn : length xs <= n). { pose proof (bitlen_le (length xs - 1)). unfold n. lia. }
    assert (Hn2 : n < 2 * length xs) by (apply bitlen_pow_lt; auto).
    destruct (@new_ok n _ eq_refl) as (L0 & F0 & G0). set (t0 := repeat (e,aid) (n*2)) in *.
    match goal with |- exists _ _, obind (for_each _ ?b _) _ = _ /\ _ => set (b1 := b) end.
    destruct (@for_each_rule _ _ (fun done rest '(t, i) => xs = done ++ rest /\ i = length done /\ length t = 2*n /\ (forall j, G t j = aid) /\
        forall j x, get done j = Some x -> F t (n+j) = x) b1 xs [] (t0, 0)) as ((t1 & i1) & E1 & _ & _ & L1 & G1 & F1).
    - repeat split; auto. intros j x Q. destruct j; discriminate.
    - intros done x rest (t & i) (Ex & Ei & L & Gt & Ft). unfold b1. 
      assert (i < n). { rewrite Ex in Hn. rewrite app_length in Hn. simpl in Hn. lia. }
      do 2 lsimp. eexists; split; [reflexivity|]. split; [rewrite <- app_assoc; auto|]. split; [rewrite app_length; simpl; lia|].
      split; [rewrite lset_length; auto|]. split.
      + intros j. lval. destruct (n + i =? j); auto.
      + intros j y Q. lval. destruct (Nat.eqb_spec (n+i) (n+j)).
        * assert (j = i) by lia. subst j i. rewrite get_app_r, Nat.sub_diag in Q by lia. simpl in Q. congruence.
        * rewrite get_app_l in Q; [apply Ft; auto|]. apply get_some_lt in Q. rewrite app_length in Q. simpl in Q. lia.
    - rewrite E1. cbn [obind]. simpl app in F1.
      match goal with |- exists _ _, obind (for_down _ _ ?b _) _ = _ /\ _ => set (b2 := b) end.
      destruct (@for_down_rule _ (fun i t => length t = 2*n /\ (forall j, G t j = aid) /\ (forall j, n <= j -> F t j = F t1 j) /\
           forall y, i <= y < n -> F t y = op (F t (2*y)) (F t (2*y+1))) b2 1 (n-1) t1) as (t & E & L & Gt & Ft & Ct).
      + repeat split; auto. intros. lia.
      + intros i t Hi (L & Gt & Ft & Ct). unfold b2.
        destruct (@pull_ok _ _ op e comp aid act act_id act_comp act_op n t i L ltac:(lia)) as (t' & E' & L' & G' & F' & O').
        rewrite E'. exists t'. split; auto. split; auto. split; [intros; rewrite G'; auto|]. split.
        * intros j Hj. rewrite O' by lia. auto.
        * intros y Hy. destruct (Nat.eq_dec y i) as [->|].
          -- rewrite F', !O' by lia. auto.
          -- rewrite !O' by lia. apply Ct. lia.
      + rewrite E. cbn [obind]. exists n, t. split; auto. split; [lia|].
        assert (C : clean t) by (intros j v; rewrite Gt; apply act_id).
        split; auto. split; [|split; auto].
        * split; auto. split; auto. intros y Hy. unfold LazySegProof.cons, LazySegProof.N. rewrite !Gt, !act_id. apply Ct; auto.
        * intros i x Q. rewrite clean_LV by auto. rewrite Ft by lia. apply F1; auto.
  Qed.

  Lemma new_rep n0 : 1 <= n0 ->
    exists n t, lz_new e aid n0 = Some (mk_lz n t) /\ 1 <= n < 2 * n0 /\ rep n t (repeat e n0) /\ clean t.
  Proof.
    intros Hx. unfold lz_new. replace (negb (n0 =? 0)) with true by (destruct (Nat.eqb_spec n0 0); auto; lia).
    cbn [guard obind lz_size lz_tree]. set (n := 2 ^ bitlen (n0 - 1)).
    assert (Hn : n0 <= n). { pose proof (bitlen_le (n0 - 1)). unfold n. lia. }
    assert (Hn2 : n < 2 * n0) by (apply bitlen_pow_lt; auto).
    destruct (@new_ok n _ eq_refl) as (L0 & F0 & G0). eexists _, _. split; [reflexivity|]. split; [lia|].
    set (t := repeat _ _) in *. assert (C : clean t) by (intros j v; rewrite G0; auto).
    split; auto. split; [|split; [now rewrite repeat_length|]].
    - split; auto. split; auto. intros y Hy. unfold LazySegProof.cons, LazySegProof.N. rewrite !G0, !F0, !act_id. symmetry. apply (mon_left Mon).
    - intros i x Q. rewrite clean_LV, F0 by auto. rewrite get_repeat in Q; [congruence|]. apply get_some_lt in Q. now rewrite repeat_length in Q.
  Qed.

  Lemma rep_P n t xs l r : rep n t xs -> l <= r <= length xs -> P (LV t) (l+n) (r+n) = product op e (slice l r xs).
  Proof.
    intros (_ & Hl & H) Hlr. unfold LazySegProof.P. f_equal. apply get_ext_len.
    - rewrite map_length, seq_length, slice_length by lia. lia.
    - intros i. rewrite map_length, seq_length. intros Hi. rewrite get_map, get_seq by auto. rewrite get_slice by lia.
      destruct (get_lt xs (i := l+i)) as (x & E); [lia|]. rewrite E. simpl. f_equal. replace (l+n+i) with (n+(l+i)) by lia. auto.
  Qed.

  Lemma run_ok n (Hn : 1 <= n) (Hs : small (2*n)) : forall h t xs, rep n t xs -> Forall (fun c => ~ is_set c /\ lz_valid (length xs) c) h ->
    exists T vs, lz_run op e comp aid act (mk_lz n t) h = Some (T, vs) /\ map Some vs = snd (spec_run op e act xs h).
  Proof.
    induction h as [|c h IH]; intros t xs R Hh; [eexists _, []; split; reflexivity|].
    inversion Hh as [|? ? (Ns & V) Hh']; subst. pose proof R as (Gd & Hl & Hv). destruct c as [l r f|l r|i|i x]; simpl in Ns, V; try tauto; cbn [lz_run spec_run].
    - destruct (@update_ok _ _ op e comp aid act act_id act_comp act_op n t l r f) as (t' & E & G' & LV'); auto; [lia|].
      rewrite E. cbn [obind]. apply IH.
      + split; auto. rewrite map_range_length by auto. split; auto. intros i x Q.
        assert (Hi : i < length xs). { apply get_some_lt in Q. now rewrite map_range_length in Q by auto. }
        destruct (get_lt xs Hi) as (y & Ey). rewrite (get_map_range _ (l:=l) (r:=r) _ i V Ey) in Q. inversion Q; subst. rewrite LV' by lia.
        replace ((l+n <=? n+i) && (n+i <? r+n)) with ((l <=? i) && (i <? r)) by lia. rewrite (Hv _ _ Ey). auto.
      + rewrite map_range_length by auto. auto.
    - destruct (@query_ok _ _ op e comp aid act Mon act_id act_comp act_op n t l r) as (t' & E & G' & LV'); auto; [lia|].
      rewrite E. cbn [obind]. destruct (IH t' xs) as (T & vs & E2 & V2); auto.
      { split; auto. split; auto. intros i x Q. rewrite LV'; auto. apply get_some_lt in Q. lia. }
      rewrite E2. cbn [obind]. eexists _, _. split; [reflexivity|]. destruct (spec_run op e act xs h) as (ys & ws). simpl in *. rewrite V2. f_equal. f_equal.
      apply rep_P; auto.
    - destruct (@get_ok _ _ op e comp aid act act_id act_comp act_op n t i) as (t' & E & G' & LV'); auto; [lia|].
      rewrite E. cbn [obind]. destruct (IH t' xs) as (T & vs & E2 & V2); auto.
      { split; auto. split; auto. intros j x Q. rewrite LV'; auto. apply get_some_lt in Q. lia. }
      rewrite E2. cbn [obind]. eexists _, _. split; [reflexivity|]. destruct (spec_run op e act xs h) as (ys & ws). simpl in *. rewrite V2. f_equal.
      destruct (get_lt xs V) as (x & Ex). rewrite Ex. f_equal. auto.
  Qed.

  (** *** set, when every pending operator is neutral *)
  Lemma step_clean n t t' id : step e aid act n t t' id -> clean t -> clean t'.
  Proof.
    intros St C j v. destruct (st_push St) as (P1 & P2 & P3).
    destruct (Nat.eq_dec j id) as [->|Nj]; [rewrite P1; auto|].
    destruct (Nat.eq_dec (j/2) id) as [E|E]; [destruct (Nat.lt_ge_cases id n)|].
    - rewrite P2 by auto. rewrite C. apply C.
    - rewrite P3 by auto. apply C.
    - rewrite P3 by auto. apply C.
  Qed.

  Lemma propagates_clean n : 1 <= n -> forall ids t t', (forall x, In x ids -> x < n) -> length t = 2*n -> G t 0 = aid -> clean t ->
    for_each ids (fun id t => lz_propagate comp aid act n t id) t = Some t' -> clean t'.
  Proof.
    intros Hn. induction ids as [|x ids IH]; intros t t' Hx L Z C E; simpl in E; [inversion E; subst; auto|].
    assert (x < n) by (apply Hx; now left).
    destruct (@propagate_ok _ _ op e comp aid act act_id act_comp act_op n t x L ltac:(lia) ltac:(auto)) as (t1 & E1 & S1).
    rewrite E1 in E. cbn [obind] in E. apply IH with t1; auto.
    - intros. apply Hx. now right.
    - apply (st_len S1).
    - eapply step_G0; eauto.
    - eapply step_clean; eauto.
  Qed.

  Lemma lazy_clean n t l r t' ids : 1 <= n -> l < r -> good n t -> clean t -> lz_lazy comp aid act (mk_lz n t) l r = Some (t', ids) ->
    (forall x, In x ids -> x < n) -> clean t'.
  Proof.
    intros Hn Hlr (L & Z & _) C E Hi. unfold lz_lazy in E. replace (l =? r) with false in E by lia. cbn [lz_size lz_tree] in E.
    destruct (set_ids (l+n) (r+n)) as [ids'|]; [|discriminate]. cbn [obind] in E.
    destruct (for_each (rev ids') (fun id t => lz_propagate comp aid act n t id) t) as [t1|] eqn:E1; [|discriminate]. cbn [obind] in E. inversion E; subst.
    eapply propagates_clean with (ids := rev ids); eauto. intros x Hx. apply Hi. now apply in_rev.
  Qed.

  Lemma set_ok n t i x : 1 <= n -> small (2*n) -> good n t -> clean t -> i < n ->
    exists t', lz_set op comp aid act (mk_lz n t) i x = Some (mk_lz n t') /\ good n t' /\ clean t' /\
      forall p, n <= p < 2*n -> LV t' p = if p =? n + i then x else LV t p.
  Proof.
    intros Hn Hs Gd C Hi. unfold lz_set. cbn [lz_size].
    destruct (@lazy_ok _ _ op e comp aid act act_id act_comp act_op n t i (i+1)) as (t1 & ids & E1 & G1 & LV1 & Ok & U1); auto; [lia|].
    assert (C1 : clean t1) by (eapply lazy_clean with (l := i) (r := i+1) (t := t); eauto; [lia|apply (ids_lt Ok)]).
    rewrite E1. cbn [obind]. destruct G1 as (L1 & Z1 & Co1). do 2 lsimp.
    set (t2 := lset t1 (i+n) (x, G t1 (i+n))).
    assert (G2 : forall j, G t2 j = G t1 j). { intros j. unfold t2. lval. destruct (Nat.eqb_spec (i+n) j); subst; auto. }
    match goal with |- exists _, obind (loop _ ?b _) _ = _ /\ _ => set (body := b) end.
    destruct (@loop_rule _ _ (fun '(t, u) => u < n /\ length t = 2*n /\ (forall j, G t j = G t1 j) /\
        (forall p, n <= p -> F t p = if p =? i + n then x else F t1 p) /\
        forall y, 1 <= y < n -> (exists j, y = u / 2^j) \/ F t y = op (F t (2*y)) (F t (2*y+1)))
       snd (fun t => length t = 2*n /\ (forall j, G t j = G t1 j) /\
        (forall p, n <= p -> F t p = if p =? i + n then x else F t1 p) /\
        forall y, 1 <= y < n -> F t y = op (F t (2*y)) (F t (2*y+1))) body) with (fuel := S (i+n)) (s := (t2, (i+n)/2)) as (t3 & E3 & L3 & G3 & F3 & Co3).
    - intros (t3 & u) (Hu & L3 & G3 & F3 & Co3). unfold body. destruct (Nat.ltb_spec 0 u).
      + destruct (@pull_ok _ _ op e comp aid act act_id act_comp act_op n t3 u L3 Hu) as (t4 & E4 & L4 & G4 & F4 & O4).
        rewrite E4. cbn [obind]. eexists; split; [reflexivity|]. split; [|cbn [snd]; lia].
        split; [lia|]. split; auto. split; [intros; now rewrite G4|]. split; [intros p Hp; rewrite O4 by lia; auto|].
        intros y Hy. destruct (Nat.eq_dec y (u/2)) as [Ey|Ny]. { left. exists 0. now rewrite Nat.pow_0_r, Nat.div_1_r. }
        destruct (Nat.eq_dec y u) as [->|Nyu].
        * right. rewrite F4, !O4 by lia. auto.
        * destruct (Co3 y Hy) as [(j & Ej)|Q].
          -- destruct j. { rewrite Nat.pow_0_r, Nat.div_1_r in Ej. lia. } left. exists j. rewrite Ej. symmetry. apply div_shift.
          -- right. rewrite !O4 by lia. auto.
      + eexists; split; [reflexivity|]. cbn beta iota. split; auto. split; auto. split; auto. intros y Hy.
        destruct (Co3 y Hy) as [(j & Ej)|Q]; auto. assert (u = 0) by lia. subst u. rewrite Nat.div_0_l in Ej by (apply Nat.pow_nonzero; lia). lia.
    - split; [lia|]. split; [unfold t2; now rewrite lset_length|]. split; auto. split.
      + intros p Hp. unfold t2. lval. rewrite (Nat.eqb_sym p). auto.
      + intros y Hy. destruct (Nat.eq_dec y ((i+n)/2)) as [->|Ny]. { left. exists 0. now rewrite Nat.pow_0_r, Nat.div_1_r. }
        right. specialize (Co1 y Hy). unfold LazySegProof.cons, LazySegProof.N in Co1. rewrite !C1 in Co1.
        unfold t2. lval. replace (i+n =? y) with false by lia. replace (i+n =? 2*y) with false by lia. replace (i+n =? 2*y+1) with false by lia. auto.
    - cbn [snd]. lia.
    - rewrite E3. cbn [obind]. exists t3. assert (C3 : clean t3) by (intros j v; rewrite G3; apply C1). split; auto. split; [|split; auto].
      + split; auto. split; [rewrite G3; auto|]. intros y Hy. unfold LazySegProof.cons, LazySegProof.N. rewrite !C3. auto.
      + intros p Hp. rewrite clean_LV, F3 by (auto; lia). rewrite (Nat.add_comm n i). destruct (p =? i + n); auto.
        rewrite <- LV1 by auto. now rewrite clean_LV.
  Qed.

  Lemma query_clean n t l r T v : 1 <= n -> small (2*n) -> good n t -> clean t -> l <= r <= n ->
    lz_query op e comp aid act (mk_lz n t) l r = Some (T, v) -> clean (lz_tree T).
  Proof.
    intros Hn Hs Gd C Hlr E. unfold lz_query in E. cbn [lz_size] in E.
    destruct (Nat.eq_dec l r) as [->|Nlr].
    { unfold lz_lazy in E. rewrite Nat.eqb_refl in E. cbn [obind lz_tree] in E. unfold walk in E. cbn [loop] in E.
      rewrite Nat.ltb_irrefl in E. cbn [obind] in E. inversion E; subst. auto. }
    destruct (@lazy_ok _ _ op e comp aid act act_id act_comp act_op n t l r) as (t1 & ids & E1 & G1 & LV1 & Ok & U1); auto; [lia|].
    assert (C1 : clean t1) by (eapply lazy_clean with (l := l) (r := r) (t := t); eauto; [lia|apply (ids_lt Ok)]).
    rewrite E1 in E. cbn [obind] in E.
    match type of E with obind (walk ?a ?b _ _ _) _ = _ => set (fl := a) in E; set (fr := b) in E end.
    assert (K : forall x t2, 1 <= x < 2*n -> good n t2 -> clean t2 -> exists t3, lz_propagate comp aid act n t2 x = Some t3 /\ get t3 x = Some (F t3 x, G t3 x) /\ good n t3 /\ clean t3).
    { intros x t2 Hx (L2 & Z2 & Co2) C2.
      destruct (@propagate_ok _ _ op e comp aid act act_id act_comp act_op n t2 x L2 ltac:(lia) ltac:(auto)) as (t3 & E3 & S3).
      exists t3. split; auto. split; [apply get_FG; rewrite (st_len S3); lia|]. split; [|eapply step_clean; eauto].
      split; [apply (st_len S3)|]. split; [eapply step_G0; eauto|]. intros y Hy. eapply step_cons; eauto. }
    destruct (@walk_rule _ fl fr (l+n) (r+n) (fun k a b '(t, _, _) => good n t /\ clean t) (t1, e, e)) as (((t' & lhs) & rhs) & k & a & E' & G' & C').
    - lia.
    - auto.
    - intros k a b ((t2 & lhs) & rhs) (G2 & C2) _ _ (I1 & I2) _ _. unfold fl. pose proof (pow2_pos k).
      destruct (K a t2) as (t3 & E3 & Gx & G3 & C3); auto; [nia|]. rewrite E3. cbn [obind]. rewrite Gx. cbn [obind]. eexists; split; [reflexivity|]. cbn beta iota. auto.
    - intros k a b ((t2 & lhs) & rhs) (G2 & C2) _ _ (I1 & I2) _. unfold fr. pose proof (pow2_pos k).
      destruct (K (b-1) t2) as (t3 & E3 & Gx & G3 & C3); auto; [nia|]. rewrite E3. cbn [obind]. rewrite Gx. cbn [obind]. eexists; split; [reflexivity|]. cbn beta iota. auto.
    - intros k a b ((t2 & lhs) & rhs). auto.
    - rewrite E' in E. cbn [obind] in E. inversion E; subst. auto.
  Qed.

  Lemma get_clean n t i T v : 1 <= n -> small (2*n) -> good n t -> clean t -> i < n ->
    lz_get comp aid act (mk_lz n t) i = Some (T, v) -> clean (lz_tree T).
  Proof.
    intros Hn Hs Gd C Hi E. unfold lz_get in E. cbn [lz_size] in E.
    destruct (@lazy_ok _ _ op e comp aid act act_id act_comp act_op n t i (i+1)) as (t1 & ids & E1 & G1 & LV1 & Ok & U1); auto; [lia|].
    assert (C1 : clean t1) by (eapply lazy_clean with (l := i) (r := i+1) (t := t); eauto; [lia|apply (ids_lt Ok)]).
    rewrite E1 in E. cbn [obind] in E. destruct G1 as (L1 & Z1 & Co1).
    destruct (@propagate_ok _ _ op e comp aid act act_id act_comp act_op n t1 (i+n) L1 ltac:(lia) ltac:(auto)) as (t3 & E3 & S3).
    rewrite E3 in E. cbn [obind] in E. rewrite (@get_FG _ _ e aid) in E by (rewrite (st_len S3); lia). cbn [obind] in E. inversion E; subst.
    eapply step_clean; eauto.
  Qed.

  (** A history without updates, then one without assignments. *)
  Lemma run_set_ok n (Hn : 1 <= n) (Hs : small (2*n)) h2 : forall h1 t xs, rep n t xs -> clean t ->
    Forall (fun c => ~ is_update c /\ lz_valid (length xs) c) h1 ->
    Forall (fun c => ~ is_set c /\ lz_valid (length xs) c) h2 ->
    exists T vs, lz_run op e comp aid act (mk_lz n t) (h1 ++ h2) = Some (T, vs) /\ map Some vs = snd (spec_run op e act xs (h1 ++ h2)).
  Proof.
    induction h1 as [|c h IH]; intros t xs R C Hh H2; [apply run_ok; auto|].
    inversion Hh as [|? ? (Ns & V) Hh']; subst. pose proof R as (Gd & Hl & Hv). destruct c as [l r f|l r|i|i x]; simpl in Ns, V; try tauto; cbn [lz_run spec_run app].
    - destruct (@query_ok _ _ op e comp aid act Mon act_id act_comp act_op n t l r) as (t' & E & G' & LV'); auto; [lia|].
      assert (C' : clean t') by (apply (query_clean Hn Hs Gd C (l := l) (r := r) ltac:(lia) E)).
      rewrite E. cbn [obind]. destruct (IH t' xs) as (T & vs & E2 & V2); auto.
      { split; auto. split; auto. intros i x Q. rewrite LV'; auto. apply get_some_lt in Q. lia. }
      rewrite E2. cbn [obind]. eexists _, _. split; [reflexivity|]. destruct (spec_run op e act xs (h ++ h2)) as (ys & ws). simpl in *. rewrite V2. f_equal. f_equal.
      apply rep_P; auto.
    - destruct (@get_ok _ _ op e comp aid act act_id act_comp act_op n t i) as (t' & E & G' & LV'); auto; [lia|].
      assert (C' : clean t') by (apply (get_clean Hn Hs Gd C (i := i) ltac:(lia) E)).
      rewrite E. cbn [obind]. destruct (IH t' xs) as (T & vs & E2 & V2); auto.
      { split; auto. split; auto. intros j x Q. rewrite LV'; auto. apply get_some_lt in Q. lia. }
      rewrite E2. cbn [obind]. eexists _, _. split; [reflexivity|]. destruct (spec_run op e act xs (h ++ h2)) as (ys & ws). simpl in *. rewrite V2. f_equal.
      destruct (get_lt xs V) as (x & Ex). rewrite Ex. f_equal. auto.
    - destruct (@set_ok n t i x) as (t' & E & G' & C' & LV'); auto; [lia|].
      rewrite E. cbn [obind]. apply IH; auto; try (rewrite lset_length; auto).
      split; auto. rewrite lset_length. split; auto. intros j y Q. rewrite LV'.
      + rewrite get_lset in Q. replace (i <? length xs) with true in Q by lia. rewrite andb_true_r in Q.
        replace (n + j =? n + i) with (i =? j) by lia. destruct (i =? j); [congruence|]. auto.
      + apply get_some_lt in Q. rewrite lset_length in Q. lia.
  Qed.
End Lazy2.
