From Verif Require Import Base BaseLemmas SegTreeModel.
Set Implicit Arguments.

Section Proof.
  Variables (A : Type) (op : A -> A -> A) (e : A).
  Hypothesis M : monoid_laws op e.

  Definition PT (t : list A) a b := product op e (slice a b t).

  Lemma PT_split t a b c : a <= b -> b <= c -> PT t a c = op (PT t a b) (PT t b c).
  Proof. intros. unfold PT. rewrite (@slice_app _ a b c) by auto. now apply product_app. Qed.
  Lemma PT_nil t a : PT t a a = e.
  Proof. unfold PT. rewrite slice_nil; auto. Qed.
  Lemma PT_one t a x : get t a = Some x -> PT t a (S a) = x.
  Proof. intros. unfold PT. rewrite slice_cons with (x := x) by (auto; lia). rewrite slice_nil by lia. apply product_one; auto. Qed.

  (** Every internal node is the product of its two children. *)
  Definition node_ok (t : list A) i :=
    exists a b, get t (2*i) = Some a /\ get t (2*i+1) = Some b /\ get t i = Some (op a b).
  Definition tree_ok n (t : list A) :=
    length t = 2 * n /\ forall i, 1 <= i < n -> node_ok t i.

  Lemma node_block n t : tree_ok n t -> forall k i, 1 <= i -> (i + 1) * 2 ^ k <= 2 * n ->
    get t i = Some (PT t (i * 2^k) ((i+1) * 2^k)).
  Proof.
    intros (L & H). induction k; intros i Hi Hb.
    - simpl in *. rewrite !Nat.mul_1_r in *. destruct (get_lt t (i:=i)) as (x & E); [lia|].
      rewrite E. rewrite Nat.add_1_r. now rewrite (PT_one _ _ E).
    - rewrite Nat.pow_succ_r' in *. set (w := 2^k) in *.
      assert (0 < w) by (unfold w; apply Nat.neq_0_lt_0, Nat.pow_nonzero; lia).
      assert (i < n) by nia.
      destruct (H i) as (a & b & Ea & Eb & E); [lia|].
      rewrite IHk in Ea by nia. rewrite IHk in Eb by nia.
      inversion Ea; inversion Eb; subst a b. rewrite E. f_equal.
      rewrite (@PT_split t (i * (2*w)) ((2*i+1)*w)) by nia.
      f_equal; f_equal; ring.
  Qed.

  (** ** Representation *)
  Definition rep (s : segtree A) (xs : list A) :=
    st_size s = length xs /\ tree_ok (length xs) (st_tree s) /\ skipn (length xs) (st_tree s) = xs.

  Lemma rep_leaf s xs i : rep s xs -> get (st_tree s) (length xs + i) = get xs i.
  Proof. intros (_ & _ & H). rewrite <- H at 2. rewrite get_skipn. auto. Qed.

  Lemma rep_PT s xs l r : rep s xs -> PT (st_tree s) (length xs + l) (length xs + r) = product op e (slice l r xs).
  Proof.
    intros (_ & _ & H). unfold PT. f_equal. rewrite <- H at 3. unfold slice.
    f_equal; [lia|]. apply get_ext. intros i. rewrite !get_skipn. f_equal. lia.
  Qed.

  Lemma rep_new n : rep (st_new e n) (repeat e n).
  Proof.
    split; [|split].
    - simpl. now rewrite repeat_length.
    - rewrite repeat_length. split; simpl.
      + rewrite repeat_length. lia.
      + intros i Hi. exists e, e. repeat split; try apply get_repeat; try lia.
        rewrite (mon_left M). apply get_repeat; lia.
    - simpl. rewrite repeat_length. apply get_ext_len.
      + rewrite skipn_length, !repeat_length. lia.
      + intros i. rewrite skipn_length, repeat_length. intros. rewrite get_skipn, !get_repeat; auto; lia.
  Qed.

  Lemma pull_ok t i : 2 * i + 1 < length t -> 1 <= i ->
    exists t', st_pull op t i = Some t' /\ length t' = length t /\
      node_ok t' i /\ (forall j, j <> i -> get t' j = get t j).
  Proof.
    intros H Hi. unfold st_pull.
    destruct (get_lt t (i:=2*i)) as (a & Ea); [lia|].
    destruct (get_lt t (i:=2*i+1)) as (b & Eb); [lia|].
    rewrite Ea. cbn [obind]. rewrite Eb. cbn [obind].
    rewrite set_some by lia. eexists; split; [reflexivity|].
    rewrite lset_length. split; [auto|]. split.
    - exists a, b. rewrite get_lset_neq, get_lset_neq, get_lset_eq by lia. auto.
    - intros. apply get_lset_neq. auto.
  Qed.

  Lemma node_ok_same t t' i : node_ok t i ->
    get t' i = get t i -> get t' (2*i) = get t (2*i) -> get t' (2*i+1) = get t (2*i+1) -> node_ok t' i.
  Proof. intros (a & b & ? & ? & ?) E1 E2 E3. exists a, b. rewrite E1, E2, E3. auto. Qed.

  Lemma build_rep xs : exists s, st_build op e xs = Some s /\ rep s xs.
  Proof.
    unfold st_build. destruct (Nat.eqb_spec (length xs) 0) as [E|E].
    - destruct xs; [|discriminate]. exists (st_new e 0). split; auto. apply rep_new.
    - set (n := length xs) in *.
      destruct (@for_down_rule _ (fun i t => length t = 2 * n /\ skipn n t = xs /\
                  forall j, i <= j < n -> node_ok t j)
                (fun i t => st_pull op t i) 1 (n-1) (repeat e n ++ xs)) as (t & Et & L & S & H).
      + split; [rewrite app_length, repeat_length; lia|]. split.
        * rewrite skipn_app, repeat_length. rewrite skipn_all2 by (rewrite repeat_length; lia).
          rewrite Nat.sub_diag. reflexivity.
        * intros; lia.
      + intros i t Hi (L & S & H).
        destruct (pull_ok t (i:=i)) as (t' & E' & L' & N' & O'); [lia|lia|].
        exists t'. split; auto. split; [lia|]. split.
        * rewrite <- S. apply get_ext. intros j. rewrite !get_skipn. apply O'. lia.
        * intros j Hj. destruct (Nat.eq_dec j i); [subst j; auto|].
          apply node_ok_same with t; [apply H; lia| apply O'; lia ..].
      + rewrite Et. simpl. eexists. split; [reflexivity|].
        split; [auto|]. split; auto. split; auto.
  Qed.

  Lemma set_rep s xs i x : rep s xs -> i < length xs ->
    exists s', st_set op s i x = Some s' /\ rep s' (lset xs i x).
  Proof.
    intros R Hi. destruct R as (Es & (L & H) & S).
    unfold st_set. rewrite Es. set (n := length xs) in *.
    rewrite set_some by lia. cbn [obind].
    set (t1 := lset (st_tree s) (n+i) x).
    destruct (@loop_rule _ _
       (fun '(t, j) => length t = 2*n /\ skipn n t = lset xs i x /\ j < n /\
           (forall k, 1 <= k < n -> k <> j -> node_ok t k))
       (fun '(t, j) => j)
       (fun t => length t = 2*n /\ skipn n t = lset xs i x /\ forall k, 1 <= k < n -> node_ok t k)
       (fun '(t, j) => if j =? 0 then Some (inr t)
           else let* t' := st_pull op t j in Some (inl (t', Nat.div2 j)))) with (fuel := Datatypes.S (n+i)) (s := (t1, Nat.div2 (n+i)))
      as (t' & Et & L' & S' & H').
    - intros (t & j) (L1 & S1 & Hj & H1).
      destruct (Nat.eqb_spec j 0).
      + eexists; split; [reflexivity|]. simpl. repeat split; auto.
        intros k Hk. apply H1; lia.
      + destruct (pull_ok t (i:=j)) as (t2 & E2 & L2 & N2 & O2); [lia|lia|].
        rewrite E2. simpl. eexists; split; [reflexivity|]. simpl.
        assert (D : Nat.div2 j < j) by (apply Nat.lt_div2; lia).
        repeat split; auto; try lia.
        * rewrite <- S1. apply get_ext. intros k. rewrite !get_skipn. apply O2. lia.
        * intros k Hk Hne. destruct (Nat.eq_dec k j); [subst k; auto|].
          specialize (H1 k Hk n1).
          apply node_ok_same with t; auto; apply O2; auto;
          intro; subst j; apply Hne.
          { symmetry. apply Nat.div2_double. }
          { rewrite Nat.add_1_r. symmetry. apply Nat.div2_succ_double. }
    - unfold t1. rewrite lset_length. repeat split; auto.
      + apply get_ext. intros j. rewrite get_skipn, !get_lset.
        assert (Ex : get (st_tree s) (n+j) = get xs j) by (rewrite <- get_skipn, S; reflexivity). rewrite Ex.
        destruct (Nat.eqb_spec (n+i) (n+j)), (Nat.eqb_spec i j); try lia; simpl; auto.
        destruct (Nat.ltb_spec (n+i) (length (st_tree s))), (Nat.ltb_spec i (length xs)); auto; lia.
      + rewrite Nat.div2_div. apply Nat.div_lt_upper_bound; lia.
      + intros k Hk Hne. apply node_ok_same with (st_tree s); auto; apply get_lset_neq; try lia;
        intro; apply Hne.
        { replace (n+i) with (2*k) by lia. symmetry. apply Nat.div2_double. }
        { replace (n+i) with (Datatypes.S (2*k)) by lia. symmetry. apply Nat.div2_succ_double. }
    - cbn. pose proof (Nat.lt_div2 (n+i)). lia.
    - rewrite Et. cbn [obind]. eexists. split; [reflexivity|].
      unfold rep. simpl. rewrite lset_length. fold n. split; auto. split; auto. split; auto.
  Qed.

  Lemma div2_half w m : Nat.odd m = false -> Nat.div2 m * (2 * w) = m * w.
  Proof. intros H. apply even_div2 in H. rewrite H at 2. ring. Qed.

  Lemma odd_true_even_S m : Nat.odd m = true -> Nat.odd (m+1) = false.
  Proof. rewrite Nat.add_1_r, Nat.odd_succ, <- Nat.negb_odd. intros ->. reflexivity. Qed.
  Lemma odd_true_even_P m : Nat.odd m = true -> Nat.odd (m-1) = false.
  Proof. intros H. apply odd_div2 in H. rewrite H. rewrite Nat.add_sub. rewrite Nat.odd_mul. reflexivity. Qed.

  Lemma div2_le_mono a b : a <= b -> Nat.div2 a <= Nat.div2 b.
  Proof. intros. rewrite !Nat.div2_div. apply Nat.div_le_mono; lia. Qed.

  Lemma pow2_pos k : 0 < 2 ^ k.
  Proof. apply Nat.neq_0_lt_0, Nat.pow_nonzero. lia. Qed.

  (** One half step at the left end. *)
  Lemma left_step n t k a l : tree_ok n t -> 1 <= l -> (l+1) * 2^k <= 2*n -> a <= l * 2^k ->
    exists x, get t l = Some x /\ op (PT t a (l*2^k)) x = PT t a ((l+1)*2^k).
  Proof.
    intros T Hl Hb Ha. rewrite (@node_block n t T k l Hl Hb). eexists; split; [reflexivity|].
    symmetry. apply PT_split; auto. nia.
  Qed.
  Lemma right_step n t k b r : tree_ok n t -> 2 <= r -> r * 2^k <= 2*n -> r * 2^k <= b ->
    exists x, get t (r-1) = Some x /\ op x (PT t (r*2^k) b) = PT t ((r-1)*2^k) b.
  Proof.
    intros T Hr Hb Ha. assert (E : r = (r-1)+1) by lia.
    rewrite (@node_block n t T k (r-1)) by (rewrite <- ?E; lia). eexists; split; [reflexivity|].
    rewrite <- E. symmetry. apply PT_split; auto. apply Nat.mul_le_mono_r. lia.
  Qed.

  Lemma query_correct s xs l r : rep s xs -> l <= r -> r <= length xs ->
    st_query op e s l r = Some (product op e (slice l r xs)).
  Proof.
    intros R Hlr Hr. pose proof R as (Es & T & S).
    unfold st_query. rewrite Es. set (n := length xs) in *. set (t := st_tree s) in *.
    rewrite <- (@rep_PT s xs l r R). fold n t.
    match goal with |- loop _ ?b _ = _ => set (body := b) end.
    destruct (@loop_rule _ _
      (fun '(lhs, rhs, l', r') => exists k, l' <= r' /\
          n + l <= l' * 2^k /\ r' * 2^k <= n + r /\
          lhs = PT t (n+l) (l'*2^k) /\ rhs = PT t (r'*2^k) (n+r))
      (fun '(lhs, rhs, l', r') => r')
      (fun x => x = PT t (n+l) (n+r)) body) with (fuel := Datatypes.S (r+n)) (s := (e, e, l+n, r+n)) as (x & E & ?).
    - intros (((lhs & rhs) & l') & r') (k & Hle & Hl & Hr' & E1 & E2).
      unfold body. destruct (Nat.ltb_spec l' r') as [Hlt|Hge].
      + assert (W := pow2_pos k). set (w := 2^k) in *.
        assert (Hpos : 1 <= l') by (destruct l'; [nia|lia]).
        assert (B : (l'+1)*w <= 2*n) by nia.
        assert (C : r'*w <= 2*n) by nia.
        destruct (@left_step n t k (n+l) l') as (x & Ex & Px); [exact T|lia|exact B|exact Hl|].
        destruct (@right_step n t k (n+r) r') as (y & Ey & Py); [exact T|lia|exact C|exact Hr'|].
        fold w in Px, Py.
        rewrite Ex, Ey. cbn [obind].
        assert (X : exists lhs2 l2, (if Nat.odd l' then Some (op lhs x, l'+1) else Some (lhs, l')) = Some (lhs2, l2) /\
                  Nat.odd l2 = false /\ l' <= l2 <= l'+1 /\ (l2 = l' + 1 -> Nat.odd l' = true) /\ lhs2 = PT t (n+l) (l2*w)).
        { destruct (Nat.odd l') eqn:O; do 2 eexists; (split; [reflexivity|]).
          - repeat split; try lia. now apply odd_true_even_S. subst lhs; auto.
          - repeat split; try lia; auto. }
        destruct X as (lhs2 & l2 & -> & O2 & B2 & I2 & P2). cbn [obind].
        assert (X : exists rhs2 r2, (if Nat.odd r' then Some (op y rhs, r'-1) else Some (rhs, r')) = Some (rhs2, r2) /\
                  Nat.odd r2 = false /\ r'-1 <= r2 <= r' /\ (r2 = r' - 1 -> Nat.odd r' = true) /\ rhs2 = PT t (r2*w) (n+r)).
        { destruct (Nat.odd r') eqn:O; do 2 eexists; (split; [reflexivity|]).
          - repeat split; try lia. now apply odd_true_even_P. subst rhs; auto.
          - repeat split; try lia; auto. }
        destruct X as (rhs2 & r2 & -> & O3 & B3 & I3 & P3). cbn [obind].
        eexists; split; [reflexivity|]. cbn beta iota zeta.
        assert (LE : l2 <= r2).
        { destruct (Nat.eq_dec l2 (l'+1)); destruct (Nat.eq_dec r2 (r'-1)); try lia.
          apply I2 in e0; apply I3 in e1. apply odd_div2 in e0; apply odd_div2 in e1. lia. }
        split.
        * exists (Datatypes.S k). rewrite Nat.pow_succ_r'. fold w. rewrite !div2_half by auto.
          split; [now apply div2_le_mono|]. apply even_div2 in O2; apply even_div2 in O3.
          repeat split; auto; try lia; nia.
        * apply Nat.le_lt_trans with (Nat.div2 r'); [apply div2_le_mono; lia|apply Nat.lt_div2; lia].
      + eexists; split; [reflexivity|]. simpl. assert (l' = r') by lia. subst l' lhs rhs.
        symmetry. apply PT_split; lia.
    - exists 0. simpl. rewrite !Nat.mul_1_r, (Nat.add_comm l), (Nat.add_comm r), !PT_nil. repeat split; lia.
    - simpl. lia.
    - rewrite E. now f_equal.
  Qed.

  (** ** Binary searches *)
  Section Search.
    Variables (f : A -> bool) (n : nat) (t : list A) (b en : nat).
    Hypothesis T : tree_ok n t.
    Hypothesis Hb : b <= en.
    Hypothesis Hen : en <= n.

    Fixpoint chain (c : nat) (rps : list (nat * A)) : Prop :=
      match rps with
      | [] => c = n + en
      | (r, rp) :: rest => exists k, c = (r-1) * 2^k /\ 2 <= r /\ r * 2^k <= n + en /\
            get t (r-1) = Some rp /\ chain (r * 2^k) rest
      end.

    (** Precondition of the descent: node [l] is the first block to fail. *)
    Definition fail_at p l := exists k, 1 <= l /\ n + b <= l * 2^k /\ (l+1) * 2^k <= n + en /\
        p = PT t (n+b) (l * 2^k) /\ f p = true /\ f (PT t (n+b) ((l+1) * 2^k)) = false.

    Definition mr_result q := b <= q /\ q <= en /\ f (PT t (n+b) (n+q)) = true /\
        (q = en \/ f (PT t (n+b) (n+S q)) = false).

    Lemma mr_descend_ok p l : fail_at p l -> exists q, mr_descend op f n t p l = Some q /\ mr_result q.
    Proof.
      intros H. unfold mr_descend.
      match goal with |- exists q, loop _ ?bd _ = _ /\ _ => set (body := bd) end.
      apply (@loop_rule _ _ (fun '(p, l) => fail_at p l) (fun '(p,l) => n - l) mr_result body);
        [|exact H|lia].
      clear p l H. intros (p & l) (k & Hl & H1 & H2 & Hp & Hf & Hn). unfold body.
      assert (W := pow2_pos k).
      destruct (Nat.ltb_spec l n).
      - destruct k as [|k]; [simpl in *; lia|].
        rewrite Nat.pow_succ_r' in *. set (w := 2^k) in *.
        destruct (@left_step n t (S k) (n+b) l) as (x0 & E0 & P0); auto; rewrite ?Nat.pow_succ_r'; fold w; try lia.
        rewrite E0. cbn [obind].
        assert (G : f (op p x0) = false).
        { rewrite Hp. rewrite Nat.pow_succ_r' in P0. fold w in P0. rewrite P0. exact Hn. }
        rewrite G. cbn [guard negb obind].
        assert (Q : l * (2*w) = 2*l*w) by ring.
        destruct (@left_step n t k (n+b) (2*l)) as (x & E & P); auto; fold w; try nia.
        fold w in P. rewrite E. cbn [obind]. rewrite Q in Hp.
        rewrite <- Hp in P.
        destruct (f (op p x)) eqn:Fx; (eexists; split; [reflexivity|]); cbn beta iota zeta; (split; [|lia]).
        + exists k. fold w. rewrite P in Fx. repeat split; auto; try nia.
          now rewrite P.
          replace ((2*l+1+1)*w) with ((l+1)*(2*w)) by ring. auto.
        + exists k. fold w. rewrite P in Fx. repeat split; auto; nia.
      - eexists; split; [reflexivity|]. cbn beta iota.
        assert (k = 0). { destruct k; auto. rewrite Nat.pow_succ_r' in *. assert (W' := pow2_pos k). nia. }
        subst k. rewrite !Nat.pow_0_r, !Nat.mul_1_r in *.
        unfold mr_result. replace (n + (l - n)) with l by lia. replace (n + S (l-n)) with (l+1) by lia.
        repeat split; try lia; try congruence; now right.
    Qed.

    Lemma mr_unwind_ok rps : forall p c, n + b <= c -> p = PT t (n+b) c -> f p = true -> chain c rps ->
      match mr_unwind op f p rps with
      | inr _ => f (PT t (n+b) (n+en)) = true
      | inl (p', l') => fail_at p' l'
      end.
    Proof.
      induction rps as [|(r & rp) rest IH]; intros p c Hc Hp Hf Hch; simpl in *.
      - subst. auto.
      - destruct Hch as (k & Ec & Hr & Hre & Eg & Hrest).
        destruct (@left_step n t k (n+b) (r-1)) as (x & Ex & Px); auto; try lia.
        rewrite Eg in Ex. inversion Ex; subst x. replace (r-1+1) with r in Px by lia.
        rewrite <- Ec, <- Hp in Px.
        destruct (f (op p rp)) eqn:Fx.
        + apply IH with (r * 2^k); auto. subst c. transitivity ((r-1)*2^k); auto. apply Nat.mul_le_mono_r; lia.
        + exists k. replace (r-1+1) with r by lia. rewrite <- Ec. rewrite Px in Fx. repeat split; auto; lia.
    Qed.

    Definition climb_inv (st : A * list (nat*A) * nat * nat) :=
      let '(p, rps, l, r) := st in exists k, l <= r /\ n + b <= l * 2^k /\ r * 2^k <= n + en /\
        p = PT t (n+b) (l*2^k) /\ f p = true /\ chain (r*2^k) rps.

    Lemma climb_ok : f e = true -> exists st, loop (S (n + en)) (mr_climb op f t) (e, [], n+b, n+en) = Some st /\
      climb_inv st /\ let '(p, rps, l, r) := st in l < r -> fail_at p l.
    Proof.
      intros Fe. apply loop_rule with (I := climb_inv) (m := fun '(p, rps, l, r) => r); [| |lia].
      - intros (((p & rps) & l) & r) (k & Hle & Hl & Hr & Hp & Hf & Hc). cbn [mr_climb].
        destruct (Nat.ltb_spec l r) as [Hlt|Hge].
        + assert (W := pow2_pos k). set (w := 2^k) in *.
          assert (Hpos : 1 <= l) by (destruct l; [nia|lia]).
          assert (B : (l+1)*w <= n+en) by nia.
          destruct (@left_step n t k (n+b) l) as (x & Ex & Px); [exact T|lia|fold w; lia|exact Hl|].
          fold w in Px. rewrite <- Hp in Px. rewrite Ex. cbn [obind].
          destruct (f (op p x)) eqn:Fx.
          * destruct (get_lt t (i:=r-1)) as (y & Ey). { destruct T as (L & _). rewrite L. nia. }
            rewrite Ey. cbn [obind].
            assert (X : exists p2 l2, (if Nat.odd l then (op p x, l+1) else (p, l)) = (p2, l2) /\
                  Nat.odd l2 = false /\ l <= l2 <= l+1 /\ (l2 = l + 1 -> Nat.odd l = true) /\ p2 = PT t (n+b) (l2*w) /\ f p2 = true).
            { destruct (Nat.odd l) eqn:O; do 2 eexists; (split; [reflexivity|]).
              - repeat split; try lia; auto. now apply odd_true_even_S.
              - repeat split; try lia; auto. }
            destruct X as (p2 & l2 & -> & O2 & B2 & I2 & P2 & F2). cbn [obind].
            assert (X : exists rps2 r2, (if Nat.odd r then Some ((r, y)::rps, r-1) else Some (rps, r)) = Some (rps2, r2) /\
                  Nat.odd r2 = false /\ r-1 <= r2 <= r /\ (r2 = r - 1 -> Nat.odd r = true) /\ chain (r2*w) rps2).
            { destruct (Nat.odd r) eqn:O; do 2 eexists; (split; [reflexivity|]).
              - repeat split; try lia; auto. now apply odd_true_even_P.
                exists k. fold w. repeat split; auto; lia.
              - repeat split; try lia; auto. }
            destruct X as (rps2 & r2 & -> & O3 & B3 & I3 & P3). cbn [obind].
            eexists; split; [reflexivity|]. cbn beta iota zeta.
            assert (LE : l2 <= r2).
            { destruct (Nat.eq_dec l2 (l+1)); destruct (Nat.eq_dec r2 (r-1)); try lia.
              apply I2 in e0; apply I3 in e1. apply odd_div2 in e0; apply odd_div2 in e1. lia. }
            split.
            -- exists (S k). rewrite Nat.pow_succ_r'. fold w. rewrite !div2_half by auto.
               split; [now apply div2_le_mono|]. repeat split; auto; try nia.
            -- apply Nat.le_lt_trans with (Nat.div2 r); [apply div2_le_mono; lia|apply Nat.lt_div2; lia].
          * eexists; split; [reflexivity|]. cbn beta iota zeta. split.
            -- exists k. fold w. repeat split; auto.
            -- intros _. exists k. fold w. rewrite Px in Fx. repeat split; auto; lia.
        + eexists; split; [reflexivity|]. cbn beta iota zeta. split; [|lia].
          exists k. repeat split; auto.
      - exists 0. cbn [Nat.pow]. rewrite !Nat.mul_1_r, PT_nil. simpl. repeat split; auto; lia.
    Qed.
  End Search.

  Lemma max_right_correct f s xs b en : rep s xs -> b <= en -> en <= length xs -> f e = true ->
    exists q, st_max_right op e f s b en = Some q /\ b <= q <= en /\
      f (product op e (slice b q xs)) = true /\
      (q = en \/ f (product op e (slice b (S q) xs)) = false).
  Proof.
    intros R Hb He Fe. pose proof R as (Es & T & _).
    assert (K : exists q, st_max_right op e f s b en = Some q /\ mr_result f (length xs) (st_tree s) b en q).
    { unfold st_max_right. rewrite Es. set (n := length xs) in *. set (t := st_tree s) in *.
      destruct (Nat.eqb_spec b en).
      - exists en. split; auto. unfold mr_result. subst b. rewrite PT_nil. repeat split; auto.
      - destruct (@climb_ok f n t b en T Hb He Fe) as ((((p & rps) & l) & r) & E & I & Q).
        rewrite E. cbn [obind].
        destruct (Nat.leb_spec r l).
        + destruct I as (k & Hle & Hl & Hr & Hp & Hf & Hc).
          assert (l = r) by lia. subst r.
          pose proof (@mr_unwind_ok f n t b en T Hb He rps p (l*2^k) Hl Hp Hf Hc) as U.
          destruct (mr_unwind op f p rps) as [(p' & l')|u].
          * apply mr_descend_ok; auto.
          * exists en. split; auto. unfold mr_result. repeat split; auto.
        + apply mr_descend_ok; auto. }
    destruct K as (q & E & ? & ? & F1 & F2). exists q. rewrite E.
    rewrite <- !(rep_PT _ _ R). repeat split; auto.
  Qed.

  Section SearchL.
    Variables (f : A -> bool) (n : nat) (t : list A) (b en : nat).
    Hypothesis T : tree_ok n t.
    Hypothesis Hb : b <= en.
    Hypothesis Hen : en <= n.

    Fixpoint chainl (c : nat) (lps : list (nat * A)) : Prop :=
      match lps with
      | [] => c = n + b
      | (l, lp) :: rest => exists k, c = (l+1) * 2^k /\ 1 <= l /\ n + b <= l * 2^k /\
            get t l = Some lp /\ chainl (l * 2^k) rest
      end.

    Definition fail_atl p r := exists k, 2 <= r /\ n + b <= (r-1) * 2^k /\ r * 2^k <= n + en /\
        p = PT t (r * 2^k) (n+en) /\ f p = true /\ f (PT t ((r-1) * 2^k) (n+en)) = false.

    Definition ml_result q := b <= q /\ q <= en /\ f (PT t (n+q) (n+en)) = true /\
        (q = b \/ 1 <= q /\ f (PT t (n+(q-1)) (n+en)) = false).

    Lemma ml_descend_ok p r : fail_atl p r -> exists q, ml_descend op f n t p r = Some q /\ ml_result q.
    Proof.
      intros H. unfold ml_descend.
      match goal with |- exists q, loop _ ?bd _ = _ /\ _ => set (body := bd) end.
      apply (@loop_rule _ _ (fun '(p, l) => fail_atl p l) (fun '(p,l) => n - (l-1)) ml_result body);
        [|exact H|lia].
      clear p r H. intros (p & r) (k & Hl & H1 & H2 & Hp & Hf & Hn). unfold body.
      assert (W := pow2_pos k).
      destruct (Nat.leb_spec r n).
      - destruct k as [|k]; [simpl in *; lia|].
        rewrite Nat.pow_succ_r' in *. set (w := 2^k) in *.
        destruct (@right_step n t (S k) (n+en) r) as (x0 & E0 & P0); auto; rewrite ?Nat.pow_succ_r'; fold w; try lia.
        rewrite E0. cbn [obind].
        assert (G : f (op x0 p) = false).
        { rewrite Hp. rewrite Nat.pow_succ_r' in P0. fold w in P0. rewrite P0. exact Hn. }
        rewrite G. cbn [guard negb obind].
        assert (Q : r * (2*w) = 2*r*w) by ring.
        destruct (@right_step n t k (n+en) (2*r)) as (x & E & P); auto; fold w; try nia.
        fold w in P. rewrite E. cbn [obind]. rewrite Q in Hp.
        rewrite <- Hp in P.
        assert (Z : (2*r-1-1)*w = (r-1)*(2*w)) by (destruct r; [lia|]; replace (2 * S r - 1 - 1) with (2*r) by lia; simpl; ring_simplify; lia).
        destruct (f (op x p)) eqn:Fx; (eexists; split; [reflexivity|]); cbn beta iota zeta; (split; [|lia]).
        + exists k. fold w. rewrite P in Fx. rewrite Z. repeat split; auto; try nia.
          now rewrite P.
        + exists k. fold w. rewrite P in Fx. repeat split; auto; nia.
      - eexists; split; [reflexivity|]. cbn beta iota.
        assert (k = 0). { destruct k; auto. rewrite Nat.pow_succ_r' in *. assert (W' := pow2_pos k). nia. }
        subst k. rewrite !Nat.pow_0_r, !Nat.mul_1_r in *.
        unfold ml_result. replace (n + (r - n)) with r by lia.
        repeat split; try lia. congruence.
        destruct (Nat.eq_dec (r-n) b); [now left|right]. split; [lia|].
        replace (n + (r-n-1)) with (r-1) by lia. auto.
    Qed.

    Lemma ml_unwind_ok lps : forall p c, c <= n + en -> p = PT t c (n+en) -> f p = true -> chainl c lps ->
      match ml_unwind op f p lps with
      | inr _ => f (PT t (n+b) (n+en)) = true
      | inl (p', r') => fail_atl p' r'
      end.
    Proof.
      induction lps as [|(l & lp) rest IH]; intros p c Hc Hp Hf Hch; simpl in *.
      - subst. auto.
      - destruct Hch as (k & Ec & Hr & Hre & Eg & Hrest).
        destruct (@right_step n t k (n+en) (l+1)) as (x & Ex & Px); auto; try lia.
        replace (l+1-1) with l in * by lia.
        rewrite Eg in Ex. inversion Ex; subst x.
        rewrite <- Ec, <- Hp in Px.
        destruct (f (op lp p)) eqn:Fx.
        + apply IH with (l * 2^k); auto. subst c. transitivity ((l+1)*2^k); auto. apply Nat.mul_le_mono_r; lia.
        + exists k. replace (l+1-1) with l by lia. rewrite <- Ec. rewrite Px in Fx. repeat split; auto; lia.
    Qed.

    Definition climbl_inv (st : A * list (nat*A) * nat * nat) :=
      let '(p, lps, l, r) := st in exists k, l <= r /\ n + b <= l * 2^k /\ r * 2^k <= n + en /\
        p = PT t (r*2^k) (n+en) /\ f p = true /\ chainl (l*2^k) lps.

    Lemma climbl_ok : f e = true -> exists st, loop (S (n + en)) (ml_climb op f t) (e, [], n+b, n+en) = Some st /\
      climbl_inv st /\ let '(p, lps, l, r) := st in l < r -> fail_atl p r.
    Proof.
      intros Fe. apply loop_rule with (I := climbl_inv) (m := fun '(p, rps, l, r) => r); [| |lia].
      - intros (((p & lps) & l) & r) (k & Hle & Hl & Hr & Hp & Hf & Hc). cbn [ml_climb].
        destruct (Nat.ltb_spec l r) as [Hlt|Hge].
        + assert (W := pow2_pos k). set (w := 2^k) in *.
          assert (Hpos : 1 <= l) by (destruct l; [nia|lia]).
          assert (B : (l+1)*w <= n+en) by nia.
          destruct (@right_step n t k (n+en) r) as (x & Ex & Px); [exact T|lia|fold w; lia|exact Hr|].
          fold w in Px. rewrite <- Hp in Px. rewrite Ex. cbn [obind].
          destruct (f (op x p)) eqn:Fx.
          * destruct (get_lt t (i:=l)) as (y & Ey). { destruct T as (L & _). rewrite L. nia. }
            rewrite Ey. cbn [obind].
            assert (X : exists lps2 l2, (if Nat.odd l then Some ((l, y)::lps, l+1) else Some (lps, l)) = Some (lps2, l2) /\
                  Nat.odd l2 = false /\ l <= l2 <= l+1 /\ (l2 = l + 1 -> Nat.odd l = true) /\ chainl (l2*w) lps2).
            { destruct (Nat.odd l) eqn:O; do 2 eexists; (split; [reflexivity|]).
              - repeat split; try lia; auto. now apply odd_true_even_S.
                exists k. fold w. repeat split; auto; lia.
              - repeat split; try lia; auto. }
            destruct X as (lps2 & l2 & -> & O2 & B2 & I2 & P2). cbn [obind].
            eexists; split; [reflexivity|]. cbn beta iota zeta.
            assert (X : exists r2, Nat.odd r2 = false /\ r - 1 <= r2 <= r /\ (r2 = r-1 -> Nat.odd r = true) /\
                Nat.div2 r = Nat.div2 r2 /\ (if Nat.odd r then op x p else p) = PT t (r2*w) (n+en) /\
                f (if Nat.odd r then op x p else p) = true).
            { destruct (Nat.odd r) eqn:O.
              - exists (r-1). repeat split; try lia; auto. now apply odd_true_even_P.
                apply odd_div2 in O. rewrite O. rewrite Nat.add_sub.
                rewrite Nat.add_1_r, Nat.div2_succ_double, Nat.div2_double. auto.
              - exists r. repeat split; try lia; auto. }
            destruct X as (r2 & O3 & B3 & I3 & D3 & P3 & F3).
            assert (LE : l2 <= r2).
            { destruct (Nat.eq_dec l2 (l+1)); destruct (Nat.eq_dec r2 (r-1)); try lia.
              apply I2 in e0; apply I3 in e1. apply odd_div2 in e0; apply odd_div2 in e1. lia. }
            split.
            -- exists (S k). rewrite Nat.pow_succ_r'. fold w. rewrite D3. rewrite !div2_half by auto.
               split; [now apply div2_le_mono|]. repeat split; auto; try nia.
            -- apply Nat.lt_div2; lia.
          * eexists; split; [reflexivity|]. cbn beta iota zeta. split.
            -- exists k. fold w. repeat split; auto.
            -- intros _. exists k. fold w. rewrite Px in Fx. repeat split; auto; nia.
        + eexists; split; [reflexivity|]. cbn beta iota zeta. split; [|lia].
          exists k. repeat split; auto.
      - exists 0. cbn [Nat.pow]. rewrite !Nat.mul_1_r, PT_nil. simpl. repeat split; auto; lia.
    Qed.
  End SearchL.

  Lemma min_left_correct f s xs b en : rep s xs -> b <= en -> en <= length xs -> f e = true ->
    exists q, st_min_left op e f s b en = Some q /\ b <= q <= en /\
      f (product op e (slice q en xs)) = true /\
      (q = b \/ 1 <= q /\ f (product op e (slice (q-1) en xs)) = false).
  Proof.
    intros R Hb He Fe. pose proof R as (Es & T & _).
    assert (K : exists q, st_min_left op e f s b en = Some q /\ ml_result f (length xs) (st_tree s) b en q).
    { unfold st_min_left. rewrite Es. set (n := length xs) in *. set (t := st_tree s) in *.
      destruct (Nat.eqb_spec en b).
      - exists b. split; auto. unfold ml_result. subst b. rewrite PT_nil. repeat split; auto.
      - destruct (@climbl_ok f n t b en T Hb He Fe) as ((((p & lps) & l) & r) & E & I & Q).
        rewrite E. cbn [obind].
        destruct (Nat.leb_spec r l).
        + destruct I as (k & Hle & Hl & Hr & Hp & Hf & Hc).
          assert (l = r) by lia. subst r.
          pose proof (@ml_unwind_ok f n t b en T Hb He lps p (l*2^k) Hr Hp Hf Hc) as U.
          destruct (ml_unwind op f p lps) as [(p' & l')|u].
          * apply ml_descend_ok; auto.
          * exists b. split; auto. unfold ml_result. repeat split; auto.
        + apply ml_descend_ok; auto. }
    destruct K as (q & E & ? & ? & F1 & F2). exists q. rewrite E.
    rewrite <- !(rep_PT _ _ R). repeat split; auto.
  Qed.

  (** ** Histories *)
  Lemma sets_rep h : forall s xs, rep s xs -> (forall i x, In (i, x) h -> i < length xs) ->
    exists s', st_sets op s h = Some s' /\ rep s' (list_updates xs h).
  Proof.
    induction h as [|(i & x) h IH]; intros s xs R H; simpl.
    - exists s. split; auto.
    - destruct (@set_rep s xs i x R) as (s1 & E & R1). { apply H with x. now left. }
      unfold st_sets. simpl. rewrite E. cbn [obind]. apply IH; auto.
      intros j y Hj. rewrite lset_length. apply H with y. now right.
  Qed.
End Proof.
