From Verif Require Import Base BaseLemmas Array2 SparseModel.
Set Implicit Arguments.

Lemma R_one A (op : A -> A -> A) xs l : l < length xs -> sfold op (slice l (S l) xs) = get xs l.
Proof.
  intros H. destruct (get_lt xs (i:=l)) as (x & E); auto. rewrite E.
  rewrite slice_cons with (x := x) by (auto; lia). rewrite slice_nil by lia. reflexivity.
Qed.

Section Sparse.
  Variables (A : Type) (op : A -> A -> A) (dflt : A).
  Hypothesis assoc : forall x y z, op x (op y z) = op (op x y) z.

  Notation R xs l r := (sfold op (slice l r xs)).

  Lemma R_split xs l m r a b : l <= m -> m <= r -> R xs l m = Some a -> R xs m r = Some b -> R xs l r = Some (op a b).
  Proof. intros. rewrite (@slice_app _ l m r) by auto. now apply sfold_app. Qed.

  Lemma copy_full (xs : list A) : copy_into xs (repeat dflt (length xs)) = xs.
  Proof. unfold copy_into. rewrite skipn_all2 by (rewrite repeat_length; lia). apply app_nil_r. Qed.

  (** Rows below [k] are complete, row [k] is complete below [i]. *)
  Definition sp_inv (xs : list A) k i (t : list (list A)) :=
    dims t (Nat.log2 (length xs) + 1) (length xs) /\
    forall d j, (d < k \/ d = k /\ j < i) -> j + 2 ^ d <= length xs -> get2 t d j = R xs j (j + 2 ^ d).

  Lemma sp_build_ok (xs : list A) : 0 < length xs ->
    exists t, sp_build op dflt xs = Some t /\ sp_inv xs (Nat.log2 (length xs) + 1) 0 t.
  Proof.
    intros Hn. unfold sp_build. rewrite msb_pos by auto. cbn [obind]. set (n := length xs) in *. set (lg := Nat.log2 n).
    match goal with |- exists _, for_up _ _ ?b _ = _ /\ _ => set (body := b) end.
    replace (lg + 1) with (1 + lg) by lia.
    apply (@for_up_rule _ (fun k t => sp_inv xs k 0 t) body lg 1).
    - split.
      + rewrite Nat.add_1_r. apply dims_cons; [unfold n; now rewrite copy_full|apply dims_repeat].
      + intros d j Hd Hj. assert (d = 0) by lia. subst d. simpl in Hj. 
        rewrite Nat.pow_0_r, Nat.add_1_r, R_one by (fold n; lia).
        unfold get2. simpl. unfold n. rewrite copy_full. reflexivity.
    - intros k t Hk I. unfold body.
      destruct (@for_up_rule _ (fun i t => sp_inv xs k i t)
        (fun i t => let* a := get2 t (k - 1) i in let* b := get2 t (k - 1) (i + 2^k / 2) in set2 t k i (op a b))
        (n + 1 - 2^k) 0 t I) as (t' & E & D & H).
      + intros i s Hi (D & H).
        assert (Ek : 2^k = 2 * 2^(k-1)) by (rewrite <- Nat.pow_succ_r'; f_equal; lia).
        assert (Ew : 2^k / 2 = 2^(k-1)) by (rewrite Ek, Nat.mul_comm; apply Nat.div_mul; lia).
        rewrite Ew. pose proof (pow2_pos (k-1)).
        rewrite H by (try fold n; lia). rewrite H by (try fold n; lia).
        destruct (sfold_some op (@slice_nonempty _ i (i + 2^(k-1)) xs ltac:(lia) ltac:(fold n; lia))) as (a & Ea).
        destruct (sfold_some op (@slice_nonempty _ (i + 2^(k-1)) (i + 2^(k-1) + 2^(k-1)) xs ltac:(lia) ltac:(fold n; lia))) as (b & Eb).
        rewrite Ea, Eb. cbn [obind].
        destruct (@dims_set2 _ s (lg+1) n k i (op a b) D) as (s' & E & D' & G); [lia|lia|].
        rewrite E. eexists; split; [reflexivity|]. split; auto.
        intros d j Hd Hj. rewrite G. destruct (Nat.eqb_spec d k), (Nat.eqb_spec j i); simpl; try (apply H; lia).
        subst d j. symmetry. rewrite Ek. replace (i + 2 * 2^(k-1)) with (i + 2^(k-1) + 2^(k-1)) by lia.
        apply R_split with (i + 2^(k-1)); auto; lia.
      + exists t'. split; [exact E|]. split; auto. intros d j Hd Hj. apply H; auto. destruct (Nat.eq_dec d k); [subst d; fold n in Hj|]; lia.
  Qed.

  Hypothesis idem : forall x, op x x = x.

  Lemma sp_query_ok xs t l r : sp_inv xs (Nat.log2 (length xs) + 1) 0 t -> l < r -> r <= length xs ->
    sp_query op t l r = R xs l r.
  Proof.
    intros (D & H) Hl Hr. unfold sp_query. rewrite msb_pos by lia. cbn [obind].
    set (p := Nat.log2 (r - l)).
    pose proof (Nat.log2_spec (r-l)) as (L1 & L2); [lia|]. fold p in L1, L2. rewrite Nat.pow_succ_r' in L2.
    assert (p <= Nat.log2 (length xs)) by (apply Nat.log2_le_mono; lia).
    set (w := 2^p) in *.
    rewrite H by (fold w; lia). rewrite H by (fold w; lia). fold w.
    replace (r - w + w) with r by lia.
    destruct (Nat.eq_dec (r - w) l) as [E|NE].
    - rewrite E. replace (l + w) with r by lia.
      destruct (sfold_some op (@slice_nonempty _ l r xs ltac:(lia) ltac:(lia))) as (a & Ea).
      rewrite Ea. cbn [obind]. now rewrite idem.
    - destruct (sfold_some op (@slice_nonempty _ l (r-w) xs ltac:(lia) ltac:(lia))) as (a & Ea).
      destruct (sfold_some op (@slice_nonempty _ (r-w) (l+w) xs ltac:(lia) ltac:(lia))) as (b & Eb).
      destruct (sfold_some op (@slice_nonempty _ (l+w) r xs ltac:(lia) ltac:(lia))) as (c & Ec).
      rewrite (@R_split xs l (r-w) (l+w) a b), (@R_split xs (r-w) (l+w) r b c) by (auto; lia).
      cbn [obind]. symmetry.
      rewrite (@R_split xs l (l+w) r (op a b) c); auto; try lia.
      2: apply R_split with (r-w); auto; lia.
      f_equal. rewrite <- !assoc. rewrite (assoc b b c), idem. auto.
  Qed.
End Sparse.

Section Disjoint.
  Variables (A : Type) (op : A -> A -> A) (dflt : A).
  Hypothesis assoc : forall x y z, op x (op y z) = op (op x y) z.

  Notation R xs l r := (sfold op (slice l r xs)).

  (** The entry at level [d >= 1] and position [p] covers the part of its block
      of size [2*2^d] between [p] and the middle. *)
  Definition dj_val (ys : list A) d p :=
    let m := (p / (2 * 2^d)) * (2 * 2^d) + 2^d in
    if p <? m then R ys p m else R ys m (S p).

  Definition dj_inv (ys : list A) lg k i (t : list (list A)) :=
    dims t (Nat.max lg 1) (2^lg) /\
    (forall j, get2 t 0 j = get ys j) /\
    (forall d p, 1 <= d < lg -> (d < k \/ d = k /\ p < i) -> p < 2^lg -> get2 t d p = dj_val ys d p).

  Lemma dj_build_ok (xs : list A) : 0 < length xs ->
    exists t ys, dj_build op dflt xs = Some t /\ length ys = 2 ^ bitlen (length xs - 1) /\
      ys = xs ++ repeat dflt (2 ^ bitlen (length xs - 1) - length xs) /\
      dj_inv ys (bitlen (length xs - 1)) (bitlen (length xs - 1)) 0 t.
  Proof.
    intros Hn. unfold dj_build. destruct (Nat.eqb_spec (length xs) 0); [lia|]. cbn [negb guard obind].
    set (lg := bitlen (length xs - 1)). pose proof (bitlen_le (length xs - 1)) as Hlg. fold lg in Hlg.
    set (n0 := 2^lg) in *.
    set (ys := xs ++ repeat dflt (n0 - length xs)).
    assert (Ly : length ys = n0) by (unfold ys; rewrite app_length, repeat_length; lia).
    assert (Ec : copy_into xs (repeat dflt n0) = ys).
    { unfold copy_into, ys. f_equal. apply get_ext_len.
      - rewrite skipn_length, !repeat_length. auto.
      - rewrite skipn_length, repeat_length. intros. rewrite get_skipn, !get_repeat; auto; lia. }
    rewrite Ec.
    match goal with |- exists _ _, for_up _ _ ?b _ = _ /\ _ => set (body := b) end.
    destruct (@for_up_rule _ (fun k t => dj_inv ys lg k 0 t) body (lg-1) 1 (ys :: repeat (repeat dflt n0) (Nat.max lg 1 - 1))) as (t & E & I).
    - split; [|split].
      + replace (Nat.max lg 1) with (S (Nat.max lg 1 - 1)) by lia. apply dims_cons; auto.
        rewrite Nat.sub_succ, Nat.sub_0_r. apply dims_repeat.
      + reflexivity.
      + intros; lia.
    - intros k t Hk I. unfold body.
      assert (Wk := pow2_pos k). set (w := 2^k) in *.
      assert (En : n0 = (n0 / (w*2)) * (w*2)).
      { assert (X : n0 = 2^(lg - S k) * (w*2)).
        { unfold n0, w. rewrite (Nat.mul_comm (2^k)), <- Nat.pow_succ_r', <- Nat.pow_add_r. f_equal. lia. }
        rewrite X at 2. rewrite Nat.div_mul by lia. auto. }
      set (blocks := n0 / (w*2)) in *.
      match goal with |- exists _, for_up _ _ ?b _ = _ /\ _ => set (body2 := b) end.
      destruct (@for_up_rule _ (fun b t => dj_inv ys lg k (b * (w*2)) t) body2 blocks 0 t I) as (t' & E & I').
      + intros b s Hb (D & Z & H). unfold body2. cbn [plus] in Hb.
        assert (Bn : b * (w*2) + w*2 <= n0) by nia.
        set (j := b * (w*2)) in *.
        assert (Mid : forall p, j <= p < j + w*2 -> (p / (2*w)) * (2*w) + w = j + w).
        { intros p Hp. f_equal. replace (2*w) with (w*2) by lia.
          replace (p / (w*2)) with b; auto. apply Nat.div_unique with (p - j); lia. }
        destruct (get_lt ys (i:=j+w-1)) as (x & Ex); [lia|].
        rewrite Z, Ex. cbn [obind].
        destruct (@dims_set2 _ s (Nat.max lg 1) n0 k (j+w-1) x D) as (s1 & E1 & D1 & G1); [lia|lia|].
        rewrite E1. cbn [obind].
        set (dv := fun (s : list (list A)) lo hi => forall p, lo <= p < hi -> get2 s k p = dj_val ys k p).
        set (rest := fun (s : list (list A)) =>
           dims s (Nat.max lg 1) n0 /\ (forall q, get2 s 0 q = get ys q) /\
           (forall d p, 1 <= d < lg -> d < k -> p < n0 -> get2 s d p = dj_val ys d p) /\ dv s 0 j).
        assert (Val_l : forall p, j <= p < j + w -> dj_val ys k p = R ys p (j+w)).
        { intros p Hp. unfold dj_val. fold w. rewrite Mid by lia. replace (p <? j + w) with true by lia. auto. }
        assert (Val_r : forall p, j + w <= p < j + w*2 -> dj_val ys k p = R ys (j+w) (S p)).
        { intros p Hp. unfold dj_val. fold w. rewrite Mid by lia. replace (p <? j + w) with false by lia. auto. }
        assert (Rest_set : forall s p v s', rest s -> j <= p -> 
              (forall a b, get2 s' a b = if (a =? k) && (b =? p) then Some v else get2 s a b) ->
              dims s' (Nat.max lg 1) n0 -> rest s').
        { intros u p v u' (Du & Zu & Hu & Vu) Hp Gu Du'. split; auto. split; [|split].
          - intros q. rewrite Gu. replace (0 =? k) with false by lia. apply Zu.
          - intros d q Hd Hd2 Hq. rewrite Gu. replace (d =? k) with false by lia. apply Hu; auto.
          - intros q Hq. rewrite Gu. replace (q =? p) with false by lia. rewrite andb_false_r. apply Vu; auto. }
        assert (R0 : rest s).
        { split; auto. split; auto. split; [intros; apply H; auto|]. intros p Hp. apply H; auto; lia. }
        assert (R1 : rest s1) by (eapply Rest_set with (p := j+w-1); eauto; lia).
        match goal with |- exists _, obind (for_down _ _ ?b _) _ = _ /\ _ => set (body3 := b) end.
        destruct (@for_down_rule _ (fun i s => rest s /\ dv s i (j+w)) body3 j (w-1) s1) as (s2 & E2 & R2 & V2).
        { split; auto. intros p Hp. assert (p = j+w-1) by lia. subst p. rewrite G1, !Nat.eqb_refl. simpl.
          rewrite Val_l by lia. pose proof (R_one op ys (l:=j+w-1) ltac:(lia)) as O1. replace (S (j+w-1)) with (j+w) in O1 by lia. congruence. }
        { intros i u Hi (Ru & Vu). unfold body3.
          pose proof Ru as (Du & Zu & Hu & V0).
          destruct (get_lt ys (i:=i)) as (y & Ey); [lia|]. rewrite Zu, Ey. cbn [obind].
          rewrite Vu by lia. rewrite Val_l by lia. rewrite Nat.add_1_r.
          destruct (sfold_some op (@slice_nonempty _ (S i) (j+w) ys ltac:(lia) ltac:(lia))) as (v & Ev).
          rewrite Ev. cbn [obind].
          destruct (@dims_set2 _ u (Nat.max lg 1) n0 k i (op y v) Du) as (u' & Eu & Du' & Gu); [lia|lia|].
          rewrite Eu. eexists; split; [reflexivity|]. split; [eapply Rest_set with (p := i); eauto; lia|].
          intros p Hp. rewrite Gu, Nat.eqb_refl. simpl. destruct (Nat.eqb_spec p i); [subst p|apply Vu; lia].
          rewrite Val_l by lia. symmetry. apply R_split with (S i); auto; try lia. rewrite R_one by lia. auto. }
        rewrite E2. cbn [obind]. pose proof R2 as (D2 & Z2 & _).
        destruct (get_lt ys (i:=j+w)) as (y & Ey); [lia|].
        rewrite Z2, Ey. cbn [obind].
        destruct (@dims_set2 _ s2 (Nat.max lg 1) n0 k (j+w) y D2) as (s3 & E3 & D3 & G3); [lia|lia|].
        rewrite E3. cbn [obind].
        assert (R3 : rest s3) by (eapply Rest_set with (p := j+w); eauto; lia).
        match goal with |- exists _, for_up _ _ ?b _ = _ /\ _ => set (body4 := b) end.
        destruct (@for_up_rule _ (fun i s => rest s /\ dv s j i) body4 (w-1) (j+w+1) s3) as (s4 & E4 & R4 & V4).
        { split; auto. intros p Hp. rewrite G3, Nat.eqb_refl. simpl. destruct (Nat.eqb_spec p (j+w)).
          - subst p. rewrite Val_r by lia. rewrite R_one by lia. auto.
          - apply V2. lia. }
        { intros i u Hi (Ru & Vu). unfold body4.
          pose proof Ru as (Du & Zu & Hu & V0).
          destruct (get_lt ys (i:=i)) as (z & Ez); [lia|]. 
          rewrite Vu by lia. rewrite Val_r by lia. replace (S (i-1)) with i by lia.
          destruct (sfold_some op (@slice_nonempty _ (j+w) i ys ltac:(lia) ltac:(lia))) as (v & Ev).
          rewrite Ev. cbn [obind]. rewrite Zu, Ez. cbn [obind].
          destruct (@dims_set2 _ u (Nat.max lg 1) n0 k i (op v z) Du) as (u' & Eu & Du' & Gu); [lia|lia|].
          rewrite Eu. eexists; split; [reflexivity|]. split; [eapply Rest_set with (p := i); eauto; lia|].
          intros p Hp. rewrite Gu, Nat.eqb_refl. simpl. destruct (Nat.eqb_spec p i); [subst p|apply Vu; lia].
          rewrite Val_r by lia. symmetry. apply R_split with i; auto; try lia. rewrite R_one by lia. auto. }
        rewrite E4. eexists; split; [reflexivity|].
        destruct R4 as (D4 & Z4 & H4 & V0). split; [auto|]. split; auto.
        intros d p Hd Hp Hpn. destruct (Nat.eq_dec d k) as [->|].
        * destruct (Nat.lt_ge_cases p j); [apply V0; lia|]. apply V4. simpl in Hp. unfold j in *. lia.
        * apply H4; auto. lia.
      + exists t'. split; [exact E|]. destruct I' as (D & Z & H). split; auto. split; auto.
        intros d p Hd Hp Hpn. apply H; auto. cbn [plus]. rewrite <- En. lia.
    - exists t, ys. split; [exact E|]. repeat split; auto; try apply I.
      destruct I as (D & Z & H). intros d p Hd Hp Hpn. apply H; auto. lia.
  Qed.

  Lemma dj_query_ok xs : 0 < length xs -> exists t, dj_build op dflt xs = Some t /\
    forall l r, l < r -> r <= length xs -> dj_query op t l r = R xs l r.
  Proof.
    intros Hn. destruct (@dj_build_ok xs Hn) as (t & ys & E & Ly & Ey & D & Z & H).
    exists t. split; auto. intros l r Hl Hr.
    set (lg := bitlen (length xs - 1)) in *. pose proof (bitlen_le (length xs - 1)) as Hlg. fold lg in Hlg.
    assert (Same : R xs l r = R ys l r).
    { f_equal. apply slice_ext. intros i Hi. rewrite Ey, get_app_l by lia. auto. }
    rewrite Same. unfold dj_query. destruct (Nat.eqb_spec (l+1) r) as [E1|E1].
    - rewrite Z. subst r. rewrite Nat.add_1_r, R_one by lia. auto.
    - destruct (@lxor_split l (r-1)) as (q & p & Ep & (A1 & A2) & (B1 & B2)); [lia|].
      rewrite Nat.lxor_comm. rewrite msb_pos.
      2: { destruct (Nat.eq_dec (Nat.lxor l (r-1)) 0) as [X|]; [|lia]. apply Nat.lxor_eq in X. lia. }
      rewrite <- Ep. cbn [obind]. assert (W := pow2_pos p). set (w := 2^p) in *.
      assert (V : forall x, 2*q*w <= x < (2*q+2)*w -> x < 2^lg -> get2 t p x = if x <? (2*q+1)*w then R ys x ((2*q+1)*w) else R ys ((2*q+1)*w) (S x)).
      { intros x Hx Hx2. destruct (Nat.eq_dec p 0) as [P0|P0].
        - unfold w in *. rewrite P0 in *. simpl in *. rewrite Z. 
          destruct (Nat.ltb_spec x ((q+(q+0)+1)*1)).
          + replace ((q+(q+0)+1)*1) with (S x) by lia. rewrite R_one by lia. auto.
          + replace ((q+(q+0)+1)*1) with x by lia. rewrite R_one by lia. auto.
        - assert (p < lg). { apply (Nat.pow_lt_mono_r_iff 2); [lia|]. fold w. nia. }
          rewrite H by lia. unfold dj_val. fold w.
          replace (x / (2*w)) with q by (apply Nat.div_unique with (x - 2*w*q); nia).
          replace (q * (2*w) + w) with ((2*q+1)*w) by ring. auto. }
      rewrite !V by lia. replace (l <? (2*q+1)*w) with true by lia. replace (r-1 <? (2*q+1)*w) with false by lia.
      replace (S (r-1)) with r by lia. set (m := (2*q+1)*w) in *.
      destruct (sfold_some op (@slice_nonempty _ l m ys ltac:(lia) ltac:(lia))) as (a & Ea).
      destruct (sfold_some op (@slice_nonempty _ m r ys ltac:(lia) ltac:(lia))) as (b & Eb).
      rewrite Ea, Eb. cbn [obind]. symmetry. apply R_split with m; auto; lia.
  Qed.
End Disjoint.
