From Verif Require Import Base BaseLemmas SkewModel.
Set Implicit Arguments.

Section Skew.
  Variable T : Type.
  Notation tree := (tree T).

  (** [wf b t d xs]: a complete tree of digit [d] holding [xs]; lumps only if [b]. *)
  Inductive wf (b : bool) : tree -> nat -> list T -> Prop :=
  | wf_leaf v l r : wf b (Nd v 1 l r) 1 [v]
  | wf_lump v d r : b = true -> 2 <= d -> wf b (Nd v d (Nul _) r) d (repeat v (2 ^ d - 1))
  | wf_node v d l r xs ys : wf b l d xs -> wf b r d ys -> wf b (Nd v (S d) l r) (S d) (v :: xs ++ ys).
  Inductive dwf (b : bool) : list tree -> list T -> Prop :=
  | dwf_nil : dwf b [] []
  | dwf_cons t d xs ds ys : wf b t d xs -> dwf b ds ys -> dwf b (t :: ds) (xs ++ ys).
  Definition sok (s : sklist T) (p : list T * bool) := dwf (snd p) (sk_root s) (fst p) /\ sk_size s = length (fst p).

  Lemma pow_pos d : 1 <= 2 ^ d.
  Proof. pose proof (Nat.pow_nonzero 2 d). lia. Qed.
  Lemma pow_S d : 2 ^ S d = 2 * 2 ^ d.
  Proof. reflexivity. Qed.

  Lemma wf_facts b t d xs : wf b t d xs -> 1 <= d /\ length xs = 2 ^ d - 1 /\ t_size t = Some (2 ^ d - 1) /\ t_dig t = Some d.
  Proof.
    induction 1; simpl t_size; simpl t_dig.
    - auto.
    - rewrite repeat_length. repeat split; auto; lia.
    - destruct IHwf1 as (? & L1 & _). destruct IHwf2 as (_ & L2 & _). pose proof (pow_pos d).
      split; [lia|]. split; [|split; auto]. simpl length. rewrite app_length, L1, L2, pow_S. lia.
  Qed.
  Lemma pow_ge2 d : 1 <= d -> 2 <= 2 ^ d.
  Proof. intros. destruct d; [lia|]. rewrite pow_S. pose proof (pow_pos d). lia. Qed.

  Lemma repeat_split (w : T) d : repeat w (2 ^ S d - 1) = w :: repeat w (2 ^ d - 1) ++ repeat w (2 ^ d - 1).
  Proof. rewrite <- repeat_app. pose proof (pow_pos d). rewrite pow_S. replace (2 * 2 ^ d - 1) with (S (2 ^ d - 1 + (2 ^ d - 1))) by lia. reflexivity. Qed.

  Lemma wf_mk w d : 1 <= d -> wf true (mk_node w d) d (repeat w (2 ^ d - 1)).
  Proof. intros. destruct (Nat.eq_dec d 1) as [->|]; [apply (wf_leaf true w)|]. apply wf_lump; auto. lia. Qed.

  Lemma wf_child b v d l r xs : wf b (Nd v (S (S d)) l r) (S (S d)) xs -> lump (S (S d)) l = false ->
    exists ys zs, wf b l (S d) ys /\ wf b r (S d) zs /\ xs = v :: ys ++ zs.
  Proof.
    intros H L. inversion H; subst.
    - discriminate.
    - eauto 10.
  Qed.
  Lemma wf_lump_inv b v d l r xs : wf b (Nd v d l r) d xs -> lump d l = true -> 2 <= d /\ b = true /\ xs = repeat v (2 ^ d - 1).
  Proof.
    intros H L. inversion H as [|v' d' r' Hb H2|v' d' l' r' xs' ys' W1 W2]; subst.
    - discriminate.
    - auto.
    - exfalso. inversion W1; subst; unfold lump in L; rewrite andb_false_r in L; discriminate.
  Qed.

  Lemma pushed_ok s p x : sok s p -> exists s', sk_pushed s x = Some s' /\ sok s' (x :: fst p, snd p).
  Proof.
    destruct p as (xs & b). intros (D & L). unfold sk_pushed. simpl in *.
    assert (K : forall ds, dwf b ds xs -> dwf b (mk_node x 1 :: ds) (x :: xs)).
    { intros ds H. change (x :: xs) with ([x] ++ xs). econstructor; eauto. constructor. }
    assert (Q : sok (mk_sk (mk_node x 1 :: sk_root s) (sk_size s + 1)) (x :: xs, b)).
    { split; simpl; [now apply K|lia]. }
    destruct (sk_root s) as [|t1 [|t2 rest]] eqn:E; eauto.
    inversion D as [|? d1 xs1 ? ys1 W1 D1]; subst. inversion D1 as [|? d2 xs2 ? ys2 W2 D2]; subst.
    destruct (wf_facts W1) as (? & _ & _ & ->). destruct (wf_facts W2) as (? & _ & _ & ->). cbn [obind].
    destruct (Nat.eqb_spec d1 d2); eauto. subst d2. eexists; split; [reflexivity|]. split; simpl; [|lia].
    replace (x :: xs1 ++ xs2 ++ ys2) with ((x :: xs1 ++ xs2) ++ ys2) by (simpl; now rewrite <- app_assoc).
    rewrite Nat.add_1_r. econstructor; eauto. constructor; auto.
  Qed.

  Lemma root_nonempty b (ds : list tree) x xs : dwf b ds (x :: xs) -> exists t d ys rest zs, ds = t :: rest /\ wf b t d (x :: ys) /\ dwf b rest zs /\ xs = ys ++ zs.
  Proof.
    inversion 1 as [|t d ts ds' zs W D]; subst. destruct ts as [|y ts].
    - destruct (wf_facts W) as (Hd & L & _). simpl in L. pose proof (pow_ge2 Hd). lia.
    - simpl in *. match goal with E : _ :: _ = _ :: _ |- _ => inversion E; subst end. eauto 10.
  Qed.
  Lemma wf_hd b t d x ys : wf b t d (x :: ys) -> t_val t = Some x.
  Proof.
    inversion 1; subst; auto. simpl. match goal with E : repeat v ?n = _ |- _ => destruct n; simpl in E; inversion E; auto end.
  Qed.

  Lemma popped_ok s x xs b : sok s (x :: xs, b) -> sk_front s = Some x /\ exists s', sk_popped s = Some s' /\ sok s' (xs, b).
  Proof.
    intros (D & L). simpl in *. destruct (root_nonempty D) as (t & d & ys & rest & zs & E & W & Dr & ->). unfold sk_front, sk_popped. rewrite E.
    split; [eapply wf_hd; eauto|]. destruct (wf_facts W) as (Hd & Ln & _).
    inversion W as [v l r|v d' r Hb H2|v d' l r xs1 ys1 W1 W2]; subst.
    - simpl. eexists; split; [reflexivity|]. split; simpl; auto. simpl in L. lia.
    - replace (1 <? 2 ^ d - 1) with true. 2:{ destruct d as [|[|d]]; try lia. rewrite !pow_S. pose proof (pow_pos d). lia. }
      unfold lump. replace (1 <? d) with true by lia. simpl negb. cbn iota. eexists; split; [reflexivity|]. split; simpl; [|lia].
      destruct d as [|d]; [lia|]. match goal with Er : repeat v _ = _ |- _ => rewrite repeat_split in Er; inversion Er; subst end.
      rewrite <- app_assoc. replace (S d - 1) with d by lia. repeat (econstructor; [apply wf_mk; lia|]). auto.
    - destruct (wf_facts W1) as (Hd' & _). replace (1 <? 2 ^ S d' - 1) with true. 2:{ rewrite pow_S. pose proof (pow_ge2 Hd'). lia. }
      replace (lump (S d') l) with false. 2:{ unfold lump. inversion W1; subst; now rewrite andb_false_r. }
      simpl negb. cbn iota. eexists; split; [reflexivity|]. split; simpl; [|lia].
      rewrite <- app_assoc. repeat (econstructor; eauto).
  Qed.

  Lemma t_get_ok b t d xs : wf b t d xs -> forall j, j < length xs -> t_get t j = get xs j.
  Proof.
    induction 1 as [v l r|v d r Hb Hd|v d l r xs ys W1 IH1 W2 IH2]; intros j Hj; cbn [t_get].
    - simpl in Hj. replace j with 0 by lia. auto.
    - rewrite repeat_length in Hj. rewrite get_repeat by auto. unfold lump. replace (1 <? d) with true by lia. simpl. destruct (j =? 0); auto.
    - replace (lump (S d) l) with false. 2:{ unfold lump. inversion W1; subst; now rewrite andb_false_r. }
      destruct (wf_facts W1) as (Hd & L & -> & _). cbn [obind]. destruct j as [|j]; auto. simpl Nat.eqb. cbn iota. replace (S j - 1) with j by lia.
      simpl in Hj. rewrite app_length in Hj. change (get (v :: xs ++ ys) (S j)) with (get (xs ++ ys) j).
      destruct (Nat.ltb_spec j (2 ^ d - 1)).
      + rewrite get_app_l by lia. apply IH1. lia.
      + rewrite get_app_r by lia. rewrite <- L. apply IH2. lia.
  Qed.
  Lemma d_get_ok b ds xs : dwf b ds xs -> forall j, j < length xs -> d_get ds j = get xs j.
  Proof.
    induction 1 as [|t d xs ds ys W D IH]; intros j Hj; simpl in Hj; [lia|]. rewrite app_length in Hj. cbn [d_get].
    destruct (wf_facts W) as (Hd & L & -> & _). cbn [obind]. destruct (Nat.leb_spec (2 ^ d - 1) j).
    - rewrite get_app_r by lia. rewrite <- L. apply IH. lia.
    - rewrite get_app_l by lia. eapply t_get_ok; eauto. lia.
  Qed.

  Lemma lset_app_l (l1 l2 : list T) j x : j < length l1 -> lset (l1 ++ l2) j x = lset l1 j x ++ l2.
  Proof. revert j; induction l1; intros [|j] H; simpl in *; try lia; auto. f_equal. apply IHl1. lia. Qed.
  Lemma lset_app_r (l1 l2 : list T) j x : length l1 <= j -> lset (l1 ++ l2) j x = l1 ++ lset l2 (j - length l1) x.
  Proof. revert j; induction l1; intros j H; simpl in *; [f_equal; lia|]. destruct j; [lia|]. simpl. f_equal. apply IHl1. lia. Qed.

  Lemma lump_set_ok w v : forall d j, 1 <= d -> j < 2 ^ d - 1 -> wf true (lump_set w v d j) d (lset (repeat w (2 ^ d - 1)) j v).
  Proof.
    induction d as [|d IH]; intros j Hd Hj; [lia|]. cbn [lump_set]. destruct (Nat.eq_dec d 0) as [->|Nd0].
    - simpl in Hj. replace j with 0 by lia. simpl. constructor.
    - rewrite repeat_split. destruct j as [|j].
      + simpl. constructor; apply wf_mk; lia.
      + simpl Nat.eqb. cbn iota. replace (S j - 1) with j by lia. pose proof (pow_pos d). rewrite pow_S in Hj.
        change (lset (w :: ?l) (S j) v) with (w :: lset l j v).
        destruct (Nat.ltb_spec j (2 ^ d - 1)).
        * rewrite lset_app_l by (rewrite repeat_length; lia). constructor; [apply IH; lia|apply wf_mk; lia].
        * rewrite lset_app_r by (rewrite repeat_length; lia). rewrite repeat_length. constructor; [apply wf_mk; lia|apply IH; lia].
  Qed.
  Lemma t_set_ok b x t d xs : wf b t d xs -> forall j, j < length xs -> exists t', t_set t j x = Some t' /\ wf b t' d (lset xs j x).
  Proof.
    induction 1 as [v l r|v d r Hb Hd|v d l r xs ys W1 IH1 W2 IH2]; intros j Hj; cbn [t_set].
    - simpl in Hj. replace j with 0 by lia. simpl. eexists; split; [reflexivity|]. constructor.
    - rewrite repeat_length in Hj. unfold lump. replace (1 <? d) with true by lia. simpl andb. cbn iota. eexists; split; [reflexivity|]. subst b. apply lump_set_ok; auto. lia.
    - replace (lump (S d) l) with false. 2:{ unfold lump. inversion W1; subst; now rewrite andb_false_r. }
      destruct (wf_facts W1) as (Hd & L & -> & _). cbn [obind]. destruct j as [|j].
      { simpl. eexists; split; [reflexivity|]. constructor; auto. }
      simpl Nat.eqb. cbn iota. replace (S j - 1) with j by lia.
      simpl in Hj. rewrite app_length in Hj. change (lset (v :: ?l) (S j) x) with (v :: lset l j x).
      destruct (Nat.ltb_spec j (2 ^ d - 1)).
      + destruct (IH1 j) as (l' & -> & W'); [lia|]. cbn [obind]. eexists; split; [reflexivity|]. rewrite lset_app_l by lia. constructor; auto.
      + destruct (IH2 (j - (2 ^ d - 1))) as (r' & -> & W'); [lia|]. cbn [obind]. eexists; split; [reflexivity|]. rewrite lset_app_r by lia. rewrite L. constructor; auto.
  Qed.
  Lemma d_set_ok b x ds xs : dwf b ds xs -> forall j, j < length xs -> exists ds', d_set ds j x = Some ds' /\ dwf b ds' (lset xs j x).
  Proof.
    induction 1 as [|t d xs ds ys W D IH]; intros j Hj; simpl in Hj; [lia|]. rewrite app_length in Hj. cbn [d_set].
    destruct (wf_facts W) as (Hd & L & -> & _). cbn [obind]. destruct (Nat.leb_spec (2 ^ d - 1) j).
    - destruct (IH (j - (2 ^ d - 1))) as (ds' & -> & D'); [lia|]. cbn [obind]. eexists; split; [reflexivity|]. rewrite lset_app_r by lia. rewrite L. econstructor; eauto.
    - destruct (t_set_ok x W (j := j)) as (t' & -> & W'); [lia|]. cbn [obind]. eexists; split; [reflexivity|]. rewrite lset_app_l by lia. econstructor; eauto.
  Qed.

  Lemma t_drop_ok t d xs : wf false t d xs -> forall j dst ys, j < length xs -> dwf false dst ys ->
    exists ds, t_drop t j dst = Some ds /\ ds <> [] /\ dwf false ds (skipn j (xs ++ ys)).
  Proof.
    induction 1 as [v l r|v d r Hb Hd|v d l r xs zs W1 IH1 W2 IH2]; intros j dst ys Hj D; cbn [t_drop].
    - simpl in Hj. replace j with 0 by lia. simpl Nat.eqb. cbn iota. eexists; split; [reflexivity|]. split; [discriminate|]. econstructor; eauto. constructor.
    - discriminate.
    - destruct (wf_facts W1) as (Hd & L & -> & _). cbn [obind]. destruct j as [|j].
      { simpl Nat.eqb. cbn iota. eexists; split; [reflexivity|]. split; [discriminate|]. simpl skipn. rewrite app_comm_cons. econstructor; eauto. constructor; auto. }
      simpl Nat.eqb. cbn iota. replace (S j - 1) with j by lia. simpl in Hj. rewrite app_length in Hj. simpl skipn. rewrite <- app_assoc.
      destruct (Nat.ltb_spec j (2 ^ d - 1)).
      + apply IH1; [lia|]. econstructor; eauto.
      + destruct (IH2 (j - (2 ^ d - 1)) dst ys) as (ds & -> & Nn & D'); auto; [lia|]. eexists; split; [reflexivity|]. split; auto.
        rewrite skipn_app. rewrite (skipn_all2 xs) by lia. rewrite L. auto.
  Qed.
  Lemma d_drop_ok ds xs : dwf false ds xs -> forall j, exists ds', d_drop ds j = Some ds' /\ dwf false ds' (skipn j xs) /\ (ds' = [] -> length xs <= j) /\ (length xs <= j -> ds' = []).
  Proof.
    induction 1 as [|t d xs ds ys W D IH]; intros j; cbn [d_drop].
    - eexists; split; [reflexivity|]. rewrite skipn_nil. simpl. split; [constructor|]. split; auto. lia.
    - destruct (wf_facts W) as (Hd & L & -> & _). cbn [obind]. rewrite app_length. destruct (Nat.leb_spec (2 ^ d - 1) j).
      + destruct (IH (j - (2 ^ d - 1))) as (ds' & -> & D' & Z1 & Z2). eexists; split; [reflexivity|]. rewrite skipn_app, (skipn_all2 xs) by lia. rewrite L.
        split; auto. split; intros.
        * apply Z1 in H0. lia. * apply Z2. lia.
      + destruct (t_drop_ok W (j := j) (ltac:(lia)) D) as (ds' & -> & Nn & D'). eexists; split; [reflexivity|]. split; auto. split; intros; [contradiction|lia].
  Qed.

  Lemma extended_ok s xs b n v : sok s (xs, b) -> xs <> [] -> exists s', sk_extended s n v = Some s' /\ sok s' (repeat v n ++ xs, true).
  Proof.
    intros (D & L) Nx. simpl in *. unfold sk_extended.
    assert (D1 : dwf true (sk_root s) xs).
    { clear - D. assert (WM : forall t d ys, wf b t d ys -> wf true t d ys) by (induction 1; constructor; auto).
      induction D; econstructor; eauto. }
    match goal with |- context [loop (S n) ?b _] => set (body1 := b) end.
    destruct (@loop_rule _ _ (fun '(dst, m) => m <= n /\ dwf true (sk_root dst) (repeat v (n - m) ++ xs) /\ sk_size dst = n - m + length xs)
       (fun '(dst, m) => m) (fun '(dst, m) => m <= n /\ dwf true (sk_root dst) (repeat v (n - m) ++ xs) /\ sk_size dst = n - m + length xs) body1)
       with (fuel := S n) (s := (s, n)) as ((dst & m) & E & Hm & D2 & L2).
    - intros (dst & m) (Hm & Dd & Ld). unfold body1. destruct (Nat.eqb_spec m 0) as [->|Nm]. { eexists; split; [reflexivity|]. cbn beta iota. auto. }
      destruct (repeat v (n - m) ++ xs) as [|y0 zs] eqn:Ex. { destruct (n - m); simpl in Ex; [congruence|discriminate]. }
      destruct (root_nonempty Dd) as (t & d & ys & rest & us & Er & W & Dr & ->). rewrite Er. destruct (wf_facts W) as (Hd & Lt & St & Dt).
      pose proof (pow_ge2 Hd).
      assert (QP : 2 ^ d - 1 <= m -> exists r, (let* sa := t_size t in let* da := t_dig t in
              if sa <=? m then let* dst := sk_push_node dst (mk_node v da) in Some (inl (dst, m - sa)) else Some (inr (dst, m))) = Some r /\
              match r with inl s' => (let '(dst, m) := s' in m <= n /\ dwf true (sk_root dst) (repeat v (n - m) ++ xs) /\ sk_size dst = n - m + length xs) /\ (let '(_, m) := s' in m) < m
                         | inr _ => False end).
      { intros Hle. rewrite St, Dt. cbn [obind]. replace (2 ^ d - 1 <=? m) with true by lia. unfold sk_push_node. simpl t_size. cbn [obind]. eexists; split; [reflexivity|]. cbn beta iota.
        split; [|lia]. split; [lia|]. cbn [sk_root sk_size]. split; [|lia].
        replace (n - (m - (2 ^ d - 1))) with (2 ^ d - 1 + (n - m)) by lia. rewrite repeat_app, <- app_assoc, Ex. rewrite Er in *. econstructor; [apply wf_mk; auto|auto]. }
      assert (QR : exists r, (let* sa := t_size t in let* da := t_dig t in
              if sa <=? m then let* dst := sk_push_node dst (mk_node v da) in Some (inl (dst, m - sa)) else Some (inr (dst, m))) = Some r /\
              match r with inl s' => (let '(dst, m) := s' in m <= n /\ dwf true (sk_root dst) (repeat v (n - m) ++ xs) /\ sk_size dst = n - m + length xs) /\ (let '(_, m) := s' in m) < m
                         | inr s' => let '(dst, m) := s' in m <= n /\ dwf true (sk_root dst) (repeat v (n - m) ++ xs) /\ sk_size dst = n - m + length xs end).
      { destruct (Nat.leb_spec (2 ^ d - 1) m) as [Hle|Hgt].
        - destruct (QP Hle) as ([s'|] & E & Q); [|contradiction]. exists (inl s'). auto.
        - rewrite St, Dt. cbn [obind]. replace (2 ^ d - 1 <=? m) with false by lia. eexists; split; [reflexivity|]. cbn beta iota. rewrite Ex. rewrite Er in *. auto. }
      destruct rest as [|t2 rest].
      + cbn [obind]. exact QR.
      + inversion Dr as [|? d2 xs2 ? ys2 W2 Dr2]; subst. destruct (wf_facts W2) as (Hd2 & Lt2 & St2 & Dt2). rewrite St2. rewrite St, Dt in *. cbn [obind] in *.
        destruct (Nat.eqb_spec (2 ^ d - 1) (2 ^ d2 - 1)) as [Eq|Ne]; [|exact QR].
        assert (d2 = d). { pose proof (pow_ge2 Hd2). apply (Nat.pow_inj_r 2); lia. } subst d2.
        eexists; split; [reflexivity|]. cbn beta iota. split; [|lia]. split; [lia|]. cbn [sk_root sk_size]. split; [|lia].
        replace (n - (m - 1)) with (S (n - m)) by lia. simpl repeat. rewrite <- app_comm_cons, Ex. rewrite Nat.add_1_r.
        replace (v :: y0 :: ys ++ xs2 ++ ys2) with ((v :: (y0 :: ys) ++ xs2) ++ ys2) by (simpl; now rewrite <- app_assoc). econstructor; eauto. constructor; auto.
    - split; auto. rewrite Nat.sub_diag. simpl. auto.
    - lia.
    - rewrite E. cbn [obind]. clear E body1.
      match goal with |- context [loop (S m) ?b _] => set (body2 := b) end.
      destruct (@loop_rule _ _ (fun '(dst, m) => m <= n /\ dwf true (sk_root dst) (repeat v (n - m) ++ xs) /\ sk_size dst = n - m + length xs)
         (fun '(dst, m) => m) (fun dst => dwf true (sk_root dst) (repeat v n ++ xs) /\ sk_size dst = n + length xs) body2)
         with (fuel := S m) (s := (dst, m)) as (dst' & E' & D3 & L3); auto.
      + clear dst m Hm D2 L2. intros (dst & m) (Hm & Dd & Ld). unfold body2. destruct (Nat.eqb_spec m 0) as [->|Nm].
        { eexists; split; [reflexivity|]. cbn beta iota. rewrite Nat.sub_0_r in *. auto. }
        unfold msb. replace (m + 1 =? 0) with false by lia. cbn [obind]. set (dg := Nat.log2 (m + 1)).
        destruct (Nat.log2_spec (m + 1)) as (LO & HI); [lia|]. fold dg in LO, HI.
        assert (1 <= dg). { destruct dg; [|lia]. simpl in HI. lia. } pose proof (pow_ge2 H).
        unfold sk_push_node. simpl t_size. cbn [obind]. unfold guard. replace (2 ^ dg - 1 <=? m) with true by lia. cbn [obind].
        eexists; split; [reflexivity|]. cbn beta iota. split; [|lia]. split; [lia|]. cbn [sk_root sk_size]. split; [|lia].
        replace (n - (m - (2 ^ dg - 1))) with (2 ^ dg - 1 + (n - m)) by lia. rewrite repeat_app, <- app_assoc. econstructor; [apply wf_mk; auto|auto].
      + rewrite E'. cbn [obind]. unfold guard. replace (sk_size dst' =? sk_size s + n) with true by lia. cbn [obind]. eexists; split; [reflexivity|].
        split; simpl; auto. rewrite app_length, repeat_length. auto.
  Qed.

  Lemma range_ok l : l <> [] -> exists s, sk_range l = Some s /\ sok s (l, false).
  Proof.
    intros Nl. unfold sk_range. assert (EQ : forall A (a b : A), match l with [] => a | _ => b end = b) by (intros; destruct l; [contradiction|auto]). rewrite EQ.
    assert (K : forall r done s, sok s (done, false) -> exists s', for_each r (fun v s => sk_pushed s v) s = Some s' /\ sok s' (rev r ++ done, false)).
    { induction r as [|y r IH]; intros done s S; cbn [for_each]; [simpl; eauto|].
      destruct (pushed_ok y S) as (s1 & -> & S1). cbn [obind]. simpl in S1. destruct (IH _ _ S1) as (s2 & E2 & S2). exists s2. split; auto. simpl. now rewrite <- app_assoc. }
    destruct (K (rev l) [] (sk_new T)) as (s' & E & S'). { split; simpl; auto. constructor. }
    exists s'. split; auto. now rewrite rev_involutive, app_nil_r in S'.
  Qed.

  Lemma iterate_ok s xs b : sok s (xs, b) -> sk_iterate s = Some xs.
  Proof.
    intros Hs. unfold sk_iterate.
    match goal with |- loop _ ?bd _ = _ => set (body := bd) end.
    destruct (@loop_rule _ _ (fun '(t, out) => exists rest, xs = out ++ rest /\ sok t (rest, b))
       (fun '(t, _) => sk_size t) (fun out => out = xs) body) with (fuel := S (sk_size s)) (s := (s, @nil T)) as (r & E & ->); auto.
    - intros (t & out) (rest & EX & Ht). unfold body. destruct rest as [|x rest].
      + destruct Ht as (D & _). simpl in D.
        assert (sk_root t = []) as ->. { inversion D as [|? d xs1 ? ? W]; auto. destruct (wf_facts W) as (Hd & Ln & _). match goal with Q : _ ++ _ = [] |- _ => apply app_eq_nil in Q; destruct Q as (-> & _) end. simpl in Ln. pose proof (pow_ge2 Hd). lia. }
        eexists; split; [reflexivity|]. now rewrite EX, app_nil_r.
      + destruct (popped_ok Ht) as (Et & t' & Ep & Ht'). destruct (sk_root t) eqn:Er. { unfold sk_front in Et. rewrite Er in Et. discriminate. }
        rewrite Et, Ep. cbn [obind]. eexists; split; [reflexivity|]. cbn beta iota. split; [|destruct Ht, Ht'; simpl in *; lia]. exists rest. rewrite <- app_assoc. auto.
    - exists xs. auto.
  Qed.

  Definition kpool vs ls := Forall2 sok vs ls.
  Lemma kpool_get vs ls k p : kpool vs ls -> get ls k = Some p -> exists s, get vs k = Some s /\ sok s p.
  Proof.
    intros H. revert k. induction H; intros [|k] E; simpl in *; try discriminate.
    - inversion E; subst. eauto. - apply IHForall2; auto.
  Qed.

  Lemma steps_ok : forall cs vs ls, kpool vs ls -> sk_valid_all ls cs ->
    exists vs', for_each cs (fun c vs => sk_step vs c) vs = Some vs' /\ kpool vs' (fold_left (@sk_spec T) cs ls).
  Proof.
    induction cs as [|c cs IH]; intros vs ls P V; [simpl; eauto|]. destruct V as (V1 & V2). cbn [for_each fold_left].
    assert (K : exists vs1, sk_step vs c = Some vs1 /\ kpool vs1 (sk_spec ls c)).
    { destruct c as [|l|k x|k|k i x|k i|k n x]; simpl in V1; unfold sk_step, sk_spec.
      - eexists; split; [reflexivity|]. apply Forall2_app; auto. constructor; auto. split; simpl; auto. constructor.
      - destruct (range_ok V1) as (s & -> & S). cbn [obind]. eexists; split; [reflexivity|]. apply Forall2_app; auto.
      - destruct (get_lt ls V1) as ((xs & b) & E). rewrite E. destruct (kpool_get k P E) as (s & -> & S). cbn [obind].
        destruct (pushed_ok x S) as (s' & -> & S'). cbn [obind]. eexists; split; [reflexivity|]. apply Forall2_app; auto.
      - destruct V1 as (x & xs & b & E). rewrite E. destruct (kpool_get k P E) as (s & -> & S). cbn [obind].
        destruct (popped_ok S) as (_ & s' & -> & S'). cbn [obind]. eexists; split; [reflexivity|]. apply Forall2_app; auto.
      - destruct V1 as (xs & b & E & Hi). rewrite E. destruct (kpool_get k P E) as (s & -> & S). cbn [obind].
        destruct S as (D & L). simpl in *. destruct (d_set_ok x D Hi) as (ds & Ed & D'). unfold sk_updated_at. rewrite Ed. cbn [obind].
        eexists; split; [reflexivity|]. apply Forall2_app; auto. constructor; auto. split; simpl; auto. now rewrite lset_length.
      - destruct V1 as (xs & E). rewrite E. destruct (kpool_get k P E) as (s & -> & S). cbn [obind].
        destruct S as (D & L). simpl in *. destruct (d_drop_ok D i) as (ds & Ed & D' & Z1 & Z2). unfold sk_dropped. rewrite Ed. cbn [obind].
        assert (Q : sok (match ds with [] => sk_new T | _ => mk_sk ds (sk_size s - i) end) (skipn i xs, false)).
        { destruct ds.
          - rewrite skipn_all2 by auto. split; simpl; auto. constructor.
          - split; simpl; auto. rewrite skipn_length. lia. }
        destruct ds; cbn [obind]; (eexists; split; [reflexivity|]; apply Forall2_app; auto).
      - destruct V1 as (xs & b & E & Nx). rewrite E. destruct (kpool_get k P E) as (s & -> & S). cbn [obind].
        destruct (extended_ok n x S Nx) as (s' & -> & S'). cbn [obind]. eexists; split; [reflexivity|]. apply Forall2_app; auto. }
    destruct K as (vs1 & -> & P1). cbn [obind]. apply IH; auto.
  Qed.
End Skew.
