From Verif Require Import Base BaseLemmas UnionFindModel UnionFindSpec.
From Coq Require Import Relations.
Set Implicit Arguments.

Section Inv.
  Variable n : nat.

  Definition members (rt : nat -> nat) r := filter (fun v => rt v =? r) (seq 0 n).
  Definition cnt rt r := length (members rt r).

  (** [sz] gives the (negated) value stored at roots. *)
  Record inv (par : list Z) (rt d sz : nat -> nat) : Prop := {
    i_len : length par = n;
    i_lt  : forall u, u < n -> rt u < n;
    i_idem: forall u, u < n -> rt (rt u) = rt u;
    i_root: forall u, u < n -> rt u = u -> get par u = Some (- Z.of_nat (sz u))%Z /\ 0 < sz u /\ d u = 0;
    i_node: forall u, u < n -> rt u <> u -> exists p, get par u = Some (Z.of_nat p) /\ p < n /\ rt p = rt u /\ d p < d u;
    i_depth: forall u, u < n -> d u < n
  }.

  Lemma cnt_le rt r : cnt rt r <= n.
  Proof.
    unfold cnt, members. rewrite <- (seq_length n 0) at 2.
    generalize (seq 0 n). intros l. induction l; simpl; auto. destruct (rt a =? r); simpl; lia.
  Qed.

  Lemma in_members rt r v : In v (members rt r) <-> v < n /\ rt v = r.
  Proof. unfold members. rewrite filter_In, in_seq, Nat.eqb_eq. lia. Qed.

  Lemma cnt_pos rt u : u < n -> 0 < cnt rt (rt u).
  Proof.
    intros. unfold cnt. assert (In u (members rt (rt u))) by (apply in_members; auto).
    destruct (members rt (rt u)); [contradiction|simpl; lia].
  Qed.

  Definition good rt d := forall u, u < n -> d u < cnt rt (rt u).

  Lemma inv_new : inv (uf_new n) (fun u => u) (fun _ => 0) (cnt (fun u => u)) /\ good (fun u => u) (fun _ => 0).
  Proof.
    split; [split; auto; try lia|].
    - apply repeat_length.
    - intros u Hu _. split; [|split; auto; now apply (@cnt_pos (fun u => u))].
      unfold uf_new. rewrite get_repeat by auto. f_equal.
      replace (cnt (fun u => u) u) with 1; auto.
      unfold cnt, members.
      assert (K : forall m s, length (filter (fun v => v =? u) (seq s m)) = if (s <=? u) && (u <? s + m) then 1 else 0).
      { induction m; intros s; simpl.
        - destruct (s <=? u) eqn:?, (u <? s+0) eqn:?; simpl; auto; lia.
        - destruct (Nat.eqb_spec s u); simpl; rewrite IHm.
          + subst. replace ((S u <=? u)) with false by lia. replace (u <=? u) with true by lia. simpl. replace (u <? u + S m) with true by lia. auto.
          + replace (S s <=? u) with (s <=? u) by lia. replace (S s + m) with (s + S m) by lia. auto. }
      rewrite K. simpl. replace (u <? n) with true by lia. auto.
    - intros u Hu. apply (@cnt_pos (fun u => u)); auto.
  Qed.

  Lemma root_fuel_ok fuel : forall par rt d sz u, inv par rt d sz -> u < n -> d u < fuel ->
    exists par', uf_root_fuel fuel par u = Some (par', rt u) /\ inv par' rt d sz.
  Proof.
    induction fuel; intros par rt d sz u I Hu Hd; [lia|]. simpl.
    destruct (Nat.eq_dec (rt u) u) as [E|E].
    - destruct (i_root I Hu E) as (-> & Hp & _). cbn [obind].
      replace (- Z.of_nat (sz u) <? 0)%Z with true by lia. rewrite E. eauto.
    - destruct (i_node I Hu E) as (p & Ep & Hp & Er & Hdp).
      rewrite Ep. cbn [obind]. replace (Z.of_nat p <? 0)%Z with false by lia. rewrite Nat2Z.id.
      destruct (IHfuel par rt d sz p I Hp) as (par1 & E1 & I1); [lia|].
      rewrite E1. cbn [obind]. rewrite set_some by (rewrite (i_len I1); auto). cbn [obind].
      rewrite Er. eexists; split; [reflexivity|].
      pose proof (i_lt I Hu) as Hlt. pose proof (i_idem I Hu) as Hid.
      split; try apply I.
      + rewrite lset_length. apply I1.
      + intros w Hw Hr. rewrite get_lset_neq by congruence. apply (i_root I1); auto.
      + intros w Hw Hr. destruct (Nat.eq_dec w u) as [->|].
        * exists (rt u). rewrite get_lset_eq by (rewrite (i_len I1); auto). repeat split; auto.
          destruct (i_root I Hlt Hid) as (_ & _ & ->). lia.
        * rewrite get_lset_neq by auto. apply (i_node I1); auto.
  Qed.

  Lemma root_ok par rt d sz u : inv par rt d sz -> u < n ->
    exists par', uf_root par u = Some (par', rt u) /\ inv par' rt d sz.
  Proof. intros I Hu. apply root_fuel_ok; auto. rewrite (i_len I). pose proof (i_depth I Hu). lia. Qed.

  Lemma size_ok par rt d sz u : inv par rt d sz -> u < n ->
    exists par', uf_size_of par u = Some (par', Z.of_nat (sz (rt u))) /\ inv par' rt d sz.
  Proof.
    intros I Hu. unfold uf_size_of. destruct (root_ok I Hu) as (par' & E & I'). rewrite E. cbn [obind].
    destruct (i_root I' (i_lt I' Hu) (i_idem I' Hu)) as (-> & _). cbn [obind].
    rewrite Z.opp_involutive. eauto.
  Qed.

  Lemma both_ok {R} (f : list Z -> nat -> option (list Z * R)) (g : nat -> R) rt d sz :
    (forall par u, inv par rt d sz -> u < n -> exists par', f par u = Some (par', g u) /\ inv par' rt d sz) ->
    forall o par u v, inv par rt d sz -> u < n -> v < n ->
    exists par', both o f par u v = Some (par', g u, g v) /\ inv par' rt d sz.
  Proof.
    intros H o par u v I Hu Hv. unfold both. destruct o.
    - destruct (H par u I Hu) as (p1 & -> & I1). cbn [obind]. destruct (H p1 v I1 Hv) as (p2 & -> & I2). cbn [obind]. eauto.
    - destruct (H par v I Hv) as (p1 & -> & I1). cbn [obind]. destruct (H p1 u I1 Hu) as (p2 & -> & I2). cbn [obind]. eauto.
  Qed.

  Lemma are_union_ok o par rt d sz u v : inv par rt d sz -> u < n -> v < n ->
    exists par', uf_are_union o par u v = Some (par', rt u =? rt v) /\ inv par' rt d sz.
  Proof.
    intros I Hu Hv. unfold uf_are_union.
    destruct (@both_ok _ uf_root rt rt d sz) with (o := o) (par := par) (u := u) (v := v) as (p & -> & I'); auto.
    - intros. apply root_ok; auto.
    - cbn [obind]. eauto.
  Qed.

  (** The partition after hanging the class of [rv] below [ru]. *)
  Definition rt' (rt : nat -> nat) (ru rv : nat) := fun w : nat => if rt w =? rv then ru else rt w.
  Definition d' (rt d : nat -> nat) (rv : nat) := fun w : nat => if rt w =? rv then S (d w) else d w.

  Lemma cnt_merge (rt : nat -> nat) (ru rv : nat) : ru <> rv -> cnt (rt' rt ru rv) ru = cnt rt ru + cnt rt rv.
  Proof.
    intros. unfold cnt, members. generalize (seq 0 n). intros l. induction l; simpl; auto.
    unfold rt' at 1. destruct (Nat.eqb_spec (rt a) rv).
    - rewrite Nat.eqb_refl. replace (rt a =? ru) with false by (symmetry; apply Nat.eqb_neq; lia). simpl. lia.
    - destruct (Nat.eqb_spec (rt a) ru); simpl; lia.
  Qed.
  Lemma cnt_other (rt : nat -> nat) (ru rv x : nat) : x <> ru -> x <> rv -> cnt (rt' rt ru rv) x = cnt rt x.
  Proof.
    intros. unfold cnt, members. generalize (seq 0 n). intros l. induction l; simpl; auto.
    unfold rt' at 1. destruct (Nat.eqb_spec (rt a) rv).
    - replace (ru =? x) with false by (symmetry; apply Nat.eqb_neq; lia).
      replace (rt a =? x) with false by (symmetry; apply Nat.eqb_neq; lia). auto.
    - destruct (Nat.eqb_spec (rt a) x); simpl; lia.
  Qed.

  Lemma merge_ok par rt d u v : inv par rt d (cnt rt) -> good rt d -> u < n -> v < n -> rt u <> rt v ->
    forall o3 o4 : bool, exists par',
      (let* (par, r, s) :=
        (if o3 then
           let* (par, s) := uf_size_of par v in let* (par, r) := uf_root par u in Some (par, r, s)
         else
           let* (par, r) := uf_root par u in let* (par, s) := uf_size_of par v in Some (par, r, s)) in
      let* x := get par r in
      let* par := set par r (x - s)%Z in
      let* (par, rv, ru) := both o4 uf_root par v u in
      let* par := set par rv (Z.of_nat ru) in
      Some (par, true)) = Some (par', true) /\
      inv par' (rt' rt (rt u) (rt v)) (d' rt d (rt v)) (cnt (rt' rt (rt u) (rt v))) /\
      good (rt' rt (rt u) (rt v)) (d' rt d (rt v)).
  Proof.
    intros I Gd Hu Hv Hne o3 o4.
    assert (K : exists p1, (if o3 then
           let* (par, s) := uf_size_of par v in let* (par, r) := uf_root par u in Some (par, r, s)
         else
           let* (par, r) := uf_root par u in let* (par, s) := uf_size_of par v in Some (par, r, s))
         = Some (p1, rt u, Z.of_nat (cnt rt (rt v))) /\ inv p1 rt d (cnt rt)).
    { destruct o3.
      - destruct (size_ok I Hv) as (p1 & -> & I1). cbn [obind]. destruct (root_ok I1 Hu) as (p2 & -> & I2). cbn [obind]. eauto.
      - destruct (root_ok I Hu) as (p1 & -> & I1). cbn [obind]. destruct (size_ok I1 Hv) as (p2 & -> & I2). cbn [obind]. eauto. }
    destruct K as (p1 & -> & I1). cbn [obind].
    set (ru := rt u) in *. set (rv := rt v) in *.
    assert (Hru : ru < n) by (apply (i_lt I Hu)). assert (Hrv : rv < n) by (apply (i_lt I Hv)).
    assert (Iru : rt ru = ru) by (apply (i_idem I Hu)). assert (Irv : rt rv = rv) by (apply (i_idem I Hv)).
    destruct (i_root I1 Hru Iru) as (-> & Pu & Du). cbn [obind].
    rewrite set_some by (rewrite (i_len I1); auto). cbn [obind].
    set (sz1 := fun w => if w =? ru then cnt rt ru + cnt rt rv else cnt rt w).
    assert (I2 : inv (lset p1 ru (- Z.of_nat (cnt rt ru) - Z.of_nat (cnt rt rv))%Z) rt d sz1).
    { split; try apply I1.
      - rewrite lset_length. apply I1.
      - intros w Hw Hr. unfold sz1. destruct (Nat.eqb_spec w ru) as [->|].
        + rewrite get_lset_eq by (rewrite (i_len I1); auto). repeat split; try lia. f_equal. lia.
        + rewrite get_lset_neq by auto. apply (i_root I1); auto.
      - intros w Hw Hr. rewrite get_lset_neq by congruence. apply (i_node I1); auto. }
    destruct (@both_ok _ uf_root rt rt d sz1) with (o := o4) (u := v) (v := u) (par := lset p1 ru (- Z.of_nat (cnt rt ru) - Z.of_nat (cnt rt rv))%Z) as (p3 & -> & I3); auto.
    { intros. apply root_ok; auto. }
    cbn [obind]. fold ru rv. rewrite set_some by (rewrite (i_len I3); auto). cbn [obind].
    eexists; split; [reflexivity|].
    assert (G2 : good (rt' rt ru rv) (d' rt d rv)).
    { intros w Hw. unfold rt' at 2, d'. pose proof (Gd w Hw) as Gw. destruct (Nat.eqb_spec (rt w) rv) as [E|E].
      - rewrite cnt_merge by auto. rewrite E in Gw. lia.
      - destruct (Nat.eq_dec (rt w) ru) as [E2|E2].
        + rewrite E2 in *. rewrite cnt_merge by auto. lia.
        + rewrite cnt_other by auto. auto. }
    split; auto. split.
    - rewrite lset_length. apply I3.
    - intros w Hw. unfold rt'. destruct (rt w =? rv); auto. apply (i_lt I Hw).
    - intros w Hw. unfold rt'. destruct (Nat.eqb_spec (rt w) rv).
      + rewrite Iru. destruct (Nat.eqb_spec ru rv); auto.
      + rewrite (i_idem I Hw). destruct (Nat.eqb_spec (rt w) rv); congruence.
    - intros w Hw Hr. unfold rt' in Hr. destruct (Nat.eqb_spec (rt w) rv) as [E|E].
      + (* w = ru, but rt ru = ru <> rv *) subst w. congruence.
      + assert (w <> rv) by congruence.
        rewrite get_lset_neq by auto. destruct (i_root I3 Hw Hr) as (-> & P & D).
        unfold d'. replace (rt w =? rv) with false by (symmetry; now apply Nat.eqb_neq).
        unfold sz1 in *. destruct (Nat.eqb_spec w ru) as [->|].
        * rewrite cnt_merge by auto. repeat split; auto.
        * rewrite cnt_other by auto. repeat split; auto.
    - intros w Hw Hr. unfold rt' in Hr. destruct (Nat.eq_dec w rv) as [->|Hwv].
      + exists ru. rewrite get_lset_eq by (rewrite (i_len I3); auto).
        repeat split; auto.
        * unfold rt'. rewrite Iru, Irv, Nat.eqb_refl. destruct (Nat.eqb_spec ru rv); auto.
        * unfold d'. rewrite Iru, Irv, Nat.eqb_refl. destruct (Nat.eqb_spec ru rv); [contradiction|]. lia.
      + rewrite get_lset_neq by auto.
        assert (Hnr : rt w <> w). { intro E. rewrite E in Hr. destruct (Nat.eqb_spec w rv); congruence. }
        destruct (i_node I3 Hw Hnr) as (p & Ep & Hp & Er & Hd). exists p. repeat split; auto.
        * unfold rt'. rewrite Er. auto.
        * unfold d'. rewrite Er. destruct (rt w =? rv); lia.
    - intros w Hw. pose proof (G2 w Hw). pose proof (cnt_le (rt' rt ru rv) (rt' rt ru rv w)). lia.
  Qed.
End Inv.

Section Spec.
  Variable n : nat.

  Definition ok (par : list Z) (pairs : list (nat * nat)) :=
    exists rt d, inv n par rt d (cnt n rt) /\ good n rt d /\
      (forall a b, In (a, b) pairs -> a < n /\ b < n) /\
      forall a b, a < n -> b < n -> (rt a = rt b <-> conn pairs a b).

  Lemma conn_lt pairs : (forall a b, In (a, b) pairs -> a < n /\ b < n) ->
    forall a b, conn pairs a b -> (a < n <-> b < n).
  Proof.
    intros H a b C. induction C; try tauto. apply H in H0. tauto.
  Qed.

  Lemma ok_new : ok (uf_new n) [].
  Proof.
    exists (fun u => u), (fun _ => 0). destruct (inv_new n) as (I & G).
    split; [auto|]. split; [auto|]. split; [contradiction|]. intros a b Ha Hb. split.
    - intros ->. apply rst_refl.
    - intros C. induction C; auto.
      + contradiction.
      + assert (x < n <-> y < n) by (eapply conn_lt with (pairs := []); eauto; contradiction).
        symmetry; tauto.
      + assert (x < n <-> y < n) by (eapply conn_lt with (pairs := []); eauto; contradiction).
        assert (y < n) by tauto. rewrite IHC1, IHC2; auto.
  Qed.

  Lemma conn_mono p pairs a b : conn pairs a b -> conn (p :: pairs) a b.
  Proof.
    intros C. induction C.
    - apply rst_step. now right.
    - apply rst_refl.
    - apply rst_sym; auto.
    - eapply rst_trans; eauto.
  Qed.

  Lemma conn_step pairs a b : conn ((a, b) :: pairs) a b.
  Proof. apply rst_step. now left. Qed.

  (** Merging two classes adds exactly one pair. *)
  Lemma conn_merge pairs rt u v :
    (forall a b, In (a, b) pairs -> a < n /\ b < n) ->
    (forall a b, a < n -> b < n -> (rt a = rt b <-> conn pairs a b)) -> u < n -> v < n ->
    forall r1 r2, ((r1 = rt u /\ r2 = rt v) \/ (r1 = rt v /\ r2 = rt u)) ->
    forall a b, a < n -> b < n -> (rt' rt r1 r2 a = rt' rt r1 r2 b <-> conn ((u, v) :: pairs) a b).
  Proof.
    intros HP H Hu Hv r1 r2 Hr a b Ha Hb.
    assert (Cuv : conn ((u,v)::pairs) u v) by apply conn_step.
    assert (Cvu : conn ((u,v)::pairs) v u) by (apply rst_sym; auto).
    assert (M : forall x y, x < n -> y < n -> rt x = rt y -> conn ((u,v)::pairs) x y).
    { intros. apply conn_mono. apply H; auto. }
    assert (Q : forall x, x < n -> rt x = r2 -> exists w, w < n /\ rt w = r1 /\ conn ((u,v)::pairs) x w).
    { intros x Hx E. destruct Hr as [(-> & ->)|(-> & ->)].
      - exists u. repeat split; auto. apply rst_trans with v; [apply M; auto|auto].
      - exists v. repeat split; auto. apply rst_trans with u; [apply M; auto|auto]. }
    split.
    - unfold rt'. destruct (Nat.eqb_spec (rt a) r2) as [Ea|Ea], (Nat.eqb_spec (rt b) r2) as [Eb|Eb]; intros E.
      + apply M; auto. congruence.
      + destruct (Q a Ha Ea) as (w & Hw & Ew & Cw). eapply rst_trans; [exact Cw|]. apply M; auto. congruence.
      + destruct (Q b Hb Eb) as (w & Hw & Ew & Cw). eapply rst_trans; [|apply rst_sym; exact Cw]. apply M; auto. congruence.
      + apply M; auto.
    - assert (HP' : forall x y, In (x, y) ((u, v) :: pairs) -> x < n /\ y < n).
      { intros x y [E|E]; auto. inversion E; subst; auto. }
      intros C. induction C.
      + destruct H0 as [E|E].
        * inversion E; subst. unfold rt'. destruct Hr as [(-> & ->)|(-> & ->)].
          -- rewrite Nat.eqb_refl. destruct (rt x =? rt y); auto.
          -- rewrite Nat.eqb_refl. destruct (Nat.eqb_spec (rt y) (rt x)); auto.
        * assert (rt x = rt y) by (apply H; auto; apply rst_step; auto). unfold rt'. rewrite H0. auto.
      + auto.
      + assert (x < n <-> y < n) by (eapply conn_lt; eauto). symmetry. tauto.
      + assert (x < n <-> y < n) by (eapply conn_lt; eauto). rewrite IHC1, IHC2; tauto.
  Qed.

  Lemma call_ok par pairs c : ok par pairs -> uf_valid n c ->
    exists par' o, uf_call par c = Some (par', o) /\ uf_answer n pairs c o /\ ok par' (uf_pairs pairs c).
  Proof.
    intros (rt & d & I & Gd & HP & HC) V. destruct c as [u|o u v|u|o1 o2 o3 o4 u v]; simpl in *.
    - destruct (root_ok I V) as (p & -> & I'). cbn [obind]. do 2 eexists; split; [reflexivity|].
      split.
      + split; [apply (i_lt I V)|]. apply HC; auto. apply (i_lt I V). symmetry. apply (i_idem I V).
      + exists rt, d. auto.
    - destruct V as (Hu & Hv). destruct (are_union_ok o I Hu Hv) as (p & -> & I'). cbn [obind].
      do 2 eexists; split; [reflexivity|]. split.
      + rewrite Nat.eqb_eq. apply HC; auto.
      + exists rt, d. auto.
    - destruct (size_ok I V) as (p & -> & I'). cbn [obind]. do 2 eexists; split; [reflexivity|]. split.
      + exists (members n rt (rt u)). split; [|split; auto].
        * apply NoDup_filter, seq_NoDup.
        * intros w. rewrite in_members. split; intros (Hw & E); split; auto.
          -- apply HC; auto.
          -- apply HC in E; auto.
      + exists rt, d. auto.
    - destruct V as (Hu & Hv). unfold uf_unite.
      destruct (are_union_ok o1 I Hu Hv) as (p & -> & I1). cbn [obind].
      assert (HP' : forall x y, In (x, y) ((u, v) :: pairs) -> x < n /\ y < n).
      { intros x y [E|E]; auto. inversion E; subst; auto. }
      destruct (Nat.eqb_spec (rt u) (rt v)) as [E|E].
      + cbn [obind]. do 2 eexists; split; [reflexivity|]. split.
        * split; [discriminate|]. intros Hn. exfalso. apply Hn. apply HC; auto.
        * exists rt, d. split; [auto|]. split; [auto|]. split; [auto|]. intros a b H H0. split.
          -- intros Er. apply conn_mono, HC; auto.
          -- intros C. pose proof (@conn_merge pairs rt u v HP HC Hu Hv (rt u) (rt v) ltac:(auto) a b H H0) as K.
             apply K in C. unfold rt' in C.
             destruct (Nat.eqb_spec (rt a) (rt v)), (Nat.eqb_spec (rt b) (rt v)); congruence.
      + destruct (@both_ok n _ uf_size_of (fun w => Z.of_nat (cnt n rt (rt w))) rt d (cnt n rt)) with (o := o2) (par := p) (u := u) (v := v) as (p2 & E2 & I2); auto.
        { intros. apply size_ok; auto. }
        rewrite E2. cbn [obind].
        assert (Hn : ~ conn pairs u v) by (intros C; apply HC in C; auto).
        destruct (Z.of_nat (cnt n rt (rt u)) <? Z.of_nat (cnt n rt (rt v)))%Z.
        * destruct (@merge_ok n p2 rt d v u I2 Gd Hv Hu ltac:(auto) o3 o4) as (p3 & -> & I3 & G3). cbn [obind].
          do 2 eexists; split; [reflexivity|]. split; [split; auto|].
          exists (rt' rt (rt v) (rt u)), (d' rt d (rt u)). split; auto. split; auto. split; auto.
          apply conn_merge; auto.
        * destruct (@merge_ok n p2 rt d u v I2 Gd Hu Hv ltac:(auto) o3 o4) as (p3 & -> & I3 & G3). cbn [obind].
          do 2 eexists; split; [reflexivity|]. split; [split; auto|].
          exists (rt' rt (rt u) (rt v)), (d' rt d (rt v)). split; auto. split; auto. split; auto.
          apply conn_merge; auto.
  Qed.

  Lemma run_ok h : forall par pairs, ok par pairs -> (forall c, In c h -> uf_valid n c) ->
    exists par' os, uf_run par h = Some (par', os) /\ uf_answers n pairs h os /\
      ok par' (fold_left uf_pairs h pairs).
  Proof.
    induction h as [|c h IH]; intros par pairs O V; simpl.
    - exists par, []. auto.
    - destruct (@call_ok par pairs c O) as (p1 & o & -> & A & O1). { apply V; now left. }
      cbn [obind]. destruct (IH p1 _ O1) as (p2 & os & -> & A2 & O2). { intros; apply V; now right. }
      cbn [obind]. exists p2, (o :: os). auto.
  Qed.

  Lemma roots_agree par pairs : ok par pairs -> forall a b, a < n -> b < n ->
    exists pa ra pb rb, uf_root par a = Some (pa, ra) /\ uf_root pa b = Some (pb, rb) /\ (ra = rb <-> conn pairs a b).
  Proof.
    intros (rt & d & I & Gd & HP & HC) a b Ha Hb.
    destruct (root_ok I Ha) as (pa & Ea & Ia). destruct (root_ok Ia Hb) as (pb & Eb & Ib).
    exists pa, (rt a), pb, (rt b). auto.
  Qed.
End Spec.
