From Verif Require Import Base BaseLemmas ListExtra GraphModel GraphProof SccModel.

Lemma conn_trans A u v t : conn A u v -> conn A v t -> conn A u t.
Proof. induction 1; auto. intros. eapply conn_step; eauto. Qed.
Lemma conn_one A u v : In (u, v) A -> conn A u v.
Proof. intros. eapply conn_step; [eassumption|constructor]. Qed.

Definition above (l : list nat) (w v : nat) : Prop := exists l1 l2, l = l1 ++ w :: l2 /\ In v (w :: l2).

Section Dfs.
Variable G : graph.
Variable n : nat.
Variable A : list (nat * nat).
Hypothesis Rp : repr G n A.
Notation adj := (adj G).

Lemma A_lt u v : In (u, v) A -> u < n /\ v < n.
Proof. destruct Rp as (_ & _ & _ & _ & _ & H). apply H. Qed.
Lemma conn_lt u v : conn A u v -> u < n -> v < n.
Proof. induction 1; auto. intros. apply IHconn. now apply A_lt in H. Qed.

Definition vs (vis : list bool) (x : nat) : Prop := get vis x = Some true.
Definition unv (vis : list bool) : list nat := filter (fun x => match get vis x with Some false => true | _ => false end) (seq 0 n).
Lemma unv_in vis x : In x (unv vis) <-> x < n /\ get vis x = Some false.
Proof.
  unfold unv. rewrite filter_In, in_seq. split.
  - intros [H1 H2]. split; [lia|]. destruct (get vis x) as [[]|]; congruence.
  - intros [H1 H2]. rewrite H2. split; auto. lia.
Qed.
Lemma unv_nodup vis : NoDup (unv vis).
Proof. apply NoDup_filter, seq_NoDup. Qed.
Lemma unv_mono v1 v2 : length v1 = n -> (forall x, vs v1 x -> vs v2 x) -> length (unv v2) <= length (unv v1).
Proof.
  intros L H. apply NoDup_incl_length; [apply unv_nodup|]. intros x. rewrite !unv_in. intros [H1 H2]. split; auto.
  destruct (@get_lt _ v1 x ltac:(lia)) as ([|] & E); auto. apply H in E. unfold vs in E. congruence.
Qed.
Lemma unv_set vis s : length vis = n -> s < n -> get vis s = Some false -> S (length (unv (lset vis s true))) = length (unv vis).
Proof.
  intros L Hs E. apply Nat.le_antisymm.
  - apply (@NoDup_incl_length _ (s :: unv (lset vis s true))).
    + constructor; [|apply unv_nodup]. rewrite unv_in. intros [_ H]. rewrite get_lset_eq in H by lia. discriminate.
    + intros x [<-|Hx]; [now apply unv_in|]. apply unv_in in Hx as [H1 H2]. apply unv_in. split; auto.
      destruct (Nat.eq_dec s x) as [->|N]; [rewrite get_lset_eq in H2 by lia; discriminate|]. now rewrite get_lset_neq in H2.
  - apply (@NoDup_incl_length _ (unv vis) (s :: unv (lset vis s true))); [apply unv_nodup|].
    intros x Hx. apply unv_in in Hx as [H1 H2]. destruct (Nat.eq_dec s x) as [->|N]; [now left|right].
    apply unv_in. split; auto. now rewrite get_lset_neq.
Qed.

(** Paths all of whose vertices but the last are in [F]. *)
Inductive pin (F : list nat) : nat -> nat -> Prop :=
| pin1 u w : In u F -> In (u, w) A -> pin F u w
| pinS u v w : In u F -> In (u, v) A -> pin F v w -> pin F u w.
Lemma pin_conn F u w : pin F u w -> conn A u w.
Proof. induction 1; [now apply conn_one|]. eapply conn_step; eauto. Qed.
Lemma pin_split F s u w : pin (s :: F) u w -> pin F u w \/ (u = s \/ pin F u s).
Proof.
  induction 1 as [u w [<-|Hu] He|u v w [<-|Hu] He _ IH]; auto.
  - left. now apply pin1.
  - destruct IH as [IH|[->|IH]].
    + left. eapply pinS; eauto.
    + right. right. now apply pin1.
    + right. right. eapply pinS; eauto.
Qed.
Lemma pin_head F u w : pin F u w -> In u F.
Proof. now destruct 1. Qed.

Record inv (Gy : list nat) (vis : list bool) (out : list nat) : Prop := {
  i_len : length vis = n;
  i_nd : NoDup out;
  i_vis : forall x, In x out -> vs vis x;
  i_gy : forall x, In x Gy -> vs vis x;
  i_cl : forall u t, In u out -> In (u, t) A -> vs vis t;
  i_J : forall u w, pin out u w -> In w Gy -> conn A w u;
  i_K : forall u v, pin out u v -> In v out -> exists w, conn A u w /\ conn A w u /\ above out w v }.

Lemma vs_set vis s x : s < length vis -> (vs (lset vis s true) x <-> x = s \/ vs vis x).
Proof.
  intros L. unfold vs. destruct (Nat.eq_dec s x) as [->|N].
  - rewrite get_lset_eq by auto. tauto.
  - rewrite get_lset_neq by auto. split; auto. intros [E|E]; congruence.
Qed.

Definition post (Gy : list nat) (s : nat -> Prop) (vis : list bool) (out : list nat) (vis' : list bool) (out' : list nat) : Prop :=
  inv Gy vis' out' /\ exists nw, out' = nw ++ out /\ (forall x, vs vis' x <-> vs vis x \/ In x nw) /\
    (forall x, In x nw -> ~ vs vis x /\ x < n /\ exists t, s t /\ conn A t x).

Lemma dfs_ok : forall fuel Gy s vis out, inv Gy vis out -> s < n -> length (unv vis) < fuel ->
  (~ vs vis s -> forall g, In g Gy -> conn A g s) ->
  exists vis' out', scc_dfs fuel G s (vis, out) = Some (vis', out') /\ post Gy (eq s) vis out vis' out' /\ vs vis' s.
Proof.
  induction fuel as [|fuel IH]; intros Gy s vis out I Hs Hf Hg; [lia|]. cbn [scc_dfs].
  destruct (@get_lt _ vis s) as (b & Eb); [rewrite (i_len _ _ _ I); auto|]. rewrite Eb. cbn [obind]. destruct b.
  { exists vis, out. split; auto. split; [|exact Eb]. split; auto. exists []. split; auto. split; [cbn; tauto|]. intros x []. }
  assert (Ls : s < length vis) by (rewrite (i_len _ _ _ I); auto).
  rewrite (set_some _ true Ls). cbn [obind]. rewrite (get_adj _ _ _ s Rp Hs). cbn [obind].
  assert (Ns : ~ vs vis s) by (unfold vs; congruence).
  assert (Ha : forall t, In t (adj s) -> In (s, t) A) by (intros t Ht; now apply (adj_in _ _ _ s t Rp)).
  set (v1 := lset vis s true).
  assert (I1 : inv (s :: Gy) v1 out).
  { destruct I. split; auto.
    - unfold v1. now rewrite lset_length.
    - intros x Hx. apply vs_set; auto.
    - intros x [<-|Hx]; apply vs_set; auto.
    - intros u t Hu Ht. apply vs_set; auto. right. eauto.
    - intros u w Hp [<-|Hw]; [|eauto]. exfalso. apply Ns. clear -Hp i_cl0. induction Hp; eauto. }
  assert (Lp : forall l v2 o2, (forall t, In t l -> In (s, t) A) -> post (s :: Gy) (fun t => In (s, t) A) v1 out v2 o2 ->
    exists v3 o3, for_each l (fun t st => scc_dfs fuel G t st) (v2, o2) = Some (v3, o3) /\ post (s :: Gy) (fun t => In (s, t) A) v1 out v3 o3 /\
      (forall x, vs v2 x -> vs v3 x) /\ (forall t, In t l -> vs v3 t)).
  { induction l as [|t l IHl]; intros v2 o2 Hl (I2 & nw & E2 & V2 & N2); cbn [for_each].
    - exists v2, o2. split; auto. split; [split; eauto|]. split; auto. intros t [].
    - destruct (IH (s :: Gy) t v2 o2 I2) as (v3 & o3 & E3 & (I3 & nw3 & Eo3 & V3 & N3) & Vt).
      + apply (A_lt s t), Hl. now left.
      + assert (length (unv v2) <= length (unv v1)) by (apply unv_mono; [apply (i_len _ _ _ I1)|intros x Hx; apply V2; auto]).
        unfold v1 in *. pose proof (unv_set vis s (i_len _ _ _ I) Hs Eb). lia.
      + intros _ g [<-|Hgy]; [apply conn_one, Hl; now left|]. eapply conn_trans; [apply Hg; auto|]. apply conn_one, Hl. now left.
      + rewrite E3. cbn [obind]. destruct (IHl v3 o3) as (v4 & o4 & E4 & P4 & M4 & T4).
        * intros x Hx. apply Hl. now right.
        * split; auto. exists (nw3 ++ nw). split; [rewrite Eo3, E2; apply app_assoc|]. split.
          -- intros x. rewrite V3, V2, in_app_iff. tauto.
          -- intros x Hx. apply in_app_or in Hx as [Hx|Hx]; [|auto]. destruct (N3 x Hx) as (Nx & Lx & y & <- & Cy).
             split; [intros Hv; apply Nx, V2; auto|]. split; auto. exists t. split; auto. apply Hl. now left.
        * exists v4, o4. split; auto. split; auto. split.
          -- intros x Hx. apply M4, V3. auto.
          -- intros x [<-|Hx]; auto. }
  destruct (Lp (adj s) v1 out Ha) as (v2 & o2 & E2 & (I2 & nw & Eo & V2 & N2) & M2 & T2).
  { split; auto. exists []. split; auto. split; [cbn; tauto|]. intros x []. }
  rewrite E2. cbn [obind]. exists v2, (s :: o2). split; auto.
  assert (Vs : vs v2 s) by (apply V2; left; apply vs_set; auto).
  assert (So : ~ In s o2).
  { rewrite Eo. intros H. apply in_app_or in H as [H|H].
    - apply N2 in H as [H _]. apply H, vs_set; auto.
    - apply Ns, (i_vis _ _ _ I), H. }
  split; [|auto]. split.
  - destruct I2. split; auto.
    + constructor; auto.
    + intros x [<-|Hx]; auto.
    + intros x Hx. apply i_gy0. now right.
    + intros u t [<-|Hu] Ht; [apply T2; now apply (adj_in _ _ _ s t Rp)|eauto].
    + intros u w Hp Hw. assert (Cw : conn A w s) by (apply Hg; auto).
      apply pin_split in Hp as [Hp|[->|Hp]]; auto.
      * apply i_J0; auto. now right.
      * eapply conn_trans; [exact Cw|]. apply i_J0; auto. now left.
    + intros u v Hp Hv.
      assert (D : (pin o2 u v /\ In v o2) \/ (u = s \/ pin o2 u s)).
      { apply pin_split in Hp. destruct Hv as [<-|Hv]; tauto. }
      destruct D as [[D1 D2]|D].
      * destruct (i_K0 u v D1 D2) as (w & C1 & C2 & l1 & l2 & Ew & Hin). exists w. split; auto. split; auto.
        exists (s :: l1), l2. rewrite Ew. auto.
      * exists s. assert (C : conn A u s /\ conn A s u).
        { destruct D as [->|D]; [split; constructor|]. split; [eapply pin_conn; eauto|]. apply i_J0; auto. now left. }
        destruct C as [C1 C2]. split; auto. split; auto. exists [], o2. auto.
  - exists (s :: nw). split; [now rewrite Eo|]. split.
    + intros x. rewrite V2. unfold v1. rewrite vs_set by auto. cbn. intuition congruence.
    + intros x [<-|Hx].
      * split; auto. split; auto. exists s. split; auto. constructor.
      * destruct (N2 x Hx) as (Nx & Lx & t & Ht & Ct). split; [intros H; apply Nx, vs_set; auto|]. split; auto. exists s. split; auto. eapply conn_step; eauto.
Qed.

(** The first phase *)
Lemma phase1 : exists vis st, for_up n 0 (fun i st => scc_dfs (n + 1) G i st) (repeat false n, []) = Some (vis, st) /\
  NoDup st /\ (forall x, In x st <-> x < n) /\
  (forall u v, conn A u v -> u < n -> exists w, conn A u w /\ conn A w u /\ above st w v).
Proof.
  assert (Lp : forall k lo vis st, inv [] vis st -> lo + k = n -> (forall x, vs vis x <-> In x st) -> (forall x, In x st -> x < n) -> (forall x, x < lo -> In x st) ->
    exists vis' st', for_up k lo (fun i st => scc_dfs (n + 1) G i st) (vis, st) = Some (vis', st') /\ inv [] vis' st' /\ (forall x, vs vis' x <-> In x st') /\
      (forall x, In x st' <-> x < n)).
  { induction k as [|k IH]; intros lo vis st I E V Lt Al; cbn [for_up].
    - exists vis, st. split; auto. split; auto. split; auto. intros x. split; auto. intros. apply Al. lia.
    - destruct (dfs_ok (n + 1) [] lo vis st I) as (v1 & s1 & E1 & (I1 & nw & Es & V1 & N1) & Vl).
      + lia.
      + pose proof (@NoDup_incl_length _ (unv vis) (seq 0 n) (unv_nodup vis)) as H. rewrite seq_length in H.
        assert (length (unv vis) <= n); [|lia]. apply H. intros x Hx. apply unv_in in Hx. apply in_seq. lia.
      + intros _ g [].
      + rewrite E1. cbn [obind]. assert (V1' : forall x, vs v1 x <-> In x s1) by (intros x; rewrite V1, V, Es, in_app_iff; tauto).
        apply IH; auto; try lia.
        * intros x. rewrite Es. intros Hx. apply in_app_or in Hx as [Hx|Hx]; [now apply N1|auto].
        * intros x Hx. destruct (Nat.eq_dec x lo) as [->|Ne]; [now apply V1'|]. apply V1', V1. left. apply V, Al. lia. }
  destruct (Lp n 0 (repeat false n) []) as (vis & st & E & I & V & Al); auto.
  - split; try (intros; contradiction); auto using repeat_length, NoDup_nil.
  - intros x. split; [|intros []]. unfold vs. intros H. exfalso. apply get_In in H. apply repeat_spec in H. discriminate.
  - intros x [].
  - intros x Hx. lia.
  - exists vis, st. split; auto. split; [apply (i_nd _ _ _ I)|]. split; auto. intros u v C Hu.
    assert (D : u = v \/ pin st u v).
    { clear -C Hu Al Rp. induction C as [|u v t He C IH]; auto. destruct (A_lt _ _ He) as [_ Hv]. right.
      destruct (IH Hv) as [->|IH']; [apply pin1; auto; now apply Al|]. eapply pinS; eauto. now apply Al. }
    destruct D as [<-|D].
    + exists u. split; [constructor|]. split; [constructor|]. destruct (in_split u st) as (l1 & l2 & ->); [now apply Al|]. exists l1, l2. split; auto. now left.
    + apply (i_K _ _ _ I); auto. apply Al. eapply conn_lt; eauto.
Qed.
End Dfs.

(** The second phase *)
Section Second.
Variables (g ig : graph) (n : nat) (A : list (nat * nat)).
Definition flip (A : list (nat * nat)) : list (nat * nat) := map (fun e => (snd e, fst e)) A.
Lemma flip_in u v : In (u, v) (flip A) <-> In (v, u) A.
Proof.
  unfold flip. rewrite in_map_iff. split.
  - intros ([x y] & E & H). cbn in E. injection E as -> ->. auto.
  - intros H. exists (v, u). auto.
Qed.
Lemma flip_conn u v : conn (flip A) u v -> conn A v u.
Proof. induction 1; [constructor|]. apply flip_in in H. eapply conn_trans; [eassumption|]. now apply conn_one. Qed.
Lemma conn_flip u v : conn A v u -> conn (flip A) u v.
Proof. induction 1; [constructor|]. eapply conn_trans; [eassumption|]. apply conn_one. now apply flip_in. Qed.
Hypothesis Rp : repr g n A.
Hypothesis Ri : repr ig n (flip A).
Variable st : list nat.
Hypothesis Nd : NoDup st.
Hypothesis Al : forall x, In x st <-> x < n.
Hypothesis Key : forall u v, conn A u v -> u < n -> exists w, conn A u w /\ conn A w u /\ above st w v.

Record inv2 (dn : list nat) (vis : list bool) (ret : list (list nat)) : Prop := {
  k_len : length vis = n;
  k_vis : forall x, vs vis x <-> In x (concat ret);
  k_lt : forall x, In x (concat ret) -> x < n;
  k_nd : NoDup (concat ret);
  k_ne : forall c, In c ret -> c <> [];
  k_dn : forall x, In x dn -> In x (concat ret);
  k_scc : forall i c u v, nth_error ret i = Some c -> In u c -> v < n -> (In v c <-> conn A u v /\ conn A v u);
  k_ord : forall i j ci cj u v, nth_error ret i = Some ci -> nth_error ret j = Some cj -> In u ci -> In v cj -> In (u, v) A -> i <= j;
  (** every arc into what is visited comes from what is visited *)
  k_cl : forall u v, In (u, v) A -> In v (concat ret) -> In u (concat ret) }.

Lemma in_concat_nth (ret : list (list nat)) x : In x (concat ret) <-> exists i c, nth_error ret i = Some c /\ In x c.
Proof.
  rewrite in_concat. split.
  - intros (c & Hc & Hx). apply In_nth_error in Hc as (i & Hi). eauto.
  - intros (i & c & Hi & Hx). exists c. split; auto. eapply nth_error_In; eauto.
Qed.

Lemma phase2 : exists vis ret, scc_collect (n + 1) ig st (repeat false n) = Some (vis, ret) /\ is_scc n A ret.
Proof.
  unfold scc_collect.
  match goal with |- context [for_each _ ?b _] => set (body := b) end.
  assert (Lp : forall rest dn vis ret, st = dn ++ rest -> inv2 dn vis ret ->
    exists vis' ret', for_each rest body (vis, ret) = Some (vis', ret') /\ inv2 st vis' ret').
  { induction rest as [|u rest IH]; intros dn vis ret Es I; cbn [for_each].
    - exists vis, ret. split; auto. rewrite app_nil_r in Es. now subst dn.
    - assert (Hu : u < n) by (apply Al; rewrite Es; apply in_elt).
      assert (Es2 : st = (dn ++ [u]) ++ rest) by (rewrite <- app_assoc; exact Es).
      unfold body at 1. destruct (@get_lt _ vis u) as (b & Eb); [rewrite (k_len _ _ _ I); auto|]. rewrite Eb. cbn [obind]. destruct b; cbn [obind].
      { apply (IH (dn ++ [u])); auto. destruct I. split; auto. intros x Hx. apply in_app_or in Hx as [Hx|[<-|[]]]; auto. now apply k_vis0. }
      assert (Nu : ~ In u (concat ret)) by (rewrite <- (k_vis _ _ _ I); unfold vs; congruence).
      destruct (dfs_ok ig n (flip A) Ri (n + 1) [] u vis []) as (v1 & c & E1 & (I1 & nw & Ec & V1 & N1) & Vu).
      + split; try (intros; contradiction); auto using NoDup_nil. apply (k_len _ _ _ I).
      + auto.
      + pose proof (@NoDup_incl_length _ (unv n vis) (seq 0 n) (unv_nodup n vis)) as H. rewrite seq_length in H.
        assert (length (unv n vis) <= n); [|lia]. apply H. intros x Hx. apply unv_in in Hx. apply in_seq. lia.
      + intros _ x [].
      + rewrite E1. cbn [obind]. rewrite app_nil_r in Ec. subst nw.
        assert (Cu : In u c) by (apply V1 in Vu as [H|H]; auto; apply (k_vis _ _ _ I) in H; contradiction).
        (* the collected vertices are the component of u *)
        assert (Scc : forall x, In x c <-> conn A u x /\ conn A x u).
        { intros x. split.
          - intros Hx. destruct (N1 x Hx) as (Nx & Lx & t & <- & Cx). apply flip_conn in Cx.
            destruct (Key x u Cx Lx) as (w & C1 & C2 & Ab).
            assert (W : w = u).
            { destruct (Nat.eq_dec w u) as [?|Ne]; auto. exfalso. destruct Ab as (l1 & l2 & El & [Hin|Hin]); [congruence|].
              assert (Wd : In w dn).
              { rewrite El in Es. clear -Es Hin Nd El Ne. revert dn Es. rewrite El in Nd. clear El. induction l1 as [|y l1 IHl]; intros dn Es.
                - destruct dn as [|z dn]; cbn in Es; injection Es; intros; subst; [contradiction|now left].
                - destruct dn as [|z dn]; cbn in Es; injection Es; intros; subst.
                  + cbn in Nd. apply NoDup_cons_iff in Nd as [Nd _]. exfalso. apply Nd, in_or_app. right. now right.
                  + right. apply IHl; auto. cbn in Nd. now apply NoDup_cons_iff in Nd. }
              apply (k_dn _ _ _ I) in Wd. apply in_concat_nth in Wd as (i & ci & Hi & Hw).
              apply Nx, (k_vis _ _ _ I). apply in_concat_nth. exists i, ci. split; auto.
              apply (k_scc _ _ _ I i ci w x Hi Hw Lx). auto. }
            subst w. auto.
          - intros [C1 C2]. apply conn_flip in C2.
            (* every vertex of the path is in the component, so unvisited before *)
            assert (P : forall y, conn (flip A) y x -> In y c -> conn A u y -> In x c).
            { intros y Cy. induction Cy as [y|y z t Hyz Cz IHc]; auto. intros Hy Cuy. apply IHc; auto.
              - assert (Vz : vs v1 z) by (apply (i_cl _ _ _ _ _ I1 y z Hy Hyz)). apply V1 in Vz as [Vz|Vz]; auto.
                exfalso. apply (k_vis _ _ _ I) in Vz. apply in_concat_nth in Vz as (i & ci & Hi & Hz).
                apply Nu. apply in_concat_nth. exists i, ci. split; auto. apply (k_scc _ _ _ I i ci z u Hi Hz Hu).
                apply flip_in in Hyz. split.
                + apply conn_step with y; auto. destruct (N1 y Hy) as (_ & _ & t' & <- & Ct). now apply flip_conn.
                + eapply conn_trans; [exact C1|]. now apply flip_conn.
              - eapply conn_trans; [exact C1|]. now apply flip_conn. }
            apply (P u); auto. constructor. }
        assert (Ndc : NoDup c) by (apply (i_nd _ _ _ _ _ I1)).
        apply (IH (dn ++ [u])); auto. destruct I.
        assert (Cc : concat (ret ++ [rev c]) = concat ret ++ rev c) by (rewrite concat_app; cbn; now rewrite app_nil_r).
        assert (InC : forall x, In x (concat (ret ++ [rev c])) <-> In x (concat ret) \/ In x c) by (intros x; rewrite Cc, in_app_iff, <- in_rev; tauto).
        assert (Nth : forall i ci, nth_error (ret ++ [rev c]) i = Some ci -> nth_error ret i = Some ci \/ (i = length ret /\ ci = rev c)).
        { intros i ci Hi. destruct (Nat.lt_trichotomy i (length ret)) as [H|[H|H]].
          - rewrite nth_error_app1 in Hi by auto. auto.
          - subst i. rewrite nth_error_app2, Nat.sub_diag in Hi by auto. cbn in Hi. injection Hi as <-. auto.
          - assert (nth_error (ret ++ [rev c]) i = None) by (apply nth_error_None; rewrite app_length; cbn; lia). congruence. }
        split.
        * apply (i_len _ _ _ _ _ I1).
        * intros x. rewrite V1, InC, k_vis0. tauto.
        * intros x. rewrite InC. intros [H|H]; auto. now apply N1.
        * rewrite Cc. apply NoDup_app_iff. split; auto. split; [now apply NoDup_rev|]. intros x Hx Hr. apply in_rev in Hr.
          apply N1 in Hr as [Hr _]. apply Hr. now apply k_vis0.
        * intros x Hx. apply in_app_or in Hx as [Hx|[<-|[]]]; auto. intros Er. apply (f_equal (@rev nat)) in Er. rewrite rev_involutive in Er. cbn in Er. subst c. destruct Cu.
        * intros x Hx. apply InC. apply in_app_or in Hx as [Hx|[<-|[]]]; auto.
        * intros i ci x y Hi Hx Hy. destruct (Nth i ci Hi) as [H|[_ ->]]; [eauto|].
          rewrite <- in_rev in *. rewrite Scc. apply Scc in Hx as [X1 X2]. split; intros [Y1 Y2]; split; eauto using conn_trans.
        * intros i j ci cj x y Hi Hj Hx Hy Hxy. destruct (Nth i ci Hi) as [H|[-> ->]]; destruct (Nth j cj Hj) as [H'|[-> ->]].
          -- eauto.
          -- assert (i < length ret) by (apply nth_error_Some; congruence). lia.
          -- exfalso. rewrite <- in_rev in Hx. apply N1 in Hx as [Hx _]. apply Hx, k_vis0. apply (k_cl0 x y Hxy). apply in_concat_nth. eauto.
          -- auto.
        * intros x y Hxy. rewrite !InC. intros [H|H]; [left; eauto|].
          assert (Vx : vs v1 x) by (apply (i_cl _ _ _ _ _ I1 y x H); now apply flip_in). apply V1 in Vx as [Vx|Vx]; auto. left. now apply k_vis0. }
  destruct (Lp st [] (repeat false n) []) as (vis & ret & E & I); auto.
  - split; try (intros; cbn in *; contradiction); auto using repeat_length.
    + intros x. cbn. split; [|intros []]. unfold vs. intros H. apply get_In in H. apply repeat_spec in H. discriminate.
    + constructor.
    + intros i c u v H. destruct i; discriminate.
    + intros i j ci cj u v H. destruct i; discriminate.
  - exists vis, ret. split; auto. destruct I. split; [|auto].
    apply NoDup_Permutation; auto using seq_NoDup. intros x. rewrite in_seq. split.
    + intros Hx. apply k_lt0 in Hx. lia.
    + intros Hx. apply k_dn0, Al. lia.
Qed.
End Second.

Lemma scc_build_ok n es : (forall a b, In (a, b) es -> a < n /\ b < n) ->
  exists s, scc_build n es = Some s /\ sc_n s = n /\ repr (sc_g s) n es /\ repr (sc_ig s) n (flip es).
Proof.
  unfold scc_build. intros Ok.
  assert (H : forall es s A, sc_n s = n -> repr (sc_g s) n A -> repr (sc_ig s) n (flip A) -> (forall a b, In (a, b) es -> a < n /\ b < n) ->
    exists s', for_each es (fun '(a, b) s => scc_add s a b) s = Some s' /\ sc_n s' = n /\ repr (sc_g s') n (A ++ es) /\ repr (sc_ig s') n (flip (A ++ es))).
  { clear. induction es as [|[a b] es IH]; intros s A En R1 R2 Ok; cbn [for_each].
    - exists s. rewrite app_nil_r. auto.
    - destruct (Ok a b) as [Ha Hb]; [now left|]. unfold scc_add at 1.
      destruct (repr_dir _ _ _ a b R1 Ha Hb) as (g1 & -> & R1'). cbn [obind].
      destruct (repr_dir _ _ _ b a R2 Hb Ha) as (g2 & -> & R2'). cbn [obind].
      destruct (IH (Sccg (sc_n s) g1 g2) (A ++ [(a, b)])) as (s' & E & En' & S1 & S2); auto.
      + cbn [sc_ig]. unfold flip in *. now rewrite map_app.
      + intros x y Hx. apply Ok. now right.
      + exists s'. rewrite <- app_assoc in S1, S2. auto. }
  destruct (H es (scc_new n) []) as (s & E & En & R1 & R2); auto; cbn; try apply repr_make. exists s. auto.
Qed.
