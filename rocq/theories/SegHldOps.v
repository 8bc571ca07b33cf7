(** SegmentHld: queries, updates and assignments. *)
From Verif Require Import SegHldModel SegHldShape SegHldData BaseLemmas NthExtra ListExtra LazySegProp LazySegSpec.
Set Implicit Arguments.

Lemma slice_cat {A} a b (s1 s2 : list A) : slice a b (s1 ++ s2) = slice a b s1 ++ slice (a - length s1) (b - length s1) s2.
Proof. unfold slice. rewrite skipn_app, firstn_app, skipn_length. f_equal. f_equal. lia. Qed.
Lemma slice_all {A} a b (s : list A) : a = 0 -> length s <= b -> slice a b s = s.
Proof. intros -> L. unfold slice. rewrite Nat.sub_0_r. cbn. now apply firstn_all2. Qed.
Lemma slice_out {A} a b (s : list A) : length s <= a \/ b <= a -> slice a b s = [].
Proof. intros [L|L]; unfold slice; [now rewrite skipn_all2, firstn_nil|]. now replace (b - a) with 0 by lia. Qed.
Lemma range_cat {A} (g : A -> A) a b s1 s2 : a <= b -> map_range g a b (s1 ++ s2) = map_range g a b s1 ++ map_range g (a - length s1) (b - length s1) s2.
Proof.
  intros L. unfold map_range. rewrite slice_cat, firstn_app, skipn_app, map_app, <- !app_assoc. f_equal. destruct (Nat.le_gt_cases a (length s1)) as [La|La].
  - replace (a - length s1) with 0 by lia. cbn [firstn app]. f_equal. destruct (Nat.le_gt_cases b (length s1)) as [Lb|Lb].
    + replace (b - length s1) with 0 by lia. reflexivity.
    + rewrite (skipn_all2 s1) by lia. reflexivity.
  - rewrite (@slice_out _ a b s1) by lia. rewrite (skipn_all2 s1) by lia. reflexivity.
Qed.
Lemma range_all {A} (g : A -> A) a b s : a = 0 -> length s <= b -> map_range g a b s = map g s.
Proof. intros -> L. unfold map_range. rewrite slice_all by auto. cbn. rewrite skipn_all2 by auto. apply app_nil_r. Qed.
Lemma range_out {A} (g : A -> A) a b (s : list A) : length s <= a \/ b <= a -> a <= b -> map_range g a b s = s.
Proof. intros L1 L2. unfold map_range. rewrite slice_out by auto. cbn. destruct L1 as [L|L]; [rewrite firstn_all2, skipn_all2 by lia; apply app_nil_r|]. replace b with a by lia. apply firstn_skipn. Qed.
Lemma for_each_app {A S} (body : A -> S -> option S) l1 : forall l2 s, for_each (l1 ++ l2) body s = (let* s' := for_each l1 body s in for_each l2 body s').
Proof. induction l1 as [|x l1 IH]; intros l2 s; cbn; [reflexivity|]. destruct (body x s); cbn; [apply IH|reflexivity]. Qed.
Lemma for_down_each {A S} (g : A -> S -> option S) : forall l s, for_down (length l) 0 (fun k s => let* v := get l k in g v s) s = for_each (rev l) g s.
Proof.
  intros l. induction l as [|x l IH] using rev_ind; intros s; [reflexivity|]. rewrite app_length, Nat.add_1_r, rev_app_distr. cbn. rewrite get_app_r, Nat.sub_diag by lia. cbn. destruct (g x s) as [s'|]; [|reflexivity]. cbn [obind]. rewrite <- IH. clear IH.
  assert (K : forall n (s : S), n <= length l -> for_down n 0 (fun k s => let* v := get (l ++ [x]) k in g v s) s = for_down n 0 (fun k s => let* v := get l k in g v s) s).
  { clear. induction n as [|n IH]; intros s Ln; [reflexivity|]. cbn [for_down]. rewrite get_app_l by (cbn; lia). cbn [Nat.add]. destruct (get l n) as [v|]; [|reflexivity]. cbn [obind]. destruct (g v s); [apply IH; lia|reflexivity]. }
  apply K. lia.
Qed.
Lemma for_up_each {A S} (body : nat -> S -> option S) (g : A -> S -> option S) : forall (l : list A) lo s,
  (forall i x s, get l i = Some x -> body (lo + i) s = g x s) -> for_up (length l) lo body s = for_each l g s.
Proof.
  induction l as [|x l IH]; intros lo s H; [reflexivity|]. cbn. pose proof (H 0 x s eq_refl) as H0. rewrite Nat.add_0_r in H0. rewrite H0. destruct (g x s); [|reflexivity]. cbn. apply IH. intros i y s' G. rewrite <- (H (Datatypes.S i) y s' G). f_equal. lia.
Qed.

Lemma lset_app_r {A} (s1 s2 : list A) k x : length s1 <= k -> lset (s1 ++ s2) k x = s1 ++ lset s2 (k - length s1) x.
Proof. revert k. induction s1 as [|y s1 IH]; intros k L; [cbn; now rewrite Nat.sub_0_r|]. destruct k as [|k]; [cbn in L; lia|]. cbn in *. now rewrite IH by lia. Qed.

Section Path.
Variables (M A : Type) (T : list sn) (tg : list nat) (D0 : list (sd M A)).
Notation grep := (grep T tg).
Let s := Seg T tg D0.
(** ** the path to an element *)
Fixpoint gsz (t : gt) : nat := match t with GL _ => 1 | GN _ L R => gsz L + gsz R end.
Fixpoint gpath (t : gt) (k : nat) : list nat :=
  match t with GL u => [u] | GN u L R => u :: (if k <? gsz L then gpath L k else gpath R (k - gsz L)) end.
(** the nodes above an element, from below, with the child on the way *)
Fixpoint climb (t : gt) (k : nat) : list (nat * nat) :=
  match t with
  | GL _ => []
  | GN u L R => if k <? gsz L then climb L k ++ [(u, gid L)] else climb R (k - gsz L) ++ [(u, gid R)]
  end.
Lemma gsz_grep t : forall l r p, grep t l r p -> gsz t = r - l.
Proof. induction t as [u|u L IL R IR]; intros l r p H; cbn; [destruct H as (_ & -> & _); lia|]. destruct H as (m & _ & HL & HR). rewrite (IL _ _ _ HL), (IR _ _ _ HR). apply grep_lt in HL, HR. lia. Qed.
Lemma gpath_leaf t : forall k l r p, grep t l r p -> k < gsz t -> exists Q u, gpath t k = Q ++ [u] /\ get tg (l + k) = Some u.
Proof.
  induction t as [u|u L IL R IR]; intros k l r p H Lk; cbn [gpath].
  - cbn in Lk. destruct H as (_ & _ & Gt). exists [], u. replace (l + k) with l by lia. auto.
  - destruct H as (m & _ & HL & HR). cbn in Lk. pose proof (@gsz_grep _ _ _ _ HL) as Zl. pose proof (grep_lt _ _ _ _ _ _ HL). destruct (Nat.ltb_spec k (gsz L)) as [B|B].
    + destruct (IL k _ _ _ HL B) as (Q & v & -> & Gt). exists (u :: Q), v. auto.
    + destruct (IR (k - gsz L) _ _ _ HR ltac:(lia)) as (Q & v & -> & Gt). exists (u :: Q), v. split; [auto|]. rewrite <- Gt. f_equal. lia.
Qed.
Lemma gpath_head t k : exists Q, gpath t k = gid t :: Q.
Proof. destruct t as [u|u L R]; cbn; eauto. Qed.
Lemma gpath_len t : forall k, length (gpath t k) <= gh t.
Proof. induction t as [u|u L IL R IR]; intros k; cbn [gpath gh length]; [lia|]. destruct (k <? gsz L); [specialize (IL k)|specialize (IR (k - gsz L))]; lia. Qed.
Lemma climb_spec t : forall k, length (climb t k) = length (gpath t k) - 1 /\ forall i a b, get (climb t k) i = Some (a, b) -> get (rev (gpath t k)) (S i) = Some a /\ get (rev (gpath t k)) i = Some b.
Proof.
  induction t as [u|u L IL R IR]; intros k; cbn [gpath climb]; [split; [reflexivity|]; intros i a b Q; now destruct i|]. cbn [length].
  assert (K : forall t k, length (climb t k) = length (gpath t k) - 1 /\ (forall i a b, get (climb t k) i = Some (a, b) -> get (rev (gpath t k)) (S i) = Some a /\ get (rev (gpath t k)) i = Some b) ->
    length (climb t k ++ [(u, gid t)]) = S (length (gpath t k)) - 1 /\ forall i a b, get (climb t k ++ [(u, gid t)]) i = Some (a, b) -> get (rev (u :: gpath t k)) (S i) = Some a /\ get (rev (u :: gpath t k)) i = Some b).
  { clear. intros t k [E H]. destruct (@gpath_head t k) as [Q EQ]. assert (Lp : 0 < length (gpath t k)) by (rewrite EQ; cbn; lia). split; [rewrite app_length; cbn; lia|]. intros i a b G. cbn [rev]. destruct (Nat.lt_ge_cases i (length (climb t k))) as [B|B].
    - rewrite get_app_l in G by auto. destruct (H _ _ _ G) as [G1 G2]. rewrite !get_app_l by (rewrite rev_length; lia). auto.
    - rewrite get_app_r in G by auto. assert (Ei : i = length (climb t k)). { apply get_some_lt in G. cbn in G. lia. } rewrite Ei, Nat.sub_diag in G. cbn in G. injection G as <- <-. rewrite get_app_r by (rewrite rev_length; lia). rewrite get_app_l by (rewrite rev_length; lia). rewrite rev_length. replace (S i - length (gpath t k)) with 0 by lia. split; [reflexivity|]. rewrite EQ. cbn [rev]. rewrite EQ in Lp, E. cbn [length] in E, Lp. rewrite get_app_r by (rewrite rev_length; lia). rewrite rev_length. replace (i - length Q) with 0 by lia. reflexivity. }
  destruct (k <? gsz L); apply K; auto.
Qed.
(** collecting the path *)
Lemma ids_ok t : forall k l r p f acc u0, grep t l r p -> k < gsz t -> get tg (l + k) = Some u0 -> length (gpath t k) <= f ->
  let body := fun '(u, ids) => match u with None => Some (inr ids) | Some u => let* nd := get (sg_T s) u in Some (inl (sp nd, ids ++ [u])) end in
  loop f body (Some u0, acc) = loop (f - length (gpath t k)) body (p, acc ++ rev (gpath t k)).
Proof.
  intros k l r p f acc u0 G Lk Gt Lf body. revert k l r p f acc G Lk Gt Lf. induction t as [u|u L IL R IR]; intros k l r p f acc G Lk Gt Lf; cbn [gpath] in *.
  - cbn in Lf, Lk. destruct G as (Gu & _ & Gt'). replace (l + k) with l in Gt by lia. rewrite Gt' in Gt. injection Gt as <-. destruct f as [|f]; [lia|]. cbn [loop body sg_T s]. unfold body at 1. cbn [sg_T s]. rewrite Gu. cbn [obind sp]. cbn [length Nat.sub rev app]. now rewrite Nat.sub_0_r.
  - pose proof G as (m & Gu & HL & HR). cbn in Lk. pose proof (@gsz_grep _ _ _ _ HL) as Zl. pose proof (grep_lt _ _ _ _ _ _ HL). cbn [length] in Lf.
    assert (K : forall P f, length P < f -> loop (f - length P) body (Some u, acc ++ rev P) = loop (f - S (length P)) body (p, acc ++ rev (u :: P))).
    { intros P f' L'. replace (f' - length P) with (S (f' - S (length P))) by lia. cbn [loop]. unfold body at 1. cbn [sg_T s]. rewrite Gu. cbn [obind sp rev]. now rewrite <- app_assoc. }
    destruct (Nat.ltb_spec k (gsz L)) as [B|B].
    + rewrite (IL k _ _ _ f acc HL B Gt ltac:(lia)). cbn [length]. apply K. lia.
    + rewrite (IR (k - gsz L) _ _ _ f acc HR ltac:(lia) ltac:(rewrite <- Gt; f_equal; lia) ltac:(lia)). cbn [length]. apply K. lia.
Qed.
End Path.

Section Seg.
Variables (M A : Type) (op : M -> M -> M) (e : M) (comp : A -> A -> A) (aid : A) (act : A -> M -> M) (isop : A -> bool).
Hypothesis Mon : monoid_laws op e.
Hypothesis Act : action_laws op comp aid act.
Hypothesis Isop : forall a, isop a = false -> forall v, act a v = v.
Notation sd := (sd M A).
Notation prod := (product op e).
Implicit Types (D : list sd) (t L R : gt).
Variables (T : list sn) (tg : list nat).
Notation grep := (grep T tg).
Notation dg := (dg e aid).
Notation den := (den e aid act).
Notation inner := (inner e aid act).
Notation val := (val op e aid act).
Notation clean := (clean e aid act).
Notation same := (same e aid).
Notation frame := (frame e aid).
Variable D0 : list sd.
Let s := Seg T tg D0.
Definition rsel {X} (rv : bool) (l : list X) : list X := if rv then rev l else l.

Lemma sub_l u L R : incl (gids L) (gids (GN u L R)).
Proof. intros v I. right. apply in_or_app. auto. Qed.
Lemma sub_r u L R : incl (gids R) (gids (GN u L R)).
Proof. intros v I. right. apply in_or_app. auto. Qed.
Lemma split_nd u L R l r p : grep (GN u L R) l r p -> ~ In u (gids L) /\ ~ In u (gids R) /\ (forall v, In v (gids L) -> ~ In v (gids R)) /\ (forall v, In v (gids R) -> ~ In v (gids L)).
Proof.
  intros H. pose proof (grep_nodup _ _ _ _ _ _ H) as N. cbn in N. apply NoDup_cons_iff in N as [N Nd]. apply NoDup_app_iff in Nd as (_ & _ & Nd). repeat split; [intros J; apply N, in_or_app; auto|intros J; apply N, in_or_app; auto|intros v I J; eauto|intros v I J; eauto].
Qed.
Lemma frame_clean D D' t u : frame D D' t -> ~ In u (gids t) -> clean D u -> clean D' u.
Proof. intros [_ F] N C v. rewrite F by auto. apply C. Qed.

(** ** queries *)
Lemma query_ok rv l r : l <= r -> forall t fuel lo hi p D, grep t lo hi p -> gh t <= fuel -> length D = length T -> val D t ->
  exists D', lg_query_at op e comp aid act isop fuel rv s l r (Some (gid t)) D = Some (D', prod (rsel rv (slice (l - lo) (r - lo) (den D t)))) /\
    frame D D' t /\ val D' t /\ den D' t = den D t.
Proof.
  intros Lr t. induction t as [u|u L IL R IR]; intros fuel lo hi p D G Lf E V; (destruct fuel as [|fuel]; [cbn in Lf; lia|]); pose proof (grep_lt _ _ _ _ _ _ G) as Lt; pose proof (@den_length _ _ e aid act T tg D _ _ _ _ G) as Ld; cbn [lg_query_at gid].
  - pose proof G as (Gu & Er & _). cbn [sg_T s]. rewrite Gu. cbn [obind sl sr]. destruct (Nat.leb_spec hi l), (Nat.leb_spec r lo); cbn [orb]; try (rewrite slice_out by (rewrite Ld; lia); exists D; split; [destruct rv; reflexivity|]; split; [apply frame_refl|]; auto).
    destruct (@prop_ok _ _ _ _ _ _ _ Mon Act T tg _ Isop tg D0 D _ _ _ _ G E V) as (D' & Ep & F & V' & C & Ed). cbn [gid] in *. change (Seg T tg D0) with s in Ep. rewrite Ep. cbn [obind]. destruct (Nat.leb_spec l lo), (Nat.leb_spec hi r); try lia. cbn [andb]. rewrite dg_get with (e := e) (aid := aid) by (rewrite (proj1 F), E; exact (get_some_lt _ _ Gu)). cbn [obind]. exists D'. split; [|auto]. rewrite slice_all by lia. destruct (@root_prod _ _ _ _ _ _ _ _ V' C) as [P1 P2]. cbn [gid] in *. rewrite P1, P2, Ed. destruct rv; reflexivity.
  - pose proof G as (m & Gu & HL & HR). cbn [sg_T s]. rewrite Gu. cbn [obind sl sr slc src]. pose proof (grep_lt _ _ _ _ _ _ HL). pose proof (grep_lt _ _ _ _ _ _ HR). destruct (Nat.leb_spec hi l), (Nat.leb_spec r lo); cbn [orb]; try (rewrite slice_out by (rewrite Ld; lia); exists D; split; [destruct rv; reflexivity|]; split; [apply frame_refl|]; auto).
    destruct (@prop_ok _ _ _ _ _ _ _ Mon Act T tg _ Isop tg D0 D _ _ _ _ G E V) as (D1 & Ep & F & V' & C & Ed). cbn [gid] in *. change (Seg T tg D0) with s in Ep. rewrite Ep. cbn [obind]. destruct (andb (l <=? lo) (hi <=? r)) eqn:Eb.
    + apply andb_prop in Eb as [B1 B2]. apply Nat.leb_le in B1, B2. rewrite dg_get with (e := e) (aid := aid) by (rewrite (proj1 F), E; exact (get_some_lt _ _ Gu)). cbn [obind]. exists D1. split; [|auto]. rewrite slice_all by lia. destruct (@root_prod _ _ _ _ _ _ _ _ V' C) as [P1 P2]. cbn [gid] in *. rewrite P1, P2, Ed. destruct rv; reflexivity.
    + clear Eb. rewrite <- Ed. rewrite (den_clean (GN u L R) C). cbn [SegHldData.inner]. pose proof (@den_length _ _ e aid act T tg D1 _ _ _ _ HL) as Ll. destruct (split_nd G) as (N1 & N2 & N3 & N4). cbn [gh] in Lf. destruct V' as (V1 & V2 & V3 & V4). cbn [gid SegHldData.inner] in V1, V2. assert (E1 : length D1 = length T) by (now rewrite (proj1 F)).
      rewrite slice_cat, Ll. replace (l - lo - (m - lo)) with (l - m) by lia. replace (r - lo - (m - lo)) with (r - m) by lia.
      destruct rv.
      * destruct (IR fuel m hi _ D1 HR ltac:(lia) E1 V4) as (D2 & Q1 & F1 & W1 & X1). rewrite Q1. cbn [obind]. pose proof (frame_same _ F1 N3) as S1. destruct (IL fuel lo m _ D2 HL ltac:(lia) ltac:(rewrite (proj1 F1); auto) (val_same op act S1 V3)) as (D3 & Q2 & F2 & W2 & X2). rewrite Q2. cbn [obind]. rewrite (den_same act S1) in *. pose proof (frame_same _ F2 N4) as S2. exists D3. split; [cbn [rsel]; rewrite rev_app_distr, (product_app Mon); reflexivity|].
        assert (C3 : clean D3 u) by (apply (frame_clean F2 N1), (frame_clean F1 N2), C). assert (Xu : dg D3 u = dg D1 u) by (rewrite (proj2 F2), (proj2 F1) by auto; auto). assert (XR : den D3 R = den D1 R) by (rewrite (den_same act S2); auto).
        split; [eapply frame_trans; [exact F|]; eapply frame_trans; [exact (frame_sub (GN u L R) F1 (@sub_r u L R))|exact (frame_sub (GN u L R) F2 (@sub_l u L R))]|]. split.
        -- cbn [SegHldData.val gid SegHldData.inner]. rewrite Xu, X2, XR. repeat split; auto. exact (val_same op act S2 W1).
        -- rewrite (den_clean (GN u L R) C3). cbn [SegHldData.inner]. now rewrite X2, XR.
      * destruct (IL fuel lo m _ D1 HL ltac:(lia) E1 V3) as (D2 & Q1 & F1 & W1 & X1). rewrite Q1. cbn [obind]. pose proof (frame_same _ F1 N4) as S1. destruct (IR fuel m hi _ D2 HR ltac:(lia) ltac:(rewrite (proj1 F1); auto) (val_same op act S1 V4)) as (D3 & Q2 & F2 & W2 & X2). rewrite Q2. cbn [obind]. rewrite (den_same act S1) in *. pose proof (frame_same _ F2 N3) as S2. exists D3. split; [cbn [rsel]; rewrite (product_app Mon); reflexivity|].
        assert (C3 : clean D3 u) by (apply (frame_clean F2 N2), (frame_clean F1 N1), C). assert (Xu : dg D3 u = dg D1 u) by (rewrite (proj2 F2), (proj2 F1) by auto; auto). assert (XL : den D3 L = den D1 L) by (rewrite (den_same act S2); auto).
        split; [eapply frame_trans; [exact F|]; eapply frame_trans; [exact (frame_sub (GN u L R) F1 (@sub_l u L R))|exact (frame_sub (GN u L R) F2 (@sub_r u L R))]|]. split.
        -- cbn [SegHldData.val gid SegHldData.inner]. rewrite Xu, X2, XL. repeat split; auto. exact (val_same op act S2 W1).
        -- rewrite (den_clean (GN u L R) C3). cbn [SegHldData.inner]. now rewrite X2, XL.
Qed.

(** ** updates *)
Lemma update_ok l r f : l <= r -> forall t fuel lo hi p D, grep t lo hi p -> gh t <= fuel -> length D = length T -> val D t ->
  exists D', lg_update_at op comp aid act isop fuel s l r f (Some (gid t)) D = Some D' /\ frame D D' t /\ val D' t /\ clean D' (gid t) /\ den D' t = map_range (act f) (l - lo) (r - lo) (den D t).
Proof.
  intros Lr.
  assert (P : forall t lo hi p D, grep t lo hi p -> length D = length T -> val D t ->
    exists D', (let* D := put_a D (gid t) (fun b => comp b f) in lg_prop comp aid act isop s (gid t) D) = Some D' /\ frame D D' t /\ val D' t /\ clean D' (gid t) /\ den D' t = map (act f) (den D t)).
  { intros t lo hi p D G E V. assert (I : gid t < length D) by exact (@in_len _ _ T tg D _ _ _ _ _ G E (gid_in t)). rewrite put_eq with (e := e) (aid := aid) by auto. cbn [obind]. set (D1 := lset D (gid t) _).
    assert (N : forall v, In v (gids t) -> v <> gid t -> dg D1 v = dg D v) by (intros v _ Nv; apply dg_neq; auto).
    assert (Ei : inner D1 t = inner D t). { pose proof (grep_nodup _ _ _ _ _ _ G) as Nd. destruct t as [u|u L R]; cbn [SegHldData.inner]; [unfold D1; cbn [gid]; now rewrite dg_eq by auto|]. cbn in Nd. apply NoDup_cons_iff in Nd as [Nu _]. rewrite !(@den_same _ _ _ _ _ D D1); auto; intros v J; apply N; try (right; apply in_or_app; now auto); intros ->; apply Nu, in_or_app; auto. }
    assert (V1 : val D1 t). { pose proof (grep_nodup _ _ _ _ _ _ G) as Nd. destruct t as [u|u L R]; cbn [SegHldData.val]; rewrite Ei; unfold D1; rewrite dg_eq by auto; cbn [sm srm gid]; destruct V as (V1 & V2 & V3); repeat split; auto; cbn in Nd; apply NoDup_cons_iff in Nd as [Nu _]; [apply (@val_same _ _ _ _ _ _ D D1); [|tauto]|apply (@val_same _ _ _ _ _ _ D D1); [|tauto]]; intros v J; apply N; try (right; apply in_or_app; now auto); intros ->; apply Nu, in_or_app; auto. }
    destruct (@prop_ok _ _ _ _ _ _ _ Mon Act T tg _ Isop tg D0 D1 _ _ _ _ G ltac:(unfold D1; rewrite lset_length; exact E) V1) as (D' & Ep & F & V' & C & Ed). exists D'. split; [exact Ep|]. split; [eapply frame_trans; [|exact F]; apply frame_lset; [apply gid_in|auto]|]. split; [auto|]. split; [auto|].
    rewrite Ed, !den_inner, Ei, map_map. apply map_ext. intros x. unfold D1. rewrite dg_eq by auto. cbn [sa]. apply (act_compose _ _ _ _ Act). }
  intros t. induction t as [u|u L IL R IR]; intros fuel lo hi p D G Lf E V; (destruct fuel as [|fuel]; [cbn in Lf; lia|]); pose proof (grep_lt _ _ _ _ _ _ G) as Lt; pose proof (@den_length _ _ e aid act T tg D _ _ _ _ G) as Ld; cbn [lg_update_at gid].
  - pose proof G as (Gu & Er & _). cbn [sg_T s]. rewrite Gu. cbn [obind sl sr]. destruct (orb (hi <=? l) (r <=? lo)) eqn:Eb.
    + destruct (@prop_ok _ _ _ _ _ _ _ Mon Act T tg _ Isop tg D0 D _ _ _ _ G E V) as (D' & Ep & F & V' & C & Ed). exists D'. rewrite Ed. repeat (split; [auto|]). rewrite range_out; auto; [|lia]. rewrite Ld. apply orb_prop in Eb as [B|B]; apply Nat.leb_le in B; lia.
    + apply Bool.orb_false_iff in Eb as [B1 B2]. apply Nat.leb_gt in B1, B2. destruct (Nat.leb_spec l lo), (Nat.leb_spec hi r); try lia. cbn [andb]. rewrite range_all by lia. exact (P _ _ _ _ _ G E V).
  - pose proof G as (m & Gu & HL & HR). cbn [sg_T s]. rewrite Gu. cbn [obind sl sr slc src]. pose proof (grep_lt _ _ _ _ _ _ HL). pose proof (grep_lt _ _ _ _ _ _ HR). destruct (orb (hi <=? l) (r <=? lo)) eqn:Eb.
    { destruct (@prop_ok _ _ _ _ _ _ _ Mon Act T tg _ Isop tg D0 D _ _ _ _ G E V) as (D' & Ep & F & V' & C & Ed). exists D'. rewrite Ed. repeat (split; [auto|]). rewrite range_out; auto; [|lia]. rewrite Ld. apply orb_prop in Eb as [B|B]; apply Nat.leb_le in B; lia. }
    apply Bool.orb_false_iff in Eb as [B1 B2]. apply Nat.leb_gt in B1, B2. destruct (andb (l <=? lo) (hi <=? r)) eqn:Eb.
    { apply andb_prop in Eb as [B3 B4]. apply Nat.leb_le in B3, B4. rewrite range_all by lia. exact (P _ _ _ _ _ G E V). }
    clear Eb. destruct (@prop_ok _ _ _ _ _ _ _ Mon Act T tg _ Isop tg D0 D _ _ _ _ G E V) as (D1 & Ep & F & V' & C & Ed). cbn [gid] in *. change (Seg T tg D0) with s in Ep. rewrite Ep. cbn [obind]. unfold ssize. cbn [sl sr]. destruct (Nat.ltb_spec 1 (hi - lo)) as [_|]; [|lia].
    rewrite <- Ed. rewrite (den_clean (GN u L R) C). cbn [SegHldData.inner]. pose proof (@den_length _ _ e aid act T tg D1 _ _ _ _ HL) as Ll. destruct (split_nd G) as (N1 & N2 & N3 & N4). cbn [gh] in Lf. destruct V' as (V1 & V2 & V3 & V4). assert (E1 : length D1 = length T) by (now rewrite (proj1 F)).
    rewrite range_cat, Ll by lia. replace (l - lo - (m - lo)) with (l - m) by lia. replace (r - lo - (m - lo)) with (r - m) by lia.
    destruct (IL fuel lo m _ D1 HL ltac:(lia) E1 V3) as (D2 & Q1 & F1 & W1 & C1 & X1). rewrite Q1. cbn [obind]. pose proof (frame_same _ F1 N4) as S1. destruct (IR fuel m hi _ D2 HR ltac:(lia) ltac:(rewrite (proj1 F1); auto) (val_same op act S1 V4)) as (D3 & Q2 & F2 & W2 & C2 & X2). rewrite Q2. cbn [obind]. rewrite (den_same act S1) in X2. pose proof (frame_same _ F2 N3) as S2.
    assert (C3 : clean D3 u) by (apply (frame_clean F2 N2), (frame_clean F1 N1), C). assert (C4 : clean D3 (gid L)) by (apply (frame_clean F2 (N3 _ (gid_in L))), C1).
    destruct (take_ok Mon (D := D3) G ltac:(rewrite (proj1 F2), (proj1 F1); auto) C3 (val_same op act S2 W1) W2 C4 C2) as (D4 & Q & F4 & V5 & C5 & E4). rewrite Q. exists D4. split; [auto|]. split; [|rewrite E4, X2, (den_same act S2), X1; auto].
    eapply frame_trans; [exact F|]. eapply frame_trans; [exact (frame_sub (GN u L R) F1 (@sub_l u L R))|]. eapply frame_trans; [exact (frame_sub (GN u L R) F2 (@sub_r u L R))|exact F4].
Qed.

(** making the path clean *)
Lemma down_ok t : forall k l r p D, grep t l r p -> k < gsz t -> length D = length T -> val D t ->
  exists D', for_each (gpath t k) (lg_prop comp aid act isop s) D = Some D' /\ frame D D' t /\ val D' t /\ den D' t = den D t /\ forall v, In v (gpath t k) -> clean D' v.
Proof.
  induction t as [u|u L IL R IR]; intros k l r p D G Lk E V; cbn [gpath for_each]; destruct (@prop_ok _ _ _ _ _ _ _ Mon Act T tg _ Isop tg D0 D _ _ _ _ G E V) as (D1 & Ep & F & V1 & C & Ed); cbn [gid] in Ep; change (Seg T tg D0) with s in Ep; rewrite Ep; cbn [obind].
  - exists D1. repeat (split; [auto|]). intros v [<-|[]]. exact C.
  - pose proof G as (m & Gu & HL & HR). cbn in Lk. destruct (split_nd G) as (N1 & N2 & N3 & N4). assert (E1 : length D1 = length T) by (now rewrite (proj1 F)). destruct V1 as (V2 & V3 & V4 & V5). cbn [gid] in *. destruct (k <? gsz L) eqn:B; [apply Nat.ltb_lt in B|apply Nat.ltb_ge in B].
    + destruct (IL k _ _ _ D1 HL B E1 V4) as (D2 & Q & F2 & W & X & Y). rewrite Q. exists D2. pose proof (frame_same _ F2 N4) as S2. assert (C2 : clean D2 u) by (apply (frame_clean F2 N1), C). split; [auto|]. split; [eapply frame_trans; [exact F|exact (frame_sub (GN u L R) F2 (@sub_l u L R))]|]. split; [|split].
      * cbn [SegHldData.val gid SegHldData.inner] in *. rewrite (proj2 F2) by auto. rewrite X, (den_same act S2). repeat split; auto. exact (val_same op act S2 V5).
      * rewrite <- Ed, (den_clean (GN u L R) C2), (den_clean (GN u L R) C). cbn [SegHldData.inner]. now rewrite X, (den_same act S2).
      * intros v [<-|J]; auto.
    + destruct (IR (k - gsz L) _ _ _ D1 HR ltac:(lia) E1 V5) as (D2 & Q & F2 & W & X & Y). rewrite Q. exists D2. pose proof (frame_same _ F2 N3) as S2. assert (C2 : clean D2 u) by (apply (frame_clean F2 N2), C). split; [auto|]. split; [eapply frame_trans; [exact F|exact (frame_sub (GN u L R) F2 (@sub_r u L R))]|]. split; [|split].
      * cbn [SegHldData.val gid SegHldData.inner] in *. rewrite (proj2 F2) by auto. rewrite X, (den_same act S2). repeat split; auto. exact (val_same op act S2 V4).
      * rewrite <- Ed, (den_clean (GN u L R) C2), (den_clean (GN u L R) C). cbn [SegHldData.inner]. now rewrite X, (den_same act S2).
      * intros v [<-|J]; auto.
Qed.
(** assigning below and recomputing above; [step] is one recomputation *)
Definition lz_step (ab : nat * nat) (D : list sd) : option (list sd) :=
  let* nd := get T (fst ab) in
  let* a := slc nd in
  let* b := src nd in
  let* D := lg_prop comp aid act isop s (Nat.lxor (Nat.lxor a b) (snd ab)) D in
  n_take op D (fst ab) a b.
Lemma up_ok x t : forall k l r p D u0, grep t l r p -> k < gsz t -> get tg (l + k) = Some u0 -> length D = length T -> val D t -> (forall v, In v (gpath t k) -> clean D v) ->
  exists D1 D', n_set D u0 x = Some D1 /\ for_each (climb t k) lz_step D1 = Some D' /\ frame D D' t /\ val D' t /\ clean D' (gid t) /\ den D' t = lset (den D t) k x.
Proof.
  induction t as [u|u L IL R IR]; intros k l r p D u0 G Lk Gt E V Cp; cbn [gpath climb] in *.
  - cbn in Lk. destruct G as (Gu & _ & Gt'). replace (l + k) with l in Gt by lia. rewrite Gt' in Gt. injection Gt as <-. assert (I : u < length D) by (rewrite E; exact (get_some_lt _ _ Gu)). rewrite set_eq with (e := e) (aid := aid) by auto. do 2 eexists. split; [reflexivity|]. split; [reflexivity|]. split; [apply frame_lset; [now left|auto]|]. assert (C : forall v, act (sa (dg D u)) v = v) by (apply Cp; now left).
    cbn [SegHldData.val gid SegHldData.inner SegHldData.den]. unfold SegHldData.clean. rewrite dg_eq by auto. cbn [sm srm sa rev app]. rewrite (product_one Mon). replace k with 0 by lia. cbn. rewrite C. auto.
  - pose proof G as (m & Gu & HL & HR). cbn in Lk. pose proof (@gsz_grep _ _ _ _ _ _ HL) as Zl. pose proof (grep_lt _ _ _ _ _ _ HL). destruct (split_nd G) as (N1 & N2 & N3 & N4). destruct V as (V2 & V3 & V4 & V5). cbn [gid] in *. assert (Cu : clean D u) by (apply Cp; now left). rewrite (den_clean (GN u L R) Cu). cbn [SegHldData.inner]. pose proof (@den_length _ _ e aid act T tg D _ _ _ _ HL) as Ll.
    destruct (k <? gsz L) eqn:B; [apply Nat.ltb_lt in B|apply Nat.ltb_ge in B].
    + destruct (IL k _ _ _ D u0 HL B Gt E V4 ltac:(intros v J; apply Cp; now right)) as (D1 & D2 & Q1 & Q2 & F & W & C & X). exists D1. rewrite for_each_app, Q2. cbn [obind for_each]. unfold lz_step. cbn [fst snd]. rewrite Gu. cbn [obind slc src]. replace (Nat.lxor (Nat.lxor (gid L) (gid R)) (gid L)) with (gid R) by (rewrite (Nat.lxor_comm (gid L)), Nat.lxor_assoc, Nat.lxor_nilpotent; now rewrite Nat.lxor_0_r).
      pose proof (frame_same _ F N4) as S2. assert (E2 : length D2 = length T) by (now rewrite (proj1 F)). destruct (@prop_ok _ _ _ _ _ _ _ Mon Act T tg _ Isop tg D0 D2 _ _ _ _ HR E2 (val_same op act S2 V5)) as (D3 & Ep & F3 & W3 & C3 & X3). change (Seg T tg D0) with s in Ep. rewrite Ep. cbn [obind]. pose proof (frame_same _ F3 N3) as S3.
      destruct (take_ok Mon (D := D3) G ltac:(rewrite (proj1 F3); auto) (frame_clean F3 N2 (frame_clean F N1 Cu)) (val_same op act S3 W) W3 (frame_clean F3 (N3 _ (gid_in L)) C) C3) as (D4 & Q & F4 & W4 & C4 & X4). rewrite Q. exists D4. split; [auto|]. split; [reflexivity|]. split; [eapply frame_trans; [exact (frame_sub (GN u L R) F (@sub_l u L R))|]; eapply frame_trans; [exact (frame_sub (GN u L R) F3 (@sub_r u L R))|exact F4]|].
      split; [auto|]. split; [auto|]. rewrite X4, (den_same act S3), X, X3, (den_same act S2). symmetry. apply lset_app_l. lia.
    + destruct (IR (k - gsz L) _ _ _ D u0 HR ltac:(lia) ltac:(rewrite <- Gt; f_equal; lia) E V5 ltac:(intros v J; apply Cp; now right)) as (D1 & D2 & Q1 & Q2 & F & W & C & X). exists D1. rewrite for_each_app, Q2. cbn [obind for_each]. unfold lz_step. cbn [fst snd]. rewrite Gu. cbn [obind slc src]. replace (Nat.lxor (Nat.lxor (gid L) (gid R)) (gid R)) with (gid L) by (rewrite Nat.lxor_assoc, Nat.lxor_nilpotent; now rewrite Nat.lxor_0_r).
      pose proof (frame_same _ F N3) as S2. assert (E2 : length D2 = length T) by (now rewrite (proj1 F)). destruct (@prop_ok _ _ _ _ _ _ _ Mon Act T tg _ Isop tg D0 D2 _ _ _ _ HL E2 (val_same op act S2 V4)) as (D3 & Ep & F3 & W3 & C3 & X3). change (Seg T tg D0) with s in Ep. rewrite Ep. cbn [obind]. pose proof (frame_same _ F3 N4) as S3.
      destruct (take_ok Mon (D := D3) G ltac:(rewrite (proj1 F3); auto) (frame_clean F3 N1 (frame_clean F N2 Cu)) W3 (val_same op act S3 W) C3 (frame_clean F3 (N4 _ (gid_in R)) C)) as (D4 & Q & F4 & W4 & C4 & X4). rewrite Q. exists D4. split; [auto|]. split; [reflexivity|]. split; [eapply frame_trans; [exact (frame_sub (GN u L R) F (@sub_r u L R))|]; eapply frame_trans; [exact (frame_sub (GN u L R) F3 (@sub_l u L R))|exact F4]|].
      split; [auto|]. split; [auto|]. rewrite X4, (den_same act S3), X, X3, (den_same act S2). rewrite Zl, <- Ll. symmetry. apply lset_app_r. lia.
Qed.
End Seg.
