(** Splay trees: aggregate, and splay brings a node to the root. *)
From Coq Require Import Permutation.
From Verif Require Import SplayModel SplayRot SplayTree BaseLemmas ListExtra LazySegProp.
Set Implicit Arguments.

Section Splay.
Variables (M A : Type) (op : M -> M -> M) (e : M) (comp : A -> A -> A) (aid : A) (act : A -> M -> M).
Hypothesis Mon : monoid_laws op e.
Hypothesis Act : action_laws op comp aid act.
Variable ws : bool.
Notation nd := (nd M A).
Notation sh := (sh M A).
Notation den := (den act).
Notation val := (val op e act ws).
Notation valc := (valc op e act ws).
Notation clean := (clean act).
Notation ST := (@ST M A).
Notation prodl := (prodl op e).
Implicit Types (D : nat -> nd) (h : sh) (t l r : bt).

Lemma prodl_app s1 s2 : prodl (s1 ++ s2) = op (prodl s1) (prodl s2).
Proof. unfold SplayTree.prodl. rewrite map_app. apply product_app, Mon. Qed.
Lemma prodl_one i x : prodl [(i, x)] = x.
Proof. unfold SplayTree.prodl. cbn. apply (mon_right Mon). Qed.
Lemma prodl_nil : prodl [] = e. Proof. reflexivity. Qed.
Lemma aggregate_ok : agg_spec op e act ws (aggregate op).
Proof.
  intros X h D rp c l i r S Ci Vl Vr. pose proof (st_rep S) as R0. destruct (NoDup_plug (st_nodup S)) as (N & Dj & Nc). apply plug_rep in R0 as [([C1 C2 C3] & Rl & Rr) Rc].
  assert (Ii : In i X) by (apply (st_in S), plug_in; right; cbn; apply in_or_app; right; now left).
  assert (Il : forall j, bptr l = Some j -> In j X) by (intros j Ej; apply bptr_in in Ej; apply (st_in S), plug_in; right; cbn; apply in_or_app; auto).
  assert (Ir : forall j, bptr r = Some j -> In j X) by (intros j Ej; apply bptr_in in Ej; apply (st_in S), plug_in; right; cbn; apply in_or_app; right; now right).
  unfold aggregate. rewrite C1. cbn [obind]. rewrite C2. cbn [obind].
  assert (G : forall t, (forall j, bptr t = Some j -> In j X) -> get_opt h (bptr t) = Some (match t with Lf => None | Nd _ j _ => Some (D j) end)). { intros t It. destruct t as [|a j b]; [auto|]. cbn. rewrite (st_dat S); [auto|]. apply It. reflexivity. }
  rewrite !G by auto. cbn [obind]. set (dl := match l with Lf => None | Nd _ j _ => Some (D j) end). set (dr := match r with Lf => None | Nd _ j _ => Some (D j) end).
  destruct (upd_ok (agg_node op dl dr) (st_dat S) Ii) as (h' & U & Da & K & L & O). exists h', (fupd D i (agg_node op dl dr (D i))). split; [exact U|].
  assert (Hx : hext X h h') by (apply hext_of; [rewrite K; apply keep_out_refl|rewrite K; apply same_len_refl|auto|auto]).
  split; [split; [rewrite K; apply (st_rep S)|apply (st_ids S)|apply (st_nodup S)|exact Da|rewrite K; apply (st_rp S)]|]. split; [auto|]. split; [auto|]. split; [intros j Nj; now apply fupd_neq|].
  assert (Dq : deq D (fupd D i (agg_node op dl dr (D i)))). { intros j. destruct (Nat.eq_dec j i) as [->|Nj]; [rewrite fupd_eq; unfold agg_node, agg_l, agg_r; destruct dl, dr; cbn; auto|rewrite fupd_neq by auto; auto]. }
  split; [auto|]. split; [|split; apply (val_ext (D := D)); auto; intros j J; apply fupd_neq; intros ->; dis N i].
  unfold sok. rewrite (den_deq _ Dq), fupd_eq, (den_clean _ _ Ci).
  assert (Hl : match dl with None => den D l = [] /\ bsize l = 0 | Some d => (ws = true -> nsum d = bsize l) /\ nprod d = prodl (den D l) /\ nrprod d = prodl (List.rev (den D l)) end). { apply sok_val in Vl. destruct l as [|a j b]; cbn [dl]; [cbn; auto|exact Vl]. }
  assert (Hr : match dr with None => den D r = [] /\ bsize r = 0 | Some d => (ws = true -> nsum d = bsize r) /\ nprod d = prodl (den D r) /\ nrprod d = prodl (List.rev (den D r)) end). { apply sok_val in Vr. destruct r as [|a j b]; cbn [dr]; [cbn; auto|exact Vr]. }
  clearbody dl dr. rewrite rev_app_distr. cbn [List.rev]. rewrite !prodl_app. change ((i, nm (D i)) :: den D r) with ([(i, nm (D i))] ++ den D r). rewrite !prodl_app, prodl_one. cbn [bsize]. unfold agg_node, agg_l, agg_r.
  destruct dl as [dl|], dr as [dr|]; cbn [nsum nprod nrprod];
    [destruct Hl as (L1 & L2 & L3), Hr as (R1 & R2 & R3)|destruct Hl as (L1 & L2 & L3), Hr as (-> & ->)|destruct Hl as (-> & ->), Hr as (R1 & R2 & R3)|destruct Hl as (-> & ->), Hr as (-> & ->)]; cbn [List.rev]; rewrite ?prodl_nil, ?L2, ?L3, ?R2, ?R3, ?(mon_right Mon), ?(mon_left Mon), ?(mon_assoc Mon);
    (split; [intros W; repeat match goal with H : ws = true -> _ |- _ => specialize (H W) end; lia|auto]).
Qed.

(** * Splay *)
Variables prop agg : sh -> nat -> option sh.
Hypothesis Prop_ok : prop_spec op e act ws prop.
Hypothesis Agg_ok : agg_spec op e act ws agg.
Definition F (dir : bool) p s : frame := if dir then FL p s else FR s p.
Lemma F_ids dir p s t : Permutation (ids (fill (F dir p s) t)) (p :: ids s ++ ids t).
Proof. destruct dir; cbn; rewrite <- Permutation_middle; constructor; [apply Permutation_app_comm|reflexivity]. Qed.
Lemma F_eta f : f = F (match f with FL _ _ => true | _ => false end) (fid f) (fother f).
Proof. now destruct f. Qed.
Lemma st_children X h D rp c l i r : ST X h D rp (plug c (Nd l i r)) -> get (pl (sk h)) i = Some (bptr l) /\ get (pr (sk h)) i = Some (bptr r) /\ get (pp (sk h)) i = Some (cpar c rp).
Proof. intros S. pose proof (st_rep S) as R. apply plug_rep in R as [([C1 C2 C3] & _ & _) _]. auto. Qed.
Arguments st_children {X h D rp c l i r} _.
(** propagate at the parent of a hole *)
Lemma prop_frame X h D rp c dir p s l v r : ST X h D rp (plug c (fill (F dir p s) (Nd l v r))) -> val D s ->
  exists h' D' dir', prop h p = Some h' /\ ST X h' D' rp (plug c (fill (F dir' p s) (Nd l v r))) /\ hext X h h' /\ clean D' p /\ val D' s /\ den D' (fill (F dir' p s) (Nd l v r)) = den D (fill (F dir p s) (Nd l v r)) /\
    (forall j, j <> p -> j <> v -> ~ In j (ids s) -> D' j = D j).
Proof.
  intros S Vs. destruct dir; cbn [F fill] in S; destruct (Prop_ok _ _ _ _ S) as (h' & D' & l' & r' & E & S' & Hx & Hlr & Cl & V1 & V2 & De & Ot & _); exists h', D'.
  - exists (match l' with Nd _ j _ => j =? v | Lf => false end). destruct Hlr as [[-> ->]|[-> ->]].
    + rewrite Nat.eqb_refl. split; [auto|]. split; [exact S'|]. split; [auto|]. split; [auto|]. split; [auto|]. split; [exact De|]. intros j N1 N2 N3. apply Ot; [auto|cbn; congruence|]. intros Eb. apply bptr_in in Eb. auto.
    + assert (Eb : match s with Nd _ j _ => j =? v | Lf => false end = false). { destruct s as [|a j b]; [auto|]. apply Nat.eqb_neq. intros ->. destruct (NoDup_plug (st_nodup S)) as (N & _). dis N v. }
      rewrite Eb. split; [auto|]. split; [exact S'|]. split; [auto|]. split; [auto|]. split; [auto|]. split; [exact De|]. intros j N1 N2 N3. apply Ot; [auto|cbn; congruence|]. intros Eb'. apply bptr_in in Eb'. auto.
  - exists (match l' with Nd _ j _ => j =? v | Lf => false end). destruct Hlr as [[-> ->]|[-> ->]].
    + assert (Eb : match s with Nd _ j _ => j =? v | Lf => false end = false). { destruct s as [|a j b]; [auto|]. apply Nat.eqb_neq. intros ->. destruct (NoDup_plug (st_nodup S)) as (N & _). dis N v. }
      rewrite Eb. split; [auto|]. split; [exact S'|]. split; [auto|]. split; [auto|]. split; [auto|]. split; [exact De|]. intros j N1 N2 N3. apply Ot; [auto| |cbn; congruence]. intros Eb'. apply bptr_in in Eb'. auto.
    + rewrite Nat.eqb_refl. split; [auto|]. split; [exact S'|]. split; [auto|]. split; [auto|]. split; [auto|]. split; [exact De|]. intros j N1 N2 N3. apply Ot; [auto| |cbn; congruence]. intros Eb. apply bptr_in in Eb. auto.
Qed.
(** propagate at a node whose subtrees are in order *)
Lemma prop_node X h D rp c l u r : ST X h D rp (plug c (Nd l u r)) -> val D l -> val D r ->
  exists h' D' l' r', prop h u = Some h' /\ ST X h' D' rp (plug c (Nd l' u r')) /\ hext X h h' /\ clean D' u /\ val D' l' /\ val D' r' /\ den D' (Nd l' u r') = den D (Nd l u r) /\
    (forall j, ~ In j (ids (Nd l u r)) -> D' j = D j) /\ (forall j, In j (ids (Nd l' u r')) <-> In j (ids (Nd l u r))).
Proof.
  intros S Vl Vr. destruct (Prop_ok _ _ _ _ S) as (h' & D' & l' & r' & E & S' & Hx & Hlr & Cl & V1 & V2 & De & Ot & _). exists h', D', l', r'. split; [auto|]. split; [auto|]. split; [auto|]. split; [auto|].
  assert (Hj : forall j, ~ In j (ids (Nd l u r)) -> D' j = D j). { intros j Nj. cbn in Nj. rewrite in_app_iff in Nj. cbn in Nj. apply Ot; [intros ->; auto|intros Eb; apply bptr_in in Eb; auto|intros Eb; apply bptr_in in Eb; auto]. }
  destruct Hlr as [[-> ->]|[-> ->]]; (split; [auto|split; [auto|split; [auto|split; [auto|]]]]); intros j; [tauto|]. cbn. rewrite !in_app_iff. cbn. tauto.
Qed.

(** rotations and aggregate with what they keep *)
Lemma agg_step X h D rp c l i r : ST X h D rp (plug c (Nd l i r)) -> clean D i -> val D l -> val D r ->
  exists h' D', agg h i = Some h' /\ ST X h' D' rp (plug c (Nd l i r)) /\ hext X h h' /\ (forall j, j <> i -> D' j = D j) /\ deq D D' /\ val D' (Nd l i r).
Proof. intros S C V1 V2. destruct (Agg_ok c l r S C V1 V2) as (h' & D' & E & S' & Hx & _ & H). exists h', D'. auto. Qed.
Arguments agg_step {X h D rp c l i r} _ _ _ _.
Lemma val_keep D D' i t : val D t -> (forall j, j <> i -> D' j = D j) -> ~ In i (ids t) -> val D' t.
Proof. intros V H N. apply (val_ext (D := D)); [|auto]. intros j J. apply H. intros ->. auto. Qed.
Arguments val_keep {D D' i t} _ _ _.
(** a single rotation at the root *)
Lemma zig_ok X h D rp dir p s l u r : ST X h D rp (fill (F dir p s) (Nd l u r)) -> val D s -> val D l -> val D r ->
  exists h' D' l' r', splay_step prop agg h u = Some h' /\ ST X h' D' rp (Nd l' u r') /\ hext X h h' /\ clean D' u /\ val D' (Nd l' u r') /\ den D' (Nd l' u r') = den D (fill (F dir p s) (Nd l u r)).
Proof.
  intros S Vs Vl Vr.
  assert (N : NoDup (p :: ids s ++ ids l ++ u :: ids r)). { apply (Permutation_NoDup (F_ids dir p s (Nd l u r))). apply (st_nodup S). }
  assert (Np : p <> u) by (intros ->; dis N u).
  unfold splay_step. destruct (@st_children X h D rp [F dir p s] l u r S) as (_ & _ & Gp). rewrite Gp. cbn [obind cpar]. replace (fid (F dir p s)) with p by (destruct dir; auto).
  assert (Ir : is_root (sk h) p = Some true). { pose proof (st_rep S) as R0. pose proof (st_nodup S) as N0. pose proof (st_rp_t S) as R1. destruct dir; exact (@is_root_ok _ [] _ _ _ _ R0 N0 R1). }
  rewrite Ir. cbn [obind].
  destruct (@prop_frame X h D rp [] dir p s l u r S Vs) as (h1 & D1 & d1 & E1 & S1 & X1 & C1 & V1 & De1 & O1). rewrite E1. cbn [obind].
  assert (Vl1 : val D1 l) by (apply (val_ext (D := D)); auto; intros j J; apply O1; [intros ->; dis N p|intros ->; dis N u|intros I; dis N j]).
  assert (Vr1 : val D1 r) by (apply (val_ext (D := D)); auto; intros j J; apply O1; [intros ->; dis N p|intros ->; dis N u|intros I; dis N j]).
  destruct (@prop_node X h1 D1 rp [F d1 p s] l u r S1 Vl1 Vr1) as (h2 & D2 & a & b & E2 & S2 & X2 & C2 & V2a & V2b & De2 & O2 & I2). rewrite E2. cbn [obind].
  assert (Hp : D2 p = D1 p). { apply O2. cbn. rewrite in_app_iff. cbn. intros I. destruct I as [I|[I|I]]; [dis N p|auto|dis N p]. }
  assert (Hs : forall j, In j (ids s) -> D2 j = D1 j). { intros j J. apply O2. cbn. rewrite in_app_iff. cbn. intros I. destruct I as [I|[I|I]]; [dis N j|subst j; dis N u|dis N j]. }
  assert (Cp : clean D2 p) by (exact (clean_ext Hp C1)). assert (V2s : val D2 s) by (exact (val_ext Hs V1)).
  assert (Su : bptr s <> Some u) by (intros Eb; dis N u).
  assert (N2 : NoDup (p :: ids s ++ ids a ++ u :: ids b)). { apply (Permutation_NoDup (F_ids d1 p s (Nd a u b))). apply (st_nodup S2). }
  assert (De : den D2 (fill (F d1 p s) (Nd a u b)) = den D (fill (F dir p s) (Nd l u r))). { rewrite <- De1. apply (den_plug (c := [F d1 p s])); [|auto]. intros j J. cbn in J. destruct d1; cbn in J; rewrite app_nil_r in J; destruct J as [<-|J]; auto. }
  clear E1 E2 De1 De2 O1 O2. destruct d1; cbn [F fill plug fold_left] in *.
  - destruct (@st_children X h2 D2 rp [] (Nd a u b) p s S2) as (G1 & G2 & _). rewrite G1. cbn [obind]. rewrite G2. cbn [obind bptr]. rewrite peq_refl.
    destruct (@hrot_ok M A X h2 D2 rp [] true u p a b s S2) as (h3 & E3 & S3 & X3). change (hrot true h2 u) with (rot_r h2 u) in E3. rewrite E3. cbn [obind rot_to] in *.
    destruct (@agg_step X h3 D2 rp [FR a u] b p s S3 Cp V2b V2s) as (h4 & D4 & E4 & S4 & X4 & O4 & Q4 & V4). rewrite E4. cbn [obind].
    assert (C4 : clean D4 u) by exact (clean_deq Q4 C2). assert (V4a : val D4 a) by (apply (val_keep V2a O4); intros I; dis N2 p).
    destruct (@agg_step X h4 D4 rp [] a u (Nd b p s) S4 C4 V4a V4) as (h5 & D5 & E5 & S5 & X5 & O5 & Q5 & V5). exists h5, D5, a, (Nd b p s). split; [exact E5|]. split; [exact S5|].
    split; [exact (hext_trans X1 (hext_trans X2 (hext_trans X3 (hext_trans X4 X5))))|]. split; [exact (clean_deq Q5 C4)|]. split; [exact V5|]. rewrite (den_deq _ Q5), (den_deq _ Q4), <- De. rewrite !den_clean by auto. rewrite <- !app_assoc. reflexivity.
  - destruct (@st_children X h2 D2 rp [] s p (Nd a u b) S2) as (G1 & G2 & _). rewrite G1. cbn [obind]. rewrite G2. cbn [obind bptr]. rewrite peq_neq, peq_refl by auto.
    destruct (@hrot_ok M A X h2 D2 rp [] false u p b a s S2) as (h3 & E3 & S3 & X3). change (hrot false h2 u) with (rot_l h2 u) in E3. rewrite E3. cbn [obind rot_to] in *.
    destruct (@agg_step X h3 D2 rp [FL u b] s p a S3 Cp V2s V2a) as (h4 & D4 & E4 & S4 & X4 & O4 & Q4 & V4). rewrite E4. cbn [obind].
    assert (C4 : clean D4 u) by exact (clean_deq Q4 C2). assert (V4b : val D4 b) by (apply (val_keep V2b O4); intros I; dis N2 p).
    destruct (@agg_step X h4 D4 rp [] (Nd s p a) u b S4 C4 V4 V4b) as (h5 & D5 & E5 & S5 & X5 & O5 & Q5 & V5). exists h5, D5, (Nd s p a), b. split; [exact E5|]. split; [exact S5|].
    split; [exact (hext_trans X1 (hext_trans X2 (hext_trans X3 (hext_trans X4 X5))))|]. split; [exact (clean_deq Q5 C4)|]. split; [exact V5|]. rewrite (den_deq _ Q5), (den_deq _ Q4), <- De. rewrite !den_clean by auto. rewrite <- !app_assoc. reflexivity.
Qed.

(** two rotations *)
Lemma zigzig_ok X h D rp c d2 q s2 d1 p s1 l u r : ST X h D rp (plug c (fill (F d2 q s2) (fill (F d1 p s1) (Nd l u r)))) -> val D s1 -> val D s2 -> val D l -> val D r ->
  exists h' D' l' r', splay_step prop agg h u = Some h' /\ ST X h' D' rp (plug c (Nd l' u r')) /\ hext X h h' /\ clean D' u /\ val D' (Nd l' u r') /\
    den D' (Nd l' u r') = den D (fill (F d2 q s2) (fill (F d1 p s1) (Nd l u r))) /\ (forall j, In j (cids c) -> D' j = D j).
Proof.
  intros S Vs1 Vs2 Vl Vr.
  assert (Pm : forall d d' l r, Permutation (ids (fill (F d q s2) (fill (F d' p s1) (Nd l u r)))) (q :: ids s2 ++ p :: ids s1 ++ ids l ++ u :: ids r)).
  { intros d d' l0 r0. rewrite F_ids. constructor. apply Permutation_app_head. rewrite F_ids. reflexivity. }
  destruct (NoDup_plug (st_nodup S)) as (N0 & Dc & _). assert (N : NoDup (q :: ids s2 ++ p :: ids s1 ++ ids l ++ u :: ids r)) by exact (Permutation_NoDup (Pm d2 d1 l r) N0).
  assert (Dc' : forall j, In j (cids c) -> j <> q /\ j <> p /\ ~ In j (ids s2) /\ ~ In j (ids s1) /\ ~ In j (ids (Nd l u r))).
  { intros j J. assert (Nj : ~ In j (q :: ids s2 ++ p :: ids s1 ++ ids l ++ u :: ids r)) by (intros I; apply (Dc j J); exact (Permutation_in _ (Permutation_sym (Pm d2 d1 l r)) I)). cbn in Nj |- *. rewrite !in_app_iff in Nj. cbn in Nj. rewrite !in_app_iff in *. cbn in *. repeat split; try (intros ->; tauto); tauto. }
  assert (Npq : p <> q /\ u <> p /\ u <> q) by (repeat split; intros ->; dis N q; dis N p). destruct Npq as (Npq & Nup & Nuq).
  unfold splay_step. destruct (@st_children X h D rp (F d1 p s1 :: F d2 q s2 :: c) l u r S) as (_ & _ & Gp). rewrite Gp. cbn [obind cpar]. replace (fid (F d1 p s1)) with p by (destruct d1; auto).
  assert (Ir : is_root (sk h) p = Some false /\ get (pp (sk h)) p = Some (Some q)).
  { pose proof (st_rep S) as R0. pose proof (st_nodup S) as N1. pose proof (st_rp_t S) as R1. split.
    - destruct d1; exact (@is_root_ok _ (F d2 q s2 :: c) _ _ _ _ R0 N1 R1).
    - replace q with (fid (F d2 q s2)) by (destruct d2; auto). destruct d1; apply (@st_children X h D rp (F d2 q s2 :: c) _ p _ S). }
  destruct Ir as [Ir Gq]. rewrite Ir. cbn [obind]. rewrite Gq. cbn [obind]. clear Ir Gq Gp.
  assert (Ex : exists x1 x2, fill (F d1 p s1) (Nd l u r) = Nd x1 p x2) by (destruct d1; cbn; eauto). destruct Ex as (x1 & x2 & Ex).
  assert (S' : ST X h D rp (plug c (fill (F d2 q s2) (Nd x1 p x2)))) by (rewrite <- Ex; exact S).
  destruct (@prop_frame X h D rp c d2 q s2 x1 p x2 S' Vs2) as (h1 & D1 & e2 & E1 & S1 & X1 & C1 & V1s2 & De1 & O1). rewrite E1. cbn [obind]. rewrite <- Ex in S1, De1. clear x1 x2 Ex S'.
  assert (K1 : forall t, (t = l \/ t = r \/ t = s1) -> val D t -> val D1 t). { intros t Ht V. apply (val_ext (D := D)); [|auto]. intros j J. apply O1; [intros ->|intros ->|intros I]; destruct Ht as [-> |[-> | ->]]; try (dis N q; fail); try (dis N p; fail); dis N j. }
  assert (V1s1 : val D1 s1) by auto. assert (V1l : val D1 l) by auto. assert (V1r : val D1 r) by auto.
  destruct (@prop_frame X h1 D1 rp (F e2 q s2 :: c) d1 p s1 l u r S1 V1s1) as (h2 & D2 & e1 & E2 & S2 & X2 & C2 & V2s1 & De2 & O2). rewrite E2. cbn [obind].
  assert (K2 : forall t, (t = l \/ t = r \/ t = s2) -> val D1 t -> val D2 t). { intros t Ht V. apply (val_ext (D := D1)); [|auto]. intros j J. apply O2; [intros ->|intros ->|intros I]; destruct Ht as [-> |[-> | ->]]; try (dis N u; fail); try (dis N p; fail); dis N j. }
  assert (V2s2 : val D2 s2) by auto. assert (V2l : val D2 l) by auto. assert (V2r : val D2 r) by auto.
  assert (C2q : clean D2 q). { apply (clean_ext (D := D1)); [|auto]. apply O2; auto. intros I. dis N q. }
  destruct (@prop_node X h2 D2 rp (F e1 p s1 :: F e2 q s2 :: c) l u r S2 V2l V2r) as (h3 & D3 & a & b & E3 & S3 & X3 & C3 & V3a & V3b & De3 & O3 & I3). rewrite E3. cbn [obind].
  assert (O3' : forall j, j <> u -> ~ In j (ids l) -> ~ In j (ids r) -> D3 j = D2 j). { intros j Ha Hb Hc. apply O3. cbn. rewrite in_app_iff. cbn. intros [I|[I|I]]; auto. }
  assert (C3p : clean D3 p). { apply (clean_ext (D := D2)); [|auto]. apply O3'; auto; intros I; dis N p. }
  assert (C3q : clean D3 q). { apply (clean_ext (D := D2)); [|auto]. apply O3'; auto; intros I; dis N q. }
  assert (V3s1 : val D3 s1). { apply (val_ext (D := D2)); [|auto]. intros j J. apply O3'; [intros ->; dis N u|intros I; dis N j|intros I; dis N j]. }
  assert (V3s2 : val D3 s2). { apply (val_ext (D := D2)); [|auto]. intros j J. apply O3'; [intros ->; dis N u|intros I; dis N j|intros I; dis N j]. }
  assert (Oc : forall j, In j (cids c) -> D3 j = D j). { intros j J. destruct (Dc' j J) as (H1 & H2 & H3 & H4 & H5). rewrite O3 by auto. rewrite O2, O1; auto. - intros ->; apply H5; cbn; apply in_or_app; right; now left. }
  assert (De : den D3 (fill (F e2 q s2) (fill (F e1 p s1) (Nd a u b))) = den D (fill (F d2 q s2) (fill (F d1 p s1) (Nd l u r)))).
  { rewrite <- De1. transitivity (den D2 (fill (F e2 q s2) (fill (F e1 p s1) (Nd l u r)))).
    - apply (den_plug (c := [F e1 p s1; F e2 q s2])); [|auto]. intros j J. cbn in J. replace (fid (F e1 p s1)) with p in J by (destruct e1; auto). replace (fother (F e1 p s1)) with s1 in J by (destruct e1; auto). replace (fid (F e2 q s2)) with q in J by (destruct e2; auto). replace (fother (F e2 q s2)) with s2 in J by (destruct e2; auto). rewrite app_nil_r, in_app_iff in J. cbn in J.
      destruct J as [<-|[J|[<-|J]]]; apply O3'; auto; try (intros ->; dis N u); intros I; try (dis N p; fail); try (dis N q; fail); dis N j.
    - apply (den_plug (c := [F e2 q s2])); [|auto]. intros j J. cbn in J. replace (fid (F e2 q s2)) with q in J by (destruct e2; auto). replace (fother (F e2 q s2)) with s2 in J by (destruct e2; auto). rewrite app_nil_r in J.
      destruct J as [<-|J]; apply O2; auto; try (intros ->; dis N u; dis N p); intros I; try (dis N q; fail); dis N j. }
  destruct (NoDup_plug (st_nodup S3)) as (_ & _ & _). assert (N3 : NoDup (q :: ids s2 ++ p :: ids s1 ++ ids a ++ u :: ids b)). { pose proof (st_nodup S3) as N1. change (plug (F e1 p s1 :: F e2 q s2 :: c) (Nd a u b)) with (plug c (fill (F e2 q s2) (fill (F e1 p s1) (Nd a u b)))) in N1. apply NoDup_plug in N1 as (N1 & _). exact (Permutation_NoDup (Pm e2 e1 a b) N1). }
  assert (B1 : bptr s1 <> Some u) by (intros Eb; dis N u). assert (B2 : bptr s2 <> Some p) by (intros Eb; dis N p).
  assert (Xt : hext X h h3) by exact (hext_trans X1 (hext_trans X2 X3)).
  clear E1 E2 E3 De1 De2 De3 O1 O2 O3 O3' K1 K2 X1 X2 X3 S1 S2 V1s1 V1s2 V1l V1r V2s1 V2s2 V2l V2r C1 C2 C2q.
  assert (Fin : forall h6 D6 l' r', ST X h6 D6 rp (plug c (Nd l' u r')) -> hext X h3 h6 -> clean D6 u -> val D6 l' -> val D6 r' -> den D6 (Nd l' u r') = den D3 (fill (F e2 q s2) (fill (F e1 p s1) (Nd a u b))) -> (forall j, j <> p -> j <> q -> j <> u -> D6 j = D3 j) ->
     exists h' D' l'0 r'0, agg h6 u = Some h' /\ ST X h' D' rp (plug c (Nd l'0 u r'0)) /\ hext X h h' /\ clean D' u /\ val D' (Nd l'0 u r'0) /\ den D' (Nd l'0 u r'0) = den D (fill (F d2 q s2) (fill (F d1 p s1) (Nd l u r))) /\ (forall j, In j (cids c) -> D' j = D j)).
  { intros h6 D6 l' r' S6 X6 C6 V6l V6r De6 O6. destruct (agg_step S6 C6 V6l V6r) as (h7 & D7 & E7 & S7 & X7 & O7 & Q7 & V7). exists h7, D7, l', r'. split; [exact E7|]. split; [exact S7|]. split; [exact (hext_trans Xt (hext_trans X6 X7))|]. split; [exact (clean_deq Q7 C6)|]. split; [exact V7|]. split; [rewrite (den_deq _ Q7), De6; exact De|].
    intros j J. destruct (Dc' j J) as (H1 & H2 & H3 & H4 & H5). assert (j <> u) by (intros ->; apply H5; cbn; apply in_or_app; right; now left). rewrite O7, O6 by auto. auto. }
  destruct e2, e1; cbn [F fill] in *; rewrite ?plug_cons in S3; cbn [fill] in S3.
  - destruct (@st_children X h3 D3 rp c (Nd (Nd a u b) p s1) q s2 S3) as (G1 & G2 & _). rewrite G1. cbn [obind]. rewrite G2. cbn [obind]. destruct (@st_children X h3 D3 rp (FL q s2 :: c) (Nd a u b) p s1 S3) as (G3 & G4 & _). rewrite G3. cbn [obind]. rewrite G4. cbn [obind bptr]. rewrite !peq_refl.
    destruct (@hrot_ok M A X h3 D3 rp c true p q (Nd a u b) s1 s2 S3) as (h4 & E4 & S4 & X4). change (hrot true h3 p) with (rot_r h3 p) in E4. rewrite E4. cbn [obind rot_to] in *.
    destruct (@hrot_ok M A X h4 D3 rp c true u p a b (Nd s1 q s2) S4) as (h5 & E5 & S5 & X5). change (hrot true h4 u) with (rot_r h4 u) in E5. rewrite E5. cbn [obind rot_to] in *.
    destruct (@agg_step X h5 D3 rp (FR b p :: FR a u :: c) s1 q s2 S5 C3q V3s1 V3s2) as (h6 & D6 & E6 & S6 & X6 & O6 & Q6 & V6). rewrite E6. cbn [obind].
    assert (V6b : val D6 b) by (apply (val_keep V3b O6); intros I; dis N3 q). assert (V6a : val D6 a) by (apply (val_keep V3a O6); intros I; dis N3 q).
    destruct (@agg_step X h6 D6 rp (FR a u :: c) b p (Nd s1 q s2) S6 (clean_deq Q6 C3p) V6b V6) as (h7 & D7 & E7 & S7 & X7 & O7 & Q7 & V7). rewrite E7. cbn [obind].
    apply (Fin h7 D7 a (Nd b p (Nd s1 q s2))); auto; [exact (hext_trans X4 (hext_trans X5 (hext_trans X6 X7)))|exact (clean_deq Q7 (clean_deq Q6 C3))|apply (val_keep V6a O7); intros I; dis N3 p|rewrite (den_deq _ Q7), (den_deq _ Q6); rewrite !den_clean by auto; repeat (rewrite <- app_assoc; cbn [app]); reflexivity|intros j Na Nb _; rewrite O7, O6; auto].
  - destruct (@st_children X h3 D3 rp c (Nd s1 p (Nd a u b)) q s2 S3) as (G1 & G2 & _). rewrite G1. cbn [obind]. rewrite G2. cbn [obind]. destruct (@st_children X h3 D3 rp (FL q s2 :: c) s1 p (Nd a u b) S3) as (G3 & G4 & _). rewrite G3. cbn [obind]. rewrite G4. cbn [obind bptr]. rewrite !peq_refl, peq_neq by auto.
    destruct (@hrot_ok M A X h3 D3 rp (FL q s2 :: c) false u p b a s1 S3) as (h4 & E4 & S4 & X4). change (hrot false h3 u) with (rot_l h3 u) in E4. rewrite E4. cbn [obind rot_to] in *.
    destruct (@hrot_ok M A X h4 D3 rp c true u q (Nd s1 p a) b s2 S4) as (h5 & E5 & S5 & X5). change (hrot true h4 u) with (rot_r h4 u) in E5. rewrite E5. cbn [obind rot_to] in *.
    destruct (@agg_step X h5 D3 rp (FL u (Nd b q s2) :: c) s1 p a S5 C3p V3s1 V3a) as (h6 & D6 & E6 & S6 & X6 & O6 & Q6 & V6). rewrite E6. cbn [obind].
    assert (V6b : val D6 b) by (apply (val_keep V3b O6); intros I; dis N3 p). assert (V6s : val D6 s2) by (apply (val_keep V3s2 O6); intros I; dis N3 p).
    destruct (@agg_step X h6 D6 rp (FR (Nd s1 p a) u :: c) b q s2 S6 (clean_deq Q6 C3q) V6b V6s) as (h7 & D7 & E7 & S7 & X7 & O7 & Q7 & V7). rewrite E7. cbn [obind].
    apply (Fin h7 D7 (Nd s1 p a) (Nd b q s2)); auto; [exact (hext_trans X4 (hext_trans X5 (hext_trans X6 X7)))|exact (clean_deq Q7 (clean_deq Q6 C3))|apply (val_keep V6 O7); cbn; rewrite in_app_iff; cbn; intros [I|[I|I]]; [dis N3 q|congruence|dis N3 q]|rewrite (den_deq _ Q7), (den_deq _ Q6); rewrite !den_clean by auto; repeat (rewrite <- app_assoc; cbn [app]); reflexivity|intros j Na Nb _; rewrite O7, O6; auto].
  - destruct (@st_children X h3 D3 rp c s2 q (Nd (Nd a u b) p s1) S3) as (G1 & G2 & _). rewrite G1. cbn [obind]. rewrite G2. cbn [obind]. destruct (@st_children X h3 D3 rp (FR s2 q :: c) (Nd a u b) p s1 S3) as (G3 & G4 & _). rewrite G3. cbn [obind]. rewrite G4. cbn [obind bptr]. rewrite !peq_refl, !peq_neq by auto.
    destruct (@hrot_ok M A X h3 D3 rp (FR s2 q :: c) true u p a b s1 S3) as (h4 & E4 & S4 & X4). change (hrot true h3 u) with (rot_r h3 u) in E4. rewrite E4. cbn [obind rot_to] in *.
    destruct (@hrot_ok M A X h4 D3 rp c false u q (Nd b p s1) a s2 S4) as (h5 & E5 & S5 & X5). change (hrot false h4 u) with (rot_l h4 u) in E5. rewrite E5. cbn [obind rot_to] in *.
    destruct (@agg_step X h5 D3 rp (FR (Nd s2 q a) u :: c) b p s1 S5 C3p V3b V3s1) as (h6 & D6 & E6 & S6 & X6 & O6 & Q6 & V6). rewrite E6. cbn [obind].
    assert (V6a : val D6 a) by (apply (val_keep V3a O6); intros I; dis N3 p). assert (V6s : val D6 s2) by (apply (val_keep V3s2 O6); intros I; dis N3 p).
    destruct (@agg_step X h6 D6 rp (FL u (Nd b p s1) :: c) s2 q a S6 (clean_deq Q6 C3q) V6s V6a) as (h7 & D7 & E7 & S7 & X7 & O7 & Q7 & V7). rewrite E7. cbn [obind].
    apply (Fin h7 D7 (Nd s2 q a) (Nd b p s1)); auto; [exact (hext_trans X4 (hext_trans X5 (hext_trans X6 X7)))|exact (clean_deq Q7 (clean_deq Q6 C3))|apply (val_keep V6 O7); cbn; rewrite in_app_iff; cbn; intros [I|[I|I]]; [dis N3 q|congruence|dis N3 q]|rewrite (den_deq _ Q7), (den_deq _ Q6); rewrite !den_clean by auto; repeat (rewrite <- app_assoc; cbn [app]); reflexivity|intros j Na Nb _; rewrite O7, O6; auto].
  - destruct (@st_children X h3 D3 rp c s2 q (Nd s1 p (Nd a u b)) S3) as (G1 & G2 & _). rewrite G1. cbn [obind]. rewrite G2. cbn [obind]. destruct (@st_children X h3 D3 rp (FR s2 q :: c) s1 p (Nd a u b) S3) as (G3 & G4 & _). rewrite G3. cbn [obind]. rewrite G4. cbn [obind bptr]. rewrite !peq_refl, !peq_neq by auto.
    destruct (@hrot_ok M A X h3 D3 rp c false p q (Nd a u b) s1 s2 S3) as (h4 & E4 & S4 & X4). change (hrot false h3 p) with (rot_l h3 p) in E4. rewrite E4. cbn [obind rot_to] in *.
    destruct (@hrot_ok M A X h4 D3 rp c false u p b a (Nd s2 q s1) S4) as (h5 & E5 & S5 & X5). change (hrot false h4 u) with (rot_l h4 u) in E5. rewrite E5. cbn [obind rot_to] in *.
    destruct (@agg_step X h5 D3 rp (FL p a :: FL u b :: c) s2 q s1 S5 C3q V3s2 V3s1) as (h6 & D6 & E6 & S6 & X6 & O6 & Q6 & V6). rewrite E6. cbn [obind].
    assert (V6b : val D6 b) by (apply (val_keep V3b O6); intros I; dis N3 q). assert (V6a : val D6 a) by (apply (val_keep V3a O6); intros I; dis N3 q).
    destruct (@agg_step X h6 D6 rp (FL u b :: c) (Nd s2 q s1) p a S6 (clean_deq Q6 C3p) V6 V6a) as (h7 & D7 & E7 & S7 & X7 & O7 & Q7 & V7). rewrite E7. cbn [obind].
    apply (Fin h7 D7 (Nd (Nd s2 q s1) p a) b); auto; [exact (hext_trans X4 (hext_trans X5 (hext_trans X6 X7)))|exact (clean_deq Q7 (clean_deq Q6 C3))|apply (val_keep V6b O7); intros I; dis N3 p|rewrite (den_deq _ Q7), (den_deq _ Q6); rewrite !den_clean by auto; repeat (rewrite <- app_assoc; cbn [app]); reflexivity|intros j Na Nb _; rewrite O7, O6; auto].
Qed.

(** * Splay *)
Lemma ctx_size c : length c <= length (cids c).
Proof. induction c as [|f c IH]; [auto|]. cbn. rewrite app_length. lia. Qed.
Lemma st_fuel X h D rp c t : ST X h D rp (plug c t) -> length c <= length (sd h).
Proof.
  intros S. destruct (NoDup_plug (st_nodup S)) as (_ & _ & Nc). pose proof (ctx_size c) as L. transitivity (length (cids c)); [exact L|]. apply NoDup_bound; [exact Nc|]. intros i I. apply (get_some_lt _ _ (st_dat S _ (proj1 (st_in S i) (proj2 (plug_in _ _ _) (or_introl I))))).
Qed.
Theorem splay_ok X h D rp c l u r : ST X h D rp (plug c (Nd l u r)) -> valc D c -> val D l -> val D r ->
  exists h' D' l' r', splay prop agg h u = Some h' /\ ST X h' D' rp (Nd l' u r') /\ hext X h h' /\ clean D' u /\ val D' (Nd l' u r') /\ den D' (Nd l' u r') = den D (plug c (Nd l u r)).
Proof.
  intros S Vc Vl Vr. unfold splay. rewrite (is_root_ok (st_rep S) (st_nodup S) (st_rp_t S)). cbn [obind]. destruct c as [|f c].
  - cbn [plug fold_left] in *. destruct (@prop_node X h D rp [] l u r S Vl Vr) as (h1 & D1 & a & b & E1 & S1 & X1 & C1 & Va & Vb & De & _ & _). rewrite E1. cbn [obind].
    destruct (@agg_step X h1 D1 rp [] a u b S1 C1 Va Vb) as (h2 & D2 & E2 & S2 & X2 & _ & Q2 & V2). exists h2, D2, a, b. split; [exact E2|]. split; [exact S2|]. split; [exact (hext_trans X1 X2)|]. split; [exact (clean_deq Q2 C1)|]. split; [exact V2|]. now rewrite (den_deq _ Q2).
  - pose proof (st_fuel _ _ S) as Lc. assert (Hf : length (f :: c) < sfuel h) by (unfold sfuel; lia). clear Lc. revert Hf. generalize (sfuel h) as fuel. intros fuel. revert h D f c l r S Vc Vl Vr.
    induction fuel as [|fuel IH]; intros h D f c l r S Vc Vl Vr Hf; [lia|]. cbn [loop]. inversion Vc as [|f' c' Vf Vc' Ef]; subst f' c'.
    destruct c as [|g c].
    + rewrite plug_cons in S |- *. cbn [plug fold_left] in S |- *. rewrite (F_eta f) in S |- *. destruct (zig_ok _ _ _ _ _ _ S Vf Vl Vr) as (h1 & D1 & a & b & E1 & S1 & X1 & C1 & V1 & De1). rewrite E1. cbn [obind].
      rewrite (@is_root_ok (sk h1) [] rp u a b (st_rep S1) (st_nodup S1) (st_rp_t S1)). cbn [obind]. exists h1, D1, a, b. split; [auto|]. split; [auto|]. split; [auto|]. split; [auto|]. split; [auto|]. exact De1.
    + inversion Vc' as [|f' c' Vg Vc2 Ef]; subst f' c'. rewrite !plug_cons in S. rewrite (F_eta f), (F_eta g) in S. destruct (zigzig_ok _ _ _ _ _ _ _ _ _ _ S Vf Vg Vl Vr) as (h1 & D1 & a & b & E1 & S1 & X1 & C1 & V1 & De1 & O1). rewrite E1. cbn [obind].
      rewrite (is_root_ok (st_rep S1) (st_nodup S1) (st_rp_t S1)). cbn [obind]. rewrite <- !F_eta in De1. assert (De' : den D1 (plug c (Nd a u b)) = den D (plug (f :: g :: c) (Nd l u r))) by (rewrite !plug_cons; apply den_plug; auto).
      destruct c as [|f2 c].
      * exists h1, D1, a, b. split; [auto|]. split; [auto|]. split; [auto|]. split; [auto|]. split; [auto|]. exact De'.
      * destruct V1 as (_ & V1a & V1b). destruct (IH h1 D1 f2 c a b S1) as (h2 & D2 & a2 & b2 & E2 & S2 & X2 & C2 & V2 & De2); [exact (valc_ext O1 Vc2)|auto|auto|cbn in Hf |- *; lia|].
        exists h2, D2, a2, b2. split; [auto|]. split; [auto|]. split; [exact (hext_trans X1 X2)|]. split; [auto|]. split; [auto|]. congruence.
Qed.
End Splay.
Arguments st_children {M A X h D rp c l i r} _.
Arguments st_fuel {M A X h D rp c t} _.
Arguments prop_node {M A op e act ws prop} _ {X h D rp c l u r} _ _ _.
Arguments agg_step {M A op e act ws agg} _ {X h D rp c l i r} _ _ _ _.
Arguments val_keep {M A op e act ws D D' i t} _ _ _.
Arguments splay_ok {M A op e act ws prop agg} _ _ {X h D rp c l u r} _ _ _ _.
