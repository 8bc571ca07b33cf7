(** Splay trees with pending reversals and operators: what a tree stands for, propagate and
    aggregate. *)
From Coq Require Import Permutation.
From Verif Require Import SplayModel SplayRot BaseLemmas ListExtra LazySegProp.
Set Implicit Arguments.

Lemma dup_count (xs : list nat) : NoDup xs -> forall j, count_occ Nat.eq_dec xs j <= 1.
Proof. apply NoDup_count_occ. Qed.
Ltac incnt H := apply (proj1 (count_occ_In Nat.eq_dec _ _)) in H.
(** contradictions about the members of duplicate-free lists *)
Ltac dis N j :=
  let C := fresh "Cnt" in pose proof (dup_count N j) as C; cbn [ids rot_from rot_to fill fid fother app] in C; rewrite ?count_occ_app in C; cbn [count_occ] in C; rewrite ?count_occ_app in C; cbn [count_occ] in C; rewrite ?count_occ_app in C; cbn [count_occ] in C;
  repeat match goal with H : In j _ |- _ => incnt H | H : bptr _ = Some j |- _ => apply bptr_in in H end;
  repeat match type of C with context [Nat.eq_dec ?a ?b] => destruct (Nat.eq_dec a b); [|try congruence] end; try lia.

Section Splay.
Variables (M A : Type) (op : M -> M -> M) (e : M) (comp : A -> A -> A) (aid : A) (act : A -> M -> M).
Hypothesis Mon : monoid_laws op e.
Hypothesis Act : action_laws op comp aid act.
Notation nd := (nd M A).
Notation sh := (sh M A).
Implicit Types (D : nat -> nd) (h : sh) (t l r : bt).

(** * What a tree stands for: nodes and values in order *)
Definition actp (f : A) (p : nat * M) : nat * M := (fst p, act f (snd p)).
Fixpoint den D t : list (nat * M) :=
  match t with
  | Lf => []
  | Nd l i r => let s := map (actp (nf (D i))) (den D l) ++ (i, nm (D i)) :: map (actp (nf (D i))) (den D r) in if nrev (D i) then List.rev s else s
  end.
Definition prodl (s : list (nat * M)) : M := product op e (map snd s).
Variable ws : bool. (* whether sizes are kept *)
Definition sok D t : Prop :=
  match t with
  | Lf => True
  | Nd _ i _ => (ws = true -> nsum (D i) = bsize t) /\ nprod (D i) = prodl (den D t) /\ nrprod (D i) = prodl (List.rev (den D t))
  end.
Fixpoint val D t : Prop := match t with Lf => True | Nd l i r => sok D t /\ val D l /\ val D r end.
Definition valc D (c : ctx) : Prop := Forall (fun f => val D (fother f)) c.
Definition clean D i : Prop := nrev (D i) = false /\ forall v, act (nf (D i)) v = v.
(** the same up to sums and products *)
Definition deq D D' : Prop := forall j, nm (D' j) = nm (D j) /\ nf (D' j) = nf (D j) /\ nrev (D' j) = nrev (D j).

Lemma sok_val D t : val D t -> sok D t.
Proof. destruct t; [auto|]. now intros [H _]. Qed.
Lemma den_length D t : length (den D t) = bsize t.
Proof. induction t as [|l IHl i r IHr]; [auto|]. cbn. destruct (nrev (D i)); rewrite ?rev_length, app_length; cbn; rewrite !map_length; lia. Qed.
Lemma den_ids D t : Permutation (map fst (den D t)) (ids t).
Proof.
  induction t as [|l IHl i r IHr]; [auto|]. cbn.
  assert (E : Permutation (map fst (map (actp (nf (D i))) (den D l) ++ (i, nm (D i)) :: map (actp (nf (D i))) (den D r))) (ids l ++ i :: ids r)).
  { rewrite map_app. cbn. rewrite !map_map. cbn. change (map (fun x => fst x)) with (map (@fst nat M)). now rewrite IHl, IHr. }
  destruct (nrev (D i)); [|exact E]. rewrite <- E, map_rev. symmetry. apply Permutation_rev.
Qed.
Lemma den_ext D D' t : (forall j, In j (ids t) -> D' j = D j) -> den D' t = den D t.
Proof.
  induction t as [|l IHl i r IHr]; intros H; [auto|]. cbn in *. rewrite IHl, IHr, H by (intros; try apply H; rewrite ?in_app_iff; cbn; auto). reflexivity.
Qed.
Arguments den_ext {D D' t} _.
Lemma val_ext D D' t : (forall j, In j (ids t) -> D' j = D j) -> val D t -> val D' t.
Proof.
  induction t as [|l IHl i r IHr]; intros H V; [auto|]. destruct V as (S & Vl & Vr). split; [|split; [apply IHl|apply IHr]; auto; intros; apply H; cbn; rewrite ?in_app_iff; cbn; auto].
  unfold sok in *. rewrite (den_ext H), (H i); [auto|]. cbn. rewrite in_app_iff. cbn. auto.
Qed.
Arguments val_ext {D D' t} _ _.
Lemma den_deq D D' t : deq D D' -> den D' t = den D t.
Proof. intros E. induction t as [|l IHl i r IHr]; [auto|]. cbn. destruct (E i) as (-> & -> & ->). now rewrite IHl, IHr. Qed.
Lemma deq_trans D D' D'' : deq D D' -> deq D' D'' -> deq D D''.
Proof. intros E1 E2 j. destruct (E1 j) as (A1 & A2 & A3), (E2 j) as (B1 & B2 & B3). repeat split; congruence. Qed.
Lemma clean_deq D D' i : deq D D' -> clean D i -> clean D' i.
Proof. intros E [C1 C2]. destruct (E i) as (E1 & E2 & E3). split; [congruence|]. intros v. now rewrite E2. Qed.
Lemma clean_ext D D' i : D' i = D i -> clean D i -> clean D' i.
Proof. intros E. unfold clean. now rewrite E. Qed.
Lemma actp_id f s : (forall v, act f v = v) -> map (actp f) s = s.
Proof. intros H. induction s as [|[i x] s IH]; [auto|]. cbn. unfold actp at 1. cbn. now rewrite H, IH. Qed.
Lemma den_clean D l i r : clean D i -> den D (Nd l i r) = den D l ++ (i, nm (D i)) :: den D r.
Proof. intros [C1 C2]. cbn. now rewrite C1, !actp_id by auto. Qed.
Lemma den_plug D D' c : forall t t', (forall j, In j (cids c) -> D' j = D j) -> den D' t' = den D t -> den D' (plug c t') = den D (plug c t).
Proof.
  induction c as [|f c IH]; intros t t' H E; [auto|]. rewrite !plug_cons. apply IH; [intros j J; apply H; cbn; right; apply in_or_app; auto|].
  assert (Ef : D' (fid f) = D (fid f)) by (apply H; now left). assert (Eo : den D' (fother f) = den D (fother f)) by (apply den_ext; intros j J; apply H; cbn; right; apply in_or_app; auto).
  destruct f; cbn [fill den fid fother] in *; now rewrite Ef, Eo, E.
Qed.
Lemma valc_ext D D' c : (forall j, In j (cids c) -> D' j = D j) -> valc D c -> valc D' c.
Proof.
  intros H V. induction V as [|f c Vf V IH]; [constructor|]. constructor; [|apply IH; intros j J; apply H; cbn; right; apply in_or_app; auto]. apply (val_ext (D := D)); [|auto]. intros j J. apply H. cbn. right. apply in_or_app. auto.
Qed.

(** * Pushing to a child *)
Definition pushn (f : A) (b : bool) (d : nd) : nd := let d := act_node comp act f d in if b then rev_node d else d.
Definition fupd D i (d : nd) : nat -> nd := fun j => if j =? i then d else D j.
Lemma fupd_eq D i d : fupd D i d i = d. Proof. unfold fupd. now rewrite Nat.eqb_refl. Qed.
Lemma fupd_neq D i d j : j <> i -> fupd D i d j = D j. Proof. unfold fupd. intros N. apply Nat.eqb_neq in N. now rewrite N. Qed.
Lemma actp_comp f g s : map (actp (comp f g)) s = map (actp g) (map (actp f) s).
Proof. rewrite map_map. apply map_ext. intros [i x]. unfold actp. cbn. now rewrite (act_compose _ _ _ _ Act). Qed.
Lemma prodl_act f s : s <> [] -> act f (prodl s) = prodl (map (actp f) s).
Proof.
  unfold prodl. intros N. destruct s as [|[i x] s]; [congruence|]. clear N. cbn [map]. revert i x. induction s as [|[j y] s IH]; intros i x; cbn [map snd fst actp product fold_right].
  - rewrite !(mon_right Mon). reflexivity.
  - rewrite (act_distr _ _ _ _ Act). f_equal. apply (IH j y).
Qed.
Lemma den_push D D' l i r f b : D' i = pushn f b (D i) -> (forall j, In j (ids l) -> D' j = D j) -> (forall j, In j (ids r) -> D' j = D j) ->
  den D' (Nd l i r) = (let s := map (actp f) (den D (Nd l i r)) in if b then List.rev s else s).
Proof.
  intros Ei El Er. cbn [den]. rewrite Ei, (den_ext El), (den_ext Er). unfold pushn, act_node, rev_node.
  assert (Es : map (actp (comp (nf (D i)) f)) (den D l) ++ (i, act f (nm (D i))) :: map (actp (comp (nf (D i)) f)) (den D r) = map (actp f) (map (actp (nf (D i))) (den D l) ++ (i, nm (D i)) :: map (actp (nf (D i))) (den D r))). { rewrite !actp_comp, map_app. reflexivity. }
  destruct b; cbn; rewrite Es; destruct (nrev (D i)); cbn; rewrite ?map_rev, ?rev_involutive; reflexivity.
Qed.
Arguments den_push {D D' l i r f b} _ _ _.
Lemma val_push D D' l i r f b : D' i = pushn f b (D i) -> (forall j, In j (ids l) -> D' j = D j) -> (forall j, In j (ids r) -> D' j = D j) -> val D (Nd l i r) -> val D' (Nd l i r).
Proof.
  intros Ei El Er (S & Vl & Vr). split; [|split; [exact (val_ext El Vl)|exact (val_ext Er Vr)]].
  assert (N : den D (Nd l i r) <> []) by (intros E; apply (f_equal (@length _)) in E; rewrite den_length in E; discriminate).
  assert (N' : List.rev (den D (Nd l i r)) <> []) by (intros E; apply (f_equal (@length _)) in E; rewrite rev_length, den_length in E; discriminate).
  unfold sok in *. rewrite (den_push Ei El Er). cbv zeta. rewrite Ei. destruct S as (S1 & S2 & S3). unfold pushn, act_node, rev_node.
  destruct b; cbn [nsum nprod nrprod]; rewrite S2, S3, !prodl_act, ?map_rev, ?rev_involutive by auto; auto.
Qed.

Arguments val_push {D D' l i r f b} _ _ _ _.
(** * Heaps *)
Definition dat h D (X : list nat) : Prop := forall i, In i X -> get (sd h) i = Some (D i).
Definition hext (X : list nat) h h' : Prop := keep_out X (sk h) (sk h') /\ same_len (sk h) (sk h') /\ length (sd h') = length (sd h) /\ forall i, ~ In i X -> get (sd h') i = get (sd h) i.
Lemma hext_refl X h : hext X h h.
Proof. split; [apply keep_out_refl|]. split; [apply same_len_refl|]. auto. Qed.
Lemma hext_trans X h1 h2 h3 : hext X h1 h2 -> hext X h2 h3 -> hext X h1 h3.
Proof. intros (A1 & A2 & A3 & A4) (B1 & B2 & B3 & B4). split; [exact (keep_out_trans A1 B1)|]. split; [exact (same_len_trans A2 B2)|]. split; [congruence|]. intros i Ni. rewrite B4; auto. Qed.
Arguments hext_trans {X h1 h2 h3} _ _.
(** the heap holds the tree [t] made of the nodes [X], with the data [D], below [rp] *)
Record ST (X : list nat) h D (rp : option nat) t : Prop := {
  st_rep : rep (sk h) rp t;
  st_ids : Permutation X (ids t);
  st_nodup : NoDup (ids t);
  st_dat : dat h D X;
  st_rp : rpok (sk h) rp X }.
Lemma st_in X h D rp t : ST X h D rp t -> forall i, In i (ids t) <-> In i X.
Proof. intros S i. split; intros I; [exact (Permutation_in _ (Permutation_sym (st_ids S)) I)|exact (Permutation_in _ (st_ids S) I)]. Qed.
Lemma st_rp_t X h D rp t : ST X h D rp t -> rpok (sk h) rp (ids t).
Proof. intros S. apply (rpok_perm (st_rp S)). intros i. apply (st_in S). Qed.

(** rotations *)
Definition hrot (dir : bool) h x := if dir then rot_r h x else rot_l h x.
Lemma hrot_ok X h D rp c dir x u a b d : ST X h D rp (plug c (rot_from dir x u a b d)) ->
  exists h', hrot dir h x = Some h' /\ ST X h' D rp (plug c (rot_to dir x u a b d)) /\ hext X h h'.
Proof.
  intros S. destruct (srot_all (st_rep S) (st_nodup S) (st_rp_t S)) as (k' & E & R & Ke & Ln). exists (with_sk h k'). split.
  - unfold hrot, srot, rot_r, rot_l in *. destruct dir; rewrite E; reflexivity.
  - assert (Ei : ids (plug c (rot_to dir x u a b d)) = ids (plug c (rot_from dir x u a b d))) by (rewrite !ids_plug, rot_ids; reflexivity).
    assert (Kx : keep_out X (sk h) k') by (intros i Ni; apply Ke; rewrite (st_in S); auto).
    split; [|split; [exact Kx|split; [exact Ln|auto]]]. split; cbn; [exact R|rewrite Ei; apply (st_ids S)|rewrite Ei; apply (st_nodup S)|exact (st_dat S)|exact (rpok_keep (st_rp S) Kx)].
Qed.

(** what propagate and aggregate do to a node anywhere in a tree *)
Definition prop_spec (prop : sh -> nat -> option sh) : Prop := forall X h D rp c l i r, ST X h D rp (plug c (Nd l i r)) ->
  exists h' D' l' r', prop h i = Some h' /\ ST X h' D' rp (plug c (Nd l' i r')) /\ hext X h h' /\ (l' = l /\ r' = r \/ l' = r /\ r' = l) /\ clean D' i /\
    (val D l -> val D' l) /\ (val D r -> val D' r) /\ den D' (Nd l' i r') = den D (Nd l i r) /\ (forall j, j <> i -> bptr l <> Some j -> bptr r <> Some j -> D' j = D j) /\
    nsum (D' i) = nsum (D i) /\ nprod (D' i) = nprod (D i) /\ nrprod (D' i) = nrprod (D i).
Definition agg_spec (agg : sh -> nat -> option sh) : Prop := forall X h D rp c l i r, ST X h D rp (plug c (Nd l i r)) -> clean D i -> val D l -> val D r ->
  exists h' D', agg h i = Some h' /\ ST X h' D' rp (plug c (Nd l i r)) /\ hext X h h' /\ sk h' = sk h /\ (forall j, j <> i -> D' j = D j) /\ deq D D' /\ val D' (Nd l i r).

(** ** propagate of the list *)
Definition clean_nd (d : nd) : nd := ND (nsum d) false (nm d) (nprod d) (nrprod d) aid.
Definition updr D (o : option nat) (g : nd -> nd) : nat -> nd := match o with Some j => fupd D j (g (D j)) | None => D end.
Lemma updr_at D o g j : updr D o g j = if peq o (Some j) then g (D j) else D j.
Proof. destruct o as [i|]; [|auto]. cbn. unfold fupd. rewrite Nat.eqb_sym. destruct (Nat.eqb_spec i j); [now subst|auto]. Qed.
Lemma updr2_at D o o' g j : (forall j, o = Some j -> o' = Some j -> False) -> updr (updr D o g) o' g j = if peq o (Some j) || peq o' (Some j) then g (D j) else D j.
Proof.
  intros N. rewrite !updr_at. destruct (peq o (Some j)) eqn:E1, (peq o' (Some j)) eqn:E2; auto. apply peq_eq in E1, E2. destruct (N j E1 E2).
Qed.
Lemma upd_ok X h D i g : dat h D X -> In i X -> exists h', upd h i g = Some h' /\ dat h' (fupd D i (g (D i))) X /\ sk h' = sk h /\ length (sd h') = length (sd h) /\ forall j, ~ In j X -> get (sd h') j = get (sd h) j.
Proof.
  intros Da I. pose proof (Da i I) as E. pose proof (get_some_lt _ _ E) as L. unfold upd. rewrite E. cbn [obind]. rewrite set_some by auto. cbn [obind]. eexists. split; [reflexivity|]. cbn. split; [|split; [auto|split; [apply lset_length|]]].
  - intros j J. cbn. destruct (Nat.eq_dec j i) as [->|N]; [rewrite fupd_eq, get_lset_eq; auto|]. rewrite fupd_neq, get_lset_neq by auto. auto.
  - intros j J. apply get_lset_neq. intros ->. auto.
Qed.
Arguments upd_ok {X h D i} g _ _.
Lemma upd_opt_ok X h D o g : dat h D X -> (forall i, o = Some i -> In i X) -> exists h', upd_opt h o g = Some h' /\ dat h' (updr D o g) X /\ sk h' = sk h /\ length (sd h') = length (sd h) /\ forall j, ~ In j X -> get (sd h') j = get (sd h) j.
Proof. intros Da I. destruct o as [i|]; [apply upd_ok; auto|]. exists h. cbn. auto. Qed.
Arguments upd_opt_ok {X h D} o g _ _.
Lemma dat_ext h D D' X : dat h D X -> (forall j, In j X -> D' j = D j) -> dat h D' X.
Proof. intros Da H i I. rewrite (H i I). auto. Qed.
Arguments dat_ext {h D D' X} _ _.
Definition pd D l i r : nat -> nd := fun j =>
  if j =? i then clean_nd (D i) else if peq (bptr l) (Some j) || peq (bptr r) (Some j) then pushn (nf (D i)) (nrev (D i)) (D j) else D j.

Lemma swap_rep k i l r par : rep k par (Nd l i r) -> NoDup (ids (Nd l i r)) -> forall k1, get (pl k1) i = Some (bptr r) -> get (pr k1) i = Some (bptr l) -> pp k1 = pp k ->
  (forall j, j <> i -> get (pl k1) j = get (pl k) j /\ get (pr k1) j = get (pr k) j) -> rep k1 par (Nd r i l).
Proof.
  intros (C & Rl & Rr) N k1 E1 E2 E3 Ot. cbn [ids] in N. apply NoDup_remove in N as [_ N]. assert (Kl : forall t, ~ In i (ids t) -> keep (ids t) k k1). { intros t Ni j J. destruct (Ot j) as [O1 O2]; [intros ->; auto|]. rewrite E3. auto. }
  split; [split; [auto|auto|rewrite E3; apply (ci_p C)]|]. split; [apply (rep_keep (h := k)); [apply Kl; intros I; apply N, in_or_app; auto|auto]|apply (rep_keep (h := k)); [apply Kl; intros I; apply N, in_or_app; auto|auto]].
Qed.
Lemma pd_den D l i r : NoDup (ids (Nd l i r)) -> let p := if nrev (D i) then (r, l) else (l, r) in
  den (pd D l i r) (Nd (fst p) i (snd p)) = den D (Nd l i r) /\ (val D l -> val (pd D l i r) l) /\ (val D r -> val (pd D l i r) r).
Proof.
  intros N. assert (Ci : clean (pd D l i r) i). { unfold clean, pd. rewrite Nat.eqb_refl. cbn. split; [auto|]. exact (act_unit _ _ _ _ Act). }
  assert (F : forall t, (t = l \/ t = r) -> match t with Lf => True | Nd a v b => pd D l i r v = pushn (nf (D i)) (nrev (D i)) (D v) /\ (forall j, In j (ids a) -> pd D l i r j = D j) /\ (forall j, In j (ids b) -> pd D l i r j = D j) end).
  { assert (Hj : forall j, j <> i -> bptr l <> Some j -> bptr r <> Some j -> pd D l i r j = D j). { intros j N1 N2 N3. unfold pd. apply Nat.eqb_neq in N1. rewrite N1, !peq_neq by auto. reflexivity. }
    intros t Ht. destruct t as [|a v b]; [auto|]. split; [|split].
    - unfold pd. destruct (Nat.eqb_spec v i) as [->|Nv]; [exfalso; destruct Ht as [<-|<-]; dis N i|]. destruct Ht as [<-|<-]; cbn; rewrite Nat.eqb_refl, ?Bool.orb_true_r; reflexivity.
    - intros j J. apply Hj; intros E; [rewrite E in J; destruct Ht as [<-|<-]; dis N i| |]; destruct Ht as [<-|<-]; try (injection E as ->); try (dis N j; fail).
    - intros j J. apply Hj; intros E; [rewrite E in J; destruct Ht as [<-|<-]; dis N i| |]; destruct Ht as [<-|<-]; try (injection E as ->); try (dis N j; fail). }
  assert (G : forall t, (t = l \/ t = r) -> den (pd D l i r) t = (let s := map (actp (nf (D i))) (den D t) in if nrev (D i) then List.rev s else s) /\ (val D t -> val (pd D l i r) t)).
  { intros t Ht. pose proof (F t Ht) as Ft. destruct t as [|a v b]; [split; [|auto]; cbn; now destruct (nrev (D i))|]. destruct Ft as (F1 & F2 & F3). split; [exact (den_push F1 F2 F3)|exact (val_push F1 F2 F3)]. }
  cbv zeta. destruct (G l) as [Gl Vl]; [auto|]. destruct (G r) as [Gr Vr]; [auto|]. cbv zeta in Gl, Gr. split; [|auto].
  rewrite den_clean by auto. assert (Em : nm (pd D l i r i) = nm (D i)) by (unfold pd; rewrite Nat.eqb_refl; reflexivity). cbn [den]. destruct (nrev (D i)); cbn [fst snd]; rewrite Em, Gl, Gr; [|reflexivity].
  rewrite rev_app_distr. cbn. rewrite <- app_assoc. reflexivity.
Qed.
Arguments pd_den {D l i r} _.
Lemma hext_of X h h' : keep_out X (sk h) (sk h') -> same_len (sk h) (sk h') -> length (sd h') = length (sd h) -> (forall i, ~ In i X -> get (sd h') i = get (sd h) i) -> hext X h h'.
Proof. unfold hext. auto. Qed.

Lemma propagate_ok : prop_spec (propagate comp aid act).
Proof.
  intros X h D rp c l i r S. pose proof (st_rep S) as R0. destruct (NoDup_plug (st_nodup S)) as (N & Dj & Nc). apply plug_rep in R0 as [R Rc].
  destruct (pd_den N (D := D)) as (E1 & V1 & V2). cbv zeta in E1.
  set (p := if nrev (D i) then (r, l) else (l, r)) in *.
  assert (Ii : In i X) by (apply (st_in S), plug_in; right; cbn; apply in_or_app; right; now left).
  assert (Il : forall j, bptr l = Some j -> In j X) by (intros j Ej; apply bptr_in in Ej; apply (st_in S), plug_in; right; cbn; apply in_or_app; auto).
  assert (Ir : forall j, bptr r = Some j -> In j X) by (intros j Ej; apply bptr_in in Ej; apply (st_in S), plug_in; right; cbn; apply in_or_app; right; now right).
  assert (Lr : forall j, bptr l = Some j -> bptr r = Some j -> False) by (intros j El Er; dis N j).
  assert (Li : bptr l <> Some i) by (intros El; dis N i). assert (Ri : bptr r <> Some i) by (intros El; dis N i).
  destruct R as ([C1 C2 C3] & Rl & Rr). unfold propagate. rewrite C1. cbn [obind]. rewrite C2. cbn [obind]. rewrite (st_dat S _ Ii). cbn [obind].
  destruct (upd_opt_ok (bptr l) (act_node comp act (nf (D i))) (st_dat S) Il) as (h1 & U1 & D1 & K1 & L1 & O1). rewrite U1. cbn [obind].
  destruct (upd_opt_ok (bptr r) (act_node comp act (nf (D i))) D1 Ir) as (h2 & U2 & D2 & K2 & L2 & O2). rewrite U2. cbn [obind].
  assert (Fin : forall h3 D3, dat h3 D3 X -> nrev (D3 i) = false -> nsum (D3 i) = nsum (D i) -> nm (D3 i) = nm (D i) -> nprod (D3 i) = nprod (D i) -> nrprod (D3 i) = nrprod (D i) ->
     (forall j, j <> i -> D3 j = pd D l i r j) -> hext X h h3 -> rep (sk h3) rp (plug c (Nd (fst p) i (snd p))) ->
     exists h' D' l' r', upd h3 i (fun d => ND (nsum d) (nrev d) (nm d) (nprod d) (nrprod d) aid) = Some h' /\ ST X h' D' rp (plug c (Nd l' i r')) /\ hext X h h' /\ (l' = l /\ r' = r \/ l' = r /\ r' = l) /\ clean D' i /\
    (val D l -> val D' l) /\ (val D r -> val D' r) /\ den D' (Nd l' i r') = den D (Nd l i r) /\ (forall j, j <> i -> bptr l <> Some j -> bptr r <> Some j -> D' j = D j) /\
    nsum (D' i) = nsum (D i) /\ nprod (D' i) = nprod (D i) /\ nrprod (D' i) = nrprod (D i)).
  { intros h3 D3 Da F1 F2 F3 F4 F5 Fo Hx R3. destruct (upd_ok (fun d => ND (nsum d) (nrev d) (nm d) (nprod d) (nrprod d) aid) Da Ii) as (h4 & U4 & D4 & K4 & L4 & O4). rewrite U4. exists h4, (pd D l i r), (fst p), (snd p). split; [reflexivity|].
    assert (Hx4 : hext X h h4). { apply (hext_trans Hx). apply hext_of; [rewrite K4; apply keep_out_refl|rewrite K4; apply same_len_refl|auto|auto]. }
    assert (Pi : Permutation (ids (plug c (Nd l i r))) (ids (plug c (Nd (fst p) i (snd p))))).
    { rewrite !ids_plug. apply Permutation_app_head, Permutation_app_tail. unfold p. destruct (nrev (D i)); [|reflexivity]. cbn. rewrite <- !Permutation_middle. constructor. apply Permutation_app_comm. }
    split.
    { split; [rewrite K4; auto|rewrite <- Pi; apply (st_ids S)|apply (Permutation_NoDup Pi (st_nodup S))| |apply (rpok_keep (st_rp S)), Hx4].
      apply (dat_ext D4). intros j J. destruct (Nat.eq_dec j i) as [->|Nj]; [|now rewrite fupd_neq, Fo by auto]. rewrite fupd_eq, F1, F2, F3, F4, F5. unfold pd. rewrite Nat.eqb_refl. reflexivity. }
    split; [auto|]. split; [unfold p; destruct (nrev (D i)); auto|]. split; [unfold clean, pd; rewrite Nat.eqb_refl; cbn; split; [auto|exact (act_unit _ _ _ _ Act)]|]. split; [auto|]. split; [auto|]. split; [auto|].
    split; [intros j N1 N2 N3; unfold pd; apply Nat.eqb_neq in N1; rewrite N1, !peq_neq by auto; reflexivity|]. unfold pd. rewrite Nat.eqb_refl. auto. }
  set (D2f := updr (updr D (bptr l) (act_node comp act (nf (D i)))) (bptr r) (act_node comp act (nf (D i)))) in *.
  assert (Ei2 : D2f i = D i). { unfold D2f, updr. destruct (bptr l) as [a|], (bptr r) as [b|]; rewrite ?fupd_neq by congruence; reflexivity. }
  assert (Ej2 : forall j, D2f j = if peq (bptr l) (Some j) || peq (bptr r) (Some j) then act_node comp act (nf (D i)) (D j) else D j).
  { intros j. apply updr2_at. exact Lr. }
  clearbody D2f. assert (Hx2 : hext X h h2). { apply hext_of; [rewrite K2, K1; apply keep_out_refl|rewrite K2, K1; apply same_len_refl|congruence|intros j Nj; rewrite O2, O1; auto]. }
  destruct (nrev (D i)) eqn:Er.
  - rewrite K2, K1. destruct (set_pl_ok (sk h) i (bptr r) C1) as (k1 & S1 & S2 & S3 & S4 & S5 & S6). rewrite S1. cbn [obind]. assert (C2' : get (pr k1) i = Some (bptr r)) by (rewrite S4; auto).
    destruct (set_pr_ok k1 i (bptr l) C2') as (k2 & T1 & T2 & T3 & T4 & T5 & T6). rewrite T1. cbn [obind].
    destruct (@upd_opt_ok X (with_sk h2 k2) D2f (bptr r) (@rev_node M A) D2 Ir) as (h3 & U3 & D3 & K3 & L3 & O3). rewrite U3. cbn [obind].
    destruct (@upd_opt_ok X h3 _ (bptr l) (@rev_node M A) D3 Il) as (h4 & U4 & D4 & K4 & L4 & O4). rewrite U4. cbn [obind].
    destruct (upd_ok (fun d => ND (nsum d) false (nm d) (nprod d) (nrprod d) (nf d)) D4 Ii) as (h5 & U5 & D5 & K5 & L5 & O5). rewrite U5. cbn [obind].
    assert (Ei4 : updr (updr D2f (bptr r) (@rev_node M A)) (bptr l) (@rev_node M A) i = D i). { unfold updr. destruct (bptr l) as [a|], (bptr r) as [b|]; rewrite ?fupd_neq by congruence; auto. }
    assert (Ko : keep_out X (sk h) k2). { intros j Nj. rewrite T4, S3, T5, S5 by (intros ->; auto). rewrite T3, S4 by (intros ->; auto). auto. }
    eapply Fin; [exact D5| | | | | | | |]; try (rewrite fupd_eq, Ei4; reflexivity).
    + intros j Nj. rewrite fupd_neq by auto. unfold pd. apply Nat.eqb_neq in Nj. rewrite Nj, Er. unfold pushn. rewrite updr2_at, Ej2, Bool.orb_comm by (intros ? ? ?; eapply Lr; eauto). destruct (peq (bptr l) (Some j) || peq (bptr r) (Some j)); reflexivity.
    + apply hext_of; [rewrite K5, K4, K3; exact Ko| |rewrite L5, L4, L3; cbn; congruence|intros j Nj; rewrite O5, O4, O3 by auto; cbn; rewrite O2, O1; auto]. rewrite K5, K4, K3. cbn. unfold same_len. rewrite T4, T5, T6, S4, S5, S6. auto.
    + rewrite K5, K4, K3. cbn [sk with_sk]. unfold p. cbn [fst snd]. apply plug_rep. split.
      * apply (swap_rep (k := sk h) (l := l) (r := r)); auto; [split; [split|]; auto|rewrite T4; auto|congruence|]. intros j Nj. rewrite T4, S3, T3, S4; auto.
      * cbn [bptr] in *. apply (repc_keep (h := sk h)); [|auto]. intros j J. assert (Nj : j <> i) by (intros ->; apply (Dj i J); cbn; apply in_or_app; right; now left). rewrite T4, S3, T3, S4, T5, S5; auto.
  - cbn [obind]. eapply Fin; [exact D2| | | | | | | |]; try (rewrite Ei2; auto).
    + intros j Nj. unfold pd. apply Nat.eqb_neq in Nj. rewrite Nj, Er. unfold pushn. apply Ej2.
    + auto.
    + rewrite K2, K1. exact (st_rep S).
Qed.
End Splay.
Arguments den_ext {M A act D D' t} _.
Arguments val_ext {M A op e act ws D D' t} _ _.
Arguments upd_ok {M A X h D i} g _ _.
Arguments upd_opt_ok {M A X h D} o g _ _.
Arguments dat_ext {M A h D D' X} _ _.
Arguments hext_trans {M A X h1 h2 h3} _ _.
Arguments den_clean {M A act D} l {i} r _.
Arguments den_deq {M A act D D'} t _.
Arguments st_rp_t {M A X h D rp t} _.
Arguments clean_ext {M A act D D' i} _ _.
Arguments clean_deq {M A act D D' i} _ _.
Arguments den_plug {M A act D D' c t t'} _ _.
Arguments valc_ext {M A op e act ws D D' c} _ _.
