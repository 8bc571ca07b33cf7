(** Splay trees: the rotations. *)
From Verif Require Import SplayModel BaseLemmas ListExtra.
Set Implicit Arguments.

Ltac nin := let H := fresh in intro H; subst; cbn in *; rewrite ?in_app_iff in *; cbn in *; rewrite ?in_app_iff in *; cbn in *; tauto.

Lemma peq_refl o : peq o o = true. Proof. destruct o; cbn; [apply Nat.eqb_refl|auto]. Qed.
Lemma peq_eq o p : peq o p = true -> o = p. Proof. destruct o, p; cbn; try discriminate; auto. intros E. apply Nat.eqb_eq in E. now subst. Qed.
Lemma peq_neq o p : o <> p -> peq o p = false. Proof. intros N. destruct (peq o p) eqn:E; [|auto]. apply peq_eq in E. contradiction. Qed.
Lemma same_len_trans a b c : same_len a b -> same_len b c -> same_len a c.
Proof. unfold same_len. intuition congruence. Qed.
Lemma same_len_refl a : same_len a a.
Proof. unfold same_len. auto. Qed.
Lemma keep_out_refl xs h : keep_out xs h h.
Proof. intros i _. auto. Qed.

(** The parent of the root of a tree: nothing, or a cell outside whose children are elsewhere. *)
Definition rpok (k : ph) (rp : option nat) (xs : list nat) : Prop :=
  match rp with
  | None => True
  | Some w => ~ In w xs /\ exists a b, get (pl k) w = Some a /\ get (pr k) w = Some b /\ (forall i, a = Some i -> ~ In i xs) /\ (forall i, b = Some i -> ~ In i xs)
  end.
Lemma rpok_keep k k' rp xs : rpok k rp xs -> keep_out xs k k' -> rpok k' rp xs.
Proof. destruct rp as [w|]; [|auto]. cbn. intros (N & a & b & E1 & E2 & H) Ke. split; [auto|]. exists a, b. destruct (Ke w N) as (K1 & K2 & _). rewrite K1, K2. auto. Qed.
Lemma rpok_perm k rp xs ys : rpok k rp xs -> (forall i, In i ys -> In i xs) -> rpok k rp ys.
Proof. destruct rp as [w|]; [|auto]. cbn. intros (N & a & b & E1 & E2 & H1 & H2) I. split; [auto|]. exists a, b. split; [auto|]. split; [auto|]. split; intros i E J; [apply (H1 i E)|apply (H2 i E)]; auto. Qed.

Arguments rpok_keep {k k' rp xs} _ _.
Arguments rpok_perm {k rp xs ys} _ _.
Lemma rot_names dir x u a b d : NoDup (ids (rot_from dir x u a b d)) -> x <> u /\ (forall j, bptr b = Some j -> j <> x /\ j <> u).
Proof.
  intros N. assert (Xu : x <> u /\ ~ In x (ids b) /\ ~ In u (ids b)).
  { destruct dir; cbn [rot_from ids] in N.
    - apply NoDup_remove in N as [N Nu]. rewrite <- app_assoc in N, Nu. cbn in N, Nu. apply NoDup_remove in N as [N Nx]. rewrite !in_app_iff in *. cbn [In] in *. rewrite in_app_iff in *. split; [intros ->|]; tauto.
    - apply NoDup_remove in N as [N Nu]. rewrite app_assoc in N. apply NoDup_remove in N as [N Nx]. rewrite !in_app_iff in *. cbn [In] in *. rewrite ?in_app_iff in *. split; [intros ->|]; tauto. }
  destruct Xu as (Xu & Xb & Ub). split; [auto|]. intros j Ej. apply bptr_in in Ej. split; intros ->; auto.
Qed.

Definition srot (dir : bool) (k : ph) (u : nat) := if dir then rotate_right k u else rotate_left k u.
(** the link of the grandparent *)
Lemma relink k c rp x u : u <> x -> repc k rp c (Some u) -> (match c with [] => True | f :: _ => ~ In u (ids (fother f)) end) ->
  (c = [] -> forall w, rp = Some w -> exists a b, get (pl k) w = Some a /\ get (pr k) w = Some b /\ a <> Some u /\ b <> Some u) ->
  exists k', match cpar c rp with
  | None => Some k
  | Some q =>
      let* ql := get (pl k) q in
      if peq ql (Some u) then set_pl k q (Some x) else
      let* qr := get (pr k) q in
      if peq qr (Some u) then set_pr k q (Some x) else Some k
  end = Some k' /\ match c with [] => True | FL i _ :: _ => get (pl k') i = Some (Some x) | FR _ i :: _ => get (pr k') i = Some (Some x) end /\
  (forall i, match c with FL j _ :: _ => i <> j | _ => True end -> get (pl k') i = get (pl k) i) /\ (forall i, match c with FR _ j :: _ => i <> j | _ => True end -> get (pr k') i = get (pr k) i) /\ pp k' = pp k /\ same_len k k'.
Proof.
  intros Nx Rc Nu Hr. destruct c as [|f c]; cbn [cpar].
  - exists k. destruct rp as [w|]; [|split; [reflexivity|]; repeat split; auto]. destruct (Hr eq_refl w eq_refl) as (a & b & E1 & E2 & N1 & N2). rewrite E1. cbn [obind]. rewrite peq_neq by auto. rewrite E2. cbn [obind]. rewrite peq_neq by auto. repeat split; auto.
  - destruct f as [i r|l i]; cbn [repc bptr fid fother] in *; destruct Rc as ([C1 C2 C3] & Rt & Rc).
    + rewrite C1. cbn [obind]. rewrite peq_refl. destruct (set_pl_ok k i (Some x) C1) as (k1 & S1 & S2 & S3 & S4 & S5 & S6). exists k1. rewrite S1, S4, S5. split; [auto|]. split; [auto|]. split; [auto|]. split; [auto|]. split; [auto|]. unfold same_len. rewrite S4, S5. auto.
    + rewrite C1. cbn [obind]. rewrite peq_neq by (intros E; apply bptr_in in E; auto). rewrite C2. cbn [obind]. rewrite peq_refl. destruct (set_pr_ok k i (Some x) C2) as (k1 & S1 & S2 & S3 & S4 & S5 & S6). exists k1. rewrite S1, S4, S5. split; [auto|]. split; [auto|]. split; [auto|]. split; [auto|]. split; [auto|]. unfold same_len. rewrite S4, S5. auto.
Qed.

Lemma srot_ok k dir x u a b d c rp : rep k rp (plug c (rot_from dir x u a b d)) -> NoDup (ids (plug c (rot_from dir x u a b d))) -> rpok k rp (ids (plug c (rot_from dir x u a b d))) ->
  exists k', srot dir k x = Some k' /\ rotates k k' dir x u b c rp /\ same_len k k'.
Proof.
  intros R N Rp. destruct (NoDup_plug N) as (N1 & Dj & Nc). destruct (rot_names _ _ _ _ _ _ N1) as (Xu & Bj).
  assert (Ix : In x (ids (rot_from dir x u a b d)) /\ In u (ids (rot_from dir x u a b d)) /\ (forall j, bptr b = Some j -> In j (ids (rot_from dir x u a b d)))).
  { split; [|split; [|intros j Ej; apply bptr_in in Ej]]; destruct dir; cbn; rewrite !in_app_iff; cbn; rewrite ?in_app_iff; cbn; auto 6. }
  destruct Ix as (Ix & Iu & Ib).
  assert (Hu : match c with [] => True | f :: _ => ~ In u (ids (fother f)) end). { destruct c as [|f c]; [auto|]. intros I. apply (Dj u); [right; apply in_or_app; auto|auto]. }
  assert (Hf : forall i, In i (ids (rot_from dir x u a b d)) -> match c with FL j _ :: _ | FR _ j :: _ => i <> j | _ => True end). { intros i Ii. destruct c as [|[j r|l j] c]; [auto| |]; intros ->; apply (Dj j); try (now left); auto. }
  assert (Hw : c = [] -> forall w, rp = Some w -> w <> x /\ w <> u /\ exists a b, get (pl k) w = Some a /\ get (pr k) w = Some b /\ a <> Some u /\ b <> Some u).
  { intros -> w ->. cbn in Rp. cbn [plug fold_left] in Rp. destruct Rp as (Nw & p & q & E1 & E2 & H1 & H2). split; [intros ->; auto|]. split; [intros ->; auto|]. exists p, q. split; [auto|]. split; [auto|]. split; intros E; [apply (H1 _ E)|apply (H2 _ E)]; auto. }
  apply plug_rep in R as [R Rc]. assert (Eb : bptr (rot_from dir x u a b d) = Some u) by (destruct dir; reflexivity). rewrite Eb in Rc.
  assert (Pb : forall j, bptr b = Some j -> exists y, get (pp k) j = Some y). { intros j Ej. destruct (rep_cell R (Ib j Ej)) as (? & ? & y & C). exists y. apply (ci_p C). }
  assert (Bu : bptr b <> Some u) by (intros E; now destruct (Bj _ E)). assert (Bx : bptr b <> Some x) by (intros E; now destruct (Bj _ E)).
  assert (Ac : forall k', (forall i, i <> x -> i <> u -> get (pl k') i = get (pl k) i /\ get (pr k') i = get (pr k) i) -> (forall i, i <> x -> i <> u -> bptr b <> Some i -> get (pp k') i = get (pp k) i) -> repc k' rp c (Some u)).
  { intros k' H1 H2. apply (repc_keep (h := k)); [|auto]. intros i Ii. assert (i <> x) by (intros ->; exact (Dj _ Ii Ix)). assert (i <> u) by (intros ->; exact (Dj _ Ii Iu)). destruct (H1 i) as [E1 E2]; auto. split; [auto|]. split; [auto|]. apply H2; auto. intros E. exact (Dj _ Ii (Ib _ E)). }
  unfold srot. destruct dir; cbn [rot_from rep] in R.
  - destruct R as ([U1 U2 U3] & ([X1 X2 X3] & Ra & Rb) & Rd). cbn [bptr] in U1. unfold rotate_right. rewrite X3. cbn [obind]. rewrite U3. cbn [obind]. rewrite X2. cbn [obind].
    destruct (set_pl_ok k u (bptr b) U1) as (k1 & S1 & S2 & S3 & S4 & S5 & S6). rewrite S1. cbn [obind]. clear S1.
    destruct (@set_pp_opt_ok k1 (bptr b) (Some u)) as (k2 & V1 & V2 & V3 & V4 & V5 & V6). { intros j Ej. destruct (Pb j Ej) as (y & Ey). exists y. now rewrite S5. }
    rewrite V1. cbn [obind]. clear V1. assert (P3 : get (pr k2) x = Some (bptr b)) by (rewrite V5, S4; auto).
    destruct (set_pr_ok k2 x (Some u) P3) as (k3 & W1 & W2 & W3 & W4 & W5 & W6). rewrite W1. cbn [obind]. clear W1.
    assert (P4 : get (pp k3) u = Some (cpar c rp)) by (rewrite W5, V3, S5; auto).
    destruct (set_pp_ok k3 u (Some x) P4) as (k4 & Y1 & Y2 & Y3 & Y4 & Y5 & Y6). rewrite Y1. cbn [obind]. clear Y1.
    assert (P5 : get (pp k4) x = Some (Some u)) by (rewrite Y3, W5, V3, S5; auto).
    destruct (set_pp_ok k4 x (cpar c rp) P5) as (k5 & T1 & T2 & T3 & T4 & T5 & T6). rewrite T1. cbn [obind]. clear T1.
    assert (El : forall i, i <> u -> get (pl k5) i = get (pl k) i) by (intros i Ni; rewrite T4, Y4, W4, V4, S3; auto).
    assert (Er : forall i, i <> x -> get (pr k5) i = get (pr k) i) by (intros i Ni; rewrite T5, Y5, W3, V5, S4; auto).
    assert (Ep : forall i, i <> x -> i <> u -> bptr b <> Some i -> get (pp k5) i = get (pp k) i) by (intros i N2 N3 N4; rewrite T3, Y3, W5, V3, S5; auto).
    destruct (@relink k5 c rp x u) as (k6 & Z1 & Z2 & Z3 & Z4 & Z5 & Z6); auto. { intros Ec w Ew. destruct (Hw Ec w Ew) as (N2 & N3 & p & q & E1 & E2 & H1). exists p, q. rewrite El, Er; auto. }
    exists k6. split; [exact Z1|]. pose proof (Hf x Ix) as Hx. pose proof (Hf u Iu) as Hu'. split; [split|].
    + rewrite Z3; [|now destruct c as [|[]]]. rewrite T4, Y4, W4, V4. auto.
    + rewrite Z4; [|now destruct c as [|[]]]. rewrite T5, Y5. auto.
    + rewrite Z5, T3; auto.
    + rewrite Z5. auto.
    + intros j Ej. destruct (Bj j Ej) as (B1 & B2). rewrite Z5, T3, Y3, W5; auto.
    + auto.
    + intros i H1 H2. rewrite Z3; auto.
    + intros i H1 H2. rewrite Z4; auto.
    + intros i H1 H2 H3. rewrite Z5; auto.
    + apply (same_len_trans (b := k5)); [|auto]. unfold same_len. rewrite T4, T5, T6, Y4, Y5, Y6, W4, W5, W6, V4, V5, V6, S4, S5, S6. auto.
  - destruct R as ([U1 U2 U3] & Rd & ([X1 X2 X3] & Rb & Ra)). cbn [bptr] in U2. unfold rotate_left. rewrite X3. cbn [obind]. rewrite U3. cbn [obind]. rewrite X1. cbn [obind].
    destruct (set_pr_ok k u (bptr b) U2) as (k1 & S1 & S2 & S3 & S4 & S5 & S6). rewrite S1. cbn [obind]. clear S1.
    destruct (@set_pp_opt_ok k1 (bptr b) (Some u)) as (k2 & V1 & V2 & V3 & V4 & V5 & V6). { intros j Ej. destruct (Pb j Ej) as (y & Ey). exists y. now rewrite S5. }
    rewrite V1. cbn [obind]. clear V1. assert (P3 : get (pl k2) x = Some (bptr b)) by (rewrite V4, S4; auto).
    destruct (set_pl_ok k2 x (Some u) P3) as (k3 & W1 & W2 & W3 & W4 & W5 & W6). rewrite W1. cbn [obind]. clear W1.
    assert (P4 : get (pp k3) u = Some (cpar c rp)) by (rewrite W5, V3, S5; auto).
    destruct (set_pp_ok k3 u (Some x) P4) as (k4 & Y1 & Y2 & Y3 & Y4 & Y5 & Y6). rewrite Y1. cbn [obind]. clear Y1.
    assert (P5 : get (pp k4) x = Some (Some u)) by (rewrite Y3, W5, V3, S5; auto).
    destruct (set_pp_ok k4 x (cpar c rp) P5) as (k5 & T1 & T2 & T3 & T4 & T5 & T6). rewrite T1. cbn [obind]. clear T1.
    assert (El : forall i, i <> x -> get (pl k5) i = get (pl k) i) by (intros i Ni; rewrite T4, Y4, W3, V4, S4; auto).
    assert (Er : forall i, i <> u -> get (pr k5) i = get (pr k) i) by (intros i Ni; rewrite T5, Y5, W4, V5, S3; auto).
    assert (Ep : forall i, i <> x -> i <> u -> bptr b <> Some i -> get (pp k5) i = get (pp k) i) by (intros i N2 N3 N4; rewrite T3, Y3, W5, V3, S5; auto).
    destruct (@relink k5 c rp x u) as (k6 & Z1 & Z2 & Z3 & Z4 & Z5 & Z6); auto. { intros Ec w Ew. destruct (Hw Ec w Ew) as (N2 & N3 & p & q & E1 & E2 & H1). exists p, q. rewrite El, Er; auto. }
    exists k6. split; [exact Z1|]. pose proof (Hf x Ix) as Hx. pose proof (Hf u Iu) as Hu'. split; [split|].
    + rewrite Z4; [|now destruct c as [|[]]]. rewrite T5, Y5, W4, V5. auto.
    + rewrite Z3; [|now destruct c as [|[]]]. rewrite T4, Y4. auto.
    + rewrite Z5, T3; auto.
    + rewrite Z5. auto.
    + intros j Ej. destruct (Bj j Ej) as (B1 & B2). rewrite Z5, T3, Y3, W5; auto.
    + auto.
    + intros i H1 H2. rewrite Z3; auto.
    + intros i H1 H2. rewrite Z4; auto.
    + intros i H1 H2 H3. rewrite Z5; auto.
    + apply (same_len_trans (b := k5)); [|auto]. unfold same_len. rewrite T4, T5, T6, Y4, Y5, Y6, W4, W5, W6, V4, V5, V6, S4, S5, S6. auto.
Qed.
Arguments srot_ok {k dir x u a b d c rp} _ _ _.
Lemma srot_all k dir x u a b d c rp : rep k rp (plug c (rot_from dir x u a b d)) -> NoDup (ids (plug c (rot_from dir x u a b d))) -> rpok k rp (ids (plug c (rot_from dir x u a b d))) ->
  exists k', srot dir k x = Some k' /\ rep k' rp (plug c (rot_to dir x u a b d)) /\ keep_out (ids (plug c (rot_from dir x u a b d))) k k' /\ same_len k k'.
Proof.
  intros R N Rp. destruct (srot_ok R N Rp) as (k' & E & Ro & L). exists k'. split; [auto|]. split; [exact (rot_rep R N Ro)|]. split; [exact (rot_keep_out Ro (incl_refl _))|auto].
Qed.
Arguments srot_all {k dir x u a b d c rp} _ _ _.
Lemma is_root_ok k c rp u l r : rep k rp (plug c (Nd l u r)) -> NoDup (ids (plug c (Nd l u r))) -> rpok k rp (ids (plug c (Nd l u r))) -> is_root k u = Some (match c with [] => true | _ => false end).
Proof.
  intros R N Rp. destruct (NoDup_plug N) as (N1 & Dj & Nc). apply plug_rep in R as [([C1 C2 C3] & _ & _) Rc]. unfold is_root. rewrite C3. cbn [obind bptr] in *. assert (Iu : In u (ids (Nd l u r))) by (cbn; apply in_or_app; right; now left).
  destruct c as [|f c]; cbn [cpar].
  - destruct rp as [w|]; [|auto]. cbn in Rp. destruct Rp as (Nw & a & b & E1 & E2 & H1 & H2). rewrite E1. cbn [obind]. rewrite E2. cbn [obind]. rewrite !peq_neq; auto; intros E; [apply (H2 _ E)|apply (H1 _ E)]; auto.
  - destruct f as [i t|t i]; cbn [repc fid] in *; destruct Rc as ([D1 D2 D3] & _); rewrite D1; cbn [obind]; rewrite D2; cbn [obind]; rewrite peq_refl; cbn; f_equal; apply Bool.andb_false_r.
Qed.
Arguments is_root_ok {k c rp u l r} _ _ _.
