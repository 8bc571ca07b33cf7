(** Treap: rotations, bubbling up, trickling down and splicing. *)
From Verif Require Import TreapModel BaseLemmas ListExtra.
Set Implicit Arguments.

Ltac nin := let H := fresh in intro H; subst; cbn in *; rewrite ?in_app_iff in *; cbn in *; rewrite ?in_app_iff in *; cbn in *; tauto.

Lemma peq_refl o : peq o o = true. Proof. destruct o; cbn; [apply Nat.eqb_refl|auto]. Qed.
Lemma peq_eq o p : peq o p = true -> o = p. Proof. destruct o, p; cbn; try discriminate; auto. intros E. apply Nat.eqb_eq in E. now subst. Qed.
Lemma peq_neq o p : o <> p -> peq o p = false. Proof. intros N. destruct (peq o p) eqn:E; [|auto]. apply peq_eq in E. contradiction. Qed.
Lemma peq_spec o p : peq o p = true <-> o = p. Proof. split; [apply peq_eq|intros ->; apply peq_refl]. Qed.

(** names of distinct cells around a rotation *)
Lemma rot_names dir x u a b d f c : NoDup (ids (plug (f :: c) (rot_from dir x u a b d))) ->
  x <> u /\ x <> fid f /\ u <> fid f /\ (forall j, bptr b = Some j -> j <> x /\ j <> u /\ j <> fid f) /\ ~ In u (ids (fother f)).
Proof.
  intros N. apply NoDup_plug in N as (N & D & Nc).
  assert (Df : ~ In (fid f) (ids (rot_from dir x u a b d))) by (intros I; apply (D (fid f)); [now left|exact I]).
  assert (Do : forall i, In i (ids (fother f)) -> ~ In i (ids (rot_from dir x u a b d))) by (intros i I J; apply (D i); [right; apply in_or_app; auto|exact J]).
  assert (Ix : In x (ids (rot_from dir x u a b d))) by (destruct dir; cbn; rewrite !in_app_iff; cbn; rewrite ?in_app_iff; cbn; auto 6).
  assert (Iu : In u (ids (rot_from dir x u a b d))) by (destruct dir; cbn; rewrite !in_app_iff; cbn; rewrite ?in_app_iff; cbn; auto 6).
  assert (Xu : x <> u /\ ~ In x (ids b) /\ ~ In u (ids b)).
  { clear - N. destruct dir; cbn [rot_from ids] in N.
    - apply NoDup_remove in N as [N Nu]. rewrite <- app_assoc in N, Nu. cbn in N, Nu. apply NoDup_remove in N as [N Nx]. rewrite !in_app_iff in *. cbn [In] in *. rewrite in_app_iff in *. split; [intros ->|]; tauto.
    - apply NoDup_remove in N as [N Nu]. rewrite app_assoc in N. apply NoDup_remove in N as [N Nx]. rewrite !in_app_iff in *. cbn [In] in *. rewrite ?in_app_iff in *. split; [intros ->|]; tauto. }
  destruct Xu as (Xu & Xb & Ub). split; [auto|]. split; [intros ->; auto|]. split; [intros ->; auto|]. split; [|intros I; exact (Do _ I Iu)].
  intros j Ej. apply bptr_in in Ej. split; [intros ->; auto|]. split; [intros ->; auto|]. intros ->. apply Df. destruct dir; cbn; rewrite !in_app_iff; cbn; rewrite ?in_app_iff; cbn; auto 6.
Qed.

Definition rot (dir : bool) (k : ph) (u : nat) := if dir then turn_right k u else turn_left k u.
Lemma rot_ok k dir x u a b d f c rp : rep k rp (plug (f :: c) (rot_from dir x u a b d)) -> NoDup (ids (plug (f :: c) (rot_from dir x u a b d))) ->
  exists k', rot dir k u = Some k' /\ rotates k k' dir x u b (f :: c) rp /\ same_len k k'.
Proof.
  intros R N. pose proof (rot_names _ _ _ _ _ _ _ _ N) as (Xu & Xf & Uf & Bj & Uo). apply plug_rep in R as [R Rc]. cbn [cpar] in R.
  assert (Pb : forall j, bptr b = Some j -> exists y, get (pp k) j = Some y). { intros j Ej. apply bptr_in in Ej. destruct (fun I => rep_cell (i := j) R I) as (? & ? & y & C); [destruct dir; cbn; rewrite !in_app_iff; cbn; rewrite ?in_app_iff; cbn; auto 6|]. exists y. apply (ci_p C). }
  unfold rot. destruct dir; cbn [rot_from rep] in R.
  - destruct R as ([U1 U2 U3] & ([X1 X2 X3] & Ra & Rb) & Rd). cbn [bptr] in U1. unfold turn_right. rewrite U3. cbn [obind]. rewrite U1. cbn [obind].
    assert (Hf : exists k1, (let* q := get (pl k) (fid f) in (if peq q (Some u) then set_pl k (fid f) (Some x) else let* q := get (pr k) (fid f) in let* _ := guard (peq q (Some u)) in set_pr k (fid f) (Some x))) = Some k1 /\
       (match f with FL i _ => get (pl k1) i | FR _ i => get (pr k1) i end) = Some (Some x) /\ (forall i, (match f with FL j _ => i <> j | _ => True end) -> get (pl k1) i = get (pl k) i) /\ (forall i, (match f with FR _ j => i <> j | _ => True end) -> get (pr k1) i = get (pr k) i) /\ pp k1 = pp k /\ same_len k k1).
    { destruct f as [i r|l i]; cbn [repc bptr fid fother] in *; destruct Rc as ([C1 C2 C3] & Rt & Rc).
      - rewrite C1. cbn [obind]. rewrite peq_refl. destruct (set_pl_ok k i (Some x) C1) as (k1 & S1 & S2 & S3 & S4 & S5 & S6). exists k1. rewrite S1, S4, S5. split; [auto|]. split; [auto|]. split; [auto|]. split; [auto|]. split; [auto|]. unfold same_len. rewrite S4, S5. auto.
      - rewrite C1. cbn [obind]. rewrite peq_neq by (intros E; apply bptr_in in E; auto). rewrite C2. cbn [obind rot_from bptr]. rewrite peq_refl. cbn [guard obind]. destruct (set_pr_ok k i (Some x) C2) as (k1 & S1 & S2 & S3 & S4 & S5 & S6). exists k1. rewrite S1, S4, S5. split; [auto|]. split; [auto|]. split; [auto|]. split; [auto|]. split; [auto|]. unfold same_len. rewrite S4, S5. auto. }
    destruct Hf as (k1 & E1 & F1 & F2 & F3 & F4 & F5).
    destruct (get (pl k) (fid f)) as [q|] eqn:Eq; [cbn [obind] in E1 |- *|discriminate]. rewrite E1. cbn [obind]. clear E1 q Eq.
    assert (P1 : get (pp k1) x = Some (Some u)) by (rewrite F4; auto). destruct (set_pp_ok k1 x (Some (fid f)) P1) as (k2 & S1 & S2 & S3 & S4 & S5 & S6). rewrite S1. cbn [obind]. clear S1.
    assert (P2 : get (pr k2) x = Some (bptr b)). { rewrite S5, F3; [auto|]. destruct f; auto. }
    rewrite P2. cbn [obind]. assert (P3 : get (pl k2) u = Some (Some x)). { rewrite S4, F2; [auto|]. destruct f; auto. }
    destruct (set_pl_ok k2 u (bptr b) P3) as (k3 & T1 & T2 & T3 & T4 & T5 & T6). rewrite T1. cbn [obind]. clear T1.
    destruct (@set_pp_opt_ok k3 (bptr b) (Some u)) as (k4 & V1 & V2 & V3 & V4 & V5 & V6). { intros j Ej. destruct (Bj j Ej) as (B1 & B2 & B3). destruct (Pb j Ej) as (y & Ey). exists y. rewrite T5, S3, F4; auto. }
    rewrite V1. cbn [obind]. clear V1. assert (P5 : get (pr k4) x = Some (bptr b)) by (rewrite V5, T4; auto).
    destruct (set_pr_ok k4 x (Some u) P5) as (k5 & W1 & W2 & W3 & W4 & W5 & W6). rewrite W1. cbn [obind]. clear W1.
    assert (Bu : bptr b <> Some u) by (intros E; now destruct (Bj _ E) as (_ & ? & _)). assert (Bx : bptr b <> Some x) by (intros E; now destruct (Bj _ E) as (? & _ & _)). assert (Bf : bptr b <> Some (fid f)) by (intros E; now destruct (Bj _ E) as (_ & _ & ?)).
    assert (P6 : get (pp k5) u = Some (Some (fid f))) by (rewrite W5, V3, T5, S3, F4; auto).
    destruct (set_pp_ok k5 u (Some x) P6) as (k6 & Y1 & Y2 & Y3 & Y4 & Y5 & Y6). exists k6. split; [exact Y1|]. clear Y1. split; [split; cbn [cpar]|].
    + rewrite Y4, W4, V4. auto.
    + rewrite Y5. auto.
    + auto.
    + rewrite Y3, W5, V3, T5 by auto. auto.
    + intros j Ej. destruct (Bj j Ej) as (B1 & B2 & B3). rewrite Y3, W5; auto.
    + destruct f as [i r|l i]; cbn [fid] in *. * rewrite Y4, W4, V4, T3, S4; auto. * rewrite Y5, W3, V5, T4, S5; auto.
    + intros i N1 N2. rewrite Y4, W4, V4, T3, S4, F2; auto.
    + intros i N1 N2. rewrite Y5, W3, V5, T4, S5, F3; auto.
    + intros i N1 N2 N3. rewrite Y3, W5, V3, T5, S3, F4; auto.
    + destruct F5 as (L1 & L2 & L3). unfold same_len. rewrite Y4, Y5, Y6, W4, W5, W6, V4, V5, V6, T4, T5, T6, S4, S5, S6. auto.
  - destruct R as ([U1 U2 U3] & Rd & ([X1 X2 X3] & Rb & Ra)). cbn [bptr] in U2. unfold turn_left. rewrite U3. cbn [obind]. rewrite U2. cbn [obind].
    assert (Hf : exists k1, (let* q := get (pl k) (fid f) in (if peq q (Some u) then set_pl k (fid f) (Some x) else let* q := get (pr k) (fid f) in let* _ := guard (peq q (Some u)) in set_pr k (fid f) (Some x))) = Some k1 /\
       (match f with FL i _ => get (pl k1) i | FR _ i => get (pr k1) i end) = Some (Some x) /\ (forall i, (match f with FL j _ => i <> j | _ => True end) -> get (pl k1) i = get (pl k) i) /\ (forall i, (match f with FR _ j => i <> j | _ => True end) -> get (pr k1) i = get (pr k) i) /\ pp k1 = pp k /\ same_len k k1).
    { destruct f as [i r|l i]; cbn [repc bptr fid fother] in *; destruct Rc as ([C1 C2 C3] & Rt & Rc).
      - rewrite C1. cbn [obind]. rewrite peq_refl. destruct (set_pl_ok k i (Some x) C1) as (k1 & S1 & S2 & S3 & S4 & S5 & S6). exists k1. rewrite S1, S4, S5. split; [auto|]. split; [auto|]. split; [auto|]. split; [auto|]. split; [auto|]. unfold same_len. rewrite S4, S5. auto.
      - rewrite C1. cbn [obind]. rewrite peq_neq by (intros E; apply bptr_in in E; auto). rewrite C2. cbn [obind rot_from bptr]. rewrite peq_refl. cbn [guard obind]. destruct (set_pr_ok k i (Some x) C2) as (k1 & S1 & S2 & S3 & S4 & S5 & S6). exists k1. rewrite S1, S4, S5. split; [auto|]. split; [auto|]. split; [auto|]. split; [auto|]. split; [auto|]. unfold same_len. rewrite S4, S5. auto. }
    destruct Hf as (k1 & E1 & F1 & F2 & F3 & F4 & F5).
    destruct (get (pl k) (fid f)) as [q|] eqn:Eq; [cbn [obind] in E1 |- *|discriminate]. rewrite E1. cbn [obind]. clear E1 q Eq.
    assert (P1 : get (pp k1) x = Some (Some u)) by (rewrite F4; auto). destruct (set_pp_ok k1 x (Some (fid f)) P1) as (k2 & S1 & S2 & S3 & S4 & S5 & S6). rewrite S1. cbn [obind]. clear S1.
    assert (P2 : get (pl k2) x = Some (bptr b)). { rewrite S4, F2; [auto|]. destruct f; auto. }
    rewrite P2. cbn [obind]. assert (P3 : get (pr k2) u = Some (Some x)). { rewrite S5, F3; [auto|]. destruct f; auto. }
    destruct (set_pr_ok k2 u (bptr b) P3) as (k3 & T1 & T2 & T3 & T4 & T5 & T6). rewrite T1. cbn [obind]. clear T1.
    destruct (@set_pp_opt_ok k3 (bptr b) (Some u)) as (k4 & V1 & V2 & V3 & V4 & V5 & V6). { intros j Ej. destruct (Bj j Ej) as (B1 & B2 & B3). destruct (Pb j Ej) as (y & Ey). exists y. rewrite T5, S3, F4; auto. }
    rewrite V1. cbn [obind]. clear V1. assert (P5 : get (pl k4) x = Some (bptr b)) by (rewrite V4, T4; auto).
    destruct (set_pl_ok k4 x (Some u) P5) as (k5 & W1 & W2 & W3 & W4 & W5 & W6). rewrite W1. cbn [obind]. clear W1.
    assert (Bu : bptr b <> Some u) by (intros E; now destruct (Bj _ E) as (_ & ? & _)). assert (Bx : bptr b <> Some x) by (intros E; now destruct (Bj _ E) as (? & _ & _)). assert (Bf : bptr b <> Some (fid f)) by (intros E; now destruct (Bj _ E) as (_ & _ & ?)).
    assert (P6 : get (pp k5) u = Some (Some (fid f))) by (rewrite W5, V3, T5, S3, F4; auto).
    destruct (set_pp_ok k5 u (Some x) P6) as (k6 & Y1 & Y2 & Y3 & Y4 & Y5 & Y6). exists k6. split; [exact Y1|]. clear Y1. split; [split; cbn [cpar]|].
    + rewrite Y5, W4, V5. auto.
    + rewrite Y4. auto.
    + auto.
    + rewrite Y3, W5, V3, T5 by auto. auto.
    + intros j Ej. destruct (Bj j Ej) as (B1 & B2 & B3). rewrite Y3, W5; auto.
    + destruct f as [i r|l i]; cbn [fid] in *. * rewrite Y4, W3, V4, T4, S4; auto. * rewrite Y5, W4, V5, T3, S5; auto.
    + intros i N1 N2. rewrite Y4, W3, V4, T4, S4, F2; auto.
    + intros i N1 N2. rewrite Y5, W4, V5, T3, S5, F3; auto.
    + intros i N1 N2 N3. rewrite Y3, W5, V3, T5, S3, F4; auto.
    + destruct F5 as (L1 & L2 & L3). unfold same_len. rewrite Y4, Y5, Y6, W4, W5, W6, V4, V5, V6, T4, T5, T6, S4, S5, S6. auto.
Qed.
Arguments rot_ok {k dir x u a b d f c rp} _ _.
Lemma rot_all k dir x u a b d f c rp : rep k rp (plug (f :: c) (rot_from dir x u a b d)) -> NoDup (ids (plug (f :: c) (rot_from dir x u a b d))) ->
  exists k', rot dir k u = Some k' /\ rep k' rp (plug (f :: c) (rot_to dir x u a b d)) /\ keep_out (ids (plug (f :: c) (rot_from dir x u a b d))) k k' /\ same_len k k'.
Proof.
  intros R N. destruct (rot_ok R N) as (k' & E & Ro & L). exists k'. split; [auto|]. split; [exact (rot_rep R N Ro)|]. split; [exact (rot_keep_out Ro (incl_refl _))|auto].
Qed.
Arguments rot_all {k dir x u a b d f c rp} _ _.

Lemma keep_out_ids xs ys k k' : keep_out xs k k' -> xs = ys -> keep_out ys k k'.
Proof. now intros ? <-. Qed.

Lemma same_len_trans a b c : same_len a b -> same_len b c -> same_len a c.
Proof. unfold same_len. intuition congruence. Qed.
Lemma same_len_refl a : same_len a a.
Proof. unfold same_len. auto. Qed.
Lemma keep_out_refl xs h : keep_out xs h h.
Proof. intros i _. auto. Qed.

Section Treap.
Context {K : Type}.
Notation th := (@th K).

(** ** Bubbling up *)
Lemma bubble_loop s u cond xs : forall fuel k c l r,
  (forall k c l r, rep k None (plug (c ++ [FL s Lf]) (Nd l u r)) -> ids (plug (c ++ [FL s Lf]) (Nd l u r)) = xs -> exists b, cond k = Some b /\ (b = true -> c <> [])) ->
  rep k None (plug (c ++ [FL s Lf]) (Nd l u r)) -> ids (plug (c ++ [FL s Lf]) (Nd l u r)) = xs -> NoDup xs -> length c < fuel ->
  exists k' c' l' r', loop fuel (fun k =>
    let* b := cond k in
    if (b : bool) then
      let* p := get (pp k) u in let* p := p in
      let* _ := guard (negb (p =? s)) in
      let* r := get (pr k) p in
      if peq r (Some u) then let* k := turn_left k p in Some (inl k)
      else let* l := get (pl k) p in let* _ := guard (peq l (Some u)) in let* k := turn_right k p in Some (inl k)
    else Some (inr k)) k = Some k' /\
    rep k' None (plug (c' ++ [FL s Lf]) (Nd l' u r')) /\ ids (plug (c' ++ [FL s Lf]) (Nd l' u r')) = xs /\ cond k' = Some false /\ keep_out xs k k' /\ same_len k k'.
Proof.
  induction fuel as [|fuel IH]; intros k c l r Hc R E N F; [lia|]. cbn [loop]. destruct (Hc k c l r R E) as (b & Eb & Nb). rewrite Eb. cbn [obind]. destruct b.
  2: { exists k, c, l, r. split; [reflexivity|]. split; [auto|]. split; [auto|]. split; [auto|]. split; [apply keep_out_refl|apply same_len_refl]. }
  destruct c as [|f c]; [now destruct Nb|]. cbn [length app] in *. pose proof R as R0. rewrite <- E in N. apply plug_rep in R as [R Rc]. cbn [cpar] in R. destruct R as ([U1 U2 U3] & Rl & Rr). rewrite U3. cbn [obind].
  assert (Ns : fid f <> s). { intros Es. pose proof (NoDup_plug N) as (_ & _ & Nc). cbn [cids] in Nc. apply NoDup_cons_iff in Nc as [Nc _]. apply Nc. rewrite Es. apply in_or_app. right. clear. induction c as [|g c IH]; cbn; [now left|]. right. apply in_or_app. now right. }
  apply Nat.eqb_neq in Ns. rewrite Ns. cbn [negb guard obind].
  assert (Nu : ~ In u (ids (fother f))). { intros I. pose proof (NoDup_plug N) as (_ & D & _). apply (D u); [right; apply in_or_app; auto|]. cbn. apply in_or_app. right. now left. }
  assert (Hs : exists k1 f1 l1 r1, (let* r := get (pr k) (fid f) in if peq r (Some u) then let* k := turn_left k (fid f) in Some (inl k) else let* l := get (pl k) (fid f) in let* _ := guard (peq l (Some u)) in let* k := turn_right k (fid f) in Some (inl k)) = Some (inl k1 : ph + ph) /\
     f1 = Nd l1 u r1 /\ rep k1 None (plug (c ++ [FL s Lf]) f1) /\ ids (plug (c ++ [FL s Lf]) f1) = xs /\ keep_out xs k k1 /\ same_len k k1).
  { destruct c as [|g c]; destruct f as [i r'|l' i]; cbn [repc fid fother app] in *; destruct Rc as ([C1 C2 C3] & Rt & Rc).
    - rewrite C2. cbn [obind]. rewrite peq_neq by (intros Ex; apply bptr_in in Ex; auto). rewrite C1. cbn [obind bptr]. rewrite peq_refl. cbn [guard obind].
      change (plug [FL i r'; FL s Lf] (Nd l u r)) with (plug [FL s Lf] (rot_from true u i l r r')) in *. destruct (rot_all R0 N) as (k1 & T1 & T2 & T3 & T4). cbn [rot] in T1. rewrite T1. exists k1. eexists. exists l, (Nd r i r'). split; [reflexivity|]. split; [reflexivity|]. split; [exact T2|]. rewrite E in T3. split; [|auto]. rewrite <- E, !ids_plug. f_equal. f_equal. exact (rot_ids true u i l r r').
    - rewrite C2. cbn [obind bptr]. rewrite peq_refl.
      change (plug [FR l' i; FL s Lf] (Nd l u r)) with (plug [FL s Lf] (rot_from false u i r l l')) in *. destruct (rot_all R0 N) as (k1 & T1 & T2 & T3 & T4). cbn [rot] in T1. rewrite T1. exists k1. eexists. exists (Nd l' i l), r. split; [reflexivity|]. split; [reflexivity|]. split; [exact T2|]. rewrite E in T3. split; [|auto]. rewrite <- E, !ids_plug. f_equal. f_equal. exact (rot_ids false u i r l l').
    - rewrite C2. cbn [obind]. rewrite peq_neq by (intros Ex; apply bptr_in in Ex; auto). rewrite C1. cbn [obind bptr]. rewrite peq_refl. cbn [guard obind].
      change (plug (FL i r' :: g :: c ++ [FL s Lf]) (Nd l u r)) with (plug (g :: c ++ [FL s Lf]) (rot_from true u i l r r')) in *. destruct (rot_all R0 N) as (k1 & T1 & T2 & T3 & T4). cbn [rot] in T1. rewrite T1. exists k1. eexists. exists l, (Nd r i r'). split; [reflexivity|]. split; [reflexivity|]. split; [exact T2|]. rewrite E in T3. split; [|auto]. rewrite <- E, !ids_plug. f_equal. f_equal. exact (rot_ids true u i l r r').
    - rewrite C2. cbn [obind bptr]. rewrite peq_refl.
      change (plug (FR l' i :: g :: c ++ [FL s Lf]) (Nd l u r)) with (plug (g :: c ++ [FL s Lf]) (rot_from false u i r l l')) in *. destruct (rot_all R0 N) as (k1 & T1 & T2 & T3 & T4). cbn [rot] in T1. rewrite T1. exists k1. eexists. exists (Nd l' i l), r. split; [reflexivity|]. split; [reflexivity|]. split; [exact T2|]. rewrite E in T3. split; [|auto]. rewrite <- E, !ids_plug. f_equal. f_equal. exact (rot_ids false u i r l l'). }
  destruct Hs as (k1 & f1 & l1 & r1 & E1 & -> & R1 & I1 & O1 & L1). rewrite E1. rewrite E in N. destruct (IH k1 c l1 r1 Hc R1 I1 N) as (k' & c' & l' & r' & E' & R' & I' & C' & O' & L'); [lia|].
  exists k', c', l', r'. split; [exact E'|]. split; [auto|]. split; [auto|]. split; [auto|]. split; [exact (keep_out_trans O1 O')|exact (same_len_trans L1 L')].
Qed.

(** ** Trickling down *)
Lemma tricle_loop (H : th) u xs : forall fuel k f c l r,
  (forall a b, In a xs -> In b xs -> exists x, comp_priority H a b = Some x) ->
  rep k None (plug (f :: c) (Nd l u r)) -> ids (plug (f :: c) (Nd l u r)) = xs -> NoDup xs -> bsize l + bsize r < fuel ->
  exists k' c', loop fuel (fun k =>
    let* l := get (pl k) u in
    let* r := get (pr k) u in
    match l, r with
    | None, None => Some (inr k)
    | Some _, None => let* k := turn_right k u in Some (inl k)
    | None, Some _ => let* k := turn_left k u in Some (inl k)
    | Some a, Some b =>
        let* c := comp_priority H a b in
        if (c : bool) then let* k := turn_right k u in Some (inl k) else let* k := turn_left k u in Some (inl k)
    end) k = Some k' /\
    rep k' None (plug (c' ++ f :: c) (Nd Lf u Lf)) /\ ids (plug (c' ++ f :: c) (Nd Lf u Lf)) = xs /\ keep_out xs k k' /\ same_len k k'.
Proof.
  induction fuel as [|fuel IH]; intros k f c l r Hc R E N F; [lia|]. cbn [loop]. pose proof R as R0. apply plug_rep in R as [R Rc]. destruct R as ([U1 U2 U3] & Rl & Rr). rewrite U1. cbn [obind]. rewrite U2. cbn [obind].
  assert (Hr : l <> Lf -> exists k', turn_right k u = Some k' /\ exists k'' c', loop fuel (fun k =>
    let* l := get (pl k) u in
    let* r := get (pr k) u in
    match l, r with
    | None, None => Some (inr k)
    | Some _, None => let* k := turn_right k u in Some (inl k)
    | None, Some _ => let* k := turn_left k u in Some (inl k)
    | Some a, Some b =>
        let* c := comp_priority H a b in
        if (c : bool) then let* k := turn_right k u in Some (inl k) else let* k := turn_left k u in Some (inl k)
    end) k' = Some k'' /\ rep k'' None (plug (c' ++ f :: c) (Nd Lf u Lf)) /\ ids (plug (c' ++ f :: c) (Nd Lf u Lf)) = xs /\ keep_out xs k k'' /\ same_len k k'').
  { destruct l as [|a x b]; [contradiction|]. intros _. change (Nd (Nd a x b) u r) with (rot_from true x u a b r) in *. rewrite <- E in N. destruct (rot_all R0 N) as (k1 & T1 & T2 & T3 & T4). exists k1. split; [exact T1|].
    destruct (IH k1 (FR a x) (f :: c) b r Hc) as (k' & c' & E' & R' & I' & O' & L'); [exact T2| | | |].
    - rewrite <- E, plug_cons, !ids_plug. f_equal. f_equal. exact (rot_ids true x u a b r).
    - now rewrite <- E.
    - cbn [bsize] in F. lia.
    - exists k', (c' ++ [FR a x]). rewrite <- app_assoc. cbn [app]. split; [exact E'|]. split; [auto|]. split; [auto|]. rewrite E in T3. split; [exact (keep_out_trans T3 O')|exact (same_len_trans T4 L')]. }
  assert (Hl : r <> Lf -> exists k', turn_left k u = Some k' /\ exists k'' c', loop fuel (fun k =>
    let* l := get (pl k) u in
    let* r := get (pr k) u in
    match l, r with
    | None, None => Some (inr k)
    | Some _, None => let* k := turn_right k u in Some (inl k)
    | None, Some _ => let* k := turn_left k u in Some (inl k)
    | Some a, Some b =>
        let* c := comp_priority H a b in
        if (c : bool) then let* k := turn_right k u in Some (inl k) else let* k := turn_left k u in Some (inl k)
    end) k' = Some k'' /\ rep k'' None (plug (c' ++ f :: c) (Nd Lf u Lf)) /\ ids (plug (c' ++ f :: c) (Nd Lf u Lf)) = xs /\ keep_out xs k k'' /\ same_len k k'').
  { clear Hr. destruct r as [|b x a]; [contradiction|]. intros _. change (Nd l u (Nd b x a)) with (rot_from false x u a b l) in *. rewrite <- E in N. destruct (rot_all R0 N) as (k1 & T1 & T2 & T3 & T4). exists k1. split; [exact T1|].
    destruct (IH k1 (FL x a) (f :: c) l b Hc) as (k' & c' & E' & R' & I' & O' & L'); [exact T2| | | |].
    - rewrite <- E, plug_cons, !ids_plug. f_equal. f_equal. exact (rot_ids false x u a b l).
    - now rewrite <- E.
    - cbn [bsize] in F. lia.
    - exists k', (c' ++ [FL x a]). rewrite <- app_assoc. cbn [app]. split; [exact E'|]. split; [auto|]. split; [auto|]. rewrite E in T3. split; [exact (keep_out_trans T3 O')|exact (same_len_trans T4 L')]. }
  destruct (bptr l) as [a|] eqn:El, (bptr r) as [b|] eqn:Er.
  - destruct (Hc a b) as (x & Ex). { rewrite <- E, plug_in. right. cbn. apply in_or_app. left. now apply bptr_in. } { rewrite <- E, plug_in. right. cbn. apply in_or_app. right. right. now apply bptr_in. }
    rewrite Ex. cbn [obind]. destruct x.
    + destruct Hr as (k1 & -> & H1); [intros ->; discriminate|]. exact H1.
    + destruct Hl as (k1 & -> & H1); [intros ->; discriminate|]. exact H1.
  - destruct Hr as (k1 & -> & H1); [intros ->; discriminate|]. exact H1.
  - destruct Hl as (k1 & -> & H1); [intros ->; discriminate|]. exact H1.
  - destruct l; [|discriminate]. destruct r; [|discriminate]. exists k, []. split; [reflexivity|]. split; [auto|]. split; [auto|]. split; [apply keep_out_refl|apply same_len_refl].
Qed.

(** ** Splicing *)
Lemma splice_ok (H : th) u f c : rep (tk H) None (plug (f :: c) (Nd Lf u Lf)) -> NoDup (ids (plug (f :: c) (Nd Lf u Lf))) ->
  exists k, splice H u = Some (with_tk H k) /\ rep k None (plug (f :: c) Lf) /\ keep_out (ids (plug (f :: c) (Nd Lf u Lf))) (tk H) k /\ same_len (tk H) k.
Proof.
  intros R N. pose proof (NoDup_plug N) as (_ & D & Nc). apply plug_rep in R as [R Rc]. cbn [cpar] in R. destruct R as ([U1 U2 U3] & _ & _). cbn [bptr] in *.
  assert (Df : u <> fid f) by (intros E; apply (D u); [now left|now left]). assert (Do : ~ In u (ids (fother f) ++ cids c)) by (intros E; apply (D u); [now right|now left]).
  unfold splice. rewrite U3. cbn [obind].
  assert (Hf : exists k1, (let* l := get (pl (tk H)) (fid f) in if peq l (Some u) then set_pl (tk H) (fid f) None else let* r := get (pr (tk H)) (fid f) in let* _ := guard (peq r (Some u)) in set_pr (tk H) (fid f) None) = Some k1 /\
       (match f with FL i _ => get (pl k1) i | FR _ i => get (pr k1) i end) = Some None /\ (forall i, (match f with FL j _ => i <> j | _ => True end) -> get (pl k1) i = get (pl (tk H)) i) /\ (forall i, (match f with FR _ j => i <> j | _ => True end) -> get (pr k1) i = get (pr (tk H)) i) /\ pp k1 = pp (tk H) /\ same_len (tk H) k1).
  { pose proof Rc as Rc0. destruct f as [i r|l i]; cbn [repc bptr fid fother] in *; destruct Rc as ([C1 C2 C3] & Rt & Rc).
    - rewrite C1. cbn [obind]. rewrite peq_refl. destruct (set_pl_ok (tk H) i None C1) as (k1 & S1 & S2 & S3 & S4 & S5 & S6). exists k1. rewrite S1, S4, S5. split; [auto|]. split; [auto|]. split; [auto|]. split; [auto|]. split; [auto|]. unfold same_len. rewrite S4, S5. auto.
    - rewrite C1. cbn [obind]. rewrite peq_neq by (intros E; apply bptr_in in E; apply Do, in_or_app; auto). rewrite C2. cbn [obind]. rewrite peq_refl. cbn [guard obind]. destruct (set_pr_ok (tk H) i None C2) as (k1 & S1 & S2 & S3 & S4 & S5 & S6). exists k1. rewrite S1, S4, S5. split; [auto|]. split; [auto|]. split; [auto|]. split; [auto|]. split; [auto|]. unfold same_len. rewrite S4, S5. auto. }
  destruct Hf as (k1 & E1 & F1 & F2 & F3 & F4 & F5). destruct (get (pl (tk H)) (fid f)) as [q|] eqn:Eq; [cbn [obind] in E1 |- *|discriminate]. rewrite E1. cbn [obind]. clear E1 q Eq.
  assert (P1 : get (pp k1) u = Some (Some (fid f))) by (rewrite F4; auto). destruct (set_pp_ok k1 u None P1) as (k2 & S1 & S2 & S3 & S4 & S5 & S6). rewrite S1. cbn [obind]. exists k2. split; [reflexivity|]. clear S1. split; [|split].
  - apply plug_rep. split; [exact I|]. cbn [bptr]. apply (repc_child (h := tk H) (o := Some u)); [auto|auto| | | |].
    + intros i Ii. assert (i <> u) by (intros ->; auto). assert (Nf : i <> fid f) by (intros ->; cbn [cids] in Nc; apply NoDup_cons_iff in Nc; tauto). rewrite S3, F4, S4, S5, F2, F3; auto; destruct f; auto.
    + rewrite S4, S5. destruct f; auto.
    + rewrite S4, S5. destruct f; [apply F3|apply F2]; auto.
    + rewrite S3, F4; auto.
  - intros i Ni. rewrite plug_in in Ni. cbn [ids In] in Ni. assert (i <> u) by (intros ->; apply Ni; right; now left). assert (Nf : i <> fid f) by (intros ->; apply Ni; left; now left). rewrite S3, F4, S4, S5, F2, F3; auto; destruct f; auto.
  - destruct F5 as (L1 & L2 & L3). unfold same_len. rewrite S4, S5, S6. auto.
Qed.
End Treap.
