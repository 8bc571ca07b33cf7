(** Proofs about [HldModel]: what [build] leaves in the arrays, in terms of the tree. *)
From Verif Require Import Base BaseLemmas ListExtra NthExtra HldModel HldTree HldSz HldDec.
Set Implicit Arguments.

Definition gv (l : list (option nat)) (x : nat) : nat := match get l x with Some (Some v) => v | _ => 0 end.
Lemma gv_eq l x v : get l x = Some (Some v) -> gv l x = v. Proof. unfold gv. now intros ->. Qed.

(** ** Ancestors in a tree and in its subtrees *)
Lemma fedges_in v cs p x : In (p, x) (tedges (Node v cs)) <-> exists c, In c cs /\ ((p = v /\ x = root c) \/ In (p, x) (tedges c)).
Proof.
  change (tedges (Node v cs)) with (fedges v cs). unfold fedges. rewrite in_flat_map. split.
  - intros (c & I & [[= <- <-]|J]); exists c; auto.
  - intros (c & I & [[-> ->]|J]); exists c; cbn; auto.
Qed.
Lemma anc_trans t x y z : anc t x y -> anc t y z -> anc t x z.
Proof. intros A B. induction B as [y|y p z B IH E]; [auto|]. apply anc_step with p; auto. Qed.
Lemma anc_sub v cs c x y : In c cs -> anc c x y -> anc (Node v cs) x y.
Proof. intros I A. induction A as [x|x p y A IH E]; [constructor|]. eapply anc_step; [exact IH|]. apply fedges_in. eauto. Qed.
Lemma anc_root t : forall x, In x (verts t) -> anc t (root t) x.
Proof.
  induction t as [v cs IH] using tree_ind2. intros x [<-|Ix]; [constructor|]. apply in_fverts in Ix as (c & Ic & Ix). apply anc_trans with (root c).
  - apply anc_step with v; [constructor|]. apply fedges_in. eauto.
  - eapply anc_sub; eauto.
Qed.
Lemma anc_in t x y : anc t x y -> In x (verts t) -> In y (verts t).
Proof. intros A. induction A as [x|x p y A IH E]; [auto|]. intros I. now apply (edge_verts _ _ _ E). Qed.
Lemma edge_root t p : NoDup (verts t) -> ~ In (p, root t) (tedges t).
Proof. intros N E. pose proof (Permutation_NoDup (verts_edges t) N) as N'. inversion_clear N' as [|? ? N1 _]. apply N1. apply in_map_iff. exists (p, root t). auto. Qed.
Lemma edge_parent t p q x : NoDup (verts t) -> In (p, x) (tedges t) -> In (q, x) (tedges t) -> p = q.
Proof.
  intros N E1 E2. pose proof (Permutation_NoDup (verts_edges t) N) as N'. inversion_clear N' as [|? ? _ N1]. remember (tedges t) as l. clear - N1 E1 E2. induction l as [|[a b] l IH]; [destruct E1|]. cbn [map snd] in N1. inversion_clear N1 as [|? ? N2 N3].
  destruct E1 as [[= -> ->]|E1], E2 as [[= ->]|E2]; auto; try (exfalso; apply N2; apply in_map_iff; eexists; split; [|eassumption]; auto).
Qed.
Lemma edge_exists t x : In x (verts t) -> x = root t \/ exists p, In (p, x) (tedges t).
Proof. intros I. apply (Permutation_in _ (verts_edges t)) in I as [<-|I]; [auto|]. right. apply in_map_iff in I as ([p y] & <- & I). eauto. Qed.
Lemma sub_nodup v cs c : NoDup (verts (Node v cs)) -> In c cs -> NoDup (verts c) /\ ~ In v (verts c).
Proof.
  intros N I. cbn in N. inversion_clear N as [|? ? N1 N2]. fold (fverts cs) in *. split; [|intros J; apply N1, in_fverts; eauto]. induction cs as [|d cs IH]; [destruct I|]. unfold fverts in N2. cbn [flat_map] in N2. apply NoDup_app_iff in N2 as (A & B & _). destruct I as [->|I]; [auto|]. apply IH; auto. intros J. apply N1. unfold fverts. cbn [flat_map]. apply in_or_app. auto.
Qed.
Lemma sub_uniq v cs c c' x : NoDup (verts (Node v cs)) -> In c cs -> In c' cs -> In x (verts c) -> In x (verts c') -> c = c'.
Proof.
  intros N I J Ix Jx. cbn in N. inversion_clear N as [|? ? _ N2]. induction cs as [|d cs IH]; [destruct I|]. cbn [flat_map] in N2. apply NoDup_app_iff in N2 as (A & B & D).
  destruct I as [->|I], J as [->|J]; auto; exfalso; [apply (D x Ix)|apply (D x Jx)]; apply in_fverts; eauto.
Qed.
Lemma anc_down v cs c x y : NoDup (verts (Node v cs)) -> In c cs -> In x (verts c) -> anc (Node v cs) x y -> anc c x y.
Proof.
  intros N I Ix A. induction A as [x|x p y A IH E]; [constructor|]. specialize (IH Ix). pose proof (anc_in IH Ix) as Ip. destruct (sub_nodup c N I) as [_ Nv]. apply fedges_in in E as (c' & Ic' & [[-> ->]|E]); [destruct (Nv Ip)|].
  assert (c = c') as <- by (apply (@sub_uniq v cs c c' p); auto; apply (edge_verts _ _ _ E)). eapply anc_step; eauto.
Qed.
Lemma anc_top v cs c x : NoDup (verts (Node v cs)) -> In c cs -> In x (verts c) -> ~ anc (Node v cs) x v.
Proof. intros N I Ix A. apply (anc_down c N I Ix) in A. apply (anc_in A) in Ix. now apply (sub_nodup c N I). Qed.

(** ** The decomposition *)
Definition kid a (time h d tot : nat) (c : tree) (tc hc dc : nat) : Prop :=
  dec a tc hc dc c /\ S time <= tc /\ tc + tsize c <= time + tot /\ ((tc = S time /\ hc = h /\ dc = d) \/ (hc = root c /\ dc = S d)).
Lemma light_kids a cs : forall time d, light a time d cs ->
  (forall c, In c cs -> exists tc, dec a tc (root c) d c /\ time <= tc /\ tc + tsize c <= time + length (fverts cs)) /\
  (forall i, time <= i < time + length (fverts cs) -> exists c tc, In c cs /\ dec a tc (root c) d c /\ time <= tc /\ tc + tsize c <= time + length (fverts cs) /\ tc <= i < tc + tsize c).
Proof.
  induction cs as [|c cs IH]; intros time d L; [split; [intros ? []|cbn; intros; lia]|]. inversion L as [|? ? ? ? Dc Lc]; subst. destruct (IH _ _ Lc) as [K1 K2]. rewrite !len_fverts_cons. split.
  - intros x [<-|I]; [exists time; split; [auto|lia]|]. destruct (K1 x I) as (tc & D & H1 & H2). exists tc. split; [auto|lia].
  - intros i Hi. destruct (Nat.lt_ge_cases i (time + tsize c)) as [H|H]; [exists c, time; split; [now left|]; split; [auto|lia]|].
    destruct (K2 i) as (x & tc & I & D & H1 & H2 & H3); [lia|]. exists x, tc. split; [now right|]. split; [auto|lia].
Qed.
Lemma dec_kids a time h d v cs : dec a time h d (Node v cs) ->
  (forall c, In c cs -> exists tc hc dc, kid a time h d (tsize (Node v cs)) c tc hc dc) /\
  (forall i, S time <= i < time + tsize (Node v cs) -> exists c tc hc dc, In c cs /\ kid a time h d (tsize (Node v cs)) c tc hc dc /\ tc <= i < tc + tsize c) /\
  (exists cl, facts a time h d v 1 cl) /\ get (a_out a) v = Some (Some (time + tsize (Node v cs))).
Proof.
  intros D. inversion D as [? ? ? ? Ff Fo|? ? ? ? c0 cs0 Ff Fo Dc L]; subst.
  - split; [intros ? []|]. split; [cbn; intros; lia|]. split; [eauto|]. rewrite Fo. do 2 f_equal. cbn. lia.
  - destruct (light_kids L) as [K1 K2]. rewrite tsize_cons. split; [|split; [|split; [eauto|rewrite Fo, tsize_cons; auto]]].
    + intros c [<-|I]; [exists (S time), h, d; split; [auto|]; split; [lia|]; split; [lia|auto]|]. destruct (K1 c I) as (tc & Dx & H1 & H2). exists tc, (root c), (S d). split; [auto|]. split; [lia|]. split; [lia|auto].
    + intros i Hi. destruct (Nat.lt_ge_cases i (S time + tsize c0)) as [H|H].
      * exists c0, (S time), h, d. split; [now left|]. split; [split; [auto|]; split; [lia|]; split; [lia|auto]|lia].
      * destruct (K2 i) as (c & tc & I & Dx & H1 & H2 & H3); [lia|]. exists c, tc, (root c), (S d). split; [now right|]. split; [split; [auto|]; split; [lia|]; split; [lia|auto]|lia].
Qed.

Record node_ok (a : arrs) (x : nat) : Prop := {
  n_in : get (a_in a) x = Some (Some (gv (a_in a) x));
  n_out : get (a_out a) x = Some (Some (gv (a_out a) x));
  n_head : get (a_head a) x = Some (Some (gv (a_head a) x));
  n_dep : get (a_dep a) x = Some (Some (gv (a_dep a) x));
  n_rev : get (a_rev a) (gv (a_in a) x) = Some (Some x) }.
Lemma facts_node a time h d v cl o : facts a time h d v 1 cl -> get (a_out a) v = Some (Some o) ->
  node_ok a v /\ gv (a_in a) v = time /\ gv (a_out a) v = o /\ gv (a_head a) v = h /\ gv (a_dep a) v = d.
Proof. intros [F1 F2 F3 F4 F5] Fo. pose proof (gv_eq _ _ F1). pose proof (gv_eq _ _ F3). pose proof (gv_eq _ _ F4). pose proof (gv_eq _ _ Fo). split; [split; congruence|auto]. Qed.

Section Facts.
Variable a : arrs.
Notation I := (gv (a_in a)). Notation O := (gv (a_out a)). Notation H := (gv (a_head a)). Notation D := (gv (a_dep a)).

Lemma dec_node t : forall time h d, dec a time h d t -> forall x, In x (verts t) ->
  node_ok a x /\ time <= I x /\ I x < O x <= time + tsize t /\ d <= D x.
Proof.
  induction t as [v cs IH] using tree_ind2. intros time h d Dt x Ix. destruct (dec_kids Dt) as (K1 & K2 & (cl & Ff) & Fo). destruct (facts_node Ff Fo) as (N & E1 & E2 & E3 & E4). pose proof (tsize_pos (Node v cs)). destruct Ix as [<-|Ix].
  - split; [auto|]. rewrite E1, E2, E4. lia.
  - apply in_fverts in Ix as (c & Ic & Ix). destruct (K1 c Ic) as (tc & hc & dc & Dc & H1 & H2 & H3). destruct (IH c Ic _ _ _ Dc x Ix) as (N' & J1 & J2 & J3). split; [auto|]. lia.
Qed.
Lemma dec_root time h d t : dec a time h d t -> I (root t) = time /\ O (root t) = time + tsize t /\ H (root t) = h /\ D (root t) = d.
Proof. intros Dt. destruct t as [v cs]. destruct (dec_kids Dt) as (_ & _ & (cl & Ff) & Fo). destruct (facts_node Ff Fo) as (N & E1 & E2 & E3 & E4). auto. Qed.
Lemma dec_edge t : forall time h d, dec a time h d t -> forall p x, In (p, x) (tedges t) ->
  I p < I x /\ ((H x = H p /\ D x = D p /\ I x = S (I p)) \/ (H x = x /\ D x = S (D p))).
Proof.
  induction t as [v cs IH] using tree_ind2. intros time h d Dt p x E. destruct (dec_kids Dt) as (K1 & K2 & (cl & Ff) & Fo). destruct (facts_node Ff Fo) as (N & E1 & E2 & E3 & E4). apply fedges_in in E as (c & Ic & E). destruct (K1 c Ic) as (tc & hc & dc & Dc & H1 & H2 & H3). destruct E as [[-> ->]|E]; [|eapply IH; eauto].
  destruct (dec_root Dc) as (R1 & R2 & R3 & R4). rewrite E1, E3, E4, R1, R3, R4. split; [lia|]. destruct H3 as [(-> & -> & ->)|[-> ->]]; auto.
Qed.
Lemma dec_onto t : forall time h d, dec a time h d t -> forall i, time <= i < time + tsize t -> exists x, In x (verts t) /\ I x = i.
Proof.
  induction t as [v cs IH] using tree_ind2. intros time h d Dt i Hi. destruct (dec_kids Dt) as (K1 & K2 & (cl & Ff) & Fo). destruct (facts_node Ff Fo) as (N & E1 & _). destruct (Nat.eq_dec i time) as [->|Ni]; [exists v; split; [now left|auto]|].
  destruct (K2 i) as (c & tc & hc & dc & Ic & (Dc & _) & Hc); [lia|]. destruct (IH c Ic _ _ _ Dc i Hc) as (x & Ix & E). exists x. split; [right; apply in_fverts; eauto|auto].
Qed.
Lemma dec_anc t : forall time h d, dec a time h d t -> NoDup (verts t) -> forall x y, In x (verts t) -> In y (verts t) -> (anc t x y <-> I x <= I y < O x).
Proof.
  induction t as [v cs IH] using tree_ind2. intros time h d Dt ND x y Ix Iy. pose proof (dec_node Dt) as Nd. pose proof (dec_root Dt) as (E1 & E2 & _). cbn [root] in *. destruct (dec_kids Dt) as (K1 & _ & _).
  destruct Ix as [<-|Ix].
  - destruct (Nd y Iy) as (_ & J1 & J2 & _). rewrite E1, E2. split; [intros _; lia|intros _]. apply (@anc_root (Node v cs)). auto.
  - apply in_fverts in Ix as (c & Ic & Ix). destruct (K1 c Ic) as (tc & hc & dc & Dc & H1 & H2 & H3). destruct (sub_nodup c ND Ic) as [NDc Nv]. split.
    + intros A. apply (anc_down c ND Ic Ix) in A. apply (IH c Ic _ _ _ Dc NDc x y Ix); [eapply anc_in; eauto|auto].
    + intros R. destruct (dec_node Dc x Ix) as (_ & J1 & J2 & _). destruct (dec_onto Dc (i := I y)) as (z & Iz & Ez); [lia|]. assert (z = y) as ->.
      { destruct (dec_node Dc z Iz) as (Nz & _). destruct (Nd y Iy) as (Ny & _). pose proof (n_rev Nz) as R1. rewrite Ez, (n_rev Ny) in R1. congruence. }
      apply anc_sub with c; [auto|]. apply (IH c Ic _ _ _ Dc NDc x y); auto.
Qed.
Lemma dec_log E P Sz t : forall p time h d, good E P Sz p t -> dec a time h d t -> forall x, In x (verts t) -> 2 ^ (D x - d) * (O x - I x) <= tsize t.
Proof.
  induction t as [v cs IH] using tree_ind2. intros p time h d G Dt x Ix. destruct (dec_root Dt) as (E1 & E2 & E3 & E4). cbn [root] in *. destruct Ix as [<-|Ix].
  - rewrite E1, E2, E4, Nat.sub_diag. cbn [Nat.pow]. lia.
  - change (In x (fverts cs)) in Ix. inversion G as [? ? ? row Er Fr Hd _ _ Gc]; subst. inversion Dt as [|? ? ? ? c0 cs0 Ff Fo Dc L]; subst; [destruct Ix|]. destruct Hd as [_ Hd]. apply in_fverts in Ix as (c & Ic & Ix). destruct Ic as [<-|Ic].
    + pose proof (IH c0 (or_introl eq_refl) _ _ _ _ (Gc c0 (or_introl eq_refl)) Dc x Ix). rewrite tsize_cons. lia.
    + destruct (light_kids L) as [K1 _]. destruct (K1 c Ic) as (tc & Dx & _ & Hs). pose proof (IH c (or_intror Ic) _ _ _ _ (Gc c (or_intror Ic)) Dx x Ix) as J. destruct (dec_node Dx x Ix) as (_ & _ & _ & Hdx). rewrite Forall_forall in Hd. specialize (Hd c Ic).
      assert (tsize c <= length (fverts cs0)). { clear -Ic. induction cs0 as [|b l IHl]; [destruct Ic|]. rewrite len_fverts_cons. destruct Ic as [->|Ic]; [lia|]. specialize (IHl Ic). lia. }
      rewrite tsize_cons. replace (D x - D v) with (S (D x - S (D v))) by lia. rewrite Nat.pow_succ_r'. nia.
Qed.
End Facts.
