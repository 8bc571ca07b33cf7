(** FibonacciHeap: _PushLink and _PopLink on the circular lists of the heap. *)
From Verif Require Import FibModel FibRing BaseLemmas ListExtra.
Set Implicit Arguments.

Definition slot_eq_dec (a b : slot) : {a = b} + {a <> b}. Proof. decide equality; apply Nat.eq_dec. Defined.
Definition lupd (L : slot -> list nat) (o : slot) (l : list nat) : slot -> list nat := fun o' => if slot_eq_dec o o' then l else L o'.
Lemma lupd_eq L o l : lupd L o l o = l. Proof. unfold lupd. destruct (slot_eq_dec o o); congruence. Qed.
Lemma lupd_neq L o l o' : o <> o' -> lupd L o l o' = L o'. Proof. unfold lupd. destruct (slot_eq_dec o o'); congruence. Qed.

Section Fib.
Variables (T : Type) (d0 : T).
Notation fh := (fh T).
Notation fn := (fn T).
Implicit Types (h : fh).
Definition n0 : fn := FN None None None None 0 false false d0.
Definition DN (h : fh) (i : nat) : fn := nth i (nds h) n0.
Lemma dn_get h i : i < length (nds h) -> get (nds h) i = Some (DN h i).
Proof. intros L. destruct (@get_lt _ (nds h) i L) as (d & G). rewrite G. f_equal. unfold DN. symmetry. apply nth_error_nth, G. Qed.
Definition NX h i := nx (DN h i).
Definition PV h i := pv (DN h i).
(** same size, root, and all fields but the links *)
Record same_f (h h' : fh) : Prop := {
  sf_n : length (nds h') = length (nds h); sf_t : length (tab h') = length (tab h); sf_rt : rt h' = rt h; sf_sz : sz h' = sz h;
  sf_par : forall j, par (DN h' j) = par (DN h j); sf_dg : forall j, dg (DN h' j) = dg (DN h j); sf_mk : forall j, mk (DN h' j) = mk (DN h j);
  sf_en : forall j, en (DN h' j) = en (DN h j); sf_vl : forall j, vl (DN h' j) = vl (DN h j) }.
Lemma same_refl h : same_f h h. Proof. split; auto. Qed.
Lemma same_trans h1 h2 h3 : same_f h1 h2 -> same_f h2 h3 -> same_f h1 h3.
Proof. intros [] []. split; intros; etransitivity; eauto. Qed.
Arguments same_trans {h1 h2 h3} _ _.
Lemma upd_n_ok h i f : i < length (nds h) -> exists h', upd_n h i f = Some h' /\ DN h' i = f (DN h i) /\ (forall j, j <> i -> DN h' j = DN h j) /\ length (nds h') = length (nds h) /\ tab h' = tab h /\ rt h' = rt h /\ sz h' = sz h.
Proof.
  intros L. unfold upd_n. rewrite (dn_get h L). cbn [obind]. rewrite (set_some _ (f (DN h i)) L). cbn [obind]. eexists. split; [reflexivity|]. unfold DN. cbn. split; [|split; [|split; [apply lset_length|auto]]].
  - apply nth_error_nth. now apply get_lset_eq.
  - intros j J. destruct (Nat.lt_ge_cases j (length (nds h))) as [Lj|Lj]; [|now rewrite !nth_overflow by (rewrite ?lset_length; auto)]. apply nth_error_nth. rewrite get_lset_neq by auto. destruct (@get_lt _ (nds h) j Lj) as (d & G). pose proof (nth_error_nth _ _ n0 G) as E. unfold get in *. congruence.
Qed.
Arguments upd_n_ok h {i} f _.
Definition okslot (h : fh) (o : slot) : Prop := match o with Tab d => d < length (tab h) | Chd i => i < length (nds h) end.
(** writing next or prev *)
Definition heads_same (h h' : fh) : Prop := forall o, head h' o = head h o.
Lemma heads_trans h1 h2 h3 : heads_same h1 h2 -> heads_same h2 h3 -> heads_same h1 h3.
Proof. intros A B o. now rewrite B, A. Qed.
Lemma head_dn h o : okslot h o -> head h o = match o with Tab d => get (tab h) d | Chd i => Some (chd (DN h i)) end.
Proof. destruct o; cbn; [auto|]. intros L. now rewrite (dn_get h L). Qed.
Lemma head_out h i : length (nds h) <= i -> head h (Chd i) = None.
Proof. intros L. cbn. now rewrite get_none by auto. Qed.
Lemma heads_of h h' : length (nds h') = length (nds h) -> tab h' = tab h -> (forall j, chd (DN h' j) = chd (DN h j)) -> heads_same h h'.
Proof. intros L Et E o. destruct o; cbn; [now rewrite Et|]. destruct (Nat.lt_ge_cases i (length (nds h))) as [Li|Li]; [rewrite !dn_get by lia; cbn; now rewrite E|rewrite !get_none by lia; auto]. Qed.
Lemma w_nx_ok h i x : i < length (nds h) -> exists h', upd_n h i (w_nx x) = Some h' /\ same_f h h' /\ heads_same h h' /\ (forall j, NX h' j = if j =? i then Some x else NX h j) /\ (forall j, PV h' j = PV h j).
Proof.
  intros L. destruct (upd_n_ok h (w_nx x) L) as (h' & E & D & O & Ln & Lt & Er & Es). exists h'. split; [auto|].
  assert (Q : forall B (g : fn -> B), (forall d, g (w_nx x d) = g d) -> forall j, g (DN h' j) = g (DN h j)) by (intros B g Hg j; destruct (Nat.eq_dec j i) as [->|J]; [now rewrite D|now rewrite O]).
  split; [split; try congruence; try (apply Q; reflexivity)|]. split; [apply heads_of; auto; apply Q; reflexivity|]. split.
  - intros j. unfold NX. destruct (Nat.eqb_spec j i) as [->|J]; [now rewrite D|now rewrite O].
  - apply Q; reflexivity.
Qed.
Lemma w_pv_ok h i x : i < length (nds h) -> exists h', upd_n h i (w_pv x) = Some h' /\ same_f h h' /\ heads_same h h' /\ (forall j, PV h' j = if j =? i then Some x else PV h j) /\ (forall j, NX h' j = NX h j).
Proof.
  intros L. destruct (upd_n_ok h (w_pv x) L) as (h' & E & D & O & Ln & Lt & Er & Es). exists h'. split; [auto|].
  assert (Q : forall B (g : fn -> B), (forall d, g (w_pv x d) = g d) -> forall j, g (DN h' j) = g (DN h j)) by (intros B g Hg j; destruct (Nat.eq_dec j i) as [->|J]; [now rewrite D|now rewrite O]).
  split; [split; try congruence; try (apply Q; reflexivity)|]. split; [apply heads_of; auto; apply Q; reflexivity|]. split.
  - intros j. unfold PV. destruct (Nat.eqb_spec j i) as [->|J]; [now rewrite D|now rewrite O].
  - apply Q; reflexivity.
Qed.
Lemma set_head_ok h o x : okslot h o -> exists h', set_head h o x = Some h' /\ same_f h h' /\ head h' o = Some x /\ (forall o', o' <> o -> head h' o' = head h o') /\ (forall j, NX h' j = NX h j) /\ (forall j, PV h' j = PV h j).
Proof.
  intros Ok. destruct o as [d|i]; cbn [okslot set_head] in *.
  - rewrite (set_some _ x Ok). cbn [obind]. eexists. split; [reflexivity|]. split; [split; auto; apply lset_length|]. split; [cbn; now apply get_lset_eq|]. split; [|split; reflexivity].
    intros [d'|i] Ho; cbn; [|auto]. apply get_lset_neq. congruence.
  - destruct (upd_n_ok h (w_chd x) Ok) as (h' & E & D & O & Ln & Lt & Er & Es). exists h'. split; [auto|].
    assert (Q : forall B (g : fn -> B), (forall d, g (w_chd x d) = g d) -> forall j, g (DN h' j) = g (DN h j)) by (intros B g Hg j; destruct (Nat.eq_dec j i) as [->|J]; [now rewrite D|now rewrite O]).
    split; [split; try congruence; try (apply Q; reflexivity)|]. split; [cbn; rewrite dn_get by lia; cbn; now rewrite D|]. split; [|split; apply Q; reflexivity].
    intros [d'|j] Ho; cbn; [now rewrite Lt|]. assert (j <> i) by congruence. destruct (Nat.lt_ge_cases j (length (nds h))) as [Li|Li]; [rewrite !dn_get by lia; cbn; now rewrite O|rewrite !get_none by lia; auto].
Qed.
Lemma okslot_same h h' o : same_f h h' -> okslot h o -> okslot h' o.
Proof. intros S. destruct o; cbn; [now rewrite (sf_t S)|now rewrite (sf_n S)]. Qed.

Record rings (h : fh) (L : slot -> list nat) : Prop := {
  rg_head : forall o, okslot h o -> head h o = Some (hd_error (L o));
  rg_out : forall o x, In x (L o) -> okslot h o;
  rg_ring : forall o, ring (NX h) (PV h) (L o);
  rg_nd : forall o, NoDup (L o);
  rg_disj : forall o o' x, In x (L o) -> In x (L o') -> o = o';
  rg_lt : forall o x, In x (L o) -> x < length (nds h) }.
Lemma rings_ext h h' L : rings h L -> length (nds h') = length (nds h) -> length (tab h') = length (tab h) -> heads_same h h' -> (forall j, NX h' j = NX h j) -> (forall j, PV h' j = PV h j) -> rings h' L.
Proof.
  intros [R1 R2 R3 R4 R5 R6] Ln Lt Hh HN HP. assert (Ok : forall o, okslot h' o <-> okslot h o) by (intros []; cbn; rewrite ?Ln, ?Lt; tauto). split; auto.
  - intros o O. rewrite Hh. apply R1, Ok, O.
  - intros o x X. apply Ok. eauto.
  - intros o. apply (ring_ext (N := NX h) (P := PV h)); auto.
  - intros o x X. rewrite Ln. eauto.
Qed.
Arguments rings_ext {h h' L} _ _ _ _ _ _.

Lemma push_link_ok h L o y : rings h L -> okslot h o -> y < length (nds h) -> (forall o', ~ In y (L o')) ->
  exists h', push_link h y o = Some h' /\ rings h' (lupd L o (L o ++ [y])) /\ same_f h h'.
Proof.
  intros R Ok Ly Ny. unfold push_link. rewrite (rg_head R o Ok). cbn [obind].
  assert (Fin : forall h', same_f h h' -> head h' o = Some (hd_error (L o ++ [y])) -> (forall o', o' <> o -> head h' o' = head h o') -> ring (NX h') (PV h') (L o ++ [y]) -> (forall j, j <> y -> ~ In j (L o) -> NX h' j = NX h j /\ PV h' j = PV h j) -> rings h' (lupd L o (L o ++ [y]))).
  { intros h' S H1 H2 H3 H4. assert (Ok' : forall o, okslot h' o <-> okslot h o) by (intros []; cbn; rewrite ?(sf_n S), ?(sf_t S); tauto).
    assert (Mem : forall o' x, In x (lupd L o (L o ++ [y]) o') -> In x (L o') \/ o' = o /\ x = y). { intros o' x X. destruct (slot_eq_dec o o') as [<-|No]; [rewrite lupd_eq in X; apply in_app_or in X as [X|[<-|[]]]; auto|rewrite lupd_neq in X by auto; auto]. }
    split.
    - intros o' O. destruct (slot_eq_dec o o') as [<-|No]; [now rewrite lupd_eq|]. rewrite lupd_neq, H2 by auto. apply (rg_head R). now apply Ok'.
    - intros o' x X. apply Ok'. apply Mem in X as [X|(-> & ->)]; [exact (rg_out R _ _ X)|auto].
    - intros o'. destruct (slot_eq_dec o o') as [<-|No]; [now rewrite lupd_eq|]. rewrite lupd_neq by auto. apply (ring_ext (N := NX h) (P := PV h)); [|apply (rg_ring R)]. intros j J. apply H4; [intros ->; exact (Ny _ J)|]. intros K. apply No. exact (rg_disj R _ _ _ K J).
    - intros o'. destruct (slot_eq_dec o o') as [<-|No]; [rewrite lupd_eq|rewrite lupd_neq by auto; apply (rg_nd R)]. apply NoDup_app_iff. split; [apply (rg_nd R)|]. split; [constructor; [auto|constructor]|]. intros x X [<-|[]]. exact (Ny _ X).
    - intros o1 o2 x X1 X2. apply Mem in X1, X2. destruct X1 as [X1|(-> & ->)], X2 as [X2|(-> & E)]; auto; [exact (rg_disj R _ _ _ X1 X2)|subst; destruct (Ny _ X1)|destruct (Ny _ X2)].
    - intros o' x X. rewrite (sf_n S). apply Mem in X as [X|(-> & ->)]; [exact (rg_lt R _ _ X)|auto]. }
  pose proof (rg_ring R o) as Rg. destruct (L o) as [|x l] eqn:El; cbn [hd_error].
  - destruct (set_head_ok h o (Some y) Ok) as (h1 & E1 & S1 & H1 & O1 & N1 & P1). rewrite E1. cbn [obind]. destruct (@w_nx_ok h1 y y) as (h2 & E2 & S2 & H2 & N2 & P2); [now rewrite (sf_n S1)|]. rewrite E2. cbn [obind].
    destruct (@w_pv_ok h2 y y) as (h3 & E3 & S3 & H3 & P3 & N3); [now rewrite (sf_n S2), (sf_n S1)|]. rewrite E3. exists h3. split; [auto|]. assert (S : same_f h h3) by (exact (same_trans (same_trans S1 S2) S3)). split; [|auto]. apply Fin; auto.
    + now rewrite H3, H2, H1.
    + intros o' No. now rewrite H3, H2, O1.
    + cbn. rewrite P3, N3, N2, !Nat.eqb_refl. auto.
    + intros j J _. rewrite P3, P2, P1, N3, N2, N1. apply Nat.eqb_neq in J. now rewrite J.
  - assert (Hl : exists l3 b, x :: l = l3 ++ [b]). { destruct (exists_last (l := x :: l)) as (l3 & b & E); [discriminate|eauto]. } destruct Hl as (l3 & b & El'). pose proof (rg_nd R o) as Nd. rewrite El in Nd.
    assert (Ix : In x (L o)) by (rewrite El; now left). assert (Ib : In b (L o)) by (rewrite El, El'; apply in_or_app; right; now left). pose proof (rg_lt R _ _ Ix) as Lx. pose proof (rg_lt R _ _ Ib) as Lb. rewrite dn_get by auto. cbn [obind].
    assert (Hd : hd b l3 = x) by (destruct l3; cbn in El'; injection El'; auto). rewrite El' in Rg, Nd. pose proof (ring_last Rg) as (Px & _). rewrite Hd in Px. unfold PV in Px. rewrite Px. cbn [obind].
    destruct (@w_nx_ok h y x Ly) as (h1 & E1 & S1 & H1 & N1 & P1). rewrite E1. cbn [obind]. destruct (@w_pv_ok h1 y b) as (h2 & E2 & S2 & H2 & P2 & N2); [now rewrite (sf_n S1)|]. rewrite E2. cbn [obind].
    assert (S12 := same_trans S1 S2). destruct (@w_nx_ok h2 b y) as (h3 & E3 & S3 & H3 & N3 & P3); [now rewrite (sf_n S12)|]. rewrite E3. cbn [obind]. assert (S13 := same_trans S12 S3). destruct (@w_pv_ok h3 x y) as (h4 & E4 & S4 & H4 & P4 & N4); [now rewrite (sf_n S13)|]. rewrite E4. exists h4. split; [auto|]. assert (S := same_trans S13 S4). split; [|auto].
    assert (Nyx : y <> x) by (intros ->; exact (Ny _ Ix)). assert (Nyb : y <> b) by (intros ->; exact (Ny _ Ib)). assert (HN : forall j, NX h4 j = if j =? b then Some y else if j =? y then Some x else NX h j) by (intros j; rewrite N4, N3, N2, N1; reflexivity).
    assert (HP : forall j, PV h4 j = if j =? x then Some y else if j =? y then Some b else PV h j) by (intros j; rewrite P4, P3, P2, P1; reflexivity). apply Fin; auto.
    + rewrite H4, H3, H2, H1, (rg_head R o Ok), El. reflexivity.
    + intros o' No. now rewrite H4, H3, H2, H1.
    + rewrite El'. apply (ring_push Rg Nd); [intros J; apply (Ny o); now rewrite El, El'|intros j; rewrite Hd; apply HN|intros j; rewrite Hd; apply HP].
    + intros j J K. rewrite <- El in K. rewrite HN, HP. assert (j <> x) by (intros ->; auto). assert (j <> b) by (intros ->; auto). apply Nat.eqb_neq in J, H, H0. now rewrite J, H, H0.
Qed.
Arguments push_link_ok {h L o y} _ _ _ _.
Lemma pop_link_ok h L o y l1 l2 : rings h L -> L o = l1 ++ y :: l2 -> exists h', pop_link h y o = Some h' /\ rings h' (lupd L o (l1 ++ l2)) /\ same_f h h'.
Proof.
  intros R El. assert (Iy : In y (L o)) by (rewrite El; apply in_or_app; right; now left). assert (Ok := rg_out R _ _ Iy). assert (Ly := rg_lt R _ _ Iy). pose proof (rg_ring R o) as Rg. pose proof (rg_nd R o) as Nd. rewrite El in Rg, Nd.
  unfold pop_link. rewrite (rg_head R o Ok). cbn [obind].
  assert (Fin : forall h', same_f h h' -> head h' o = Some (hd_error (l1 ++ l2)) -> (forall o', o' <> o -> head h' o' = head h o') -> ring (NX h') (PV h') (l1 ++ l2) -> (forall j, ~ In j (L o) -> NX h' j = NX h j /\ PV h' j = PV h j) -> rings h' (lupd L o (l1 ++ l2))).
  { intros h' S H1 H2 H3 H4. assert (Ok' : forall o, okslot h' o <-> okslot h o) by (intros []; cbn; rewrite ?(sf_n S), ?(sf_t S); tauto).
    assert (Mem : forall o' x, In x (lupd L o (l1 ++ l2) o') -> In x (L o')). { intros o' x X. destruct (slot_eq_dec o o') as [<-|No]; [rewrite lupd_eq in X; rewrite El; apply in_app_or in X; apply in_or_app; cbn; tauto|rewrite lupd_neq in X by auto; auto]. }
    split.
    - intros o' O. destruct (slot_eq_dec o o') as [<-|No]; [now rewrite lupd_eq|]. rewrite lupd_neq, H2 by auto. apply (rg_head R). now apply Ok'.
    - intros o' x X. apply Ok'. apply Mem in X. exact (rg_out R _ _ X).
    - intros o'. destruct (slot_eq_dec o o') as [<-|No]; [now rewrite lupd_eq|]. rewrite lupd_neq by auto. apply (ring_ext (N := NX h) (P := PV h)); [|apply (rg_ring R)]. intros j J. apply H4. intros K. apply No. exact (rg_disj R _ _ _ K J).
    - intros o'. destruct (slot_eq_dec o o') as [<-|No]; [rewrite lupd_eq; exact (NoDup_remove_1 _ _ _ Nd)|rewrite lupd_neq by auto; apply (rg_nd R)].
    - intros o1 o2 x X1 X2. exact (rg_disj R _ _ _ (Mem _ _ X1) (Mem _ _ X2)).
    - intros o' x X. rewrite (sf_n S). exact (rg_lt R _ _ (Mem _ _ X)). }
  destruct (L o) as [|x l] eqn:El'; [destruct Iy|]. cbn [hd_error obind]. rewrite dn_get by auto. cbn [obind].
  destruct (list_eq_dec Nat.eq_dec (l1 ++ l2) []) as [Ez|Nz].
  - apply app_eq_nil in Ez as (-> & ->). cbn [app] in *. injection El as -> ->. cbn in Rg. destruct Rg as (Rn & Rp & _). unfold NX in Rn. unfold PV in Rp. rewrite Rn, Rp. cbn [obind]. rewrite Nat.eqb_refl. cbn [guard obind].
    destruct (set_head_ok h o None Ok) as (h1 & E1 & S1 & H1 & O1 & N1 & P1). exists h1. split; [auto|]. split; [|auto]. apply Fin; auto. exact I.
  - destruct (ring_neighbours Rg Nz) as (n & p & En & Ep & Hn & Hp). unfold NX in En. unfold PV in Ep. rewrite En, Ep. cbn [obind]. apply NoDup_remove in Nd as Nd2. destruct Nd2 as (Nd2 & Nyl).
    assert (In_ : In n (l1 ++ l2)) by (apply in_or_app; destruct l2, l1; cbn in Hn |- *; try discriminate; injection Hn as ->; tauto).
    assert (Ip : In p (l1 ++ l2)). { assert (Hi : In p (rev l1 ++ rev l2)) by (destruct (rev l1 ++ rev l2); [discriminate|injection Hp as ->; now left]). apply in_app_or in Hi. apply in_or_app. rewrite (in_rev l1), (in_rev l2). tauto. }
    assert (Nny : n <> y) by (intros ->; auto). assert (Npy : p <> y) by (intros ->; auto). rewrite (proj2 (Nat.eqb_neq _ _) Nny).
    assert (Mem : forall j, In j (l1 ++ l2) -> In j (x :: l)) by (intros j J; rewrite El; apply in_app_or in J; apply in_or_app; cbn; tauto). rewrite <- El' in Mem.
    assert (Ln := rg_lt R _ _ (Mem _ In_)). assert (Lp := rg_lt R _ _ (Mem _ Ip)).
    destruct (@w_nx_ok h p n Lp) as (h1 & E1 & S1 & H1 & N1 & P1). rewrite E1. cbn [obind]. destruct (@w_pv_ok h1 n p) as (h2 & E2 & S2 & H2 & P2 & N2); [now rewrite (sf_n S1)|]. rewrite E2. cbn [obind]. assert (S12 := same_trans S1 S2).
    assert (Hh : exists h3, (if x =? y then set_head h2 o (Some n) else Some h2) = Some h3 /\ same_f h2 h3 /\ head h3 o = Some (hd_error (l1 ++ l2)) /\ (forall o', o' <> o -> head h3 o' = head h2 o') /\ (forall j, NX h3 j = NX h2 j) /\ (forall j, PV h3 j = PV h2 j)).
    { destruct (Nat.eqb_spec x y) as [->|Nx].
      - assert (l1 = []). { destruct l1 as [|z l1]; [auto|]. cbn in El. injection El as <- ->. exfalso. apply Nyl. now left. } subst l1. cbn [app] in *. rewrite app_nil_r in Hn. rewrite Hn. apply set_head_ok. exact (okslot_same _ S12 Ok).
      - exists h2. split; [auto|]. split; [apply same_refl|]. split; [|auto]. rewrite H2, H1, (rg_head R o Ok), El'. destruct l1 as [|z l1]; [cbn in El; injection El; congruence|]. cbn in El |- *. injection El as <- _. reflexivity. }
    destruct Hh as (h3 & E3 & S3 & H3 & O3 & N3 & P3). rewrite E3. cbn [obind]. assert (S13 := same_trans S12 S3). destruct (@w_nx_ok h3 y y) as (h4 & E4 & S4 & H4 & N4 & P4); [now rewrite (sf_n S13)|]. rewrite E4. cbn [obind]. assert (S14 := same_trans S13 S4).
    destruct (@w_pv_ok h4 y y) as (h5 & E5 & S5 & H5 & P5 & N5); [now rewrite (sf_n S14)|]. rewrite E5. exists h5. split; [auto|]. assert (S := same_trans S14 S5). split; [|auto].
    assert (HN : forall j, j <> y -> NX h5 j = if j =? p then Some n else NX h j) by (intros j J; rewrite N5, N4, N3, N2, N1; apply Nat.eqb_neq in J; now rewrite J).
    assert (HP : forall j, j <> y -> PV h5 j = if j =? n then Some p else PV h j) by (intros j J; rewrite P5, P4, P3, P2, P1; apply Nat.eqb_neq in J; now rewrite J). apply Fin; auto.
    + now rewrite H5, H4, H3.
    + intros o' No. rewrite H5, H4, O3, H2, H1; auto.
    + apply (ring_pop Rg Nd En Ep Nny); auto.
    + intros j J. rewrite <- El' in J. assert (j <> y) by (intros ->; apply J; rewrite El'; auto). rewrite HN, HP by auto. assert (Jp : j <> p) by (intros ->; auto). assert (Jn : j <> n) by (intros ->; auto). apply Nat.eqb_neq in Jp, Jn. now rewrite Jp, Jn.
Qed.
Arguments pop_link_ok {h L o y l1 l2} _ _.
End Fib.
Arguments push_link_ok {T d0 h L o y} _ _ _ _.
Arguments pop_link_ok {T d0 h L o y l1 l2} _ _.
Arguments rings_ext {T d0 h h' L} _ _ _ _ _ _.
Arguments same_trans {T d0 h1 h2 h3} _ _.
Arguments upd_n_ok {T} d0 h {i} f _.
