(** SegmentHld: the data of the nodes and what they stand for. *)
From Verif Require Import SegHldModel SegHldShape BaseLemmas NthExtra ListExtra LazySegProp.
Set Implicit Arguments.

Section Seg.
Variables (M A : Type) (op : M -> M -> M) (e : M) (comp : A -> A -> A) (aid : A) (act : A -> M -> M).
Hypothesis Mon : monoid_laws op e.
Hypothesis Act : action_laws op comp aid act.
Notation sd := (sd M A).
Notation prod := (product op e).
Implicit Types (D : list sd) (t L R : gt).
Variables (T : list sn) (tg : list nat).
Notation grep := (grep T tg).

Definition dg D (u : nat) : sd := nth u D (SD e e aid).
Fixpoint den D t : list M :=
  match t with
  | GL u => [act (sa (dg D u)) (sm (dg D u))]
  | GN u L R => map (act (sa (dg D u))) (den D L ++ den D R)
  end.
(** products of a node's children, without its own pending operator *)
Definition inner D t : list M := match t with GL u => [sm (dg D u)] | GN u L R => den D L ++ den D R end.
Fixpoint val D t : Prop :=
  sm (dg D (gid t)) = prod (inner D t) /\ srm (dg D (gid t)) = prod (rev (inner D t)) /\
  match t with GL u => True | GN u L R => val D L /\ val D R end.
Definition clean D (u : nat) : Prop := forall v, act (sa (dg D u)) v = v.
Definition same D D' t : Prop := forall u, In u (gids t) -> dg D' u = dg D u.
(** outside of a tree *)
Definition frame D D' t : Prop := length D' = length D /\ forall u, ~ In u (gids t) -> dg D' u = dg D u.

Lemma den_inner D t : den D t = map (act (sa (dg D (gid t)))) (inner D t).
Proof. destruct t; reflexivity. Qed.
Lemma den_clean D t : clean D (gid t) -> den D t = inner D t.
Proof. intros C. rewrite den_inner. rewrite <- (map_id (inner D t)) at 2. apply map_ext. exact C. Qed.
Lemma den_same D D' t : same D D' t -> den D' t = den D t.
Proof.
  induction t as [u|u L IL R IR]; intros S; cbn; [rewrite S by (now left); auto|]. rewrite S by (now left). rewrite IL, IR; auto; intros v I; apply S; right; apply in_or_app; auto.
Qed.
Lemma inner_same D D' t : same D D' t -> inner D' t = inner D t.
Proof.
  destruct t as [u|u L R]; intros S; cbn; [rewrite S by (now left); auto|]. rewrite !(@den_same D D'); auto; intros v I; apply S; right; apply in_or_app; auto.
Qed.
Lemma val_same D D' t : same D D' t -> val D t -> val D' t.
Proof.
  induction t as [u|u L IL R IR]; intros S (V1 & V2 & V3); cbn [val]; rewrite (inner_same S); cbn [gid] in *; rewrite S by (now left); (split; [auto|split; [auto|]]); auto. destruct V3. split; [apply IL|apply IR]; auto; intros v I; apply S; right; apply in_or_app; auto.
Qed.
Lemma den_length D t : forall l r p, grep t l r p -> length (den D t) = r - l.
Proof.
  induction t as [u|u L IL R IR]; intros l r p H; cbn; [destruct H as (_ & -> & _); lia|]. destruct H as (m & _ & HL & HR). rewrite map_length, app_length, (IL _ _ _ HL), (IR _ _ _ HR). apply grep_lt in HL, HR. lia.
Qed.
Lemma inner_nonempty D t : inner D t <> [].
Proof.
  assert (N : forall t, den D t <> []). { clear. intros t. induction t as [u|u L IL R IR]; cbn; [discriminate|]. destruct (den D L); [contradiction|discriminate]. }
  destruct t as [u|u L R]; cbn; [discriminate|]. specialize (N L). destruct (den D L); [contradiction|discriminate].
Qed.
Lemma prod_act a s : s <> [] -> prod (map (act a) s) = act a (prod s).
Proof.
  induction s as [|x s IH]; intros N; [contradiction|]. destruct s as [|y s]; [cbn; now rewrite !(mon_right Mon)|]. change (prod (map (act a) (x :: y :: s))) with (op (act a x) (prod (map (act a) (y :: s)))). rewrite IH by discriminate. change (prod (x :: y :: s)) with (op x (prod (y :: s))). now rewrite (act_distr _ _ _ _ Act).
Qed.
Lemma root_prod D t : val D t -> clean D (gid t) -> sm (dg D (gid t)) = prod (den D t) /\ srm (dg D (gid t)) = prod (rev (den D t)).
Proof. intros V C. rewrite (den_clean _ C). destruct t; destruct V as (V1 & V2 & _); auto. Qed.

(** ** the node operations *)
Lemma dg_get D u : u < length D -> get D u = Some (dg D u).
Proof. apply get_nth. Qed.
Lemma dg_lset D u d v : u < length D -> dg (lset D u d) v = if u =? v then d else dg D v.
Proof. intros L. unfold dg. rewrite nth_lset. destruct (Nat.ltb_spec u (length D)); [|lia]. now rewrite andb_true_r. Qed.
Lemma dg_eq D u d : u < length D -> dg (lset D u d) u = d.
Proof. intros L. rewrite dg_lset by auto. now rewrite Nat.eqb_refl. Qed.
Lemma dg_neq D u d v : u < length D -> u <> v -> dg (lset D u d) v = dg D v.
Proof. intros L N. rewrite dg_lset by auto. apply Nat.eqb_neq in N. now rewrite N. Qed.
Lemma set_eq D u x : u < length D -> n_set D u x = Some (lset D u (SD x x (sa (dg D u)))).
Proof. intros L. unfold n_set. rewrite (dg_get _ L). cbn [obind]. now apply set_some. Qed.
Lemma take_eq D u a b : u < length D -> a < length D -> b < length D ->
  n_take op D u a b = Some (lset D u (SD (op (sm (dg D a)) (sm (dg D b))) (op (srm (dg D b)) (srm (dg D a))) (sa (dg D u)))).
Proof. intros L1 L2 L3. unfold n_take. rewrite (dg_get _ L2). cbn [obind]. rewrite (dg_get _ L3). cbn [obind]. rewrite (dg_get _ L1). cbn [obind]. now apply set_some. Qed.
Lemma put_eq D u f : u < length D -> put_a D u f = Some (lset D u (SD (sm (dg D u)) (srm (dg D u)) (f (sa (dg D u))))).
Proof. intros L. unfold put_a. rewrite (dg_get _ L). cbn [obind]. now apply set_some. Qed.
Lemma gid_in t : In (gid t) (gids t).
Proof. destruct t; cbn; auto. Qed.
Lemma frame_refl D t : frame D D t.
Proof. split; auto. Qed.
Lemma frame_trans D1 D2 D3 t : frame D1 D2 t -> frame D2 D3 t -> frame D1 D3 t.
Proof. intros [L1 F1] [L2 F2]. split; [congruence|]. intros u N. now rewrite F2, F1. Qed.
Lemma frame_sub D D' t t' : frame D D' t -> incl (gids t) (gids t') -> frame D D' t'.
Proof. intros [L F] I. split; [auto|]. intros u N. apply F. intros J. apply N, I, J. Qed.
Lemma frame_lset D u d t : In u (gids t) -> u < length D -> frame D (lset D u d) t.
Proof. intros I L. split; [apply lset_length|]. intros v N. apply dg_neq; [auto|]. intros ->. contradiction. Qed.
Lemma frame_same D D' t t' : frame D D' t -> (forall u, In u (gids t') -> ~ In u (gids t)) -> same D D' t'.
Proof. intros [_ F] N u I. apply F, N, I. Qed.
Lemma in_len D t l r p u : grep t l r p -> length D = length T -> In u (gids t) -> u < length D.
Proof. intros H E I. destruct (grep_in _ _ _ _ _ _ H _ I) as (x & G & _). rewrite E. exact (get_some_lt _ _ G). Qed.
Lemma take_ok D u L R l r p : grep (GN u L R) l r p -> length D = length T -> clean D u -> val D L -> val D R -> clean D (gid L) -> clean D (gid R) ->
  exists D', n_take op D u (gid L) (gid R) = Some D' /\ frame D D' (GN u L R) /\ val D' (GN u L R) /\ clean D' u /\ den D' (GN u L R) = den D L ++ den D R.
Proof.
  intros H E C VL VR CL CR. pose proof (grep_nodup _ _ _ _ _ _ H) as N. cbn in N. apply NoDup_cons_iff in N as [N _].
  assert (I : forall v, In v (gids (GN u L R)) -> v < length D) by (intros v; exact (@in_len D _ _ _ _ v H E)).
  assert (Il : gid L < length D) by (apply I; right; apply in_or_app; left; apply gid_in). assert (Ir : gid R < length D) by (apply I; right; apply in_or_app; right; apply gid_in). assert (Iu : u < length D) by (apply I; now left).
  rewrite take_eq by auto. eexists. split; [reflexivity|]. set (d := SD _ _ _). assert (SL : same D (lset D u d) L). { intros v J. apply dg_neq; [auto|]. intros ->. apply N, in_or_app. auto. } assert (SR : same D (lset D u d) R). { intros v J. apply dg_neq; [auto|]. intros ->. apply N, in_or_app. auto. }
  assert (C' : clean (lset D u d) u) by (unfold clean; rewrite dg_eq by auto; exact C).
  split; [apply frame_lset; auto; now left|]. split; [|split; [auto|rewrite (den_clean (GN u L R) C'); cbn; now rewrite (den_same SL), (den_same SR)]].
  cbn [val gid inner]. rewrite dg_eq by auto. rewrite (den_same SL), (den_same SR). destruct (root_prod _ VL CL) as [P1 P2], (root_prod _ VR CR) as [P3 P4]. split; [unfold d; cbn [sm]; now rewrite P1, P3, (product_app Mon)|]. split; [unfold d; cbn [srm]; now rewrite P2, P4, rev_app_distr, (product_app Mon)|]. split; [exact (val_same SL VL)|exact (val_same SR VR)].
Qed.
Variable isop : A -> bool.
Hypothesis Isop : forall a, isop a = false -> forall v, act a v = v.
Lemma prop_ok tgs D0 D t l r p : let s := Seg T tgs D0 in grep t l r p -> length D = length T -> val D t ->
  exists D', lg_prop comp aid act isop s (gid t) D = Some D' /\ frame D D' t /\ val D' t /\ clean D' (gid t) /\ den D' t = den D t.
Proof.
  intros s H E V. unfold lg_prop. assert (I : forall v, In v (gids t) -> v < length D) by (intros v; exact (@in_len D _ _ _ _ v H E)). rewrite (dg_get D) by apply I, gid_in. cbn [obind]. set (a := sa (dg D (gid t))).
  destruct (isop a) eqn:Ea; cbn [negb]; [|exists D; split; [auto|]; split; [apply frame_refl|]; split; [auto|]; split; [exact (@Isop _ Ea)|auto]].
  rewrite set_some by apply I, gid_in. cbn [obind]. cbn [sg_T s]. destruct t as [u|u L R].
  - destruct H as (G & Er & _). cbn [gid] in *. rewrite G. cbn [obind]. unfold ssize. cbn [sl sr]. destruct (Nat.ltb_spec 1 (r - l)) as [|_]; [lia|]. cbn [obind]. assert (Iu : u < length D) by (apply I; now left). rewrite put_eq by (now rewrite lset_length). rewrite lset_lset, !dg_eq by auto. cbn [sm srm sa].
    eexists. split; [reflexivity|]. split; [apply frame_lset; [now left|auto]|]. destruct V as (V1 & V2 & _). cbn in V1, V2. rewrite (mon_right Mon) in V2. unfold clean. cbn [val gid inner den]. rewrite dg_eq by auto. cbn [sm srm sa]. split; [cbn; rewrite (mon_right Mon), V2; auto|]. split; [exact (act_unit _ _ _ _ Act)|]. now rewrite (act_unit _ _ _ _ Act).
  - pose proof (grep_nodup _ _ _ _ _ _ H) as N. cbn in N. apply NoDup_cons_iff in N as [N Nd]. apply NoDup_app_iff in Nd as (NL & NR & Nd). pose proof H as H0. destruct H as (m & G & HL & HR). cbn [gid] in *. rewrite G. cbn [obind]. unfold ssize. cbn [sl sr slc src]. pose proof (grep_lt _ _ _ _ _ _ HL). pose proof (grep_lt _ _ _ _ _ _ HR). destruct (Nat.ltb_spec 1 (r - l)) as [_|]; [|lia]. cbn [obind].
    assert (Iu : u < length D) by (apply I; now left). assert (Il : gid L < length D) by (apply I; right; apply in_or_app; left; apply gid_in). assert (Ir : gid R < length D) by (apply I; right; apply in_or_app; right; apply gid_in).
    assert (Nul : u <> gid L) by (intros Q; apply N, in_or_app; left; rewrite Q; apply gid_in). assert (Nur : u <> gid R) by (intros Q; apply N, in_or_app; right; rewrite Q; apply gid_in). assert (Nlr : gid L <> gid R) by (intros Q; apply (Nd (gid L)); [apply gid_in|rewrite Q; apply gid_in]).
    rewrite put_eq by (now rewrite lset_length). cbn [obind]. rewrite put_eq by (now rewrite !lset_length). cbn [obind]. rewrite put_eq by (now rewrite !lset_length).
    eexists. split; [reflexivity|]. match goal with |- frame _ ?d _ /\ _ => set (D' := d) end.
    assert (Q : forall v, dg D' v = if u =? v then SD (act a (sm (dg D u))) (act a (srm (dg D u))) aid else if gid L =? v then SD (sm (dg D v)) (srm (dg D v)) (comp (sa (dg D v)) a) else if gid R =? v then SD (sm (dg D v)) (srm (dg D v)) (comp (sa (dg D v)) a) else dg D v).
    { intros v. unfold D'. rewrite !dg_lset by (rewrite ?lset_length; auto). rewrite ?Nat.eqb_refl. cbn [sm srm sa].
      repeat (match goal with |- context [?x =? ?y] => destruct (Nat.eqb_spec x y); try congruence end; cbn [sm srm sa]); subst; auto; congruence. }
    assert (QL : forall v, In v (gids L) -> dg D' v = if gid L =? v then SD (sm (dg D v)) (srm (dg D v)) (comp (sa (dg D v)) a) else dg D v). { intros v J. rewrite Q. destruct (Nat.eqb_spec u v) as [->|_]; [exfalso; apply N, in_or_app; auto|]. destruct (Nat.eqb_spec (gid L) v); [auto|]. destruct (Nat.eqb_spec (gid R) v) as [<-|_]; [exfalso; apply (Nd (gid R)); [auto|apply gid_in]|auto]. }
    assert (QR : forall v, In v (gids R) -> dg D' v = if gid R =? v then SD (sm (dg D v)) (srm (dg D v)) (comp (sa (dg D v)) a) else dg D v). { intros v J. rewrite Q. destruct (Nat.eqb_spec u v) as [->|_]; [exfalso; apply N, in_or_app; auto|]. destruct (Nat.eqb_spec (gid L) v) as [<-|_]; [exfalso; apply (Nd (gid L)); [apply gid_in|auto]|auto]. }
    assert (P : forall t, NoDup (gids t) -> (forall v, In v (gids t) -> dg D' v = if gid t =? v then SD (sm (dg D v)) (srm (dg D v)) (comp (sa (dg D v)) a) else dg D v) -> val D t -> val D' t /\ den D' t = map (act a) (den D t)).
    { clear - Act. intros t Nt Qt V. assert (Ei : inner D' t = inner D t). { destruct t as [v|v L1 R1]; cbn [inner]; [rewrite Qt by (now left); cbn [gid]; now rewrite Nat.eqb_refl|]. cbn in Nt. apply NoDup_cons_iff in Nt as [Nv Nt]. rewrite !(@den_same D D'); auto; intros w J; rewrite Qt by (right; apply in_or_app; auto); cbn [gid]; (destruct (Nat.eqb_spec v w) as [->|]; [exfalso; apply Nv, in_or_app; auto|auto]). }
      rewrite !den_inner, Ei, map_map. rewrite (Qt (gid t)) by apply gid_in. rewrite Nat.eqb_refl. cbn [sa]. split; [|apply map_ext; intros x; apply (act_compose _ _ _ _ Act)].
      destruct t as [v|v L1 R1]; cbn [val gid] in *; rewrite Ei, (Qt v) by (now left); cbn [gid]; rewrite Nat.eqb_refl; cbn [sm srm]; destruct V as (V1 & V2 & V3); repeat split; auto; [apply (@val_same D D'); [|tauto]|apply (@val_same D D'); [|tauto]]; cbn in Nt; apply NoDup_cons_iff in Nt as [Nv Nt]; intros w J; rewrite Qt by (right; apply in_or_app; auto); cbn [gid]; (destruct (Nat.eqb_spec v w) as [->|]; [exfalso; apply Nv, in_or_app; auto|auto]). }
    destruct V as (V1 & V2 & V3 & V4). destruct (P L NL QL V3) as [VL EL]. destruct (P R NR QR V4) as [VR ER].
    assert (C : clean D' u) by (unfold clean; rewrite Q, Nat.eqb_refl; exact (act_unit _ _ _ _ Act)).
    split; [|split; [|split; [auto|]]].
    + split; [unfold D'; now rewrite !lset_length|]. intros v Nv. rewrite Q. destruct (Nat.eqb_spec u v) as [->|_]; [exfalso; apply Nv; now left|]. destruct (Nat.eqb_spec (gid L) v) as [<-|_]; [exfalso; apply Nv; right; apply in_or_app; left; apply gid_in|]. destruct (Nat.eqb_spec (gid R) v) as [<-|_]; [exfalso; apply Nv; right; apply in_or_app; right; apply gid_in|auto].
    + cbn [val gid inner] in *. rewrite Q, Nat.eqb_refl. cbn [sm srm]. rewrite EL, ER, <- map_app, <- map_rev. pose proof (@inner_nonempty D (GN u L R)) as Ne. cbn [inner] in Ne. rewrite !prod_act; auto; [|intros Q2; apply Ne; rewrite <- (rev_involutive (den D L ++ den D R)), Q2; reflexivity]. rewrite V1, V2. auto.
    + rewrite (den_clean (GN u L R) C). cbn [inner den]. now rewrite EL, ER, <- map_app.
Qed.
End Seg.
