(** Binary trees in memory, with parent links: heaps of left, right and parent pointers,
    what it means that a heap holds a tree, and rotations. Shared by the models of treap.hpp
    and splay_tree.hpp. *)
From Verif Require Export Base.
From Coq Require Import Permutation.
From Verif Require Import BaseLemmas ListExtra.
Set Implicit Arguments.

(** One cell per node; [None] is a null pointer. *)
Record ph := PH { pl : list (option nat); pr : list (option nat); pp : list (option nat) }.
Definition set_pl (h : ph) (i : nat) (x : option nat) : option ph := let* l := set (pl h) i x in Some (PH l (pr h) (pp h)).
Definition set_pr (h : ph) (i : nat) (x : option nat) : option ph := let* l := set (pr h) i x in Some (PH (pl h) l (pp h)).
Definition set_pp (h : ph) (i : nat) (x : option nat) : option ph := let* l := set (pp h) i x in Some (PH (pl h) (pr h) l).
(** a null check followed by an assignment to the parent link *)
Definition set_pp_opt (h : ph) (o : option nat) (x : option nat) : option ph := match o with Some i => set_pp h i x | None => Some h end.
Definition ph_new (h : ph) : ph := PH (pl h ++ [None]) (pr h ++ [None]) (pp h ++ [None]).
Definition peq (x y : option nat) : bool := match x, y with Some a, Some b => a =? b | None, None => true | _, _ => false end.

(** * Trees and contexts *)
Inductive bt := Lf | Nd (l : bt) (i : nat) (r : bt).
Fixpoint ids (t : bt) : list nat := match t with Lf => [] | Nd l i r => ids l ++ i :: ids r end.
Fixpoint bsize (t : bt) : nat := match t with Lf => 0 | Nd l _ r => S (bsize l + bsize r) end.
Definition bptr (t : bt) : option nat := match t with Lf => None | Nd _ i _ => Some i end.
(** the hole is the left child of [i], or the right child of [i] *)
Inductive frame := FL (i : nat) (r : bt) | FR (l : bt) (i : nat).
Definition ctx := list frame.
Definition fill (f : frame) (t : bt) : bt := match f with FL i r => Nd t i r | FR l i => Nd l i t end.
Definition plug (c : ctx) (t : bt) : bt := fold_left (fun t f => fill f t) c t.
Definition fid (f : frame) : nat := match f with FL i _ | FR _ i => i end.
Definition fother (f : frame) : bt := match f with FL _ r => r | FR l _ => l end.
Definition flids (f : frame) : list nat := match f with FL _ _ => [] | FR l i => ids l ++ [i] end.
Definition frids (f : frame) : list nat := match f with FL i r => i :: ids r | FR _ _ => [] end.
Definition lids (c : ctx) : list nat := fold_left (fun a f => flids f ++ a) c [].
Definition rids (c : ctx) : list nat := fold_left (fun a f => a ++ frids f) c [].
Definition cpar (c : ctx) (rp : option nat) : option nat := match c with [] => rp | f :: _ => Some (fid f) end.

(** * The heap holds the tree: [o] points to it and its root's parent link is [par] *)
Record cell_is (h : ph) (i : nat) (l r p : option nat) : Prop := { ci_l : get (pl h) i = Some l; ci_r : get (pr h) i = Some r; ci_p : get (pp h) i = Some p }.
Fixpoint rep (h : ph) (par : option nat) (t : bt) : Prop :=
  match t with
  | Lf => True
  | Nd l i r => cell_is h i (bptr l) (bptr r) par /\ rep h (Some i) l /\ rep h (Some i) r
  end.
(** the part of the tree around the hole, whose subtree has the root pointer [o] *)
Fixpoint repc (h : ph) (rp : option nat) (c : ctx) (o : option nat) : Prop :=
  match c with
  | [] => True
  | FL i r :: c => cell_is h i o (bptr r) (cpar c rp) /\ rep h (Some i) r /\ repc h rp c (Some i)
  | FR l i :: c => cell_is h i (bptr l) o (cpar c rp) /\ rep h (Some i) l /\ repc h rp c (Some i)
  end.
Fixpoint cids (c : ctx) : list nat := match c with [] => [] | f :: c => fid f :: ids (fother f) ++ cids c end.

Lemma bptr_fill f t : bptr (fill f t) = Some (fid f). Proof. destruct f; reflexivity. Qed.
Lemma plug_rep h rp c : forall t, rep h rp (plug c t) <-> rep h (cpar c rp) t /\ repc h rp c (bptr t).
Proof.
  induction c as [|f c IH]; intros t; cbn [plug fold_left repc cpar]; [tauto|]. change (fold_left (fun t f => fill f t) c (fill f t)) with (plug c (fill f t)). rewrite IH, bptr_fill. destruct f; cbn [fill rep fid cpar]; tauto.
Qed.
Lemma plug_cons f c t : plug (f :: c) t = plug c (fill f t). Proof. reflexivity. Qed.
Lemma ids_plug_gen c : forall t a b, ids (plug c t) = fold_left (fun a f => flids f ++ a) c [] ++ ids t ++ fold_left (fun a f => a ++ frids f) c [] /\
  fold_left (fun a f => flids f ++ a) c a = lids c ++ a /\ fold_left (fun a f => a ++ frids f) c b = b ++ rids c.
Proof.
  induction c as [|f c IH]; intros t a b; [cbn; rewrite !app_nil_r; auto|]. rewrite plug_cons. unfold lids, rids. cbn [fold_left]. destruct (IH (fill f t) (flids f ++ a) (b ++ frids f)) as (E1 & E2 & E3). destruct (IH Lf (flids f ++ []) ([] ++ frids f)) as (_ & F2 & F3).
  rewrite E2, E3, F2, F3, E1. split; [|split; rewrite <- ?app_assoc; cbn; auto]. destruct f; cbn [fill ids flids frids]; rewrite ?app_nil_r, ?app_nil_l, <- ?app_assoc; reflexivity.
Qed.
Lemma ids_plug c t : ids (plug c t) = lids c ++ ids t ++ rids c.
Proof. apply (ids_plug_gen c t [] []). Qed.
Lemma lids_cons f c : lids (f :: c) = lids c ++ flids f.
Proof. unfold lids. cbn [fold_left]. rewrite app_nil_r. apply (ids_plug_gen c Lf (flids f) []). Qed.
Lemma rids_cons f c : rids (f :: c) = frids f ++ rids c.
Proof. unfold rids. cbn [fold_left]. rewrite app_nil_l. apply (ids_plug_gen c Lf [] (frids f)). Qed.
Lemma bsize_ids t : length (ids t) = bsize t.
Proof. induction t as [|l IHl i r IHr]; [auto|]. cbn. rewrite app_length. cbn. lia. Qed.
Lemma bptr_in t i : bptr t = Some i -> In i (ids t).
Proof. destruct t as [|l j r]; [discriminate|]. intros [= ->]. cbn. apply in_or_app. right. now left. Qed.

Lemma cids_lr c x : In x (cids c) <-> In x (lids c) \/ In x (rids c).
Proof.
  induction c as [|f c IH]; [cbn; tauto|]. rewrite lids_cons, rids_cons. cbn [cids]. cbn [In]. rewrite !in_app_iff, IH. destruct f; cbn; rewrite ?in_app_iff; cbn; tauto.
Qed.
Lemma plug_in c t x : In x (ids (plug c t)) <-> In x (cids c) \/ In x (ids t).
Proof. rewrite ids_plug, !in_app_iff, cids_lr. tauto. Qed.

(** ** Frames *)
Definition keep (xs : list nat) (h h' : ph) : Prop :=
  forall i, In i xs -> get (pl h') i = get (pl h) i /\ get (pr h') i = get (pr h) i /\ get (pp h') i = get (pp h) i.
Lemma cell_keep h h' i l r p : keep [i] h h' -> cell_is h i l r p -> cell_is h' i l r p.
Proof. intros K [C1 C2 C3]. destruct (K i) as (K1 & K2 & K3); [now left|]. split; congruence. Qed.
Lemma keep_sub xs ys h h' : keep ys h h' -> incl xs ys -> keep xs h h'.
Proof. intros K I i J. apply K, I, J. Qed.
Lemma rep_keep h h' t : forall par, keep (ids t) h h' -> rep h par t -> rep h' par t.
Proof.
  induction t as [|l IHl i r IHr]; intros par K R; [auto|]. cbn [ids] in K. destruct R as (C & Rl & Rr). split; [|split].
  - apply (cell_keep (h := h)); [|auto]. apply (keep_sub K). intros x [<-|[]]. apply in_or_app. right. now left.
  - apply IHl; [|auto]. apply (keep_sub K). intros x J. apply in_or_app. auto.
  - apply IHr; [|auto]. apply (keep_sub K). intros x J. apply in_or_app. right. now right.
Qed.
Arguments rep_keep {h h' t par} _ _.
Lemma repc_keep h h' rp c : forall o, keep (cids c) h h' -> repc h rp c o -> repc h' rp c o.
Proof.
  induction c as [|f c IH]; intros o K R; [auto|]. cbn [cids] in K.
  assert (K1 : keep [fid f] h h') by (apply (keep_sub K); intros x [<-|[]]; now left). assert (K2 : keep (ids (fother f)) h h') by (apply (keep_sub K); intros x J; right; apply in_or_app; auto). assert (K3 : keep (cids c) h h') by (apply (keep_sub K); intros x J; right; apply in_or_app; auto).
  destruct f; cbn [repc fid fother] in *; destruct R as (C & Rt & Rc); (split; [apply (cell_keep K1 C)|split; [apply (rep_keep K2 Rt)|auto]]).
Qed.
Arguments repc_keep {h h' rp c o} _ _.
(** only the root's parent link may change *)
Definition keep_lr (xs : list nat) (h h' : ph) : Prop := forall i, In i xs -> get (pl h') i = get (pl h) i /\ get (pr h') i = get (pr h) i.
Lemma rep_reroot h h' t par par' : NoDup (ids t) -> rep h par t -> (forall i, bptr t = Some i -> get (pp h') i = Some par') ->
  keep_lr (ids t) h h' -> (forall i, In i (ids t) -> bptr t <> Some i -> get (pp h') i = get (pp h) i) -> rep h' par' t.
Proof.
  destruct t as [|l i r]; [auto|]. intros N (C & Rl & Rr) Hp Klr Kp. cbn [bptr] in *. cbn [ids] in *. apply NoDup_remove in N as [N1 N2].
  assert (Ii : In i (ids l ++ i :: ids r)) by (apply in_or_app; right; now left). destruct (Klr i Ii) as [K1 K2]. split; [|split].
  - destruct C as [C1 C2 C3]. split; [congruence|congruence|]. now apply Hp.
  - apply (rep_keep (h := h)); [|auto]. intros x J. assert (Jx : In x (ids l ++ i :: ids r)) by (apply in_or_app; auto). destruct (Klr x Jx). split; [auto|]. split; [auto|]. apply Kp; [auto|]. intros [= <-]. apply N2, in_or_app. auto.
  - apply (rep_keep (h := h)); [|auto]. intros x J. assert (Jx : In x (ids l ++ i :: ids r)) by (apply in_or_app; right; now right). destruct (Klr x Jx). split; [auto|]. split; [auto|]. apply Kp; [auto|]. intros [= <-]. apply N2, in_or_app. auto.
Qed.

Arguments rep_reroot {h h' t par par'} _ _ _ _ _.

(** * Rotations *)
(** The links that a rotation changes: [x] takes the place of its parent [u], whose new child
    in place of [x] is the root of [b]. [dir = true]: [x] was the left child. *)
Record rotates (h h' : ph) (dir : bool) (x u : nat) (b : bt) (c : ctx) (rp : option nat) : Prop := {
  ro_u : get (if dir then pl h' else pr h') u = Some (bptr b);
  ro_x : get (if dir then pr h' else pl h') x = Some (Some u);
  ro_pu : get (pp h') u = Some (Some x);
  ro_px : get (pp h') x = Some (cpar c rp);
  ro_pb : forall j, bptr b = Some j -> get (pp h') j = Some (Some u);
  ro_c : match c with [] => True | FL i _ :: _ => get (pl h') i = Some (Some x) | FR _ i :: _ => get (pr h') i = Some (Some x) end;
  ro_l : forall i, i <> (if dir then u else x) -> (match c with FL k _ :: _ => i <> k | _ => True end) -> get (pl h') i = get (pl h) i;
  ro_r : forall i, i <> (if dir then x else u) -> (match c with FR _ k :: _ => i <> k | _ => True end) -> get (pr h') i = get (pr h) i;
  ro_p : forall i, i <> x -> i <> u -> bptr b <> Some i -> get (pp h') i = get (pp h) i }.
Definition rot_from (dir : bool) (x u : nat) (a b d : bt) : bt := if dir then Nd (Nd a x b) u d else Nd d u (Nd b x a).
Definition rot_to (dir : bool) (x u : nat) (a b d : bt) : bt := if dir then Nd a x (Nd b u d) else Nd (Nd d u b) x a.
Lemma rot_ids dir x u a b d : ids (rot_to dir x u a b d) = ids (rot_from dir x u a b d).
Proof. destruct dir; cbn; rewrite <- !app_assoc; reflexivity. Qed.

Lemma plug_perm (c t r : list nat) i : Permutation (c ++ t ++ i :: r) ((i :: r ++ c) ++ t).
Proof.
  change ((i :: r ++ c) ++ t) with (((i :: r) ++ c) ++ t). rewrite <- (app_assoc (i :: r)), (app_assoc c t). apply Permutation_app_comm.
Qed.
Lemma plug_perm2 (c t l : list nat) i : Permutation (c ++ l ++ i :: t) ((i :: l ++ c) ++ t).
Proof.
  cbn. rewrite app_assoc, <- Permutation_middle. constructor. apply Permutation_app_tail. apply Permutation_app_comm.
Qed.
Lemma NoDup_plug c t : NoDup (ids (plug c t)) -> NoDup (ids t) /\ (forall i, In i (cids c) -> In i (ids t) -> False) /\ NoDup (cids c).
Proof.
  intros N. assert (P : Permutation (ids (plug c t)) (cids c ++ ids t)).
  { clear N. revert t. induction c as [|f c IH]; intros t; [reflexivity|]. rewrite plug_cons, IH. cbn [cids]. destruct f; cbn [fill ids fid fother].
    - apply (plug_perm _ _ _ _). - apply (plug_perm2 _ _ _ _). }
  apply (Permutation_NoDup P) in N. apply NoDup_app_iff in N as (N1 & N2 & N3). split; [auto|]. split; [|auto]. intros i I J. exact (N3 i I J).
Qed.

Lemma rot_rep h h' dir x u a b d c rp : rep h rp (plug c (rot_from dir x u a b d)) -> NoDup (ids (plug c (rot_from dir x u a b d))) ->
  rotates h h' dir x u b c rp -> rep h' rp (plug c (rot_to dir x u a b d)).
Proof.
  intros R N E. apply NoDup_plug in N as (N & D & Nc). apply plug_rep in R as [R Rc]. apply plug_rep.
  assert (Kt : forall t, incl (ids t) (ids (rot_from dir x u a b d)) -> ~ In x (ids t) -> ~ In u (ids t) -> (forall j, bptr b = Some j -> ~ In j (ids t)) -> keep (ids t) h h').
  { intros t I Nx Nu Nb i J. assert (Jx : i <> x) by (intros ->; auto). assert (Ju : i <> u) by (intros ->; auto).
    assert (Jc : match c with FL k _ :: _ | FR _ k :: _ => i <> k | _ => True end). { destruct c as [|[k r|l k] c]; [auto| |]; intros ->; apply (D k); try (now left); now apply I. }
    split; [|split].
    - apply (ro_l E); [now destruct dir|]. destruct c as [|[k r|l k] c]; auto.
    - apply (ro_r E); [now destruct dir|]. destruct c as [|[k r|l k] c]; auto.
    - apply (ro_p E); auto. intros Eb. exact (Nb _ Eb J). }
  assert (Xu : x <> u /\ ~ In x (ids a) /\ ~ In x (ids b) /\ ~ In x (ids d) /\ ~ In u (ids a) /\ ~ In u (ids b) /\ ~ In u (ids d) /\ NoDup (ids b) /\ (forall j, In j (ids b) -> ~ In j (ids a) /\ ~ In j (ids d))).
  { clear - N. destruct dir; cbn [rot_from ids] in N.
    - apply NoDup_remove in N as [N Nu]. rewrite <- app_assoc in N, Nu. cbn in N, Nu. apply NoDup_remove in N as [N Nx]. rewrite !in_app_iff in *. cbn [In] in *. rewrite in_app_iff in *. apply NoDup_app_iff in N as (N1 & N2 & N3). apply NoDup_app_iff in N2 as (N4 & N5 & N6). repeat split; try (intros Hx; subst; tauto); auto. + intros Ha; apply (N3 j); auto; apply in_or_app; auto. + intros Hd; eauto.
    - apply NoDup_remove in N as [N Nu]. rewrite app_assoc in N. apply NoDup_remove in N as [N Nx]. rewrite !in_app_iff in *. cbn [In] in *. rewrite <- app_assoc in N. apply NoDup_app_iff in N as (N1 & N2 & N3). apply NoDup_app_iff in N2 as (N4 & N5 & N6). repeat split; try (intros Hx; subst; tauto); auto. + intros Ha; eauto. + intros Hd; apply (N3 j); auto; apply in_or_app; auto. }
  destruct Xu as (Xu & Xa & Xb & Xd & Ua & Ub & Ud & Nb & Dj).
  assert (Ia : incl (ids a) (ids (rot_from dir x u a b d)) /\ incl (ids b) (ids (rot_from dir x u a b d)) /\ incl (ids d) (ids (rot_from dir x u a b d)) /\ In x (ids (rot_from dir x u a b d)) /\ In u (ids (rot_from dir x u a b d))).
  { destruct dir; cbn [rot_from ids]; repeat split; try (intros i I); rewrite !in_app_iff; cbn [In]; rewrite ?in_app_iff; cbn [In]; auto 6. }
  destruct Ia as (Ia & Ib & Id & Ix & Iu).
  assert (Kb : forall j, bptr b = Some j -> ~ In j (ids a) /\ ~ In j (ids d)) by (intros j Ej; apply Dj, bptr_in, Ej).
  assert (Ka : keep (ids a) h h') by (apply Kt; auto; intros j Ej; apply Kb, Ej). assert (Kd : keep (ids d) h h') by (apply Kt; auto; intros j Ej; apply Kb, Ej).
  assert (Hc : forall i, In i (cids c) -> i <> x /\ i <> u /\ bptr b <> Some i).
  { intros i Ii. split; [intros ->; exact (D _ Ii Ix)|]. split; [intros ->; exact (D _ Ii Iu)|]. intros Ei. apply (D _ Ii). apply Ib, bptr_in, Ei. }
  assert (Cx : forall i, i = x \/ i = u \/ In i (ids b) -> match c with FL k _ :: _ | FR _ k :: _ => i <> k | _ => True end).
  { intros i Ii. destruct c as [|[k r|l k] c]; [auto| |]; intros ->; apply (D k); try (now left); destruct Ii as [-> |[-> |Ii]]; auto. }
  assert (Rb : rep h (Some x) b). { destruct dir; cbn [rot_from rep] in R; tauto. }
  assert (Rb' : rep h' (Some u) b).
  { apply (rep_reroot (h := h) (par := Some x)); auto; [intros j Ej; apply (ro_pb E), Ej| |].
    - intros i Ii. pose proof (Cx i (or_intror (or_intror Ii))) as Ci. assert (i <> x /\ i <> u) as [Hx Hu] by (split; intros ->; auto). split; [apply (ro_l E)|apply (ro_r E)]; try (destruct dir; auto; fail); destruct c as [|[k r|l k] c]; auto.
    - intros i Ii Ni. assert (i <> x /\ i <> u) as [Hx Hu] by (split; intros ->; auto). apply (ro_p E); auto. }
  pose proof (Cx x (or_introl eq_refl)) as Cxx. pose proof (Cx u (or_intror (or_introl eq_refl))) as Cuu.
  assert (El : forall y, y = x \/ y = u -> y <> (if dir then u else x) -> get (pl h') y = get (pl h) y). { intros y Hy Ny. apply (ro_l E); [auto|]. destruct c as [|[k r|l k] c]; [auto| |auto]; destruct Hy as [-> | ->]; auto. }
  assert (Er : forall y, y = x \/ y = u -> y <> (if dir then x else u) -> get (pr h') y = get (pr h) y). { intros y Hy Ny. apply (ro_r E); [auto|]. destruct c as [|[k r|l k] c]; [auto|auto|]; destruct Hy as [-> | ->]; auto. }
  split.
  - pose proof (ro_u E) as Eu. pose proof (ro_x E) as Ex. pose proof (ro_pu E) as Epu. pose proof (ro_px E) as Epx.
    destruct dir; cbn [rot_from rot_to rep bptr] in *.
    + destruct R as ([U1 U2 U3] & ([X1 X2 X3] & Ra & _) & Rd). split; [split; [rewrite El; auto|auto|auto]|]. split; [exact (rep_keep Ka Ra)|]. split; [split; [auto|rewrite Er; auto|auto]|]. split; [auto|exact (rep_keep Kd Rd)].
    + destruct R as ([U1 U2 U3] & Rd & ([X1 X2 X3] & _ & Ra)). split; [split; [auto|rewrite Er; auto|auto]|]. split; [|exact (rep_keep Ka Ra)]. split; [split; [rewrite El; auto|auto|auto]|]. split; [exact (rep_keep Kd Rd)|auto].
  - assert (Eb : bptr (rot_to dir x u a b d) = Some x) by (destruct dir; reflexivity). assert (Ef : bptr (rot_from dir x u a b d) = Some u) by (destruct dir; reflexivity). rewrite Eb. rewrite Ef in Rc.
    assert (Kc : forall xs, incl xs (cids c) -> (match c with FL k _ :: _ | FR _ k :: _ => ~ In k xs | _ => True end) -> keep xs h h').
    { intros xs I Nk i Ii. destruct (Hc i (I i Ii)) as (Hx & Hu & Hb). split; [|split].
      - apply (ro_l E); [destruct dir; auto|]. destruct c as [|[k r|l k] c]; auto. intros ->; auto.
      - apply (ro_r E); [destruct dir; auto|]. destruct c as [|[k r|l k] c]; auto. intros ->; auto.
      - apply (ro_p E); auto. }
    assert (Hl : forall i, In i (cids c) -> (match c with FL k _ :: _ => i <> k | _ => True end) -> get (pl h') i = get (pl h) i). { intros i Ii Hi. destruct (Hc i Ii) as (Hx & Hu & Hb). apply (ro_l E); [destruct dir; auto|auto]. }
    assert (Hr : forall i, In i (cids c) -> (match c with FR _ k :: _ => i <> k | _ => True end) -> get (pr h') i = get (pr h) i). { intros i Ii Hi. destruct (Hc i Ii) as (Hx & Hu & Hb). apply (ro_r E); [destruct dir; auto|auto]. }
    assert (Hp : forall i, In i (cids c) -> get (pp h') i = get (pp h) i). { intros i Ii. destruct (Hc i Ii) as (Hx & Hu & Hb). apply (ro_p E); auto. }
    pose proof (ro_c E) as Ec.
    destruct c as [|[k r|l k] c]; [exact I| |]; cbn [repc cids fid fother] in *; destruct Rc as ([C1 C2 C3] & Rt & Rc); apply NoDup_cons_iff in Nc as [Nk Nc].
    + split; [split; [auto|rewrite Hr; auto; now left|rewrite Hp; auto; now left]|]. split.
      * apply (rep_keep (h := h)); [|auto]. apply Kc; [intros i Ii; right; apply in_or_app; auto|]. intros Ik; apply Nk, in_or_app; auto.
      * apply (repc_keep (h := h)); [|auto]. apply Kc; [intros i Ii; right; apply in_or_app; auto|]. intros Ik; apply Nk, in_or_app; auto.
    + split; [split; [rewrite Hl; auto; now left|auto|rewrite Hp; auto; now left]|]. split.
      * apply (rep_keep (h := h)); [|auto]. apply Kc; [intros i Ii; right; apply in_or_app; auto|]. intros Ik; apply Nk, in_or_app; auto.
      * apply (repc_keep (h := h)); [|auto]. apply Kc; [intros i Ii; right; apply in_or_app; auto|]. intros Ik; apply Nk, in_or_app; auto.
Qed.

(** * Assignments to links *)
Definition gl (h : ph) i := get (pl h) i. Definition gr (h : ph) i := get (pr h) i. Definition gp (h : ph) i := get (pp h) i.
Lemma set_pl_ok h i x y : get (pl h) i = Some y -> exists h', set_pl h i x = Some h' /\ get (pl h') i = Some x /\ (forall j, j <> i -> get (pl h') j = get (pl h) j) /\ pr h' = pr h /\ pp h' = pp h /\ length (pl h') = length (pl h).
Proof.
  intros E. pose proof (get_some_lt _ _ E) as L. unfold set_pl. rewrite set_some by auto. cbn [obind]. eexists. split; [reflexivity|]. cbn. rewrite get_lset_eq by auto. rewrite lset_length. repeat (split; [auto|]); auto. intros j N. now apply get_lset_neq; auto.
Qed.
Lemma set_pr_ok h i x y : get (pr h) i = Some y -> exists h', set_pr h i x = Some h' /\ get (pr h') i = Some x /\ (forall j, j <> i -> get (pr h') j = get (pr h) j) /\ pl h' = pl h /\ pp h' = pp h /\ length (pr h') = length (pr h).
Proof.
  intros E. pose proof (get_some_lt _ _ E) as L. unfold set_pr. rewrite set_some by auto. cbn [obind]. eexists. split; [reflexivity|]. cbn. rewrite get_lset_eq by auto. rewrite lset_length. repeat (split; [auto|]); auto. intros j N. now apply get_lset_neq; auto.
Qed.
Lemma set_pp_ok h i x y : get (pp h) i = Some y -> exists h', set_pp h i x = Some h' /\ get (pp h') i = Some x /\ (forall j, j <> i -> get (pp h') j = get (pp h) j) /\ pl h' = pl h /\ pr h' = pr h /\ length (pp h') = length (pp h).
Proof.
  intros E. pose proof (get_some_lt _ _ E) as L. unfold set_pp. rewrite set_some by auto. cbn [obind]. eexists. split; [reflexivity|]. cbn. rewrite get_lset_eq by auto. rewrite lset_length. repeat (split; [auto|]); auto. intros j N. now apply get_lset_neq; auto.
Qed.
Lemma set_pp_opt_ok h o x : (forall i, o = Some i -> exists y, get (pp h) i = Some y) ->
  exists h', set_pp_opt h o x = Some h' /\ (forall i, o = Some i -> get (pp h') i = Some x) /\ (forall j, o <> Some j -> get (pp h') j = get (pp h) j) /\ pl h' = pl h /\ pr h' = pr h /\ length (pp h') = length (pp h).
Proof.
  intros E. destruct o as [i|].
  - destruct (E i eq_refl) as (y & Ey). destruct (set_pp_ok h i x Ey) as (h' & S1 & S2 & S3 & S4 & S5 & S6). exists h'. split; [exact S1|]. split; [intros j [= <-]; auto|]. split; [intros j N; apply S3; congruence|auto].
  - exists h. split; [reflexivity|]. split; [discriminate|]. auto.
Qed.
Lemma rep_cell h par t i : rep h par t -> In i (ids t) -> exists l r p, cell_is h i l r p.
Proof.
  revert par. induction t as [|l IHl j r IHr]; intros par R I; [destruct I|]. cbn in R, I. destruct R as (C & Rl & Rr). apply in_app_or in I as [I|[<-|I]]; eauto.
Qed.
Arguments rep_cell {h par t i} _ _.
(** the same sizes *)
Definition same_len (h h' : ph) : Prop := length (pl h') = length (pl h) /\ length (pr h') = length (pr h) /\ length (pp h') = length (pp h).
Lemma keep_trans xs h h' h'' : keep xs h h' -> keep xs h' h'' -> keep xs h h''.
Proof. intros A B i I. destruct (A i I) as (A1 & A2 & A3), (B i I) as (B1 & B2 & B3). repeat split; congruence. Qed.
Lemma keep_refl xs h : keep xs h h.
Proof. intros i _. auto. Qed.
(** what is outside a set of cells stays the same *)
Definition keep_out (xs : list nat) (h h' : ph) : Prop := forall i, ~ In i xs -> get (pl h') i = get (pl h) i /\ get (pr h') i = get (pr h) i /\ get (pp h') i = get (pp h) i.
Lemma keep_out_trans xs h h' h'' : keep_out xs h h' -> keep_out xs h' h'' -> keep_out xs h h''.
Proof. intros A B i I. destruct (A i I) as (A1 & A2 & A3), (B i I) as (B1 & B2 & B3). repeat split; congruence. Qed.
Lemma rot_keep_out h h' dir x u a b d c rp xs : rotates h h' dir x u b c rp -> incl (ids (plug c (rot_from dir x u a b d))) xs -> keep_out xs h h'.
Proof.
  intros E I i Ni. assert (N : ~ In i (ids (plug c (rot_from dir x u a b d)))) by (intros J; apply Ni, I, J). clear Ni I. rewrite plug_in in N.
  assert (Nx : i <> x) by (intros ->; apply N; right; destruct dir; cbn; rewrite ?in_app_iff; cbn; rewrite ?in_app_iff; cbn; auto 6). assert (Nu : i <> u) by (intros ->; apply N; right; destruct dir; cbn; rewrite ?in_app_iff; cbn; rewrite ?in_app_iff; cbn; auto 6). assert (Nb : bptr b <> Some i) by (intros Eb; apply bptr_in in Eb; apply N; right; destruct dir; cbn; rewrite ?in_app_iff; cbn; rewrite ?in_app_iff; cbn; auto 6).
  split; [|split].
  - apply (ro_l E); [now destruct dir|]. destruct c as [|[k r|l k] c]; auto. intros ->. apply N. left. now left.
  - apply (ro_r E); [now destruct dir|]. destruct c as [|[k r|l k] c]; auto. intros ->. apply N. left. now left.
  - apply (ro_p E); auto.
Qed.
(** the context after the link to the hole has changed *)
Lemma repc_child h h' rp f c o o' : repc h rp (f :: c) o -> NoDup (cids (f :: c)) -> keep (ids (fother f) ++ cids c) h h' ->
  get (match f with FL _ _ => pl h' | FR _ _ => pr h' end) (fid f) = Some o' ->
  get (match f with FL _ _ => pr h' | FR _ _ => pl h' end) (fid f) = get (match f with FL _ _ => pr h | FR _ _ => pl h end) (fid f) ->
  get (pp h') (fid f) = get (pp h) (fid f) -> repc h' rp (f :: c) o'.
Proof.
  intros R N Ke G1 G2 G3.
  assert (K2 : keep (ids (fother f)) h h') by (apply (keep_sub Ke); intros x J; apply in_or_app; auto). assert (K3 : keep (cids c) h h') by (apply (keep_sub Ke); intros x J; apply in_or_app; auto).
  destruct f as [i r|l i]; cbn [repc fid fother cids] in *; destruct R as ([C1 C2 C3] & Rt & Rc); (split; [split; congruence|split; [exact (rep_keep K2 Rt)|exact (repc_keep K3 Rc)]]).
Qed.
(** positions in a tree *)
Lemma find_ctx t : forall u, In u (ids t) -> exists c l r, t = plug c (Nd l u r).
Proof.
  induction t as [|l IHl i r IHr]; intros u I; [destruct I|]. cbn in I. apply in_app_or in I as [I|[<-|I]].
  - destruct (IHl u I) as (c & a & b & E). exists (c ++ [FL i r]), a, b. unfold plug in *. rewrite fold_left_app, <- E. reflexivity.
  - exists [], l, r. reflexivity.
  - destruct (IHr u I) as (c & a & b & E). exists (c ++ [FR l i]), a, b. unfold plug in *. rewrite fold_left_app, <- E. reflexivity.
Qed.
Lemma plug_app c c' t : plug (c ++ c') t = plug c' (plug c t).
Proof. apply fold_left_app. Qed.
Arguments rot_rep {h h' dir x u a b d c rp} _ _ _.
Arguments rot_keep_out {h h' dir x u a b d c rp xs} _ _.
Arguments repc_child {h h' rp f c o o'} _ _ _ _ _ _.
Arguments keep_out_trans {xs h h' h''} _ _.
Arguments NoDup_plug {c t} _.
