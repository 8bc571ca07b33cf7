(** Link-cut trees: propagate and aggregate, and memories that hold several splay trees. *)
From Coq Require Import Permutation.
From Verif Require Import LctModel SplayRot SplayTree SplaySplay SplayList BaseLemmas ListExtra LazySegProp.
Set Implicit Arguments.

Section Lct.
Variables (M A : Type) (op : M -> M -> M) (e : M) (comp : A -> A -> A) (aid : A) (act : A -> M -> M).
Hypothesis Mon : monoid_laws op e.
Hypothesis Act : action_laws op comp aid act.
Notation nd := (nd M A).
Notation sh := (sh M A).
Notation den := (den act).
Notation val := (val op e act false).
Notation valc := (valc op e act false).
Notation clean := (clean act).
Notation ST := (@ST M A).
Notation prodl := (prodl op e).
Notation Dh := (Dh e aid).
Notation lct_prop := (@lct_prop M A comp aid act).
Notation lct_agg := (@lct_agg M A op).
Notation lct_splay := (lct_splay op comp aid act).
Implicit Types (D : nat -> nd) (h : sh) (t l r : bt).

Lemma child_ok h i t : rep (sk h) (Some i) t -> is_child h i (bptr t) = Some (match t with Lf => false | _ => true end).
Proof. destruct t as [|a j b]; [auto|]. intros ([_ _ C] & _). cbn. rewrite C. cbn [obind]. now rewrite peq_refl. Qed.
Lemma upd_if_ok h t g : upd_if (match t with Lf => false | _ => true end) h (bptr t) g = upd_opt h (bptr t) g.
Proof. now destruct t. Qed.
Lemma get_if_ok h t : get_if (match t with Lf => false | _ => true end) h (bptr t) = get_opt h (bptr t).
Proof. now destruct t. Qed.
Lemma lct_prop_ok : prop_spec op e act false lct_prop.
Proof.
  intros X h D rp c l i r S. assert (E : lct_prop h i = propagate comp aid act h i).
  { pose proof (st_rep S) as R. apply plug_rep in R as [([C1 C2 C3] & Rl & Rr) _]. unfold LctModel.lct_prop, propagate. rewrite C1. cbn [obind]. rewrite C2. cbn [obind]. rewrite (child_ok h i l Rl). cbn [obind]. rewrite (child_ok h i r Rr). cbn [obind].
    destruct l, r; reflexivity. }
  rewrite E. exact (propagate_ok Mon Act false c l i r S).
Qed.
Lemma lct_agg_ok : agg_spec op e act false lct_agg.
Proof.
  intros X h D rp c l i r S Ci Vl Vr. pose proof (st_rep S) as R0. destruct (NoDup_plug (st_nodup S)) as (N & Dj & Nc). apply plug_rep in R0 as [([C1 C2 C3] & Rl & Rr) Rc].
  assert (Ii : In i X) by (apply (st_in S), plug_in; right; cbn; apply in_or_app; right; now left).
  assert (Il : forall j, bptr l = Some j -> In j X) by (intros j Ej; apply bptr_in in Ej; apply (st_in S), plug_in; right; cbn; apply in_or_app; auto).
  assert (Ir : forall j, bptr r = Some j -> In j X) by (intros j Ej; apply bptr_in in Ej; apply (st_in S), plug_in; right; cbn; apply in_or_app; right; now right).
  unfold LctModel.lct_agg. rewrite C1. cbn [obind]. rewrite C2. cbn [obind]. rewrite (child_ok h i l Rl). cbn [obind]. rewrite (child_ok h i r Rr). cbn [obind]. rewrite !get_if_ok.
  assert (G : forall t, (forall j, bptr t = Some j -> In j X) -> get_opt h (bptr t) = Some (match t with Lf => None | Nd _ j _ => Some (D j) end)). { intros t It. destruct t as [|a j b]; [auto|]. cbn. rewrite (st_dat S); [auto|]. apply It. reflexivity. }
  rewrite !G by auto. cbn [obind]. set (dl := match l with Lf => None | Nd _ j _ => Some (D j) end). set (dr := match r with Lf => None | Nd _ j _ => Some (D j) end).
  destruct (upd_ok (lagg_node op dl dr) (st_dat S) Ii) as (h' & U & Da & K & L & O). exists h', (fupd D i (lagg_node op dl dr (D i))). split; [exact U|].
  assert (Hx : hext X h h') by (apply hext_of; [rewrite K; apply keep_out_refl|rewrite K; apply same_len_refl|auto|auto]).
  split; [split; [rewrite K; apply (st_rep S)|apply (st_ids S)|apply (st_nodup S)|exact Da|rewrite K; apply (st_rp S)]|]. split; [auto|]. split; [auto|]. split; [intros j Nj; now apply fupd_neq|].
  assert (Dq : deq D (fupd D i (lagg_node op dl dr (D i)))). { intros j. destruct (Nat.eq_dec j i) as [->|Nj]; [rewrite fupd_eq; unfold lagg_node, lagg_l, lagg_r; destruct dl, dr; cbn; auto|rewrite fupd_neq by auto; auto]. }
  split; [auto|]. split; [|split; apply (val_ext (D := D)); auto; intros j J; apply fupd_neq; intros ->; dis N i].
  unfold sok. rewrite (den_deq _ Dq), fupd_eq, (den_clean _ _ Ci). split; [discriminate|].
  assert (Hl : match dl with None => den D l = [] | Some d => nprod d = prodl (den D l) /\ nrprod d = prodl (List.rev (den D l)) end). { apply sok_val in Vl. destruct l as [|a j b]; cbn [dl]; [cbn; auto|exact (proj2 Vl)]. }
  assert (Hr : match dr with None => den D r = [] | Some d => nprod d = prodl (den D r) /\ nrprod d = prodl (List.rev (den D r)) end). { apply sok_val in Vr. destruct r as [|a j b]; cbn [dr]; [cbn; auto|exact (proj2 Vr)]. }
  clearbody dl dr. rewrite rev_app_distr. cbn [List.rev]. rewrite !(prodl_app Mon). change ((i, nm (D i)) :: den D r) with ([(i, nm (D i))] ++ den D r). rewrite !(prodl_app Mon), (prodl_one Mon). unfold lagg_node, lagg_l, lagg_r.
  destruct dl as [dl|], dr as [dr|]; cbn [nsum nprod nrprod];
    [destruct Hl as (L2 & L3), Hr as (R2 & R3)|destruct Hl as (L2 & L3); rewrite Hr|destruct Hr as (R2 & R3); rewrite Hl|rewrite Hl, Hr]; cbn [List.rev]; change (prodl []) with e; rewrite ?L2, ?L3, ?R2, ?R3, ?(mon_right Mon), ?(mon_left Mon), ?(mon_assoc Mon); auto.
Qed.

(** * Several trees: each with the parent link of its root *)
Definition tids (ts : list (bt * option nat)) : list nat := flat_map (fun p => ids (fst p)) ts.
Record forest h (n : nat) (ts : list (bt * option nat)) : Prop := {
  fo_rep : forall t rp, In (t, rp) ts -> rep (sk h) rp t;
  fo_val : forall t rp, In (t, rp) ts -> val (Dh h) t;
  fo_nodup : NoDup (tids ts);
  fo_all : forall i, In i (tids ts) <-> i < n;
  fo_len : length (sd h) = n }.
Lemma tids_app a b : tids (a ++ b) = tids a ++ tids b.
Proof. apply flat_map_app. Qed.
Lemma tids_in ts i : In i (tids ts) <-> exists t rp, In (t, rp) ts /\ In i (ids t).
Proof.
  unfold tids. rewrite in_flat_map. split; [intros ((t & rp) & I & J); eauto|intros (t & rp & I & J); exists (t, rp); auto].
Qed.
Lemma tids_perm a b : Permutation a b -> Permutation (tids a) (tids b).
Proof. intros P. unfold tids. rewrite !flat_map_concat_map. induction P; cbn; auto; [now apply Permutation_app_head|rewrite !app_assoc; apply Permutation_app_tail, Permutation_app_comm|etransitivity; eauto]. Qed.
Lemma forest_perm h n a b : Permutation a b -> forest h n a -> forest h n b.
Proof.
  intros P [F1 F2 F3 F4 F5]. split; auto.
  - intros t rp I. apply F1. exact (Permutation_in _ (Permutation_sym P) I).
  - intros t rp I. apply (F2 t rp). exact (Permutation_in _ (Permutation_sym P) I).
  - exact (Permutation_NoDup (tids_perm P) F3).
  - intros i. rewrite <- F4. split; apply Permutation_in; [apply Permutation_sym|]; now apply tids_perm.
Qed.
(** the tree of a node, taken to the front *)
Lemma forest_find h n ts u : forest h n ts -> u < n -> exists t rp ts', Permutation ts ((t, rp) :: ts') /\ In u (ids t).
Proof.
  intros F L. apply (fo_all F) in L. apply tids_in in L as (t & rp & I & J). apply in_split in I as (a & b & ->). exists t, rp, (a ++ b). split; [apply Permutation_sym, Permutation_middle|auto].
Qed.
Lemma forest_dat h n ts X : forest h n ts -> incl X (tids ts) -> dat h (Dh h) X.
Proof.
  intros F I i J. apply I, (fo_all F) in J. rewrite <- (fo_len F) in J. destruct (@get_lt _ (sd h) i J) as (x & G). rewrite G. f_equal. symmetry. apply nth_error_nth. exact G.
Qed.
Lemma forest_rpok h n t rp ts : forest h n ((t, rp) :: ts) -> (forall w, rp = Some w -> w < n /\ ~ In w (ids t)) -> rpok (sk h) rp (ids t).
Proof.
  intros F W. destruct rp as [w|]; [|exact I]. destruct (W w eq_refl) as [L Nw]. split; [auto|]. apply (fo_all F) in L. cbn [tids flat_map fst] in L. apply in_app_or in L as [L|L]; [contradiction|].
  change (In w (tids ts)) in L. apply tids_in in L as (t2 & rp2 & I2 & J2). destruct (find_ctx _ _ J2) as (c & a & b & ->). pose proof (fo_rep F (plug c (Nd a w b)) rp2 (or_intror I2)) as R. apply plug_rep in R as [([C1 C2 C3] & _) _].
  exists (bptr a), (bptr b). split; [auto|]. split; [auto|]. pose proof (fo_nodup F) as N. cbn [tids flat_map fst] in N. apply NoDup_app_iff in N as (_ & _ & N).
  assert (Q : forall i, In i (ids (Nd a w b)) -> ~ In i (ids t)). { intros i Ii Ji. apply (N i Ji). change (In i (tids ts)). apply tids_in. exists (plug c (Nd a w b)), rp2. split; [auto|]. apply plug_in. auto. }
  split; intros i Ei; apply Q; apply bptr_in in Ei; cbn; rewrite in_app_iff; cbn; auto.
Qed.
Lemma forest_ST h n t rp ts : forest h n ((t, rp) :: ts) -> (forall w, rp = Some w -> w < n /\ ~ In w (ids t)) -> ST (ids t) h (Dh h) rp t.
Proof.
  intros F W. pose proof (fo_nodup F) as N. cbn [tids flat_map fst] in N. apply NoDup_app_iff in N as (N & _). split; auto.
  - apply (fo_rep F). now left.
  - apply (forest_dat F). intros i Ii. cbn [tids flat_map fst]. apply in_or_app. auto.
  - exact (forest_rpok F W).
Qed.
(** what is outside a set of nodes stays *)
Lemma forest_other h n us ts h' X : forest h n (us ++ ts) -> hext X h h' -> incl X (tids us) -> forall t rp, In (t, rp) ts -> rep (sk h') rp t /\ den (Dh h') t = den (Dh h) t /\ val (Dh h') t.
Proof.
  intros F (K & _ & _ & O) I t rp It.
  assert (Q : forall i, In i (ids t) -> ~ In i X). { intros i Ii Xi. apply I in Xi. pose proof (fo_nodup F) as N. rewrite tids_app in N. apply NoDup_app_iff in N as (_ & _ & N). apply (N i Xi). apply tids_in. eauto. }
  assert (Ed : forall j, In j (ids t) -> Dh h' j = Dh h j). { intros j J. apply Dh_same. apply O, Q, J. }
  split; [|split].
  - apply (rep_keep (h := sk h)); [|apply (fo_rep F); apply in_or_app; auto]. intros i Ii. apply K, Q, Ii.
  - now apply den_ext.
  - apply (val_ext (D := Dh h)); [auto|]. apply (fo_val F t rp). apply in_or_app. auto.
Qed.
Lemma forest_put h n us ts h' us' : forest h n (us ++ ts) -> hext (tids us) h h' -> Permutation (tids us) (tids us') ->
  (forall t rp, In (t, rp) us' -> rep (sk h') rp t /\ val (Dh h') t) -> forest h' n (us' ++ ts).
Proof.
  intros F Hx P H. pose proof (forest_other us ts F Hx (incl_refl _)) as O. split.
  - intros t rp I. apply in_app_or in I as [I|I]; [apply H, I|apply O, I].
  - intros t rp I. apply in_app_or in I as [I|I]; [apply (H t rp I)|apply (O t rp I)].
  - rewrite tids_app. apply (Permutation_NoDup (l := tids us ++ tids ts)); [now apply Permutation_app_tail|]. rewrite <- tids_app. apply (fo_nodup F).
  - intros i. rewrite <- (fo_all F), !tids_app, !in_app_iff. split; intros [I|I]; auto; left; [apply (Permutation_in _ (Permutation_sym P) I)|apply (Permutation_in _ P I)].
  - destruct Hx as (_ & _ & L & _). rewrite L. apply (fo_len F).
Qed.
(** one tree is replaced *)
Lemma forest_put1 h n t rp ts h' D' t' : forest h n ((t, rp) :: ts) -> hext (ids t) h h' -> ST (ids t) h' D' rp t' -> val D' t' ->
  forest h' n ((t', rp) :: ts) /\ den (Dh h') t' = den D' t' /\ (forall i, In i (ids t') -> Dh h' i = D' i) /\ (forall t2 rp2, In (t2, rp2) ts -> den (Dh h') t2 = den (Dh h) t2).
Proof.
  intros F Hx S V.
  assert (C2 : forall i, In i (ids t') -> Dh h' i = D' i) by (intros j J; apply (dat_Dh e aid (st_dat S)), (st_in S), J).
  assert (C3 : den (Dh h') t' = den D' t') by now apply den_ext.
  assert (C4 : val (Dh h') t') by (apply (val_ext (D := D')); auto).
  assert (Tu : tids [(t, rp)] = ids t) by (cbn; apply app_nil_r). assert (Tu' : tids [(t', rp)] = ids t') by (cbn; apply app_nil_r).
  split; [|split; [exact C3|split; [exact C2|]]].
  - apply (@forest_put h n [(t, rp)] ts h' [(t', rp)] F); [now rewrite Tu|rewrite Tu, Tu'; apply (st_ids S)|]. intros t2 rp2 [[= <- <-]|[]]. split; [apply (st_rep S)|auto].
  - intros t2 rp2 I. apply (@forest_other h n [(t, rp)] ts h' (ids t) F Hx) with (rp := rp2); [|auto]. rewrite Tu. apply incl_refl.
Qed.

Lemma val_plug D c t : val D (plug c t) -> valc D c /\ val D t.
Proof.
  revert t. induction c as [|f c IH]; intros t V; [split; [constructor|auto]|]. rewrite plug_cons in V. apply IH in V as [Vc V]. destruct f; cbn [fill SplayTree.val] in V; destruct V as (_ & V1 & V2); (split; [constructor|]; auto).
Qed.
Lemma forest_splay h n t rp ts u : forest h n ((t, rp) :: ts) -> (forall w, rp = Some w -> w < n /\ ~ In w (ids t)) -> In u (ids t) ->
  exists h' l r, lct_splay h u = Some h' /\ forest h' n ((Nd l u r, rp) :: ts) /\ clean (Dh h') u /\ den (Dh h') (Nd l u r) = den (Dh h) t /\ (forall t2 rp2, In (t2, rp2) ts -> den (Dh h') t2 = den (Dh h) t2).
Proof.
  intros F W I. pose proof (forest_ST F W) as S. pose proof (fo_val F t rp (or_introl eq_refl)) as V. destruct (find_ctx _ _ I) as (c & l & r & ->). destruct (val_plug _ _ _ V) as (Vc & _ & Vl & Vr).
  destruct (splay_ok lct_prop_ok lct_agg_ok S Vc Vl Vr) as (h' & D' & l' & r' & E & S' & Hx & Cl & V' & De). exists h', l', r'. destruct (forest_put1 F Hx S' V') as (F' & D1 & D2 & D3). split; [exact E|]. split; [exact F'|]. split; [|split; [congruence|exact D3]].
  apply (clean_ext (D := D')); [|auto]. apply D2. cbn. apply in_or_app. right. now left.
Qed.
End Lct.
