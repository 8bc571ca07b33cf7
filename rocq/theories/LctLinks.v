(** Link-cut trees: the changes of links between splay trees. *)
From Coq Require Import Permutation.
From Verif Require Import LctModel LctForest SplayRot SplayTree SplaySplay SplayList BaseLemmas ListExtra LazySegProp.
Set Implicit Arguments.

Section Lct.
Variables (M A : Type) (op : M -> M -> M) (e : M) (comp : A -> A -> A) (aid : A) (act : A -> M -> M).
Hypothesis Mon : monoid_laws op e.
Hypothesis Act : action_laws op comp aid act.
Notation nd := (nd M A).
Notation sh := (sh M A).
Notation den := (den act).
Notation val := (val op e act false).
Notation clean := (clean act).
Notation ST := (@ST M A).
Notation Dh := (Dh e aid).
Notation forest := (forest op e aid act).
Notation lct_prop := (@lct_prop M A comp aid act).
Notation lct_agg := (@lct_agg M A op).
Notation lct_splay := (lct_splay op comp aid act).
Implicit Types (D : nat -> nd) (h : sh) (t l r : bt).

Lemma forest_lf h n ts rp : forest h n ts -> forest h n ((Lf, rp) :: ts).
Proof. intros [F1 F2 F3 F4 F5]. split; auto; intros t rp0 [[= <- <-]|I]; try exact Logic.I; eauto. Qed.
Lemma forest_lf_inv h n ts rp : forest h n ((Lf, rp) :: ts) -> forest h n ts.
Proof. intros [F1 F2 F3 F4 F5]. split; auto; intros t rp0 I; [apply F1|apply (F2 t rp0)]; now right. Qed.
Lemma forest_rpok' h n us ts w : forest h n (us ++ ts) -> In w (tids ts) -> rpok (sk h) (Some w) (tids us).
Proof.
  intros F L. pose proof (fo_nodup F) as N. rewrite tids_app in N. apply NoDup_app_iff in N as (_ & _ & N). split; [intros J; exact (N w J L)|].
  apply tids_in in L as (t2 & rp2 & I2 & J2). destruct (find_ctx _ _ J2) as (c & a & b & ->). pose proof (fo_rep F (plug c (Nd a w b)) rp2) as R. specialize (R (in_or_app _ _ _ (or_intror I2))). apply plug_rep in R as [([C1 C2 C3] & _) _].
  exists (bptr a), (bptr b). split; [auto|]. split; [auto|].
  assert (Q : forall i, In i (ids (Nd a w b)) -> ~ In i (tids us)). { intros i Ii Ji. apply (N i Ji). apply tids_in. exists (plug c (Nd a w b)), rp2. split; [auto|]. apply plug_in. auto. }
  split; intros i Ei; apply Q; apply bptr_in in Ei; cbn; rewrite in_app_iff; cbn; auto.
Qed.
(** the parent link of a root is set *)
Lemma forest_reroot h n t c rp rp' ts : forest h n ((t, rp) :: ts) -> bptr t = Some c ->
  exists k, set_pp (sk h) c rp' = Some k /\ forest (with_sk h k) n ((t, rp') :: ts).
Proof.
  intros F B. pose proof (fo_rep F t rp (or_introl eq_refl)) as R. destruct t as [|a i b]; [discriminate|]. injection B as ->. pose proof R as ([C1 C2 C3] & _).
  destruct (set_pp_ok (sk h) c rp' C3) as (k & S1 & S2 & S3 & S4 & S5 & S6). exists k. split; [auto|].
  pose proof (fo_nodup F) as N. cbn [tids flat_map fst] in N. apply NoDup_app_iff in N as (N1 & N2 & N3).
  destruct F as [F1 F2 F3 F4 F5]. split; auto; intros t rp0 [[= <- <-]|I]; try (change (Dh (with_sk h k)) with (Dh h)); [| |apply (F2 _ rp); now left|apply (F2 _ rp0); now right].
  - cbn [sk with_sk]. apply (rep_reroot (h := sk h) (par := rp)); auto; [intros i [= <-]; auto|intros i Ii; rewrite S4, S5; auto|]. intros i Ii Ni. apply S3. intros ->. apply Ni. reflexivity.
  - apply (rep_keep (h := sk h)); [|apply F1; now right]. intros i Ii. cbn [sk with_sk]. rewrite S4, S5. split; [auto|]. split; [auto|]. apply S3. intros ->. apply (N3 c); [apply in_or_app; right; now left|]. change (In c (tids ts)). apply tids_in. eauto.
Qed.
(** [p->r = t0; aggregate(p)] where the parent of the root of [t0] is [p] already *)
Lemma forest_attach h n l p r rp t0 ts : forest h n ((Nd l p r, rp) :: (t0, Some p) :: ts) -> clean (Dh h) p -> (forall w, rp = Some w -> In w (tids ts)) ->
  exists k h', set_pr (sk h) p (bptr t0) = Some k /\ lct_agg (with_sk h k) p = Some h' /\ forest h' n ((Nd l p t0, rp) :: (r, Some p) :: ts) /\ clean (Dh h') p /\
    den (Dh h') (Nd l p t0) = den (Dh h) l ++ (p, nm (Dh h p)) :: den (Dh h) t0 /\ den (Dh h') r = den (Dh h) r /\ (forall t2 rp2, In (t2, rp2) ts -> den (Dh h') t2 = den (Dh h) t2) /\ get (pp (sk h')) p = Some rp.
Proof.
  intros F Cl W. set (us := [(Nd l p r, rp); (t0, Some p)]). change (forest h n (us ++ ts)) in F.
  pose proof (fo_rep F (Nd l p r) rp (or_introl eq_refl)) as ([C1 C2 C3] & Rl & Rr). pose proof (fo_rep F t0 (Some p) (or_intror (or_introl eq_refl))) as R0.
  pose proof (fo_val F (Nd l p r) rp (or_introl eq_refl)) as (_ & Vl & Vr). pose proof (fo_val F t0 (Some p) (or_intror (or_introl eq_refl))) as V0.
  destruct (set_pr_ok (sk h) p (bptr t0) C2) as (k & S1 & S2 & S3 & S4 & S5 & S6). exists k.
  assert (Tu : tids us = ids (Nd l p r) ++ ids t0) by (cbn; now rewrite app_nil_r).
  pose proof (fo_nodup F) as N. rewrite tids_app, Tu in N. apply NoDup_app_iff in N as (N & _ & N3). 
  assert (Pm : Permutation (ids (Nd l p r) ++ ids t0) (ids (Nd l p t0) ++ ids r)).
  { cbn [ids]. rewrite <- !app_assoc. apply Permutation_app_head. cbn. constructor. apply Permutation_app_comm. }
  assert (N' : NoDup (ids (Nd l p t0) ++ ids r)) by exact (Permutation_NoDup Pm N). apply NoDup_app_iff in N' as (N1 & N2 & N4).
  assert (Kp : forall t, ~ In p (ids t) -> keep (ids t) (sk h) k). { intros t Np i Ii. rewrite S4, S5. split; [auto|]. split; [|auto]. apply S3. intros ->. auto. }
  assert (Nl : ~ In p (ids l)) by (intros J; dis N1 p). assert (N0 : ~ In p (ids t0)) by (intros J; dis N1 p). assert (Nr : ~ In p (ids r)) by (intros J; apply (N4 p); [cbn; apply in_or_app; right; now left|auto]).
  assert (Ko : keep_out [p] (sk h) k). { intros i Ni. rewrite S4, S5. split; [auto|]. split; [|auto]. apply S3. intros ->. apply Ni. now left. }
  assert (St : ST (ids (Nd l p t0)) (with_sk h k) (Dh h) rp (plug [] (Nd l p t0))).
  { split; cbn [sk with_sk plug fold_left]; auto.
    - split; [split; [rewrite S4; auto|auto|rewrite S5; auto]|]. split; [apply (rep_keep (h := sk h)); auto|apply (rep_keep (h := sk h)); auto].
    - intros i Ii. cbn. apply (forest_dat F (X := tids us)); [intros j J; rewrite tids_app; apply in_or_app; auto|]. rewrite Tu. apply (Permutation_in _ (Permutation_sym Pm)). apply in_or_app; auto.
    - destruct rp as [w|]; [|exact Logic.I]. pose proof (forest_rpok' us ts w F (W w eq_refl)) as Q. apply (rpok_perm (xs := tids us)).
      + destruct Q as (Q1 & a & b & Q2 & Q3 & Q4). split; [auto|]. exists a, b. assert (Nw : w <> p). { intros ->. apply Q1. rewrite Tu. apply in_or_app. left. cbn. apply in_or_app. right. now left. }
        rewrite S4, S3 by auto. auto.
      + intros i Ii. rewrite Tu. apply (Permutation_in _ (Permutation_sym Pm)). apply in_or_app; auto. }
  destruct (@lct_agg_ok _ _ _ _ _ Mon _ _ _ _ [] l p t0 St Cl Vl V0) as (h' & D' & Ea & S' & Hx & Hk & Hd & Dq & V'). exists h'. split; [auto|]. split; [exact Ea|]. cbn [plug fold_left] in S'.
  assert (C' : forall i, In i (ids (Nd l p t0)) -> Dh h' i = D' i) by (intros j J; apply (dat_Dh e aid (st_dat S')), (st_in S'), J).
  assert (Hx' : hext (tids us) h h').
  { destruct Hx as (X1 & X2 & X3 & X4). split; [|split; [|split; [exact X3|]]].
    - intros i Ni. rewrite Hk. apply Ko. intros [<-|[]]. apply Ni. rewrite Tu. apply in_or_app. left. cbn. apply in_or_app. right. now left.
    - rewrite Hk. cbn. unfold same_len. rewrite S4, S5. auto.
    - intros i Ni. rewrite X4; [auto|]. intros J. apply Ni. rewrite Tu. apply (Permutation_in _ (Permutation_sym Pm)). apply in_or_app; auto. }
  assert (Er : forall j, In j (ids r) -> Dh h' j = Dh h j). { intros j J. apply Dh_same. destruct Hx as (_ & _ & _ & X4). rewrite X4; [auto|]. intros J'. exact (N4 j J' J). }
  assert (Pos : forall j, j <> p -> In j (ids (Nd l p t0)) -> Dh h' j = Dh h j). { intros j Nj J. rewrite (C' j J). apply Hd, Nj. }
  split; [|split; [|split; [|split; [|split]]]].
  - change (forest h' n ([(Nd l p t0, rp); (r, Some p)] ++ ts)). apply (@forest_put _ _ _ _ _ _ h n us ts h' _ F Hx'); [rewrite Tu; cbn; rewrite app_nil_r; exact Pm|].
    intros t rp0 [[= <- <-]|[[= <- <-]|[]]].
    + split; [apply (st_rep S')|]. apply (val_ext (D := D')); auto.
    + split; [|apply (val_ext (D := Dh h)); auto]. rewrite Hk. cbn [sk with_sk]. apply (rep_keep (h := sk h)); auto.
  - apply (clean_ext (D := D')); [apply C'; cbn; apply in_or_app; right; now left|]. exact (clean_deq Dq Cl).
  - rewrite (den_ext C'). rewrite (den_deq _ Dq). apply den_clean, Cl.
  - now apply den_ext.
  - intros t2 rp2 I2. apply (forest_other us ts F Hx' (incl_refl _) t2 rp2 I2).
  - rewrite Hk. cbn. rewrite S5. exact C3.
Qed.
(** [c->l = nullptr; l->p.reset(); aggregate(c)] *)
Lemma forest_detach h n l c r rp ts : forest h n ((Nd l c r, rp) :: ts) -> clean (Dh h) c -> (forall w, rp = Some w -> In w (tids ts)) -> l <> Lf ->
  exists h', cut_left op h c = Some h' /\ forest h' n ((Nd Lf c r, rp) :: (l, None) :: ts) /\
    den (Dh h') (Nd Lf c r) = (c, nm (Dh h c)) :: den (Dh h) r /\ den (Dh h') l = den (Dh h) l /\ (forall t2 rp2, In (t2, rp2) ts -> den (Dh h') t2 = den (Dh h) t2).
Proof.
  intros F Cl W Hl. set (us := [(Nd l c r, rp)]). change (forest h n (us ++ ts)) in F.
  pose proof (fo_rep F (Nd l c r) rp (or_introl eq_refl)) as ([C1 C2 C3] & Rl & Rr). pose proof (fo_val F (Nd l c r) rp (or_introl eq_refl)) as (_ & Vl & Vr).
  unfold cut_left. rewrite C1. cbn [obind]. destruct (set_pl_ok (sk h) c None C1) as (k1 & S1 & S2 & S3 & S4 & S5 & S6). rewrite S1. cbn [obind].
  destruct l as [|la i lb]; [congruence|]. clear Hl. cbn [bptr obind]. set (l := Nd la i lb) in *. pose proof Rl as ([E1 E2 E3] & _ & _).
  assert (E3' : get (pp k1) i = Some (Some c)) by now rewrite S5. destruct (set_pp_ok k1 i None E3') as (k & T1 & T2 & T3 & T4 & T5 & T6). rewrite T1. cbn [obind].
  assert (Tu : tids us = ids (Nd l c r)) by (cbn; now rewrite app_nil_r).
  pose proof (fo_nodup F) as N. rewrite tids_app, Tu in N. apply NoDup_app_iff in N as (N & _ & N3).
  assert (Pm : Permutation (ids (Nd l c r)) (ids (Nd Lf c r) ++ ids l)). { cbn [ids app]. rewrite <- Permutation_middle. cbn. constructor. apply Permutation_app_comm. }
  assert (N' : NoDup (ids (Nd Lf c r) ++ ids l)) by exact (Permutation_NoDup Pm N). apply NoDup_app_iff in N' as (N1 & N2 & N4).
  assert (Il : In i (ids l)) by (unfold l; cbn; apply in_or_app; right; now left).
  assert (Kp : keep (ids r) (sk h) k). { intros j J. assert (j <> c) by (intros ->; dis N c). assert (j <> i) by (intros ->; dis N i). rewrite T4, S3, T5, S4, T3, S5; auto. }
  assert (Nci : c <> i) by (intros ->; dis N i).
  assert (Rl' : rep k None l). { apply (rep_reroot (h := sk h) (par := Some c)); auto; [intros j [= <-]; auto| |].
    - intros j J. assert (j <> c) by (intros ->; dis N c). rewrite T4, S3, T5, S4; auto.
    - intros j J Nj. rewrite T3, S5; [auto|]. intros ->. apply Nj. reflexivity. }
  assert (St : ST (ids (Nd Lf c r)) (with_sk h k) (Dh h) rp (plug [] (Nd Lf c r))).
  { split; cbn [sk with_sk plug fold_left]; auto.
    - split; [split; [rewrite T4; auto|rewrite T5, S4; auto|rewrite T3, S5; auto]|]. split; [exact Logic.I|apply (rep_keep (h := sk h)); auto].
    - intros j Ij. cbn [sd with_sk]. apply (forest_dat F (X := tids us)); [intros j' J; rewrite tids_app; apply in_or_app; auto|]. rewrite Tu. apply (Permutation_in _ (Permutation_sym Pm)). apply in_or_app; auto.
    - destruct rp as [w|]; [|exact Logic.I]. pose proof (forest_rpok' us ts w F (W w eq_refl)) as Q. apply (rpok_perm (xs := tids us)).
      + destruct Q as (Q1 & a & b & Q2 & Q3 & Q4). split; [auto|]. exists a, b. assert (Nw : w <> c). { intros ->. apply Q1. rewrite Tu. cbn. apply in_or_app. right. now left. }
        rewrite T4, S3, T5, S4 by auto. auto.
      + intros j Ij. rewrite Tu. apply (Permutation_in _ (Permutation_sym Pm)). apply in_or_app; auto. }
  destruct (@lct_agg_ok _ _ _ _ _ Mon _ _ _ _ [] Lf c r St Cl Logic.I Vr) as (h' & D' & Ea & S' & Hx & Hk & Hd & Dq & V'). exists h'. split; [exact Ea|]. cbn [plug fold_left] in S'.
  assert (C' : forall i, In i (ids (Nd Lf c r)) -> Dh h' i = D' i) by (intros j J; apply (dat_Dh e aid (st_dat S')), (st_in S'), J).
  assert (Hx' : hext (tids us) h h').
  { destruct Hx as (X1 & X2 & X3 & X4). split; [|split; [|split; [exact X3|]]].
    - intros j Nj. rewrite Hk. cbn [sk with_sk]. rewrite Tu in Nj. assert (j <> c) by (intros ->; apply Nj; cbn; apply in_or_app; right; now left). assert (j <> i) by (intros ->; apply Nj; cbn [ids]; apply in_or_app; left; auto). rewrite T4, S3, T5, S4, T3, S5; auto.
    - rewrite Hk. cbn. unfold same_len. rewrite T4, T5, T6, S4, S5, S6. auto.
    - intros j Nj. rewrite X4; [auto|]. intros J. apply Nj. rewrite Tu. apply (Permutation_in _ (Permutation_sym Pm)). apply in_or_app; auto. }
  assert (Er : forall j, In j (ids l) -> Dh h' j = Dh h j). { intros j J. apply Dh_same. destruct Hx as (_ & _ & _ & X4). rewrite X4; [auto|]. intros J'. exact (N4 j J' J). }
  split; [|split; [|split]].
  - change (forest h' n ([(Nd Lf c r, rp); (l, None)] ++ ts)). apply (@forest_put _ _ _ _ _ _ h n us ts h' _ F Hx'); [rewrite Tu; cbn [tids flat_map fst]; rewrite app_nil_r; exact Pm|].
    intros t rp0 [[= <- <-]|[[= <- <-]|[]]].
    + split; [apply (st_rep S')|]. apply (val_ext (D := D')); auto.
    + split; [|apply (val_ext (D := Dh h)); auto]. rewrite Hk. cbn [sk with_sk]. auto.
  - rewrite (den_ext C'). rewrite (den_deq _ Dq). rewrite (den_clean Lf r Cl). reflexivity.
  - now apply den_ext.
  - intros t2 rp2 I2. apply (forest_other us ts F Hx' (incl_refl _) t2 rp2 I2).
Qed.
(** a change of the data of a root *)
Lemma root_upd h n l u r rp ts g : forest h n ((Nd l u r, rp) :: ts) -> (forall w, rp = Some w -> w < n /\ ~ In w (ids (Nd l u r))) ->
  exists h1, upd h u g = Some h1 /\ hext (ids (Nd l u r)) h h1 /\ ST (ids (Nd l u r)) h1 (fupd (Dh h) u (g (Dh h u))) rp (Nd l u r).
Proof.
  intros F W. pose proof (forest_ST F W) as S. assert (Iu : In u (ids (Nd l u r))) by (cbn; apply in_or_app; right; now left).
  destruct (upd_ok g (st_dat S) Iu) as (h1 & U1 & Da & K1 & L1 & O1). exists h1. split; [auto|]. split; [apply hext_of; [rewrite K1; apply keep_out_refl|rewrite K1; apply same_len_refl|auto|auto]|].
  split; [rewrite K1; apply (st_rep S)|reflexivity|apply (st_nodup S)|exact Da|rewrite K1; apply (st_rp S)].
Qed.
Lemma root_sub (l r : bt) u : NoDup (ids (Nd l u r)) -> forall D d, (forall j, In j (ids l) -> fupd D u d j = D j) /\ (forall j, In j (ids r) -> fupd D u d j = D j).
Proof. intros N D d. split; intros j J; apply fupd_neq; intros ->; dis N u. Qed.
Lemma rev_push D d l i r : NoDup (ids (Nd l i r)) -> d = rev_node (D i) -> val D (Nd l i r) -> val (fupd D i d) (Nd l i r) /\ den (fupd D i d) (Nd l i r) = List.rev (den D (Nd l i r)).
Proof.
  intros N -> (S & Vl & Vr). destruct (root_sub l r i N D (rev_node (D i))) as [El Er].
  assert (De : den (fupd D i (rev_node (D i))) (Nd l i r) = List.rev (den D (Nd l i r))).
  { cbn [SplayTree.den]. rewrite fupd_eq, (den_ext El), (den_ext Er). cbn. destruct (nrev (D i)); cbn; [now rewrite rev_involutive|reflexivity]. }
  split; [|exact De]. split; [|split; [exact (val_ext El Vl)|exact (val_ext Er Vr)]]. unfold sok in *. rewrite De, fupd_eq, rev_involutive. cbn. destruct S as (_ & S2 & S3). split; [discriminate|]. auto.
Qed.
Lemma forest_flip h n l v r rp ts : forest h n ((Nd l v r, rp) :: ts) -> (forall w, rp = Some w -> w < n /\ ~ In w (ids (Nd l v r))) ->
  exists h' l' r', (let* h := upd h v (@rev_node M A) in lct_prop h v) = Some h' /\ forest h' n ((Nd l' v r', rp) :: ts) /\ clean (Dh h') v /\
    den (Dh h') (Nd l' v r') = List.rev (den (Dh h) (Nd l v r)) /\ (forall t2 rp2, In (t2, rp2) ts -> den (Dh h') t2 = den (Dh h) t2).
Proof.
  intros F W. destruct (root_upd (@rev_node M A) F W) as (h1 & U & Hx & S). rewrite U. cbn [obind].
  destruct (rev_push (st_nodup S) eq_refl (fo_val F _ _ (or_introl eq_refl))) as (V1 & De). set (D1 := fupd (Dh h) v (rev_node (Dh h v))) in *.
  destruct (lct_prop_ok Mon Act [] l v r S) as (h' & D' & l' & r' & E & S' & Hx' & Hlr & Cl & V2 & V3 & De' & Ot & Q1 & Q2 & Q3). cbn [plug fold_left] in *. exists h', l', r'. split; [exact E|].
  assert (V' : val D' (Nd l' v r')). { destruct V1 as ((_ & P1 & P2) & Vl & Vr). split; [|destruct Hlr as [[-> ->]|[-> ->]]; auto]. unfold sok. rewrite De', Q2, Q3. split; [discriminate|]. auto. }
  destruct (forest_put1 F (hext_trans Hx Hx') S' V') as (F' & D1' & D2 & D3). split; [exact F'|]. split; [|split; [congruence|exact D3]]. apply (clean_ext (D := D')); [|auto]. apply D2. cbn. apply in_or_app. right. now left.
Qed.
Lemma forest_point h n l u r rp ts g : forest h n ((Nd l u r, rp) :: ts) -> (forall w, rp = Some w -> w < n /\ ~ In w (ids (Nd l u r))) -> clean (Dh h) u ->
  exists h', (let* h := upd h u (fun d => ND (nsum d) (nrev d) (g (nm d)) (nprod d) (nrprod d) (nf d)) in lct_agg h u) = Some h' /\ forest h' n ((Nd l u r, rp) :: ts) /\
    den (Dh h) (Nd l u r) = den (Dh h) l ++ (u, nm (Dh h u)) :: den (Dh h) r /\ den (Dh h') (Nd l u r) = den (Dh h) l ++ (u, g (nm (Dh h u))) :: den (Dh h) r /\ (forall t2 rp2, In (t2, rp2) ts -> den (Dh h') t2 = den (Dh h) t2).
Proof.
  intros F W Cl. destruct (root_upd (fun d => ND (nsum d) (nrev d) (g (nm d)) (nprod d) (nrprod d) (nf d)) F W) as (h1 & U & Hx & S). rewrite U. cbn [obind].
  pose proof (fo_val F _ _ (or_introl eq_refl)) as (_ & Vl & Vr). set (d := ND (nsum (Dh h u)) (nrev (Dh h u)) (g (nm (Dh h u))) (nprod (Dh h u)) (nrprod (Dh h u)) (nf (Dh h u))) in *. destruct (root_sub l r u (st_nodup S) (Dh h) d) as [El Er]. set (D1 := fupd (Dh h) u d) in *.
  assert (C1 : clean D1 u). { unfold SplayTree.clean, D1. rewrite fupd_eq. unfold d. cbn. exact Cl. }
  destruct (lct_agg_ok Mon [] l r S C1 (val_ext El Vl) (val_ext Er Vr)) as (h' & D' & E & S' & Hx' & Hk & Hd & Dq & V'). cbn [plug fold_left] in *. exists h'. split; [exact E|].
  destruct (forest_put1 F (hext_trans Hx Hx') S' V') as (F' & D1' & D2 & D3). split; [exact F'|]. split; [now apply den_clean|]. split; [|exact D3].
  rewrite D1', (den_deq _ Dq), (den_clean l r C1), (den_ext El), (den_ext Er). unfold D1. rewrite fupd_eq. reflexivity.
Qed.
Lemma forest_act h n l u r rp ts f : forest h n ((Nd l u r, rp) :: ts) -> (forall w, rp = Some w -> w < n /\ ~ In w (ids (Nd l u r))) ->
  exists h', upd h u (act_node comp act f) = Some h' /\ forest h' n ((Nd l u r, rp) :: ts) /\
    den (Dh h') (Nd l u r) = map (actp act f) (den (Dh h) (Nd l u r)) /\ (forall t2 rp2, In (t2, rp2) ts -> den (Dh h') t2 = den (Dh h) t2).
Proof.
  intros F W. destruct (root_upd (act_node comp act f) F W) as (h1 & U & Hx & S). exists h1. split; [auto|]. pose proof (fo_val F _ _ (or_introl eq_refl)) as V. destruct (root_sub l r u (st_nodup S) (Dh h) (act_node comp act f (Dh h u))) as [El Er].
  assert (Ei : fupd (Dh h) u (act_node comp act f (Dh h u)) u = pushn comp act f false (Dh h u)) by apply fupd_eq.
  pose proof (den_push Act _ _ l u r _ _ Ei El Er) as De. pose proof (val_push Mon Act _ _ _ Ei El Er V) as V1. cbv zeta in De. destruct (forest_put1 F Hx S V1) as (F' & D1' & D2 & D3). split; [exact F'|]. split; [congruence|exact D3].
Qed.
End Lct.
