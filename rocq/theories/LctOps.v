(** Link-cut trees: evert, link, cut, products and updates, and histories. *)
From Coq Require Import Permutation.
From Verif Require Import LctModel LctForest LctLinks LctPath LctProof SplayRot SplayTree SplaySplay SplayList BaseLemmas NthExtra ListExtra LazySegProp.
Set Implicit Arguments.

Section Lct.
Variables (M A : Type) (op : M -> M -> M) (e : M) (comp : A -> A -> A) (aid : A) (act : A -> M -> M).
Hypothesis Mon : monoid_laws op e.
Hypothesis Act : action_laws op comp aid act.
Notation nd := (nd M A).
Notation sh := (sh M A).
Notation den := (den act).
Notation clean := (clean act).
Notation Dh := (Dh e aid).
Notation forest := (forest op e aid act).
Notation state := (state op e aid act).
Notation pids := (@pids M A e aid act).
Notation pok := (@pok M).
Notation lct_agg := (@lct_agg M A op).
Notation lct_splay := (lct_splay op comp aid act).
Notation expose := (expose op comp aid act).
Notation evert := (evert op comp aid act).
Implicit Types (h : sh) (t l r : bt) (V : nat -> M).

Lemma state_out h n t rp ts par V t2 rp2 i : state h n ((t, rp) :: ts) par V -> In i (ids t) -> In (t2, rp2) ts -> ~ In i (pids h t2).
Proof.
  intros St I I2 J. apply pids_in in J. pose proof (fo_nodup (s_forest St)) as N. cbn in N. apply NoDup_app_iff in N as (_ & _ & N). apply (N i); [auto|]. apply tids_in. eauto.
Qed.
Arguments state_out {h n t rp ts par V t2 rp2 i} _ _ _ _.
Lemma state_lt h n ts par V t rp i : state h n ts par V -> In (t, rp) ts -> In i (ids t) -> i < n.
Proof. intros St I J. apply (fo_all (s_forest St)). apply tids_in. eauto. Qed.
Arguments state_lt {h n ts par V t rp i} _ _ _.

Lemma evert_ok h n ts par V v L : state h n ts par V -> v < n -> line par v L ->
  exists h' l r ts', evert h v = Some h' /\ state h' n ((Nd l v r, None) :: ts') (flip par L) V /\ clean (Dh h') v /\ pids h' (Nd l v r) = List.rev L /\ flip par L v = None.
Proof.
  intros St Lv Hv. destruct (expose_ok Mon Act St Lv Hv) as (h1 & l & ts1 & E1 & S1 & Cl & EL & _). unfold LctModel.evert. rewrite E1. cbn [obind].
  destruct (forest_flip Mon Act (s_forest S1)) as (h2 & l2 & r2 & E2 & F & Cl2 & De & Ot); [intros w [=]|]. exists h2, l2, r2, ts1. split; [exact E2|].
  pose proof (line_nodup Hv) as N. pose proof (line_chain Hv) as C.
  assert (EL2 : pids h2 (Nd l2 v r2) = List.rev L). { unfold LctProof.pids. rewrite De, map_rev. fold (pids h1 (Nd l v Lf)). now rewrite EL. }
  assert (Cf : chain (flip par L) None (List.rev L)) by exact (flip_chain par N).
  split; [split; [exact F| | |exact (flip_rooted (s_rooted St) N C)|]|split; [auto|split; [auto|]]].
  - intros t rp [[= <- <-]|I].
    + split; [fold (pids h2 (Nd l2 v r2)); now rewrite EL2|]. intros i x J. rewrite De in J. apply in_rev in J. exact (proj2 (s_paths S1 _ _ (or_introl eq_refl)) _ _ J).
    + rewrite (Ot t rp I). destruct (s_paths S1 _ _ (or_intror I)) as [Ct Vt]. split; [|auto]. apply chain_ext with par; [|auto]. intros i J. apply flip_out. rewrite <- EL. intros K. apply pids_in in K. exact (state_out S1 K I J).
  - intros t w [[=]|I]. exact (s_rp S1 _ _ (or_intror I)).
  - intros i j Eij. destruct (in_dec Nat.eq_dec i L) as [I|I]; [|rewrite flip_out in Eij by auto; exact (s_par St _ Eij)]. destruct (@flip_prev par L i j N C I Eij) as [_ Q]. destruct (s_par St _ Q). auto.
  - destruct (line_last Hv) as (K & ->). rewrite rev_app_distr in Cf. exact (proj1 Cf).
Qed.
Lemma set_comm k a x k1 b y k2 : set_pp k a x = Some k1 -> set_pr k1 b y = Some k2 -> exists k3, set_pr k b y = Some k3 /\ set_pp k3 a x = Some k2.
Proof.
  unfold set_pp, set_pr. destruct (set (pp k) a x) as [q|] eqn:E1; [|discriminate]. cbn [obind]. intros [= <-]. cbn. destruct (set (pr k) b y) as [q2|]; [|discriminate]. cbn [obind]. intros [= <-]. eexists. split; [reflexivity|]. cbn. now rewrite E1.
Qed.
Lemma chain_first par L v : chain par None L -> In v L -> par v = None -> exists K, L = v :: K.
Proof.
  intros C I E. apply in_split in I as (L1 & L2 & ->). apply chain_app in C as [_ [C _]]. destruct L1 as [|a L1 _] using rev_ind; [exists L2; auto|]. rewrite lst_snoc in C. congruence.
Qed.

(** the memory represents the graph with edges [E] and the values [vs] *)
Definition INV h (E : edges) (vs : list M) : Prop := exists ts par, state h (length vs) ts par (fun i => nth i vs e) /\ graph E par.

Lemma link_ok h E vs u v : INV h E vs -> u < length vs -> v < length vs -> ~ conn E u v -> exists h', lct_link op comp aid act h u v = Some h' /\ INV h' ((u, v) :: E) vs.
Proof.
  intros (ts & par & St & G) Lu Lv Nc. destruct (s_rooted St v) as (L & Hv). destruct (evert_ok St Lv Hv) as (h1 & l & r & ts1 & E1 & S1 & _ & EL & Ev). unfold lct_link, link_base. rewrite E1. cbn [obind].
  pose proof (graph_flip G (line_nodup Hv) (line_chain Hv)) as G1. set (par1 := flip par L) in *. destruct (s_rooted S1 u) as (Lu' & Hu).
  assert (Dj : forall i, In i L -> ~ In i Lu'). { intros i I J. apply Nc. apply conn_trans with i; [exact (line_conn G1 Hu _ J)|apply conn_sym; exact (line_conn G Hv _ I)]. }
  destruct (expose_ok Mon Act S1 Lu Hu) as (h2 & l2 & ts2 & E2 & S2 & Cl2 & EL2 & Pr). rewrite E2. cbn [obind].
  assert (I2 : In (Nd l v r, None) ts2). { apply Pr; [now left|]. cbn [fst]. intros i I. apply Dj, in_rev. rewrite <- EL. now apply pids_in. }
  apply in_split in I2 as (a & b & ->). set (tv := Nd l v r) in *.
  assert (S3 : state h2 (length vs) ((tv, None) :: (Nd l2 u Lf, None) :: a ++ b) par1 (fun i => nth i vs e)). { apply (state_perm (a := (Nd l2 u Lf, None) :: a ++ (tv, None) :: b)); [|auto]. apply Permutation_sym. exact (Permutation_middle ((Nd l2 u Lf, None) :: a) b (tv, None)). }
  assert (Iv : In v (ids tv)) by (cbn; apply in_or_app; right; now left).
  destruct (forest_reroot (c := v) (Some u) (s_forest S3) eq_refl) as (k & E3 & F3).
  assert (S4 : state (with_sk h2 k) (length vs) ((tv, Some u) :: (Nd l2 u Lf, None) :: a ++ b) (pset par1 v (Some u)) (fun i => nth i vs e)).
  { split; [exact F3| | | |].
    - intros t rp [[= <- <-]|I].
      + destruct (s_paths S3 _ _ (or_introl eq_refl)) as [C V]. split; [|exact V]. change (Dh (with_sk h2 k)) with (Dh h2). fold (pids h2 tv) in C |- *. assert (Iv2 : In v (pids h2 tv)) by now apply pids_in. destruct (@chain_first _ _ v C Iv2 Ev) as (K & EK).
        pose proof (den_ids act (Dh h2) tv) as Pm. assert (Nt : NoDup (ids tv)). { pose proof (fo_nodup (s_forest S3)) as Nt. cbn [tids flat_map fst] in Nt. now apply NoDup_app_iff in Nt as (Nt & _). } fold (pids h2 tv) in Pm. rewrite EK in C |- *. destruct C as [_ C]. split; [apply pset_eq|]. apply chain_ext with par1; [|auto]. intros i I. apply pset_neq. intros ->. apply (Permutation_NoDup (Permutation_sym Pm)) in Nt. rewrite EK in Nt. inversion Nt. contradiction.
      + destruct (s_paths S3 _ _ (or_intror I)) as [C V]. split; [|exact V]. apply chain_ext with par1; [|exact C]. intros i J. apply pset_neq. intros ->. exact (state_out S3 Iv I J).
    - intros t w [[= <- <-]|I]; [auto|exact (s_rp S3 _ _ (or_intror I))].
    - apply pset_rooted with Lu'; [apply S1|auto|]. apply Dj. exact (line_self Hv).
    - intros i j. destruct (Nat.eq_dec i v) as [->|Ni]; [rewrite pset_eq; intros [= <-]; auto|rewrite pset_neq by auto; apply (s_par S1)]. }
  assert (S5 : state (with_sk h2 k) (length vs) ((Nd l2 u Lf, None) :: (tv, Some u) :: a ++ b) (pset par1 v (Some u)) (fun i => nth i vs e)) by (eapply state_perm; [apply perm_swap|exact S4]).
  destruct (state_attach Mon S5 Cl2) as (k4 & h4 & E4 & E5 & S6 & _). cbn [sk with_sk] in E4. destruct (set_comm _ _ _ _ _ E3 E4) as (k3 & E6 & E7). cbn [bptr tv] in E6. rewrite E6. cbn [obind]. rewrite E7. cbn [obind].
  exists h4. split; [exact E5|]. eexists _, _. split; [exact S6|]. apply graph_link; auto.
Qed.
Lemma cut_ok h E vs u v : INV h E vs -> joined E u v -> exists h', lct_cut op comp aid act h u v = Some h' /\ INV h' (cut_edges E u v) vs.
Proof.
  intros (ts & par & St & G) J. assert (B : u < length vs /\ v < length vs). { apply G in J as [J|J]; apply (s_par St) in J; tauto. } destruct B as [Lu Lv].
  destruct (s_rooted St u) as (L & Hu). destruct (evert_ok St Lu Hu) as (h1 & l & r & ts1 & E1 & S1 & _ & EL & Eu). unfold lct_cut. rewrite E1. cbn [obind].
  pose proof (graph_flip G (line_nodup Hu) (line_chain Hu)) as G1. set (par1 := flip par L) in *.
  assert (Ev : par1 v = Some u). { apply G1 in J as [J|J]; [congruence|auto]. }
  assert (Hl : line par1 v ([u] ++ [v])) by (econstructor; [exact Ev|constructor; exact Eu]).
  destruct (expose_ok Mon Act S1 Lv Hl) as (h2 & l2 & ts2 & E2 & S2 & Cl2 & EL2 & _). rewrite E2. cbn [obind].
  unfold LctProof.pids in EL2. rewrite (den_clean l2 Lf Cl2), map_app in EL2. change [u; v] with ([u] ++ [v]) in EL2. apply app_inj_tail in EL2 as [EL2 _].
  assert (Nl : l2 <> Lf) by (intros ->; discriminate EL2).
  destruct (forest_detach Mon (s_forest S2) Cl2) as (h3 & E3 & F3 & D1 & D2 & D3); [intros w [=]|auto|]. exists h3. split; [exact E3|].
  assert (Nu : u <> v) by (intros ->; congruence).
  destruct (s_paths S2 _ _ (or_introl eq_refl)) as [Cv Vv]. rewrite (den_clean l2 Lf Cl2) in Vv.
  eexists _, (pset par1 v None). split; [|apply graph_cut; auto; rewrite Eu; discriminate].
  split; [exact F3| | |apply pset_rooted_none, S1|].
  - intros t rp [[= <- <-]|[[= <- <-]|I]].
    + rewrite D1. split; [split; [apply pset_eq|exact Logic.I]|]. intros i x [[= <- <-]|[]]. apply Vv, in_or_app. right. now left.
    + rewrite D2. split; [rewrite EL2; split; [rewrite pset_neq by auto; exact Eu|exact Logic.I]|]. intros i x I. apply Vv, in_or_app. auto.
    + rewrite (D3 _ _ I). destruct (s_paths S2 _ _ (or_intror I)) as [C V]. split; [|exact V]. apply chain_ext with par1; [|exact C]. intros i Q. apply pset_neq. intros ->. apply (@state_out _ _ _ _ _ _ _ _ _ v S2) with (2 := I) (3 := Q). cbn. apply in_or_app. right. now left.
  - intros t w [[=]|[[=]|I]]. exact (s_rp S2 _ _ (or_intror I)).
  - intros i j. destruct (Nat.eq_dec i v) as [->|Ni]; [rewrite pset_eq; discriminate|rewrite pset_neq by auto; apply (s_par S1)].
Qed.
(** after evert(u) and expose(v) the tree of [v] is the path *)
Lemma access_ok h E vs u v p : INV h E vs -> u < length vs -> spath E u v p -> exists h1 h2 l ts par, evert h u = Some h1 /\ expose h1 v = Some h2 /\
  state h2 (length vs) ((Nd l v Lf, None) :: ts) par (fun i => nth i vs e) /\ graph E par /\ clean (Dh h2) v /\ pids h2 (Nd l v Lf) = p.
Proof.
  intros (ts & par & St & G) Lu P. destruct (s_rooted St u) as (L & Hu). destruct (evert_ok St Lu Hu) as (h1 & l & r & ts1 & E1 & S1 & _ & EL & Eu).
  pose proof (graph_flip G (line_nodup Hu) (line_chain Hu)) as G1. set (par1 := flip par L) in *. pose proof (spath_line G1 P Eu) as Hl.
  assert (Lv : v < length vs). { destruct (Nat.eq_dec u v) as [<-|Nv]; [auto|]. inversion Hl as [i Ei|i j K Ei HK]; subst; [|apply (s_par S1 _ Ei)]. destruct P as [[-> _] _]. congruence. }
  destruct (expose_ok Mon Act S1 Lv Hl) as (h2 & l2 & ts2 & E2 & S2 & Cl2 & EL2 & _). exists h1, h2, l2, ts2, par1. auto 7.
Qed.
Lemma pok_map V par rp s : pok par V rp s -> map snd s = map V (map fst s).
Proof. intros [_ H]. rewrite map_map. apply map_ext_in. intros [i x] I. exact (H i x I). Qed.
Lemma prod_ok h E vs u v p : INV h E vs -> u < length vs -> spath E u v p -> exists h', lct_prod op comp aid act h u v = Some (h', path_prod op e vs p) /\ INV h' E vs.
Proof.
  intros I Lu P. destruct (access_ok I Lu P) as (h1 & h2 & l & ts & par & E1 & E2 & S2 & G & Cl & EL). unfold lct_prod. rewrite E1. cbn [obind]. rewrite E2. cbn [obind].
  assert (Dv : get (sd h2) v = Some (Dh h2 v)). { apply (forest_dat (s_forest S2) (incl_refl _)). cbn. apply in_or_app. left. apply in_or_app. right. now left. }
  rewrite Dv. cbn [obind]. exists h2. split; [|exists ((Nd l v Lf, None) :: ts), par; auto]. do 2 f_equal. pose proof (fo_val (s_forest S2) _ _ (or_introl eq_refl)) as Vl.
  apply sok_val in Vl. destruct Vl as (_ & Vl & _). rewrite Vl. unfold prodl, path_prod. f_equal. rewrite (pok_map (s_paths S2 _ _ (or_introl eq_refl))). fold (pids h2 (Nd l v Lf)). now rewrite EL.
Qed.
(** a change of the values on the first tree *)
Lemma state_vals h n t rp ts par V h' t' V' : state h n ((t, rp) :: ts) par V -> forest h' n ((t', rp) :: ts) -> pok par V' rp (den (Dh h') t') ->
  (forall t2 rp2, In (t2, rp2) ts -> den (Dh h') t2 = den (Dh h) t2) -> (forall i, i < n -> ~ In i (ids t) -> V' i = V i) -> state h' n ((t', rp) :: ts) par V'.
Proof.
  intros St F P Ot Ev. split; [exact F| | |apply St|apply St].
  - intros t2 rp2 [[= <- <-]|I]; [auto|]. rewrite (Ot _ _ I). destruct (s_paths St _ _ (or_intror I)) as [C Vt]. split; [auto|]. intros i x J. rewrite (Vt _ _ J). assert (Ji : In i (ids t2)). { apply (pids_in e aid act h). unfold LctProof.pids. apply in_map_iff. exists (i, x). auto. }
    symmetry. apply Ev; [exact (state_lt St (or_intror I) Ji)|]. intros K. apply (state_out St K I). now apply pids_in.
  - intros t2 w [[= <- ->]|I]; [exact (s_rp St _ _ (or_introl eq_refl))|exact (s_rp St _ _ (or_intror I))].
Qed.
Lemma point_ok h E vs i x g : INV h E vs -> get vs i = Some x -> exists h', lct_point op comp aid act h i g = Some h' /\ INV h' E (lset vs i (g x)).
Proof.
  intros (ts & par & St & G) Gi. pose proof (get_some_lt _ _ Gi) as Li. destruct (state_splay Mon Act St Li) as (h1 & l & r & rp & ts1 & t & P & It & E1 & S1 & Cl & De & Ot). unfold lct_point. rewrite E1. cbn [obind].
  destruct (forest_point Mon g (s_forest S1)) as (h2 & E2 & F & D1 & D2 & O2); [intros w Ew; exact (@state_w _ _ _ _ _ _ _ _ _ _ _ _ _ S1 (or_introl eq_refl) w Ew)|auto|]. exists h2. split; [exact E2|]. exists ((Nd l i r, rp) :: ts1), par. rewrite lset_length. split; [|auto].
  destruct (s_paths S1 _ _ (or_introl eq_refl)) as [C V]. rewrite D1 in C, V. assert (Vi : nm (Dh h1 i) = x). { rewrite (V i (nm (Dh h1 i))); [exact (@nth_get _ _ _ _ e Gi)|apply in_or_app; right; now left]. }
  assert (Ii : In i (ids (Nd l i r))) by (cbn; apply in_or_app; right; now left).
  assert (N : NoDup (map fst (den (Dh h1) l ++ (i, nm (Dh h1 i)) :: den (Dh h1) r))). { rewrite <- D1. eapply Permutation_NoDup; [apply Permutation_sym, den_ids|]. pose proof (fo_nodup (s_forest S1)) as N. cbn in N. now apply NoDup_app_iff in N as (N & _). }
  apply (state_vals S1 F); [|auto|].
  - rewrite D2. split; [rewrite map_app in *; exact C|]. rewrite map_app in N. cbn in N. apply NoDup_remove_2 in N. intros j y I. apply in_app_or in I as [I|[[= <- <-]|I]].
    + rewrite nth_lset_neq by (intros ->; apply N, in_or_app; left; apply in_map_iff; exists (j, y); auto). apply V, in_or_app. auto.
    + rewrite nth_lset_eq by auto. now rewrite Vi.
    + rewrite nth_lset_neq by (intros ->; apply N, in_or_app; right; apply in_map_iff; exists (j, y); auto). apply V, in_or_app. right. now right.
  - intros j _ Nj. apply nth_lset_neq. intros ->. contradiction.
Qed.
Lemma act_on_length f p (vs : list M) : length (act_on act f p vs) = length vs.
Proof. unfold act_on. rewrite map_length, combine_length, seq_length. lia. Qed.
Lemma act_on_nth f p (vs : list M) i : i < length vs -> nth i (act_on act f p vs) e = if inb i p then act f (nth i vs e) else nth i vs e.
Proof.
  unfold act_on. intros L. assert (G : forall vs k, i < length vs -> get (combine (seq k (length vs)) vs) i = Some (k + i, nth i vs e)).
  { clear. induction i as [|i IH]; intros [|x vs] k L; cbn in L; try lia; cbn; [now rewrite Nat.add_0_r|]. change (get (combine (seq (S k) (length vs)) vs) i = Some (k + S i, nth i vs e)). rewrite (IH vs (S k)) by lia. f_equal. f_equal. lia. }
  apply nth_get. rewrite get_map, (G vs 0 L). reflexivity.
Qed.
Lemma update_ok h E vs u v f p : INV h E vs -> u < length vs -> spath E u v p -> exists h', lct_update op comp aid act h u v f = Some h' /\ INV h' E (act_on act f p vs).
Proof.
  intros I Lu P. destruct (access_ok I Lu P) as (h1 & h2 & l & ts & par & E1 & E2 & S2 & G & Cl & EL). unfold lct_update. rewrite E1. cbn [obind]. rewrite E2. cbn [obind].
  destruct (forest_act Mon Act f (s_forest S2)) as (h3 & E3 & F & De & Ot); [intros w [=]|]. rewrite E3. cbn [obind].
  assert (S3 : state h3 (length vs) ((Nd l v Lf, None) :: ts) par (fun i => nth i (act_on act f p vs) e)).
  { assert (Ip : forall i, In i (ids (Nd l v Lf)) <-> In i p). { intros i. rewrite <- EL. symmetry. apply pids_in. }
    apply (state_vals S2 F); [|auto|].
    - destruct (s_paths S2 _ _ (or_introl eq_refl)) as [C V]. rewrite De. split; [rewrite map_map; exact C|]. intros i x J. apply in_map_iff in J as ([i' x'] & [= <- <-] & J). cbn.
      assert (J' : In i' (ids (Nd l v Lf))). { apply (pids_in e aid act h2). apply in_map_iff. exists (i', x'). auto. }
      rewrite act_on_nth by exact (state_lt S2 (or_introl eq_refl) J'). rewrite (proj2 (inb_in i' p)) by now apply Ip. f_equal. exact (V _ _ J).
    - intros i Li Ni. rewrite act_on_nth by auto. rewrite inb_not; [auto|]. now rewrite <- Ip. }
  assert (Lv : v < length vs) by (apply (state_lt S2 (or_introl eq_refl)); cbn; apply in_or_app; right; now left).
  destruct (state_splay Mon Act S3 Lv) as (h4 & l4 & r4 & rp & ts4 & t & Pm & It & E4 & S4 & _). exists h4. split; [exact E4|]. exists ((Nd l4 v r4, rp) :: ts4), par. rewrite act_on_length. auto.
Qed.
Lemma build_ok xs : INV (lct_build aid xs) [] xs.
Proof.
  assert (Gn : forall i, i < length xs -> get (map (fun _ : M => @None nat) xs) i = Some None). { intros i L. rewrite get_map. destruct (@get_lt _ xs i L) as (x & ->). reflexivity. }
  assert (Gd : forall i, i < length xs -> Dh (lct_build aid xs) i = lct_node aid (nth i xs e)). { intros i L. unfold SplayList.Dh, lct_build. cbn [sd]. apply nth_get. rewrite get_map, (get_nth xs i e L). reflexivity. }
  assert (Ti : tids (map (fun i => (Nd Lf i Lf, @None nat)) (seq 0 (length xs))) = seq 0 (length xs)). { clear. unfold tids. rewrite flat_map_concat_map, map_map. generalize 0. induction (length xs) as [|k IH]; intros s; cbn; [auto|]. f_equal. apply IH. }
  exists (map (fun i => (Nd Lf i Lf, None)) (seq 0 (length xs))), (fun _ => None). split; [split; [split| | | |]|].
  - intros t rp I. apply in_map_iff in I as (i & [= <- <-] & I). apply in_seq in I. cbn. repeat split; cbn; apply Gn; lia.
  - intros t rp I. apply in_map_iff in I as (i & [= <- <-] & I). apply in_seq in I. pose proof (Gd i ltac:(lia)) as Q. revert Q. generalize (Dh (lct_build aid xs)). intros D Q. cbn. split; [|auto]. unfold sok. cbn. rewrite Q. cbn. rewrite (mon_right Mon). split; [discriminate|auto].
  - rewrite Ti. apply seq_NoDup.
  - intros i. rewrite Ti, in_seq. lia.
  - unfold lct_build. cbn. apply map_length.
  - intros t rp I. apply in_map_iff in I as (i & [= <- <-] & I). apply in_seq in I. pose proof (Gd i ltac:(lia)) as Q. revert Q. generalize (Dh (lct_build aid xs)). intros D Q. cbn. rewrite Q. cbn. split; [cbn; auto|]. intros j x [[= <- <-]|[]]. auto.
  - intros t w I. apply in_map_iff in I as (i & [=] & _).
  - intros i. exists [i]. now constructor.
  - discriminate.
  - intros i j. unfold joined, padj. cbn. split; [tauto|intros [[=]|[=]]].
Qed.
Lemma step_ok h E vs c E' vs' o : INV h E vs -> fstep op e act (E, vs) c (E', vs') o -> exists h', lct_step op comp aid act h c = Some (h', o) /\ INV h' E' vs'.
Proof.
  intros I F. inversion F as [E0 vs0 u v Lu Lv Nc|E0 vs0 u v J|E0 vs0 u v p Lu P|E0 vs0 i m Li|E0 vs0 i f x Gi|E0 vs0 u v f p Lu P]; subst; cbn [lct_step].
  - destruct (link_ok I Lu Lv Nc) as (h' & -> & I'). cbn. eauto.
  - destruct (cut_ok I J) as (h' & -> & I'). cbn. eauto.
  - destruct (prod_ok I Lu P) as (h' & -> & I'). cbn. eauto.
  - destruct (@get_lt _ vs i Li) as (x & Gx). unfold lct_set. destruct (point_ok i (fun _ => m) I Gx) as (h' & -> & I'). cbn. eauto.
  - unfold lct_update1. destruct (point_ok i (act f) I Gi) as (h' & -> & I'). cbn. eauto.
  - destruct (update_ok f I Lu P) as (h' & -> & I'). cbn. eauto.
Qed.
Lemma run_ok cs : forall h E vs E' vs' os, INV h E vs -> frun op e act (E, vs) cs (E', vs') os -> exists h', lct_run op comp aid act h cs = Some (h', os) /\ INV h' E' vs'.
Proof.
  induction cs as [|c cs IH]; intros h E vs E' vs' os I F; inversion F as [|s c0 [E1 vs1] o cs0 s2 vs2 F1 F2]; subst; [exists h; auto|]. destruct (step_ok I F1) as (h1 & E2 & I1). destruct (IH h1 E1 vs1 E' vs' vs2 I1 F2) as (h2 & E3 & I2). cbn [lct_run]. rewrite E2. cbn [obind]. rewrite E3. cbn [obind]. eauto.
Qed.
End Lct.
