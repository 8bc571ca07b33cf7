(** SplayTreeList: between and the operations. *)
From Coq Require Import Permutation.
From Verif Require Import SplayModel SplayRot SplayTree SplaySplay SplayKth BaseLemmas ListExtra LazySegProp.
Set Implicit Arguments.

(** * Links *)
Lemma reparent_ok k par t p : rep k par t -> NoDup (ids t) -> exists k', set_pp_opt k (bptr t) p = Some k' /\ rep k' p t /\ pl k' = pl k /\ pr k' = pr k /\ (forall j, bptr t <> Some j -> get (pp k') j = get (pp k) j) /\ length (pp k') = length (pp k).
Proof.
  intros R N. destruct (@set_pp_opt_ok k (bptr t) p) as (k' & E & S1 & S2 & S3 & S4 & S5). { intros i Ei. apply bptr_in in Ei. destruct (rep_cell R Ei) as (? & ? & y & C). exists y. apply (ci_p C). }
  exists k'. split; [auto|]. split; [|auto]. apply (rep_reroot N R); auto. intros i I. rewrite S3, S4. auto.
Qed.
Arguments reparent_ok {k par t} p _ _.
Lemma rep_same k k' par t : rep k par t -> (forall i, In i (ids t) -> get (pl k') i = get (pl k) i /\ get (pr k') i = get (pr k) i /\ get (pp k') i = get (pp k) i) -> rep k' par t.
Proof. intros R H. exact (rep_keep H R). Qed.
Arguments rep_same {k k' par t} _ _.
Lemma triple {B} (xs L S R : list B) l r : xs = L ++ S ++ R -> length L = l -> length S = r - l -> l <= r -> firstn l xs = L /\ slice l r xs = S /\ skipn r xs = R.
Proof.
  intros -> <- Ls Hl. unfold slice. rewrite firstn_app, Nat.sub_diag, firstn_O, app_nil_r, firstn_all. split; [auto|]. rewrite skipn_app, Nat.sub_diag, skipn_all, skipn_O. cbn [app]. split.
  - rewrite <- Ls, firstn_app, Nat.sub_diag, firstn_O, app_nil_r, firstn_all. auto.
  - rewrite !skipn_app, skipn_all2, skipn_all2, <- Ls, Nat.sub_diag by lia. reflexivity.
Qed.
Arguments triple {B xs L S R l r} _ _ _ _.

Section Splay.
Variables (M A : Type) (op : M -> M -> M) (e : M) (comp : A -> A -> A) (aid : A) (act : A -> M -> M).
Hypothesis Mon : monoid_laws op e.
Hypothesis Act : action_laws op comp aid act.
Notation nd := (nd M A).
Notation sh := (sh M A).
Notation den := (den act).
Notation val := (val op e act true).
Notation valc := (valc op e act true).
Notation clean := (clean act).
Notation ST := (@ST M A).
Implicit Types (D : nat -> nd) (t : bt).
Notation Prop_ok := (propagate_ok Mon Act true).
Notation Agg_ok := (@aggregate_ok M A op e act Mon true).

Definition wfh (h : sh) : Prop := length (pl (sk h)) = length (sd h) /\ length (pr (sk h)) = length (sd h) /\ length (pp (sk h)) = length (sd h).
Lemma hext_wfh X h h' : wfh h -> hext X h h' -> wfh h'.
Proof. intros (W1 & W2 & W3) (_ & (L1 & L2 & L3) & L4 & _). unfold wfh. repeat split; congruence. Qed.
Arguments hext_wfh {X h h'} _ _.
Definition Dh (h : sh) : nat -> nd := fun j => nth j (sd h) (ND 1 false e e e aid).
Lemma dat_Dh h D X : dat h D X -> forall j, In j X -> Dh h j = D j.
Proof. intros Da j J. unfold Dh. apply nth_error_nth. exact (Da j J). Qed.
Arguments dat_Dh {h D X} _ {j} _.
Lemma Dh_same (h h' : sh) j : get (sd h') j = get (sd h) j -> Dh h' j = Dh h j.
Proof.
  unfold Dh. intros E. destruct (get (sd h) j) as [x|] eqn:Ej.
  - rewrite (nth_error_nth _ _ _ E), (nth_error_nth _ _ _ Ej). reflexivity.
  - apply nth_error_None in E. apply nth_error_None in Ej. now rewrite !nth_overflow by auto.
Qed.
Lemma st_canon X h D rp t : ST X h D rp t -> ST (ids t) h (Dh h) rp t /\ (forall s, incl (ids s) (ids t) -> den (Dh h) s = den D s /\ (val D s -> val (Dh h) s)) /\ (forall i, In i (ids t) -> Dh h i = D i).
Proof.
  intros S. assert (E : forall j, In j (ids t) -> Dh h j = D j) by (intros j J; apply (dat_Dh (st_dat S)), (st_in S), J). split; [|split; [|auto]].
  - split; [apply (st_rep S)|reflexivity|apply (st_nodup S)| |exact (st_rp_t S)]. intros i I. rewrite (E i I). apply (st_dat S), (st_in S), I.
  - intros s Hs. split; [apply den_ext; auto|apply val_ext; auto].
Qed.
Arguments st_canon {X h D rp t} _.
(** the whole list *)
Definition holds (h : sh) t (ds : list (nat * M)) : Prop := wfh h /\ ST (ids t) h (Dh h) None t /\ val (Dh h) t /\ den (Dh h) t = ds.
Definition SL (s : sl M A) (xs : list M) : Prop := exists t ds, snd s = bptr t /\ holds (fst s) t ds /\ map snd ds = xs.
Lemma holds_of X h D t ds : wfh h -> ST X h D None t -> val D t -> den D t = ds -> holds h t ds.
Proof. intros W S V E. destruct (st_canon S) as (S' & H & _). destruct (H t (incl_refl _)) as (E' & V'). split; [auto|]. split; [auto|]. split; [auto|congruence]. Qed.
Arguments holds_of {X h D t ds} _ _ _ _.
Lemma kth_h h t ds k : holds h t ds -> k < length ds -> exists h' l u r m, kth op comp aid act (h, bptr t) k = Some ((h', Some u), u) /\ holds h' (Nd l u r) ds /\ hext (ids t) h h' /\ clean (Dh h') u /\
  ds = den (Dh h') l ++ (u, m) :: den (Dh h') r /\ bsize l = k /\ nm (Dh h' u) = m /\ val (Dh h') l /\ val (Dh h') r /\ (forall j, In j (ids (Nd l u r)) <-> In j (ids t)).
Proof.
  intros (W & S & V & E) Hk. rewrite <- E, den_length in Hk. destruct (kth_ok Mon Act S V Hk) as (h' & D' & l & u & r & E1 & S1 & X1 & C1 & V1 & De1 & De2 & Lk). exists h', l, u, r, (nm (Dh h' u)). split; [auto|].
  destruct (st_canon S1) as (S2 & H2 & H3). assert (W' := hext_wfh W X1). assert (Iu : In u (ids (Nd l u r))) by (cbn; apply in_or_app; right; now left).
  destruct (H2 (Nd l u r) (incl_refl _)) as (E3 & V3). specialize (V3 V1). split; [split; [auto|split; [auto|split; [auto|congruence]]]|]. split; [auto|]. assert (C2 : clean (Dh h') u) by (apply (clean_ext (D := D')); auto). split; [auto|]. split; [rewrite <- E, <- De1, <- E3; apply den_clean, C2|]. split; [auto|]. split; [auto|]. destruct V3 as (_ & V3 & V4). split; [auto|]. split; [auto|].
  intros j. rewrite (st_in S1). tauto.
Qed.
Arguments kth_h {h t ds k} _ _.
Lemma root_size_ok h t ds : holds h t ds -> 0 < length ds -> root_size (h, bptr t) = Some (length ds).
Proof.
  intros (W & S & V & <-) Hl. rewrite den_length in *. unfold root_size. cbn [snd fst]. destruct t as [|l u r]; [cbn in Hl; lia|]. cbn [bptr obind]. change (Some u) with (bptr (Nd l u r)). eapply sum_ok; [exact (st_dat S)| |exact V]. intros i Ei. now apply bptr_in.
Qed.
Arguments root_size_ok {h t ds} _ _.
Lemma agg_root h D l u r : wfh h -> rep (sk h) None (Nd l u r) -> NoDup (ids (Nd l u r)) -> dat h D (ids (Nd l u r)) -> clean D u -> val D l -> val D r ->
  exists h', aggregate op h u = Some h' /\ holds h' (Nd l u r) (den D l ++ (u, nm (D u)) :: den D r) /\ clean (Dh h') u /\ sk h' = sk h /\ (forall j, In j (ids (Nd l u r)) -> deq (fun _ => D j) (fun _ => Dh h' j)) /\ hext (ids (Nd l u r)) h h'.
Proof.
  intros W R N Da C Vl Vr. assert (S : ST (ids (Nd l u r)) h D None (plug [] (Nd l u r))) by (split; [exact R|reflexivity|auto|auto|exact I]).
  destruct (Agg_ok [] l r S C Vl Vr) as (h' & D' & E & S' & X' & K' & O' & Q' & V'). exists h'. split; [auto|]. assert (De : den D' (Nd l u r) = den D l ++ (u, nm (D u)) :: den D r) by (rewrite (den_deq _ Q'); apply den_clean, C).
  split; [exact (holds_of (hext_wfh W X') S' V' De)|]. destruct (st_canon S') as (_ & _ & H3). cbn [plug fold_left] in H3. assert (Iu : In u (ids (Nd l u r))) by (cbn; apply in_or_app; right; now left). split; [apply (clean_ext (D := D')); [auto|exact (clean_deq Q' C)]|]. split; [auto|]. split; [|auto]. intros j J _. rewrite (H3 j J). apply Q'.
Qed.
Arguments agg_root {h D l u r} _ _ _ _ _ _ _.

(** * insert *)
Definition new_nd (m : M) : nd := ND 1 false m m m aid.
Lemma Dh_app h d j : j < length (sd h) -> Dh (SH (ph_new (sk h)) (sd h ++ [d])) j = Dh h j.
Proof. intros L. unfold Dh. cbn. now rewrite app_nth1. Qed.
Lemma new_ok h t ds m : holds h t ds -> let h0 := fst (node_new aid h m) in let u := length (sd h) in
  holds h0 t ds /\ ~ In u (ids t) /\ cell_is (sk h0) u None None None /\ get (sd h0) u = Some (new_nd m) /\ clean (Dh h0) u /\ nm (Dh h0 u) = m.
Proof.
  intros (W & S & V & E). cbn. assert (Hi : forall i, In i (ids t) -> i < length (sd h)). { intros i I. exact (get_some_lt _ _ (st_dat S i I)). }
  destruct W as (W1 & W2 & W3). assert (Nu : ~ In (length (sd h)) (ids t)) by (intros I; apply Hi in I; lia).
  assert (Ed : forall j, In j (ids t) -> Dh (SH (ph_new (sk h)) (sd h ++ [new_nd m])) j = Dh h j) by (intros j J; apply Dh_app; auto).
  split; [split; [unfold wfh; cbn; rewrite !app_length; cbn; lia|split; [split; cbn|]]|split; [auto|split; [split|split; [|split]]]].
  - apply (rep_same (st_rep S)). intros i I. apply Hi in I. cbn. rewrite !get_app_l by lia. auto.
  - reflexivity.
  - apply (st_nodup S).
  - intros i I. cbn. rewrite get_app_l by auto. rewrite (st_dat S i I). f_equal. symmetry. apply Ed, I.
  - exact I.
  - split; [apply (val_ext (D := Dh h)); auto|]. rewrite <- E. apply den_ext. auto.
  - cbn. rewrite get_app_r, <- W1, Nat.sub_diag by lia. reflexivity.
  - cbn. rewrite get_app_r, <- W2, Nat.sub_diag by lia. reflexivity.
  - cbn. rewrite get_app_r, <- W3, Nat.sub_diag by lia. reflexivity.
  - rewrite get_app_r, Nat.sub_diag by lia. reflexivity.
  - unfold SplayTree.clean, Dh. cbn. rewrite app_nth2, Nat.sub_diag by lia. cbn. split; [auto|]. exact (act_unit _ _ _ _ Act).
  - unfold Dh. cbn. rewrite app_nth2, Nat.sub_diag by lia. reflexivity.
Qed.
Arguments new_ok {h t ds} m _.
Lemma insert_ok s xs i m : SL s xs -> i <= length xs -> exists s', sl_insert op comp aid act s i m = Some s' /\ SL s' (firstn i xs ++ m :: skipn i xs).
Proof.
  intros (t & ds & Er & H0 & Ex) Hi. destruct s as [h root]. cbn [fst snd] in *. subst root. unfold sl_insert. pose proof (new_ok m H0) as Hn. cbv zeta in Hn. unfold node_new in *. cbn [fst] in Hn. set (h0 := SH (ph_new (sk h)) (sd h ++ [ND 1 false m m m aid])) in *. set (u := length (sd h)) in *. clearbody h0 u. clear H0 h.
  destruct Hn as (H0 & Nu & Cu & Gu & Clu & Em). pose proof H0 as (W & S & V & E). pose proof Cu as [C1 C2 C3]. assert (Lx : length xs = length ds) by (rewrite <- Ex; apply map_length).
  assert (Gd : forall j, In j (u :: ids t) -> get (sd h0) j = Some (Dh h0 j)). { intros j [<-|J]; [|exact (st_dat S j J)]. rewrite Gu. f_equal. unfold Dh. symmetry. apply nth_error_nth, Gu. }
  destruct (Nat.eqb_spec i 0) as [->|Ni].
  - destruct (set_pr_ok (sk h0) u (bptr t) C2) as (k1 & S1 & S2 & S3 & S4 & S5 & S6). rewrite S1. cbn [obind].
    assert (R1 : rep k1 None t). { apply (rep_same (st_rep S)). intros j J. rewrite S3, S4, S5 by (intros ->; auto). auto. }
    destruct (reparent_ok (Some u) R1 (st_nodup S)) as (k2 & T1 & T2 & T3 & T4 & T5 & T6). rewrite T1. cbn [obind]. assert (Bu : bptr t <> Some u) by (intros Eb; apply bptr_in in Eb; auto).
    assert (N' : NoDup (ids (Nd Lf u t))) by (cbn; constructor; [auto|apply (st_nodup S)]).
    destruct (@agg_root (with_sk h0 k2) (Dh h0) Lf u t) as (h' & E1 & H1 & _); auto.
    + destruct W as (W1 & W2 & W3). unfold wfh. cbn. rewrite T3, T4, T6, S4, S5, S6. auto.
    + split; [split; cbn; [rewrite T3, S4; auto|rewrite T4; auto|rewrite T5, S5; auto]|]. split; [exact I|exact T2].
    + exact I.
    + rewrite E1. cbn [obind]. eexists. split; [reflexivity|]. exists (Nd Lf u t). eexists. split; [reflexivity|]. split; [exact H1|]. cbn. rewrite Em, E, Ex. reflexivity.
  - assert (Hl : 0 < length ds) by lia. rewrite (root_size_ok H0 Hl). cbn [obind]. destruct (Nat.eqb_spec i (length ds)) as [->|Nn].
    + destruct (set_pl_ok (sk h0) u (bptr t) C1) as (k1 & S1 & S2 & S3 & S4 & S5 & S6). rewrite S1. cbn [obind].
      assert (R1 : rep k1 None t). { apply (rep_same (st_rep S)). intros j J. rewrite S3, S4, S5 by (intros ->; auto). auto. }
      destruct (reparent_ok (Some u) R1 (st_nodup S)) as (k2 & T1 & T2 & T3 & T4 & T5 & T6). rewrite T1. cbn [obind]. assert (Bu : bptr t <> Some u) by (intros Eb; apply bptr_in in Eb; auto).
      assert (N' : NoDup (ids (Nd t u Lf))) by (cbn; apply (Permutation_NoDup (Permutation_cons_append _ _)); constructor; [auto|apply (st_nodup S)]).
      destruct (@agg_root (with_sk h0 k2) (Dh h0) t u Lf) as (h' & E1 & H1 & _); auto.
      * destruct W as (W1 & W2 & W3). unfold wfh. cbn. rewrite T3, T4, T6, S4, S5, S6. auto.
      * split; [split; cbn; [rewrite T3; auto|rewrite T4, S4; auto|rewrite T5, S5; auto]|]. split; [exact T2|exact I].
      * intros j J. apply Gd. cbn in J. apply in_app_or in J as [J|[->|[]]]; [now right|now left].
      * exact I.
      * rewrite E1. cbn [obind]. eexists. split; [reflexivity|]. exists (Nd t u Lf). eexists. split; [reflexivity|]. split; [exact H1|]. rewrite map_app. cbn. rewrite Em, E, <- Lx, firstn_all, skipn_all, Ex. reflexivity.
    + assert (Hk : i < length ds) by lia. destruct (kth_h H0 Hk) as (h1 & a & p & b & mp & E1 & H1 & X1 & Cp & Es & La & Emp & Va & Vb & Ip). rewrite E1. cbn [obind fst].
      destruct H1 as (W1 & S1 & V1 & De1). pose proof (st_rep S1) as ([P1 P2 P3] & Ra & Rb). pose proof (st_nodup S1) as N1.
      assert (Nu1 : ~ In u (ids (Nd a p b))) by (rewrite Ip; auto). destruct X1 as (Ko & _ & _ & Do). assert (Gu1 : get (sd h1) u = Some (new_nd m)) by (rewrite Do; auto). destruct (Ko u Nu) as (K1 & K2 & K3).
      rewrite P1. cbn [obind]. assert (U1 : get (pl (sk h1)) u = Some None) by congruence. assert (U2 : get (pr (sk h1)) u = Some None) by congruence. assert (U3 : get (pp (sk h1)) u = Some None) by congruence.
      assert (Np : p <> u) by (intros ->; apply Nu1; cbn; apply in_or_app; right; now left).
      assert (Na : ~ In u (ids a)) by (intros J; apply Nu1; cbn; apply in_or_app; auto). assert (Nb : ~ In u (ids b)) by (intros J; apply Nu1; cbn; apply in_or_app; right; now right).
      destruct (set_pl_ok (sk h1) u (bptr a) U1) as (k1 & A1 & A2 & A3 & A4 & A5 & A6). rewrite A1. cbn [obind]. assert (U2' : get (pr k1) u = Some None) by (rewrite A4; auto).
      destruct (set_pr_ok k1 u (Some p) U2') as (k2 & B1 & B2 & B3 & B4 & B5 & B6). rewrite B1. cbn [obind].
      assert (Nda : NoDup (ids a)) by (cbn in N1; apply NoDup_app_iff in N1; tauto).
      assert (Ra2 : rep k2 (Some p) a). { apply (rep_same Ra). intros j J. rewrite B4, B5, A3, B3, A4, A5 by (intros ->; auto). auto. }
      destruct (reparent_ok (Some u) Ra2 Nda) as (k3 & T1 & T2 & T3 & T4 & T5 & T6). rewrite T1. cbn [obind].
      assert (Bap : bptr a <> Some p) by (intros Eb; dis N1 p). assert (Bau : bptr a <> Some u) by (intros Eb; apply bptr_in in Eb; auto).
      assert (P3' : get (pp k3) p = Some None) by (rewrite T5, B5, A5; auto). destruct (set_pp_ok k3 p (Some u) P3') as (k4 & F1 & F2 & F3 & F4 & F5 & F6). rewrite F1. cbn [obind].
      assert (P1' : get (pl k4) p = Some (bptr a)) by (rewrite F4, T3, B4, A3; auto). destruct (set_pl_ok k4 p None P1') as (k5 & G1 & G2 & G3 & G4 & G5 & G6). rewrite G1. cbn [obind].
      set (h5 := with_sk h1 k5). set (D5 := Dh h1).
      assert (R5 : rep k5 None (Nd a u (Nd Lf p b))).
      { split; [split; cbn [bptr]|split; [|split; [split; cbn [bptr]|split; [exact I|]]]].
        - rewrite G3, F4, T3, B4 by auto. auto.
        - rewrite G4, F5, T4. auto.
        - rewrite G5, F3, T5, B5, A5 by auto. auto.
        - apply (rep_same T2). intros j J. assert (j <> p) by (intros ->; dis N1 p). rewrite G3, G4, G5, F3, F4, F5 by auto. auto.
        - auto.
        - rewrite G4, F5, T4, B3, A4 by auto. auto.
        - rewrite G5. auto.
        - apply (rep_same Rb). intros j J. assert (j <> p) by (intros ->; dis N1 p). assert (j <> u) by (intros ->; auto). assert (bptr a <> Some j) by (intros Eb; dis N1 j). rewrite G3, G4, G5, F3, F4, F5, T3, T4, T5, B3, B4, B5, A3, A4, A5 by auto. auto. }
      assert (N5 : NoDup (ids (Nd a u (Nd Lf p b)))). { cbn. cbn in N1, Nu1. apply (Permutation_NoDup (Permutation_middle _ _ _)). constructor; auto. }
      assert (Da5 : dat h5 D5 (ids (Nd a u (Nd Lf p b)))). { intros j J. cbn in J. apply in_app_or in J as [J|[<-|J]]; [apply (st_dat S1); cbn; apply in_or_app; auto| |apply (st_dat S1); cbn; apply in_or_app; right; exact J]. cbn. rewrite Gu1. f_equal. unfold D5, Dh. symmetry. apply nth_error_nth, Gu1. }
      assert (S5 : ST (ids (Nd a u (Nd Lf p b))) h5 D5 None (plug [FR a u] (Nd Lf p b))) by (split; [exact R5|reflexivity|auto|auto|exact I]).
      assert (W5 : wfh h5). { destruct W1 as (? & ? & ?). unfold wfh, h5. cbn. rewrite G4, G5, G6, F4, F5, F6, T3, T4, T6, B4, B5, B6, A4, A5, A6. auto. }
      destruct (Agg_ok [FR a u] Lf b S5 Cp (I : val D5 Lf) Vb) as (h6 & D6 & E6 & S6 & X6 & K6 & O6 & Q6 & V6). rewrite E6. cbn [obind].
      assert (Cu6 : clean D6 u). { apply (clean_deq (D := D5)); [auto|]. unfold SplayTree.clean, D5, Dh. rewrite (nth_error_nth _ _ _ Gu1). cbn. split; [auto|exact (act_unit _ _ _ _ Act)]. }
      assert (Va6 : val D6 a) by (apply (val_keep Va O6); intros J; dis N1 p).
      destruct (@agg_root h6 D6 a u (Nd Lf p b)) as (h7 & E7 & H7 & _); auto; [exact (hext_wfh W5 X6)|exact (st_rep S6)|exact (st_dat S6)|].
      rewrite E7. cbn [obind]. eexists. split; [reflexivity|]. exists (Nd a u (Nd Lf p b)). eexists. split; [reflexivity|]. split; [exact H7|].
      assert (Em6 : nm (D6 u) = m). { destruct (Q6 u) as (-> & _). unfold D5, Dh. rewrite (nth_error_nth _ _ _ Gu1). reflexivity. }
      rewrite Em6, !(den_deq _ Q6). unfold D5. rewrite (den_clean Lf b Cp), Emp, <- Ex, Es. cbn [SplayTree.den app]. rewrite !map_app. cbn [map snd].
      assert (Ll : length (map snd (den (Dh h1) a)) = i) by (rewrite map_length, den_length; auto). rewrite firstn_app, skipn_app, Ll, Nat.sub_diag, firstn_O, skipn_O, app_nil_r, <- Ll, firstn_all, skipn_all. reflexivity.
Qed.
(** * erase *)
Lemma detach h X D rp t : wfh h -> ST X h D rp t -> forall s par, rep (sk h) par s -> NoDup (ids s) -> incl (ids s) (ids t) -> val D s ->
  exists k', set_pp_opt (sk h) (bptr s) None = Some k' /\ holds (with_sk h k') s (den D s) /\ pl k' = pl (sk h) /\ pr k' = pr (sk h) /\ (forall j, bptr s <> Some j -> get (pp k') j = get (pp (sk h)) j).
Proof.
  intros W S s par R N Hi V. destruct (reparent_ok None R N) as (k' & T1 & T2 & T3 & T4 & T5 & T6). exists k'. split; [auto|]. split; [|auto].
  apply (@holds_of (ids s) _ D); [destruct W as (W1 & W2 & W3); unfold wfh; cbn; rewrite T3, T4, T6; auto| |auto|auto]. split; [exact T2|reflexivity|auto| |exact I]. intros j J. apply (st_dat S), (st_in S), Hi, J.
Qed.
Arguments detach {h X D rp t} _ _ {s par} _ _ _ _.
Lemma sl_cat2 ds (L R : list (nat * M)) x i : ds = L ++ x :: R -> length L = i -> firstn i (map snd ds) ++ skipn (S i) (map snd ds) = map snd (L ++ R).
Proof.
  intros -> <-. rewrite !map_app. cbn [map]. rewrite <- (map_length snd L), firstn_app, Nat.sub_diag, firstn_O, app_nil_r, firstn_all. f_equal. rewrite skipn_app, skipn_all2 by lia. replace (S (length (map snd L)) - length (map snd L)) with 1 by lia. reflexivity.
Qed.
Arguments sl_cat2 {ds L R x i} _ _.
Lemma bsize_0 t : bsize t = 0 -> t = Lf. Proof. destruct t; [auto|cbn; lia]. Qed.
Lemma erase_ok s xs i : SL s xs -> i < length xs -> exists s', sl_erase op comp aid act s i = Some s' /\ SL s' (firstn i xs ++ skipn (S i) xs).
Proof.
  intros (t & ds & Er & H0 & Ex) Hi. destruct s as [h root]. cbn [fst snd] in *. subst root. assert (Lx : length xs = length ds) by (rewrite <- Ex; apply map_length). rewrite Lx in Hi.
  unfold sl_erase. rewrite (root_size_ok H0) by lia. cbn [obind]. unfold guard. rewrite (proj2 (Nat.ltb_lt _ _) Hi). cbn [obind].
  destruct (kth_h H0 Hi) as (h1 & a & p & b & mp & E1 & H1 & X1 & Cp & Es & La & Emp & Va & Vb & Ip). rewrite E1. cbn [obind fst]. pose proof H1 as (W1 & S1 & V1 & De1). pose proof (st_rep S1) as ([P1 P2 P3] & Ra & Rb). pose proof (st_nodup S1) as N1. rewrite P1, P2. cbn [obind].
  assert (Nab : NoDup (ids a) /\ NoDup (ids b)) by (cbn in N1; apply NoDup_app_iff in N1 as (? & N2 & _); apply NoDup_cons_iff in N2; tauto). destruct Nab as (Na & Nb).
  assert (Ia : incl (ids a) (ids (Nd a p b))) by (intros j J; cbn; apply in_or_app; auto). assert (Ib : incl (ids b) (ids (Nd a p b))) by (intros j J; cbn; apply in_or_app; right; now right).
  assert (Ll : length (den (Dh h1) a) = i) by (rewrite den_length; auto). assert (Exs : firstn i xs ++ skipn (S i) xs = map snd (den (Dh h1) a ++ den (Dh h1) b)) by (rewrite <- Ex; exact (sl_cat2 Es Ll)). rewrite Exs.
  destruct (detach W1 S1 Rb Nb Ib Vb) as (kb & Tb1 & Tb2 & Tb3 & Tb4 & Tb5). destruct (Nat.eqb_spec i 0) as [Zi|Ni].
  { rewrite Tb1. cbn [obind]. eexists. split; [reflexivity|]. exists b. eexists. split; [reflexivity|]. split; [exact Tb2|]. rewrite (bsize_0 a) by lia. reflexivity. }
  change (Some p) with (bptr (Nd a p b)). rewrite (root_size_ok H1) by lia. cbn [obind]. assert (Ln : length ds = i + 1 + bsize b) by (rewrite Es, app_length; cbn; rewrite !den_length, La; lia).
  destruct (Nat.eqb_spec i (length ds - 1)) as [Zi|Nn].
  { destruct (detach W1 S1 Ra Na Ia Va) as (ka & Ta1 & Ta2 & Ta3 & Ta4 & Ta5). rewrite Ta1. cbn [obind]. eexists. split; [reflexivity|]. exists a. eexists. split; [reflexivity|]. split; [exact Ta2|]. rewrite (bsize_0 b) by lia. cbn. now rewrite app_nil_r. }
  destruct b as [|b1 q b2]; [cbn in Ln; lia|]. cbn [bptr obind set_pp_opt] in Tb1 |- *. rewrite Tb1. cbn [obind]. change (Some q) with (bptr (Nd b1 q b2)).
  assert (Hz : 0 < length (den (Dh h1) (Nd b1 q b2))) by (rewrite den_length; cbn; lia). destruct (kth_h Tb2 Hz) as (h2 & lf & w & c & mw & E2 & H2 & X2 & Cw & Es2 & Lz & Emw & _ & Vc & Iw). apply bsize_0 in Lz. subst lf. rewrite E2. cbn [obind fst snd].
  destruct a as [|a1 v a2]; [cbn in La; lia|]. cbn [bptr obind]. pose proof H2 as (W2 & S2 & V2 & De2). pose proof (st_rep S2) as ([Q1 Q2 Q3] & _ & Rc). pose proof (st_nodup S2) as N2.
  destruct (set_pl_ok (sk h2) w (Some v) Q1) as (k3 & A1 & A2 & A3 & A4 & A5 & A6). rewrite A1. cbn [obind]. set (ta := Nd a1 v a2) in *. set (tb := Nd b1 q b2) in *.
  assert (Nw : forall j, In j (ids ta) -> ~ In j (ids (Nd Lf w c))) by (intros j J K; rewrite Iw in K; dis N1 j). destruct X2 as (Ko & _ & _ & Do).
  assert (Ra3 : rep k3 (Some p) ta). { apply (rep_same Ra). intros j J. assert (Nj := Nw j J). assert (j <> w) by (intros ->; apply Nj; now left). assert (Nj' : ~ In j (ids tb)) by (rewrite <- Iw; auto). destruct (Ko j Nj') as (Ko1 & Ko2 & Ko3). cbn [sk with_sk] in *. rewrite A3, A4, A5, Ko1, Ko2, Ko3, Tb3, Tb4 by auto. rewrite Tb5; [auto|]. intros Eb. apply bptr_in in Eb. auto. }
  destruct (reparent_ok (Some w) Ra3 Na) as (k4 & T1 & T2 & T3 & T4 & T5 & T6). cbn [bptr ta set_pp_opt] in T1. rewrite T1. cbn [obind].
  assert (Nd' : NoDup (ids (Nd ta w c))). { cbn [ids] in N2 |- *. apply NoDup_app_iff. split; [auto|]. split; [exact N2|]. intros j J K. exact (Nw j J K). }
  assert (Ed : forall j, In j (ids ta) -> get (sd h2) j = get (sd h1) j). { intros j J. apply Do. rewrite <- Iw. auto. }
  destruct (@agg_root (with_sk h2 k4) (Dh h2) ta w c) as (h5 & E5 & H5 & _); auto.
  - destruct W2 as (? & ? & ?). unfold wfh. cbn. rewrite T3, T4, T6, A4, A5, A6. auto.
  - split; [split; cbn [bptr ta sk with_sk]|split; [exact T2|]].
    + rewrite T3. auto.
    + rewrite T4, A4. auto.
    + rewrite T5, A5; [auto|]. intros Eb. apply bptr_in in Eb. apply (Nw w Eb). now left.
    + apply (rep_same Rc). intros j J. assert (j <> w) by (intros ->; cbn in N2; apply NoDup_cons_iff in N2; tauto). assert (bptr ta <> Some j) by (intros Eb; apply bptr_in in Eb; apply (Nw j Eb); now right). cbn [sk with_sk]. rewrite T3, T4, T5, A3, A4, A5 by auto. auto.
  - intros j J. cbn [ids] in J. apply in_app_or in J as [J|J]; [|exact (st_dat S2 j J)]. cbn [sd with_sk]. rewrite (Ed j J), (st_dat S1 j (Ia j J)). f_equal. symmetry. apply Dh_same. auto.
  - apply (val_ext (D := Dh h1)); [|auto]. intros j J. apply Dh_same. auto.
  - cbn [bptr] in E5. rewrite E5. cbn [obind]. eexists. split; [reflexivity|]. exists (Nd ta w c). eexists. split; [reflexivity|]. split; [exact H5|]. rewrite (den_ext (D := Dh h1) (D' := Dh h2) (t := ta)) by (intros j J; apply Dh_same; auto). rewrite Es2, Emw. reflexivity.
Qed.
(** * set and update(i, f) *)
Lemma point_ok s xs i g x : SL s xs -> get xs i = Some x -> exists s', sl_point op comp aid act s i g = Some s' /\ SL s' (firstn i xs ++ g x :: skipn (S i) xs).
Proof.
  intros (t & ds & Er & H0 & Ex) Gx. destruct s as [h root]. cbn [fst snd] in *. subst root. assert (Hi : i < length xs) by exact (get_some_lt _ _ Gx). assert (Lx : length xs = length ds) by (rewrite <- Ex; apply map_length). rewrite Lx in Hi.
  unfold sl_point. destruct (kth_h H0 Hi) as (h1 & a & p & b & mp & E1 & H1 & X1 & Cp & Es & La & Emp & Va & Vb & Ip). rewrite E1. cbn [obind fst snd]. pose proof H1 as (W1 & S1 & V1 & De1). pose proof (st_nodup S1) as N1.
  assert (Ipp : In p (ids (Nd a p b))) by (cbn; apply in_or_app; right; now left).
  destruct (upd_ok (fun d => ND (nsum d) (nrev d) (g (nm d)) (nprod d) (nrprod d) (nf d)) (st_dat S1) Ipp) as (h2 & E2 & Da2 & K2 & L2 & O2). rewrite E2. cbn [obind].
  set (D2 := fupd (Dh h1) p _) in *. assert (Oa : forall s, ~ In p (ids s) -> forall j, In j (ids s) -> D2 j = Dh h1 j) by (intros s Ns j J; apply fupd_neq; intros ->; auto).
  assert (Npa : ~ In p (ids a)) by (intros J; dis N1 p). assert (Npb : ~ In p (ids b)) by (intros J; dis N1 p).
  destruct (@agg_root h2 D2 a p b) as (h3 & E3 & H3 & _); auto.
  - destruct W1 as (? & ? & ?). unfold wfh. rewrite K2, L2. auto.
  - rewrite K2. apply (st_rep S1).
  - unfold SplayTree.clean, D2. rewrite fupd_eq. exact Cp.
  - apply (val_ext (D := Dh h1)); [apply Oa|]; auto.
  - apply (val_ext (D := Dh h1)); [apply Oa|]; auto.
  - rewrite E3. cbn [obind]. eexists. split; [reflexivity|]. exists (Nd a p b). eexists. split; [reflexivity|]. split; [exact H3|].
    rewrite !(den_ext (D := Dh h1) (D' := D2)) by (apply Oa; auto). unfold D2. rewrite fupd_eq. cbn [nm]. rewrite Emp.
    assert (Ll : length (map snd (den (Dh h1) a)) = i) by (rewrite map_length, den_length; auto). assert (Exs : xs = map snd (den (Dh h1) a) ++ mp :: map snd (den (Dh h1) b)) by (rewrite <- Ex, Es, map_app; reflexivity).
    assert (Hx : mp = x). { rewrite Exs, <- Ll, get_app_r, Nat.sub_diag in Gx by lia. now injection Gx. } assert (Exs' : xs = map snd (den (Dh h1) a) ++ [x] ++ map snd (den (Dh h1) b)) by (rewrite <- Hx; exact Exs).
    rewrite map_app. cbn [map snd]. destruct (triple (l := i) (r := S i) Exs' Ll (ltac:(cbn [length]; lia) : length [x] = S i - i) ltac:(lia)) as (T1 & _ & T3). rewrite T1, T3, Hx. reflexivity.
Qed.
(** * between *)
Definition cctx D (c : ctx) (L R : list (nat * M)) : Prop := forall D2 t, (forall j, In j (cids c) -> D2 j = D j) -> den D2 (plug c t) = L ++ den D2 t ++ R.
Lemma cctx_nil D : cctx D [] [] []. Proof. intros D2 t _. cbn. now rewrite app_nil_r. Qed.
Lemma cctx_FL D i r c L R : clean D i -> cctx D c L R -> cctx D (FL i r :: c) L ((i, nm (D i)) :: den D r ++ R).
Proof.
  intros C H D2 t E. rewrite plug_cons, (H D2) by (intros j J; apply E; cbn; right; apply in_or_app; auto). f_equal. cbn [fill]. assert (Ei : D2 i = D i) by (apply E; now left). rewrite den_clean by (apply (clean_ext (D := D)); auto). rewrite Ei, (den_ext (D := D) (D' := D2) (t := r)) by (intros j J; apply E; cbn; right; apply in_or_app; auto). now rewrite <- app_assoc.
Qed.
Lemma cctx_FR D i l c L R : clean D i -> cctx D c L R -> cctx D (FR l i :: c) (L ++ den D l ++ [(i, nm (D i))]) R.
Proof.
  intros C H D2 t E. rewrite plug_cons, (H D2) by (intros j J; apply E; cbn; right; apply in_or_app; auto). cbn [fill]. assert (Ei : D2 i = D i) by (apply E; now left). rewrite den_clean by (apply (clean_ext (D := D)); auto). rewrite Ei, (den_ext (D := D) (D' := D2) (t := l)) by (intros j J; apply E; cbn; right; apply in_or_app; auto). repeat (rewrite <- app_assoc; cbn [app]). reflexivity.
Qed.
Lemma between_ok h t ds l r : holds h t ds -> l < r -> r <= length ds -> exists h' c a v b L R, let t' := plug c (Nd a v b) in
  between op comp aid act (h, bptr t) l r = Some ((h', bptr t'), Some v) /\ holds h' t' ds /\ valc (Dh h') c /\ val (Dh h') (Nd a v b) /\ cctx (Dh h') c L R /\ length L = l /\ bsize (Nd a v b) = r - l.
Proof.
  intros H0 Hl Hr. unfold between. rewrite (root_size_ok H0) by lia. cbn [obind]. unfold guard. rewrite (proj2 (Nat.leb_le _ _) Hr). cbn [obind].
  destruct (Nat.eqb_spec l 0) as [Zl|Nl]; destruct (Nat.eqb_spec r (length ds)) as [Zr|Nr].
  - pose proof H0 as (W & S & V & E). assert (Ls : bsize t = length ds) by (rewrite <- E; symmetry; apply den_length). destruct t as [|a v b]; [cbn in Ls; lia|]. exists h, [], a, v, b, [], []. cbn [plug fold_left bptr snd]. split; [auto|]. split; [auto|]. split; [constructor|]. split; [auto|]. split; [apply cctx_nil|]. split; [auto|lia].
  - assert (Hr' : r < length ds) by lia. destruct (kth_h H0 Hr') as (h1 & w & p & z & mp & E1 & H1 & X1 & Cp & Es & La & Emp & Va & Vb & Ip). rewrite E1. cbn [obind fst snd]. pose proof H1 as (W1 & S1 & V1 & De1). pose proof (st_rep S1) as ([P1 P2 P3] & Ra & Rb). rewrite P1. cbn [obind].
    destruct w as [|a v b]; [cbn in La; lia|]. exists h1, [FL p z], a, v, b. eexists. eexists. cbn [plug fold_left fill bptr]. split; [reflexivity|]. split; [auto|]. split; [constructor; [exact Vb|constructor]|]. split; [auto|]. split; [apply cctx_FL; [auto|apply cctx_nil]|]. split; [cbn; lia|lia].
  - assert (Hl' : l - 1 < length ds) by lia. destruct (kth_h H0 Hl') as (h1 & w & p & z & mp & E1 & H1 & X1 & Cp & Es & La & Emp & Va & Vb & Ip). rewrite E1. cbn [obind fst snd]. pose proof H1 as (W1 & S1 & V1 & De1). pose proof (st_rep S1) as ([P1 P2 P3] & Ra & Rb). rewrite P2. cbn [obind].
    assert (Lz : length ds = l + bsize z) by (rewrite Es, app_length; cbn; rewrite !den_length, La; lia). destruct z as [|a v b]; [cbn in Lz; lia|]. exists h1, [FR w p], a, v, b. eexists. eexists. cbn [plug fold_left fill bptr]. split; [reflexivity|]. split; [auto|]. split; [constructor; [exact Va|constructor]|]. split; [auto|]. split; [apply cctx_FR; [auto|apply cctx_nil]|]. split; [cbn [app]; rewrite app_length, den_length; cbn; lia|lia].
  - assert (Hr' : r < length ds) by lia. destruct (kth_h H0 Hr') as (h1 & w & p & z & mp & E1 & H1 & X1 & Cp & Es & La & Emp & Va & Vb & Ip). rewrite E1. cbn [obind fst snd]. pose proof H1 as (W1 & S1 & V1 & De1). pose proof (st_rep S1) as ([P1 P2 P3] & Ra & Rb). pose proof (st_nodup S1) as N1. rewrite P1. cbn [obind].
    assert (Nw : NoDup (ids w)) by (cbn in N1; apply NoDup_app_iff in N1; tauto). assert (Iw : incl (ids w) (ids (Nd w p z))) by (intros j J; cbn; apply in_or_app; auto).
    destruct (detach W1 S1 Ra Nw Iw Va) as (k1 & T1 & T2 & T3 & T4 & T5). assert (Hk : l - 1 < length (den (Dh h1) w)) by (rewrite den_length; lia). destruct (kth_h T2 Hk) as (h2 & x & q & y & mq & E2 & H2 & X2 & Cq & Es2 & Lq & Emq & Vx & Vy & Iq).
    destruct w as [|w1 wv w2]; [cbn in La; lia|]. cbn [bptr set_pp_opt] in T1, E2 |- *. cbn [obind]. rewrite T1. cbn [obind]. rewrite E2. cbn [obind fst snd]. set (tw := Nd w1 wv w2) in *. pose proof H2 as (W2 & S2 & V2 & De2). pose proof (st_rep S2) as R2. pose proof (st_nodup S2) as N2. destruct X2 as (Ko & _ & _ & Do). cbn [sk sd with_sk] in Ko, Do.
    assert (Np : ~ In p (ids tw)) by (intros J; dis N1 p). assert (Nz : forall j, In j (ids z) -> ~ In j (ids tw)) by (intros j J K; dis N1 j). assert (Npz : ~ In p (ids z)) by (intros J; dis N1 p).
    assert (Bw : forall j, ~ In j (ids tw) -> bptr tw <> Some j) by (intros j J Eb; apply bptr_in in Eb; auto).
    destruct (Ko p Np) as (Kp1 & Kp2 & Kp3). rewrite T3 in Kp1. rewrite T4 in Kp2. rewrite T5 in Kp3 by auto. assert (G1 : get (pl (sk h2)) p = Some (bptr tw)) by congruence.
    destruct (set_pl_ok (sk h2) p (Some q) G1) as (k3 & A1 & A2 & A3 & A4 & A5 & A6). rewrite A1. cbn [obind].
    assert (R3 : rep k3 None (Nd x q y)). { apply (rep_same R2). intros j J. rewrite A3, A4, A5; auto. intros ->. rewrite Iq in J. auto. }
    destruct (reparent_ok (Some p) R3 N2) as (k4 & B1 & B2 & B3 & B4 & B5 & B6). cbn [bptr set_pp_opt] in B1. rewrite B1. cbn [obind]. assert (Ed : forall j, ~ In j (ids tw) -> Dh h2 j = Dh h1 j) by (intros j J; apply Dh_same, Do, J).
    assert (Bq : forall j, ~ In j (ids tw) -> bptr (Nd x q y) <> Some j) by (intros j J Eb; apply bptr_in in Eb; rewrite Iq in Eb; auto).
    assert (Nall : NoDup (ids (Nd (Nd x q y) p z))). { change (NoDup (ids (Nd x q y) ++ p :: ids z)). apply NoDup_app_iff. split; [auto|]. split; [cbn in N1; apply NoDup_app_iff in N1; tauto|]. intros j J K. rewrite Iq in J. destruct K as [->|K]; [auto|exact (Nz j K J)]. }
    destruct (@agg_root (with_sk h2 k4) (Dh h2) (Nd x q y) p z) as (h5 & E5 & H5 & Cp5 & K5 & Q5 & _); auto.
    + destruct W2 as (? & ? & ?). unfold wfh. cbn. rewrite B3, B4, B6, A4, A5, A6. auto.
    + split; [split|split; [exact B2|]]; cbn [bptr sk with_sk].
      * rewrite B3. auto.
      * rewrite B4, A4. congruence.
      * rewrite B5, A5 by auto. congruence.
      * apply (rep_same Rb). intros j J. assert (Nj := Nz j J). assert (j <> p) by (intros ->; auto). destruct (Ko j Nj) as (Kj1 & Kj2 & Kj3). rewrite B3, B4, B5, A3, A4, A5, Kj1, Kj2, Kj3, T3, T4, T5 by auto. auto.
    + intros j J. change (In j (ids (Nd x q y) ++ p :: ids z)) in J. apply in_app_or in J as [J|J]; [exact (st_dat S2 j J)|]. assert (Nj : ~ In j (ids tw)) by (destruct J as [<-|J]; auto). cbn [sd with_sk]. rewrite Do, Ed by auto. apply (st_dat S1). change (In j (ids tw ++ p :: ids z)). apply in_or_app. now right.
    + apply (clean_ext (D := Dh h1)); auto.
    + apply (val_ext (D := Dh h1)); [|auto]. intros j J. auto.
    + rewrite E5. cbn [obind]. rewrite K5. cbn [sk with_sk]. pose proof B2 as (Bq' & _). pose proof (ci_r Bq') as Gr. rewrite Gr. cbn [obind].
      assert (Ly : r = l + bsize y). { assert (length (den (Dh h1) tw) = r) by (rewrite den_length; auto). rewrite Es2, app_length in H. cbn in H. rewrite !den_length, Lq in H. lia. }
      destruct y as [|a v b]; [cbn in Ly; lia|]. cbn [bptr]. exists h5, [FR x q; FL p z], a, v, b. eexists. eexists. cbn [plug fold_left fill bptr]. split; [reflexivity|].
      assert (Eall : den (Dh h2) (Nd x q (Nd a v b)) ++ (p, nm (Dh h2 p)) :: den (Dh h2) z = ds). { rewrite De2, (Ed p Np), Emp. rewrite (den_ext (D := Dh h1) (D' := Dh h2) (t := z)) by (intros j J; auto). symmetry. exact Es. }
      rewrite Eall in H5. split; [exact H5|]. destruct H5 as (W5 & S5 & V5 & De5). destruct V5 as (_ & (_ & Vx5 & Vy5) & Vz5). split; [constructor; [exact Vx5|constructor; [exact Vz5|constructor]]|]. split; [exact Vy5|].
      assert (Cq5 : clean (Dh h5) q). { assert (Iqq : In q (ids (Nd (Nd x q (Nd a v b)) p z))) by (change (In q ((ids x ++ q :: ids (Nd a v b)) ++ p :: ids z)); apply in_or_app; left; apply in_or_app; right; now left). destruct (Q5 q Iqq 0) as (_ & Qf & Qr). destruct Cq as (Cq1 & Cq2). split; [congruence|]. intros m. rewrite Qf. auto. }
      split; [apply cctx_FR; [exact Cq5|apply cctx_FL; [exact Cp5|apply cctx_nil]]|]. split; [cbn [app]; rewrite app_length, den_length; cbn; lia|lia].
Qed.
Lemma val_prod D a v b : val D (Nd a v b) -> nprod (D v) = product op e (map snd (den D (Nd a v b))).
Proof. intros ((_ & V & _) & _). exact V. Qed.
Lemma prod_ok s xs l r : SL s xs -> l < r -> r <= length xs -> exists s', sl_prod op comp aid act s l r = Some (s', product op e (slice l r xs)) /\ SL s' xs.
Proof.
  intros (t & ds & Er & H0 & Ex) Hl Hr. destruct s as [h root]. cbn [fst snd] in *. subst root. assert (Lx : length xs = length ds) by (rewrite <- Ex; apply map_length). rewrite Lx in Hr.
  unfold sl_prod. destruct (between_ok H0 Hl Hr) as (h' & c & a & v & b & L & R & E & H & Vc & V & C & Ll & Ls). rewrite E. cbn [obind fst]. pose proof H as (W & S & Va & De).
  assert (Iv : In v (ids (plug c (Nd a v b)))) by (apply plug_in; right; cbn; apply in_or_app; right; now left). rewrite (st_dat S v Iv). cbn [obind]. exists (h', bptr (plug c (Nd a v b))). split; [|exists (plug c (Nd a v b)), ds; cbn [fst snd]; auto].
  do 3 f_equal. rewrite (val_prod V). f_equal. rewrite (C (Dh h') (Nd a v b)) in De by auto. assert (Exs : xs = map snd L ++ map snd (den (Dh h') (Nd a v b)) ++ map snd R) by (rewrite <- Ex, <- De, !map_app; reflexivity).
  destruct (triple (l := l) (r := r) Exs) as (_ & T & _); [now rewrite map_length|rewrite map_length, den_length; auto|lia|auto].
Qed.
(** changing the node of a range and splaying it *)
Lemma range_ok s xs l r g (G : list (nat * M) -> list (nat * M)) (G' : list M -> list M) : SL s xs -> l < r -> r <= length xs ->
  (forall D D' a v b, NoDup (ids (Nd a v b)) -> D' v = g (D v) -> (forall j, In j (ids a) -> D' j = D j) -> (forall j, In j (ids b) -> D' j = D j) -> den D' (Nd a v b) = G (den D (Nd a v b))) -> (forall ds, map snd (G ds) = G' (map snd ds)) ->
  exists s', (let* (s, v) := between op comp aid act s l r in let* u := v in let* h := upd (fst s) u g in let* h := lsplay op comp aid act h u in Some (h, Some u)) = Some s' /\ SL s' (firstn l xs ++ G' (slice l r xs) ++ skipn r xs).
Proof.
  intros (t & ds & Er & H0 & Ex) Hl Hr Hg Hg'. destruct s as [h root]. cbn [fst snd] in *. subst root. assert (Lx : length xs = length ds) by (rewrite <- Ex; apply map_length). rewrite Lx in Hr.
  destruct (between_ok H0 Hl Hr) as (h' & c & a & v & b & L & R & E & H & Vc & V & C & Ll & Ls). rewrite E. cbn [obind fst]. pose proof H as (W & S & Va & De).
  assert (Iv : In v (ids (plug c (Nd a v b)))) by (apply plug_in; right; cbn; apply in_or_app; right; now left). destruct (upd_ok g (st_dat S) Iv) as (h2 & E2 & Da2 & K2 & L2 & O2). rewrite E2. cbn [obind]. set (D2 := fupd (Dh h') v _) in *.
  pose proof (st_nodup S) as N. destruct (NoDup_plug N) as (Nt & Nc & _). assert (Npa : ~ In v (ids a)) by (intros J; dis Nt v). assert (Npb : ~ In v (ids b)) by (intros J; dis Nt v).
  assert (Oa : forall s, ~ In v (ids s) -> forall j, In j (ids s) -> D2 j = Dh h' j) by (intros s Ns j J; apply fupd_neq; intros ->; auto).
  assert (Oc : forall j, In j (cids c) -> D2 j = Dh h' j) by (intros j J; apply fupd_neq; intros ->; apply (Nc v J); cbn; apply in_or_app; right; now left).
  assert (S2 : ST (ids (plug c (Nd a v b))) h2 D2 None (plug c (Nd a v b))) by (split; [rewrite K2; apply (st_rep S)|reflexivity|auto|auto|exact I]).
  assert (W2 : wfh h2) by (destruct W as (? & ? & ?); unfold wfh; rewrite K2, L2; auto). destruct V as (_ & V1 & V2).
  destruct (lsplay_ok Mon Act (c := c) a v b S2) as (h3 & D3 & l3 & r3 & E3 & S3 & X3 & C3 & V3 & De3).
  { apply (valc_ext (D := Dh h')); auto. } { apply (val_ext (D := Dh h')); [apply Oa|]; auto. } { apply (val_ext (D := Dh h')); [apply Oa|]; auto. }
  rewrite E3. cbn [obind]. eexists. split; [reflexivity|]. exists (Nd l3 v r3). eexists. split; [reflexivity|]. split; [exact (holds_of (hext_wfh W2 X3) S3 V3 De3)|].
  rewrite (C D2) by auto. rewrite (Hg (Dh h') D2 a v b) by (first [apply fupd_eq|apply Oa; auto|auto]). rewrite !map_app, Hg'.
  rewrite (C (Dh h') (Nd a v b)) in De by auto. assert (Exs : xs = map snd L ++ map snd (den (Dh h') (Nd a v b)) ++ map snd R) by (rewrite <- Ex, <- De, !map_app; reflexivity).
  destruct (triple (l := l) (r := r) Exs) as (T1 & T2 & T3); [now rewrite map_length|rewrite map_length, den_length; auto|lia|]. now rewrite T1, T2, T3.
Qed.
Lemma update_ok s xs l r f : SL s xs -> l < r -> r <= length xs -> exists s', sl_update op comp aid act s l r f = Some s' /\ SL s' (firstn l xs ++ map (act f) (slice l r xs) ++ skipn r xs).
Proof.
  intros H Hl Hr. unfold sl_update, guard. rewrite (proj2 (Nat.ltb_lt _ _) Hl). cbn [obind]. apply (range_ok (act_node comp act f) (map (actp act f)) (map (act f)) H Hl Hr).
  - intros D D' a v b N E Ea Eb. exact (den_push Act _ _ a v b f false E Ea Eb).
  - intros ds. rewrite !map_map. apply map_ext. intros []. reflexivity.
Qed.
Lemma reverse_ok s xs l r : SL s xs -> l <= r -> r <= length xs -> exists s', sl_reverse op comp aid act s l r = Some s' /\ SL s' (firstn l xs ++ rev (slice l r xs) ++ skipn r xs).
Proof.
  intros H Hl Hr. unfold sl_reverse. destruct (Nat.eqb_spec l r) as [->|Nl].
  - exists s. split; [auto|]. rewrite slice_nil by lia. cbn [rev app]. rewrite firstn_skipn. auto.
  - apply (range_ok (@rev_node M A) (@rev _) (@rev _) H); [lia|auto| |].
    + intros D D' a v b N E Ea Eb. cbn [SplayTree.den]. rewrite E, (den_ext Ea), (den_ext Eb). cbn. destruct (nrev (D v)); cbn; rewrite ?rev_involutive; reflexivity.
    + intros ds. apply map_rev.
Qed.
(** * building *)
Lemma build_ok : forall fuel h xs, wfh h -> length xs < fuel -> exists h' t, dfs_init op aid fuel h xs = Some (h', bptr t) /\ wfh h' /\ (forall i, In i (ids t) -> length (sd h) <= i < length (sd h')) /\
  rep (sk h') None t /\ NoDup (ids t) /\ val (Dh h') t /\ map snd (den (Dh h') t) = xs /\ length (sd h) <= length (sd h') /\
  (forall i, i < length (sd h) -> get (sd h') i = get (sd h) i /\ get (pl (sk h')) i = get (pl (sk h)) i /\ get (pr (sk h')) i = get (pr (sk h)) i /\ get (pp (sk h')) i = get (pp (sk h)) i).
Proof.
  induction fuel as [|fuel IH]; intros h xs W Hf; [lia|]. cbn [dfs_init]. destruct xs as [|x0 xs0].
  { exists h, Lf. split; [reflexivity|]. split; [auto|]. split; [intros i []|]. split; [exact I|]. split; [constructor|]. split; [exact I|]. split; [reflexivity|]. split; [auto|auto]. }
  set (xs := x0 :: xs0) in *. assert (Hm : length xs / 2 < length xs) by (apply Nat.div_lt; cbn; lia). set (mid := length xs / 2) in *. destruct (@get_lt _ xs mid Hm) as (x & Gx). rewrite Gx. cbn [obind]. unfold node_new.
  set (h0 := SH (ph_new (sk h)) (sd h ++ [ND 1 false x x x aid])). set (u := length (sd h)). pose proof W as (W1 & W2 & W3).
  assert (W0 : wfh h0) by (unfold wfh, h0; cbn; rewrite !app_length; cbn; lia). assert (L0 : length (sd h0) = S u) by (unfold h0; cbn; rewrite app_length; cbn; unfold u; lia).
  assert (K0 : forall i, i < u -> get (sd h0) i = get (sd h) i /\ get (pl (sk h0)) i = get (pl (sk h)) i /\ get (pr (sk h0)) i = get (pr (sk h)) i /\ get (pp (sk h0)) i = get (pp (sk h)) i) by (intros i I; unfold u in I; unfold h0; cbn; rewrite !get_app_l by lia; auto).
  assert (U0 : get (sd h0) u = Some (new_nd x) /\ get (pl (sk h0)) u = Some None /\ get (pr (sk h0)) u = Some None /\ get (pp (sk h0)) u = Some None). { unfold h0, u. cbn. rewrite !get_app_r by lia. rewrite W1, W2, W3, Nat.sub_diag. auto. }
  clearbody h0. clear W1 W2 W3.
  destruct (IH h0 (firstn mid xs) W0 ltac:(rewrite firstn_length; lia)) as (h1 & a & E1 & W1 & B1 & R1 & N1 & V1 & D1 & L1 & K1). rewrite E1. cbn [obind]. rewrite L0 in *.
  destruct (K1 u ltac:(lia)) as (Ku1 & Ku2 & Ku3 & Ku4). destruct U0 as (U1 & U2 & U3 & U4). assert (G1 : get (pl (sk h1)) u = Some None) by congruence.
  destruct (set_pl_ok (sk h1) u (bptr a) G1) as (k2 & A1 & A2 & A3 & A4 & A5 & A6). rewrite A1. cbn [obind]. assert (Ra2 : rep k2 None a). { apply (rep_same R1). intros j J. apply B1 in J. rewrite A3, A4, A5 by lia. auto. }
  destruct (reparent_ok (Some u) Ra2 N1) as (k3 & T1 & T2 & T3 & T4 & T5 & T6). rewrite T1. cbn [obind]. assert (Ba : forall j, ~ In j (ids a) -> bptr a <> Some j) by (intros j J Eb; apply bptr_in in Eb; auto).
  assert (Nia : forall j, j < S u -> ~ In j (ids a)) by (intros j Hj J; apply B1 in J; lia).
  set (h3 := with_sk h1 k3). assert (W3 : wfh h3). { destruct W1 as (? & ? & ?). unfold wfh, h3. cbn. rewrite T3, T4, T6, A4, A5, A6. auto. }
  destruct (IH h3 (skipn (S mid) xs) W3 ltac:(rewrite skipn_length; lia)) as (h4 & b & E4 & W4 & B4 & R4 & N4 & V4 & D4 & L4 & K4). rewrite E4. cbn [obind]. change (length (sd h3)) with (length (sd h1)) in *. change (sd h3) with (sd h1) in *. change (sk h3) with k3 in *.
  destruct (K4 u ltac:(lia)) as (Kv1 & Kv2 & Kv3 & Kv4). assert (G4 : get (pr (sk h4)) u = Some None) by (rewrite Kv3, T4, A4; congruence).
  destruct (set_pr_ok (sk h4) u (bptr b) G4) as (k5 & C1 & C2 & C3 & C4 & C5 & C6). rewrite C1. cbn [obind]. assert (Rb5 : rep k5 None b). { apply (rep_same R4). intros j J. apply B4 in J. rewrite C3, C4, C5 by lia. auto. }
  destruct (reparent_ok (Some u) Rb5 N4) as (k6 & F1 & F2 & F3 & F4 & F5 & F6). rewrite F1. cbn [obind]. assert (Bb : forall j, ~ In j (ids b) -> bptr b <> Some j) by (intros j J Eb; apply bptr_in in Eb; auto).
  assert (Nib : forall j, j < length (sd h1) -> ~ In j (ids b)) by (intros j Hj J; apply B4 in J; lia).
  assert (Ea : forall j, In j (ids a) -> Dh h4 j = Dh h1 j) by (intros j J; apply Dh_same; apply B1 in J; apply (K4 j); lia).
  assert (Gu : get (sd h4) u = Some (new_nd x)) by (rewrite Kv1; congruence). assert (Du : Dh h4 u = new_nd x) by (unfold Dh; apply nth_error_nth, Gu).
  assert (Nab : NoDup (ids (Nd a u b))). { cbn. apply NoDup_app_iff. split; [auto|]. split; [constructor; [intros J; apply B4 in J; lia|auto]|]. intros j J [->|K]; [apply B1 in J; lia|]. apply B1 in J. apply B4 in K. lia. }
  destruct (@agg_root (with_sk h4 k6) (Dh h4) a u b) as (h7 & E7 & H7 & _ & K7 & _ & X7'); auto.
  - destruct W4 as (? & ? & ?). unfold wfh. cbn. rewrite F3, F4, F6, C4, C5, C6. auto.
  - split; [split|split; [|exact F2]]; cbn [sk with_sk].
    + rewrite F3, C4, Kv2, T3. auto.
    + rewrite F4. auto.
    + rewrite F5, C5, Kv4, T5, A5 by (first [apply Ba, Nia; lia|apply Bb, Nib; lia]). congruence.
    + apply (rep_same T2). intros j J. pose proof (B1 j J). destruct (K4 j ltac:(lia)) as (Kj1 & Kj2 & Kj3 & Kj4). rewrite F3, F4, F5, C3, C4, C5, Kj2, Kj3, Kj4 by (first [lia|apply Bb, Nib; lia]). auto.
  - intros j J. cbn [sd with_sk]. assert (Hj : j < length (sd h4)). { cbn in J. apply in_app_or in J as [J|[<-|J]]; [apply B1 in J|unfold u in *|apply B4 in J]; lia. } destruct (@get_lt _ _ _ Hj) as (d & Gd). rewrite Gd. f_equal. unfold Dh. symmetry. apply nth_error_nth, Gd.
  - unfold SplayTree.clean. rewrite Du. cbn. split; [auto|exact (act_unit _ _ _ _ Act)].
  - apply (val_ext (D := Dh h1)); auto.
  - rewrite E7. cbn [obind]. exists h7, (Nd a u b). destruct H7 as (W7 & S7 & V7 & D7). split; [reflexivity|]. split; [auto|].
    assert (X7 : length (sd h7) = length (sd h4) /\ forall i, ~ In i (ids (Nd a u b)) -> get (sd h7) i = get (sd h4) i). { destruct X7' as (_ & _ & Lx & Ox). split; [exact Lx|exact Ox]. }
    destruct X7 as (L7 & O7). rewrite L7. split; [|split; [exact (st_rep S7)|split; [auto|split; [auto|split; [|split; [lia|]]]]]].
    + intros i J. cbn in J. apply in_app_or in J as [J|[<-|J]]; [apply B1 in J|unfold u in *|apply B4 in J]; lia.
    + rewrite D7, Du, (den_ext Ea), map_app. cbn [map snd nm new_nd]. rewrite D1, D4, <- (skipn_get_cons _ _ Gx). apply firstn_skipn.
    + intros i Hi. fold u in Hi. destruct (K0 i Hi) as (I1 & I2 & I3 & I4). destruct (K1 i ltac:(lia)) as (J1 & J2 & J3 & J4). destruct (K4 i ltac:(lia)) as (Kj1 & Kj2 & Kj3 & Kj4).
      assert (Hn : ~ In i (ids (Nd a u b))). { cbn. intros J. apply in_app_or in J as [J|[J|J]]; [apply B1 in J|subst i|apply B4 in J]; lia. }
      rewrite O7, K7 by auto. cbn [sk with_sk]. rewrite F3, F4, F5, C3, C4, C5, Kj1, Kj2, Kj3, Kj4, T3, T4, T5, A3, A4, A5 by (first [lia|apply Bb, Nib; lia|apply Ba, Nia; lia]). repeat split; congruence.
Qed.
End Splay.
