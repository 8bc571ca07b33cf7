(** Proofs about [HldModel]: [dfs_sz] orders the adjacency lists. *)
From Verif Require Import Base BaseLemmas ListExtra NthExtra HldModel HldTree.
Set Implicit Arguments.

Inductive good (E : list (list nat)) (P : list (option nat)) (Sz : list nat) : option nat -> tree -> Prop :=
  good_node p v cs row : get E v = Some row -> filter (np p) row = map root cs ->
    (match cs with [] => True | c :: rest => get row 0 = Some (root c) /\ Forall (fun d => tsize d <= tsize c) rest end) ->
    get P v = Some p -> get Sz v = Some (S (length (fverts cs))) -> (forall c, In c cs -> good E P Sz (Some v) c) -> good E P Sz p (Node v cs).
Lemma good_frame E P Sz E' P' Sz' t : forall p, (forall x, In x (verts t) -> get E' x = get E x /\ get P' x = get P x /\ get Sz' x = get Sz x) -> good E P Sz p t -> good E' P' Sz' p t.
Proof.
  induction t as [v cs IH] using tree_ind2. intros p F A. inversion A as [? ? ? row Er Pr Hh Gp Gs Ac]; subst. destruct (F v) as (F1 & F2 & F3); [now left|]. apply good_node with row; auto; try congruence. intros c I. apply IH; auto. intros x Ix. apply F. right. apply in_fverts. eauto.
Qed.
Lemma good_size E P Sz p t : good E P Sz p t -> get Sz (root t) = Some (tsize t).
Proof. intros G. inversion G; subst. auto. Qed.
Definition equiv (t t' : tree) : Prop := root t' = root t /\ Permutation (verts t) (verts t') /\ Permutation (tedges t) (tedges t').

Lemma Permutation_filter {A} (f : A -> bool) l r : Permutation l r -> Permutation (filter f l) (filter f r).
Proof.
  intros P. induction P as [|x l r P IH|x y l|l m r P1 IH1 P2 IH2]; cbn [filter]; [auto|destruct (f x); auto|destruct (f x), (f y); auto; constructor|eapply perm_trans; eauto].
Qed.
Lemma lset_mid {A} (a : list A) x y b : lset (a ++ x :: b) (length a) y = a ++ y :: b.
Proof. induction a as [|z a IH]; cbn; [auto|now rewrite IH]. Qed.
Lemma e_swap_ok E v i j row x y : get E v = Some row -> get row i = Some x -> get row j = Some y -> e_swap E v i j = Some (lset E v (lset (lset row i y) j x)).
Proof.
  intros Er Ex Ey. unfold e_swap, get2, set2. rewrite Er. cbn [obind]. rewrite Ex. cbn [obind]. rewrite Ey. cbn [obind]. pose proof (get_some_lt _ _ Er). pose proof (get_some_lt _ _ Ex). pose proof (get_some_lt _ _ Ey). rewrite set_some by auto. cbn [obind]. rewrite set_some by auto. cbn [obind]. rewrite get_lset_eq by auto. cbn [obind]. rewrite set_some by (rewrite lset_length; auto). cbn [obind]. rewrite set_some by (rewrite lset_length; auto). now rewrite lset_lset.
Qed.
Lemma get_head {A} (a : list A) x b : get (a ++ x :: b) (length a) = Some x.
Proof. rewrite get_app_r, Nat.sub_diag by auto. auto. Qed.

Lemma rev_case {A} (l : list A) : l = [] \/ exists m y, l = m ++ [y].
Proof. induction l as [|x l _] using rev_ind; eauto. Qed.
Lemma swap_row {A} (x : A) m t s : lset (lset (x :: m ++ t :: s) 0 t) (S (length m)) x = t :: m ++ x :: s.
Proof. cbn [lset]. now rewrite lset_mid. Qed.

Section Sz.
Variable n : nat.
Definition lens (E : list (list nat)) (P : list (option nat)) (Sz : list nat) : Prop := length E = n /\ length P = n /\ length Sz = n.
Definition frame (vs : list nat) E P Sz (E' : list (list nat)) (P' : list (option nat)) (Sz' : list nat) : Prop :=
  forall x, ~ In x vs -> get E' x = get E x /\ get P' x = get P x /\ get Sz' x = get Sz x.

Definition headinv (p : option nat) (pre suf : list nat) (don pend : list tree) : Prop :=
  match don with
  | [] => match pre with [] => pend <> [] -> (exists x s, suf = x :: s /\ np p x = true) | _ => pend = [] end
  | d :: rest => (exists s, pre = root d :: s) /\ Forall (fun c => tsize c <= tsize d) rest
  end.
Definition inv (v : nat) (p : option nat) (cs : list tree) (L i : nat) E P Sz : Prop :=
  exists pre suf don pend, get E v = Some (pre ++ suf) /\ length (pre ++ suf) = L /\ length pre = i /\ filter (np p) pre = map root don /\ filter (np p) suf = map root pend /\
    (forall c, In c pend -> In c cs /\ adj E (Some v) c) /\ (forall d, In d don -> good E P Sz (Some v) d) /\
    get P v = Some p /\ get Sz v = Some (S (length (fverts don))) /\
    Permutation (fverts cs) (fverts (don ++ pend)) /\ Permutation (fedges v cs) (fedges v (don ++ pend)) /\ headinv p pre suf don pend.

Lemma dfs_sz_ok : forall t fuel p E P Sz, height t <= fuel -> adj E p t -> NoDup (verts t) -> (forall x, In x (verts t) -> x < n) -> lens E P Sz ->
  (forall q, p = Some q -> ~ In q (verts t)) ->
  exists E' P' Sz' t', dfs_sz fuel (root t) p (E, P, Sz) = Some (E', P', Sz') /\ lens E' P' Sz' /\ good E' P' Sz' p t' /\ equiv t t' /\ frame (verts t) E P Sz E' P' Sz'.
Proof.
  induction t as [v cs IH] using tree_ind2. intros fuel p E P Sz Hh A ND Hn (LE & LP & LS) Hp. destruct fuel as [|fuel]; [cbn in Hh; lia|]. cbn [root]. inversion A as [? ? ? row Er Pr Ac]; subst.
  assert (Hv : v < n) by (apply Hn; now left). cbn [dfs_sz]. rewrite set_some by lia. cbn [obind]. rewrite set_some by lia. cbn [obind]. rewrite Er. cbn [obind].
  cbn [verts] in ND. fold (fverts cs) in ND. inversion_clear ND as [|? ? Nv NDc].
  assert (Npc : forall c, In c cs -> np p (root c) = true).
  { intros c I. unfold np, oeq. destruct p as [q|]; [|auto]. apply negb_true_iff, Nat.eqb_neq. intros E1. apply (Hp q eq_refl). right. rewrite <- E1. now apply roots_in. }
  set (P1 := lset P v p). set (Sz1 := lset Sz v 1).
  assert (FC : filter (np p) (opt p ++ map root cs) = map root cs).
  { rewrite filter_app. replace (filter (np p) (opt p)) with (@nil nat); [|destruct p as [q|]; cbn; [|auto]; unfold np, oeq; now rewrite Nat.eqb_refl]. cbn [app]. clear -Npc. induction cs as [|c cs IHc]; [auto|]. cbn [map filter]. rewrite Npc by now left. f_equal. apply IHc. intros c' I. apply Npc. now right. }
  assert (LR : length row = length (opt p) + length cs) by (rewrite (Permutation_length Pr), app_length, map_length; auto).
  (* the first swap *)
  assert (S0 : exists E0 row0, (match row with [] => Some E | x :: _ => if oeq (Some x) p then e_swap E v 0 (length row - 1) else Some E end) = Some E0 /\ E0 = lset E v row0 /\ Permutation row row0 /\ (cs <> [] -> exists x s, row0 = x :: s /\ np p x = true)).
  { destruct row as [|x tl] eqn:Erow.
    - exists E, []. split; [auto|]. split; [symmetry; now apply lset_same|]. split; [auto|]. intros N. destruct cs; [congruence|]. cbn in LR. lia.
    - destruct (oeq (Some x) p) eqn:Ex.
      + destruct p as [q|]; [|discriminate]. cbn in Ex. apply Nat.eqb_eq in Ex as ->. destruct (rev_case tl) as [Et|(m & y & Et)].
        * subst tl. cbn [length]. change (1 - 1) with 0. rewrite (@e_swap_ok _ v 0 0 _ (q) q Er) by auto. exists (lset E v [q]), [q]. cbn [lset]. split; [auto|]. split; [auto|]. split; [auto|]. intros N. destruct cs as [|c cs']; [congruence|]. cbn in LR. lia.
        * subst tl. cbn [length]. rewrite Nat.sub_1_r. cbn [Nat.pred]. rewrite app_length. cbn [length]. rewrite Nat.add_1_r. assert (Ey : get (q :: m ++ [y]) (S (length m)) = Some y) by apply (@get_head _ (q :: m) y []). rewrite (@e_swap_ok _ v 0 (S (length m)) _ (q) y Er) by auto.
          exists (lset E v (y :: m ++ [q])), (y :: m ++ [q]). cbn [lset]. rewrite lset_mid. split; [auto|]. split; [auto|]. split; [apply (Permutation_trans (perm_skip q (Permutation_app_comm m [y]))), (Permutation_trans (perm_swap _ _ _)), perm_skip, Permutation_cons_append|].
          intros _. exists y, (m ++ [q]). split; [auto|]. unfold np, oeq. apply negb_true_iff, Nat.eqb_neq. intros ->. cbn [opt app] in Pr. apply Permutation_cons_inv in Pr. assert (In q (map root cs)) as I by (apply (Permutation_in _ Pr), in_or_app; right; now left). apply in_map_iff in I as (c & Ec & Ic). apply (Hp q eq_refl). right. rewrite <- Ec. now apply roots_in.
      + exists E, (x :: tl). split; [auto|]. split; [symmetry; now apply lset_same|]. split; [auto|]. intros _. exists x, tl. split; [auto|]. unfold np. now rewrite Ex. }
  destruct S0 as (E0 & row0 & Es & -> & P0 & Hh0). rewrite Es. cbn [obind]. clear Es.
  assert (LE0 : length (lset E v row0) = n) by (rewrite lset_length; auto).
  assert (X : Permutation (filter (np p) row0) (map root cs)) by (rewrite <- FC; apply Permutation_filter, (Permutation_trans (Permutation_sym P0)), Pr).
  apply Permutation_map_inv in X as (cs1 & Ecs1 & Pcs).
  match goal with |- context [for_up _ _ ?bd _] => set (body := bd) end.
  destruct (@for_up_rule _ (fun i '(E', P', Sz') => inv v p cs (length row) i E' P' Sz' /\ lens E' P' Sz' /\ frame (v :: fverts cs) (lset E v row0) P1 Sz1 E' P' Sz') body (length row) 0 (lset E v row0, P1, Sz1)) as (((E', P'), Sz') & Ef & Hinv & Hlens & Hframe).
  - (* start *)
    split; [|split; [unfold lens, P1, Sz1; rewrite !lset_length; auto|intros x _; auto]].
    exists [], row0, [], cs1. split; [apply get_lset_eq; lia|]. split; [cbn [app]; symmetry; apply Permutation_length, P0|]. split; [auto|]. split; [auto|]. split; [auto|].
    split. { intros c I. apply (Permutation_in _ (Permutation_sym Pcs)) in I. split; [auto|]. apply adj_frame with E; [|auto]. intros x Ix. apply get_lset_neq. intros <-. apply Nv, in_fverts. eauto. }
    split; [intros d []|]. split; [apply get_lset_eq; lia|]. split; [apply get_lset_eq; lia|].
    split; [cbn [app]; now apply Permutation_flat_map|]. split; [cbn [app]; now apply Permutation_flat_map|].
    cbn [headinv]. intros N. apply Hh0. intros ->. apply Permutation_nil in Pcs. congruence.
  - (* step *)
    intros i [[E1 P2] Sz2] Hi [(pre & suf & don & pend & Ev & Lrow & Lp & Fp & Fs & Hpend & Hdon & GP & GS & Pv & Pe & HI) [(L1 & L2 & L3) Fr]]. rewrite Nat.add_0_l in Hi.
    destruct suf as [|t suf]; [rewrite app_nil_r in Lrow; lia|].
    assert (Ht : get2 E1 v i = Some t) by (unfold get2; rewrite Ev; cbn [obind]; rewrite <- Lp; apply get_head).
    unfold body at 1. rewrite Ht. cbn [obind]. cbn [filter] in Fs. destruct (np p t) eqn:Nt.
    2: { unfold np in Nt. apply negb_false_iff in Nt. rewrite Nt. eexists. split; [reflexivity|]. split; [|split; [repeat split; auto|auto]].
      exists (pre ++ [t]), suf, don, pend. rewrite <- app_assoc. cbn [app]. split; [auto|]. split; [auto|]. split; [rewrite app_length; cbn; lia|]. split; [rewrite filter_app; cbn [filter]; unfold np at 2; rewrite Nt; cbn [negb]; now rewrite app_nil_r|]. do 7 (split; [auto|]).
      unfold headinv in *. destruct don as [|d don].
      - destruct pre as [|x pre]; cbn [app].
        + destruct pend as [|c pend]; [auto|]. destruct HI as (x & s & [= <- <-] & N'); [discriminate|]. unfold np in N'. rewrite Nt in N'. discriminate.
        + auto.
      - destruct HI as [(s & ->) F]. split; [eexists; reflexivity|auto]. }
    replace (oeq (Some t) p) with false by (unfold np in Nt; now apply negb_true_iff in Nt).
    destruct pend as [|c pend]; [discriminate|]. cbn [map] in Fs. injection Fs as Et Fs. destruct (Hpend c (or_introl eq_refl)) as [Ic Adj].
    assert (NDp : NoDup (fverts (don ++ c :: pend))) by (apply (Permutation_NoDup Pv), NDc).
    assert (Nvp : ~ In v (fverts (don ++ c :: pend))) by (intros I; apply Nv, (Permutation_in _ (Permutation_sym Pv)), I).
    rewrite fverts_app in NDp, Nvp. unfold fverts in NDp at 2. unfold fverts in Nvp at 2. cbn [flat_map] in NDp, Nvp. fold (fverts pend) in NDp, Nvp.
    apply NoDup_app_iff in NDp as (_ & NDp & D1). apply NoDup_app_iff in NDp as (NDcc & _ & D2).
    assert (Nvd : ~ In v (fverts don)) by (intros I; apply Nvp, in_or_app; auto). assert (Nvc : ~ In v (verts c)) by (intros I; apply Nvp; rewrite !in_app_iff; auto). assert (Nve : ~ In v (fverts pend)) by (intros I; apply Nvp; rewrite !in_app_iff; auto).
    destruct (IH c Ic fuel (Some v) E1 P2 Sz2) as (E3 & P3 & Sz3 & d & Erec & (K1 & K2 & K3) & Gd & (Rd & Vd & Ed) & Frd); auto.
    { pose proof (height_child v cs c Ic). lia. }
    { intros x Ix. apply Hn. right. apply in_fverts. eauto. }
    { repeat split; auto. }
    { intros q [= <-]. auto. }
    rewrite <- Et in Erec. rewrite Erec. cbn [obind].
    destruct (Frd v Nvc) as (Ev3 & Pv3 & Sv3). rewrite Ev in Ev3. rewrite GP in Pv3. rewrite GS in Sv3.
    assert (Ht3 : get2 E3 v i = Some t) by (unfold get2; rewrite Ev3; cbn [obind]; rewrite <- Lp; apply get_head).
    rewrite Ht3. cbn [obind]. rewrite Sv3. cbn [obind].
    assert (Gt : get Sz3 t = Some (tsize d)). { rewrite Et, <- Rd. apply (good_size Gd). }
    rewrite Gt. cbn [obind]. rewrite set_some by lia. cbn [obind].
    set (Sz4 := lset Sz3 v (S (length (fverts don)) + tsize d)).
    assert (Ntv : v <> t) by (intros ->; apply Nvc; rewrite Et; apply root_in).
    assert (Gt4 : get Sz4 t = Some (tsize d)) by (unfold Sz4; rewrite get_lset_neq; auto).
    assert (Gd4 : forall E4, (forall x, x <> v -> get E4 x = get E3 x) -> forall d', In d' (don ++ [d]) -> good E4 P3 Sz4 (Some v) d').
    { intros E4 HE4 d' I. apply in_app_iff in I as [I|[<-|[]]].
      - apply good_frame with E1 P2 Sz2; [|auto]. intros x Ix. assert (Nx : x <> v) by (intros ->; apply Nvd, in_fverts; eauto). assert (Nc : ~ In x (verts c)) by (intros Ic'; apply (D1 x); [apply in_fverts; eauto|apply in_or_app; auto]). destruct (Frd x Nc) as (F1 & F2 & F3). rewrite HE4 by auto. unfold Sz4. rewrite get_lset_neq by auto. auto.
      - apply good_frame with E3 P3 Sz3; [|auto]. intros x Ix. assert (Nx : x <> v) by (intros ->; apply Nvc, (Permutation_in _ (Permutation_sym Vd)), Ix). rewrite HE4 by auto. unfold Sz4. rewrite get_lset_neq by auto. auto. }
    assert (Hpend' : forall E4, (forall x, x <> v -> get E4 x = get E3 x) -> forall c', In c' pend -> In c' cs /\ adj E4 (Some v) c').
    { intros E4 HE4 c' I. destruct (Hpend c' (or_intror I)) as [I1 I2]. split; [auto|]. apply adj_frame with E1; [|auto]. intros x Ix. assert (Nx : x <> v) by (intros ->; apply Nve, in_fverts; eauto). rewrite HE4 by auto. apply (Frd x). intros Ic'. apply (D2 x Ic'), in_fverts. eauto. }
    assert (PV : forall l, Permutation l (don ++ [d]) -> Permutation (fverts cs) (fverts (l ++ pend)) /\ Permutation (fedges v cs) (fedges v (l ++ pend)) /\ length (fverts l) = length (fverts don) + tsize d).
    { intros l Pl. split; [|split].
      - rewrite Pv, !fverts_app. rewrite (Permutation_flat_map verts Pl : Permutation (fverts l) (fverts (don ++ [d]))), fverts_app. unfold fverts at 2 4. cbn [flat_map]. rewrite app_nil_r, Vd, <- app_assoc. reflexivity.
      - rewrite Pe, !fedges_app. rewrite (Permutation_flat_map (fun c => (v, root c) :: tedges c) Pl : Permutation (fedges v l) (fedges v (don ++ [d]))), fedges_app. unfold fedges at 2 4. cbn [flat_map]. rewrite app_nil_r, Rd, Ed, <- app_assoc. reflexivity.
      - rewrite (Permutation_length (Permutation_flat_map verts Pl : Permutation (fverts l) (fverts (don ++ [d])))), fverts_app, app_length. unfold fverts at 2. cbn [flat_map]. rewrite app_nil_r. reflexivity. }
    assert (Fr4 : forall E4, (forall x, x <> v -> get E4 x = get E3 x) -> frame (v :: fverts cs) (lset E v row0) P1 Sz1 E4 P3 Sz4).
    { intros E4 HE4 x Nx. assert (x <> v) by (intros ->; apply Nx; now left). assert (~ In x (verts c)) by (intros I; apply Nx; right; apply in_fverts; eauto). destruct (Frd x H0) as (F1 & F2 & F3). destruct (Fr x Nx) as (F1' & F2' & F3'). rewrite HE4 by auto. unfold Sz4. rewrite (get_lset_neq Sz3) by auto. split; [congruence|]. split; congruence. }
    destruct don as [|d0 rest].
    + (* first child *)
      cbn [headinv] in HI. destruct pre as [|]; [|discriminate]. cbn [length] in Lp. subst i. cbn [app] in *. rewrite Ht3. cbn [obind]. rewrite Gt4. cbn [obind]. rewrite Nat.ltb_irrefl. cbn [obind]. eexists. split; [reflexivity|].
      split; [|split; [unfold lens, Sz4; rewrite !lset_length; auto|apply Fr4; auto]].
      destruct (PV [d]) as (PV1 & PV2 & PV3); [auto|].
      exists [t], suf, [d], pend. split; [auto|]. split; [auto|]. split; [auto|]. split; [cbn [filter]; rewrite Nt; cbn [map]; congruence|]. split; [auto|]. split; [apply Hpend'; auto|]. split; [apply Gd4; auto|]. split; [auto|]. split; [unfold Sz4; rewrite get_lset_eq by lia; f_equal; cbn in PV3 |- *; lia|]. split; [auto|]. split; [auto|]. cbn [headinv]. split; [|auto]. exists []. congruence.
    + cbn [headinv] in HI. destruct HI as [(m & ->) Fh]. cbn [app length] in *.
      assert (Hx : get2 E3 v 0 = Some (root d0)) by (unfold get2; rewrite Ev3; auto). rewrite Hx. cbn [obind].
      assert (Gx : get Sz4 (root d0) = Some (tsize d0)). { apply (good_size (Gd4 E3 (fun _ _ => eq_refl) d0 (or_introl eq_refl))). }
      rewrite Gx. cbn [obind]. rewrite Gt4. cbn [obind]. assert (Nd0 : np p (root d0) = true) by (apply (proj1 (filter_In (np p) (root d0) (root d0 :: m))); rewrite Fp; now left). cbn [filter] in Fp.
      rewrite Nd0 in Fp. cbn [map] in Fp. injection Fp as Fp. destruct (Nat.ltb_spec (tsize d0) (tsize d)) as [Hlt|Hge].
      * subst i. rewrite (@e_swap_ok _ v 0 (S (length m)) _ (root d0) t Ev3) by (auto; apply (@get_head _ (root d0 :: m))). rewrite swap_row. cbn [obind]. eexists. split; [reflexivity|].
        assert (HE4 : forall x, x <> v -> get (lset E3 v (t :: m ++ root d0 :: suf)) x = get E3 x) by (intros; apply get_lset_neq; auto).
        split; [|split; [unfold lens, Sz4; rewrite !lset_length; auto|apply Fr4; auto]].
        destruct (PV (d :: rest ++ [d0])) as (PV1 & PV2 & PV3). { cbn [app]. apply (Permutation_trans (perm_skip d (Permutation_sym (Permutation_cons_append rest d0)))), (Permutation_trans (perm_swap _ _ _)), perm_skip, Permutation_cons_append. }
        exists (t :: m ++ [root d0]), suf, (d :: rest ++ [d0]), pend. cbn [app]. rewrite <- app_assoc. cbn [app]. split; [apply get_lset_eq; lia|]. split; [cbn in Lrow |- *; rewrite app_length in *; cbn in *; lia|]. split; [cbn; rewrite app_length; cbn; lia|].
        split; [cbn [filter map]; rewrite Nt, filter_app; cbn [filter]; rewrite Nd0, Fp, map_app; cbn [map]; congruence|]. split; [auto|]. split; [apply Hpend'; auto|]. split; [intros d' I; apply Gd4; auto; destruct I as [<-|I]; [cbn; rewrite in_app_iff; cbn; auto|]; apply in_app_iff in I as [I|[<-|[]]]; cbn; rewrite ?in_app_iff; auto|].
        split; [auto|]. split; [unfold Sz4; rewrite get_lset_eq by lia; f_equal; rewrite PV3; lia|]. split; [exact PV1|]. split; [exact PV2|]. cbn [headinv]. split; [exists (m ++ [root d0]); congruence|]. apply Forall_app. split; [|constructor; [lia|constructor]]. eapply Forall_impl; [|exact Fh]. cbn. intros; lia.
      * eexists. split; [reflexivity|]. split; [|split; [unfold lens, Sz4; rewrite !lset_length; auto|apply Fr4; auto]].
        destruct (PV (d0 :: rest ++ [d])) as (PV1 & PV2 & PV3); [auto|].
        exists (root d0 :: m ++ [t]), suf, (d0 :: rest ++ [d]), pend. cbn [app]. rewrite <- app_assoc. cbn [app]. split; [auto|]. split; [auto|]. split; [cbn; rewrite app_length; cbn; lia|].
        split; [cbn [filter map]; rewrite Nd0, filter_app; cbn [filter]; rewrite Nt, Fp, map_app; cbn [map]; congruence|]. split; [auto|]. split; [apply Hpend'; auto|]. split; [intros d' I; apply Gd4; auto|].
        split; [auto|]. split; [unfold Sz4; rewrite get_lset_eq by lia; f_equal; rewrite PV3; lia|]. split; [exact PV1|]. split; [exact PV2|]. cbn [headinv]. split; [exists (m ++ [t]); auto|]. apply Forall_app. split; [auto|]. constructor; [lia|constructor].
  - (* end *)
    destruct Hinv as (pre & suf & don & pend & Ev & Lrow & Lp & Fp & Fs & _ & Hdon & GP & GS & Pv & Pe & HI). rewrite Nat.add_0_l in Lp. assert (suf = []) by (rewrite app_length in Lrow; destruct suf; cbn in Lrow; [auto|lia]). subst suf. destruct pend; [|discriminate]. rewrite !app_nil_r in *.
    exists E', P', Sz', (Node v don). split; [exact Ef|]. split; [auto|]. split.
    + apply good_node with pre; auto. unfold headinv in HI. destruct don as [|d rest]; [auto|]. destruct HI as [(s & ->) F]. split; auto.
    + split; [split; [auto|]; split; [cbn [verts]; fold (fverts cs) (fverts don); auto|exact Pe]|]. intros x Nx. cbn [verts] in Nx. fold (fverts cs) in Nx. destruct (Hframe x Nx) as (F1 & F2 & F3). assert (x <> v) by (intros ->; apply Nx; now left). unfold P1, Sz1 in *. rewrite get_lset_neq in F1 by auto. rewrite get_lset_neq in F2 by auto. rewrite get_lset_neq in F3 by auto. auto.
Qed.
End Sz.
