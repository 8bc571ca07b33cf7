(** Proofs about [HldModel]: [subtree_build], [subtree_sum] and [subtree_point_add]. *)
From Verif Require Import Base BaseLemmas ListExtra NthExtra HldModel HldTree HldSz HldDec HldFacts HldBuilt HldPath HldQuery.
Set Implicit Arguments.

Arguments e_lt {n t h} _ {p x} _.
Inductive sub : tree -> tree -> Prop :=
  | sub_refl s : sub s s
  | sub_step s c v cs : In c cs -> sub s c -> sub s (Node v cs).
Lemma sub_child v cs t : sub (Node v cs) t -> forall c, In c cs -> sub c t.
Proof. intros S. remember (Node v cs) as s. induction S as [s|s c w ds I S IH]; subst; intros d Id; [apply sub_step with d; [auto|constructor]|apply sub_step with c; auto]. Qed.
Lemma sub_inv s v cs : sub s (Node v cs) -> s = Node v cs \/ exists c, In c cs /\ sub s c.
Proof. intros S. inversion S; subst; eauto. Qed.
Lemma sub_trans a b c : sub a b -> sub b c -> sub a c.
Proof. intros A B. induction B as [b|b c v cs I B IH]; [auto|]. apply sub_step with c; auto. Qed.
Lemma sub_verts s t : sub s t -> incl (verts s) (verts t).
Proof. intros S. induction S as [s|s c v cs I S IH]; [apply incl_refl|]. intros x Ix. right. apply in_fverts. eauto. Qed.
Lemma sub_at t : forall x, In x (verts t) -> exists s, sub s t /\ root s = x.
Proof.
  induction t as [v cs IH] using tree_ind2. intros x [<-|Ix]; [exists (Node v cs); split; [constructor|auto]|]. apply in_fverts in Ix as (c & Ic & Ix). destruct (IH c Ic x Ix) as (s & S & E). exists s. split; [apply sub_step with c; auto|auto].
Qed.
Lemma sub_dec a s t : sub s t -> forall time h d, dec a time h d t -> exists time' h' d', dec a time' h' d' s /\ time <= time' /\ time' + tsize s <= time + tsize t.
Proof.
  intros S. induction S as [s|s c v cs I S IH]; intros time h d Dt; [exists time, h, d; split; [auto|lia]|]. destruct (dec_kids Dt) as (K1 & _). destruct (K1 c I) as (tc & hc & dc & Dc & H1 & H2 & _). destruct (IH _ _ _ Dc) as (t' & h' & d' & D' & L1 & L2). exists t', h', d'. split; [auto|lia].
Qed.
Lemma sub_good E P Sz s t : sub s t -> forall p, good E P Sz p t -> exists q, good E P Sz q s.
Proof. intros S. induction S as [s|s c v cs I S IH]; intros p G; [eauto|]. inversion G; subst. eapply IH; eauto. Qed.
Lemma sub_nd s t : sub s t -> NoDup (verts t) -> NoDup (verts s).
Proof. intros S. induction S as [s|s c v cs I S IH]; [auto|]. intros N. apply IH. now apply (sub_nodup c N I). Qed.
Lemma sub_edges s t : sub s t -> incl (tedges s) (tedges t).
Proof. intros S. induction S as [s|s c v cs I S IH]; [apply incl_refl|]. intros [p x] J. apply fedges_in. exists c. split; [auto|]. right. now apply IH. Qed.

Section Prod.
Variables (T : Type) (mul : T -> T -> T) (one : T).
Hypothesis M : cmonoid_laws mul one.
Lemma cm_mon : monoid_laws mul one.
Proof. split; [apply (cm_assoc M)|apply (cm_left M)|intros x; rewrite (cm_comm M); apply (cm_left M)]. Qed.
Definition vs (w : nat -> T) (l : list nat) : T := product mul one (map w l).
Lemma vs_app w a b : vs w (a ++ b) = mul (vs w a) (vs w b).
Proof. unfold vs. rewrite map_app. apply (product_app cm_mon). Qed.
Lemma vs_perm w a b : Permutation a b -> vs w a = vs w b.
Proof.
  intros P. unfold vs. induction P as [|x a b P IH|x y a|a b c P1 IH1 P2 IH2]; cbn [map product fold_right]; [auto|unfold product in IH; now rewrite IH| |congruence].
  rewrite !(cm_assoc M). now rewrite (cm_comm M (w y)).
Qed.
Definition bump (w : nat -> T) (u : nat) (x : T) : nat -> T := fun y => if y =? u then mul (w y) x else w y.
Lemma vs_bump_out w u x l : ~ In u l -> vs (bump w u x) l = vs w l.
Proof. intros N. unfold vs. f_equal. apply map_ext_in. intros y Iy. unfold bump. destruct (Nat.eqb_spec y u) as [->|]; [contradiction|auto]. Qed.
Lemma vs_bump_in w u x l : NoDup l -> In u l -> vs (bump w u x) l = mul (vs w l) x.
Proof.
  intros N J. apply in_split in J as (a & b & ->). apply NoDup_remove in N as [_ N]. rewrite !vs_app. change (u :: b) with ([u] ++ b). rewrite !vs_app.
  rewrite (@vs_bump_out w u x a), (@vs_bump_out w u x b) by (intros K; apply N, in_or_app; auto). unfold vs at 2 5. cbn [map]. rewrite !(product_one cm_mon). unfold bump. rewrite Nat.eqb_refl. rewrite <- !(cm_assoc M). do 2 f_equal. apply (cm_comm M).
Qed.
End Prod.

Section Sub.
Variables (n : nat) (t t' : tree) (h : hld).
Hypothesis B : built n t h.
Let a := Arrs (tin h) (tout h) (head h) (rvs h) (depth h) (clen h).
Hypothesis Dt : dec a 0 (root t) 0 t'.
Hypothesis G : good (edge h) (par h) (size h) None t'.
Hypothesis Eq : equiv t t'.
Notation I := (gv (tin h)). Notation O := (gv (tout h)). Notation H := (gv (head h)). Notation D := (gv (depth h)).
Variables (T : Type) (mul : T -> T -> T) (one : T).
Hypothesis M : cmonoid_laws mul one.
Notation vs := (vs mul one).

(** the caller's structure: a list with point addition and range sums *)
Definition l_add (i : nat) (x : T) (st : list T) : option (list T) := let* y := get st i in set st i (mul y x).
Definition l_sum (l r : nat) (st : list T) : option T := if (l <=? r) && (r <=? length st) then Some (product mul one (slice l r st)) else None.

(** what the position of [s]'s root has to hold *)
Definition own (s : tree) : list nat := let 'Node v cs := s in v :: fverts (tl cs).
Definition cell (w : nat -> T) (st : list T) (s : tree) : Prop := get st (I (root s)) = Some (vs w (own s)).
Lemma nd' : NoDup (verts t'). Proof. destruct Eq as (_ & P & _). apply (Permutation_NoDup P), (b_nodup B). Qed.
Lemma verts' x : In x (verts t') <-> x < n.
Proof. rewrite <- (b_verts B). destruct Eq as (_ & P & _). split; apply Permutation_in; [now symmetry|auto]. Qed.
Lemma tsize' : tsize t' = n.
Proof.
  unfold tsize. assert (P : Permutation (verts t') (seq 0 n)). { apply NoDup_Permutation; [apply nd'|apply seq_NoDup|]. intros x. rewrite verts', in_seq. lia. } rewrite (Permutation_length P). apply seq_length.
Qed.

Lemma chain_sum w st s : length st = n -> forall time hh d, dec a time hh d s -> time + tsize s <= n -> (forall s', sub s' s -> cell w st s') ->
  l_sum time (time + hlen s) st = Some (vs w (verts s)).
Proof.
  intros Ls. induction s as [v cs IH] using tree_ind2. intros time hh d Ds Hn Hc. destruct (dec_root Ds) as (E1 & _). cbn [root a_in] in E1. pose proof (Hc _ (sub_refl _)) as C. unfold cell in C. cbn [root] in C. change (gv (a_in a)) with I in E1. rewrite E1 in C.
  assert (Hl : forall s, hlen s <= tsize s). { intros s. induction s as [x ds IHs] using tree_ind2. cbn [hlen]. destruct ds as [|e ds]; [cbn; lia|]. rewrite tsize_cons. specialize (IHs e (or_introl eq_refl)). lia. }
  pose proof (Hl (Node v cs)). unfold l_sum. destruct (Nat.leb_spec time (time + hlen (Node v cs))); [|lia]. destruct (Nat.leb_spec (time + hlen (Node v cs)) (length st)); [|lia]. cbn [andb]. f_equal.
  destruct cs as [|c cs].
  - cbn [hlen]. rewrite (@slice_cons _ time _ st (vs w (own (Node v [])))) by (auto; lia). rewrite slice_nil by lia. rewrite (product_one (cm_mon M)). reflexivity.
  - inversion Ds as [|? ? ? ? ? ? Ff Fo Dc L]; subst. cbn [hlen] in *. rewrite tsize_cons in Hn. rewrite (@slice_cons _ (I v) _ st (vs w (own (Node v (c :: cs))))) by (auto; lia). change (product mul one (?x :: ?l)) with (mul x (product mul one l)). replace (I v + S (hlen c)) with (S (I v) + hlen c) by lia.
    assert (X : l_sum (S (I v)) (S (I v) + hlen c) st = Some (vs w (verts c))). { apply (IH c (or_introl eq_refl) _ _ _ Dc); [lia|]. intros s' S. apply Hc. apply sub_step with c; [now left|auto]. }
    unfold l_sum in X. destruct (Nat.leb_spec (S (I v)) (S (I v) + hlen c)); [|lia]. destruct (Nat.leb_spec (S (I v) + hlen c) (length st)); [|pose proof (Hl c); lia]. cbn [andb] in X. assert (X' : product mul one (slice (S (I v)) (S (I v) + hlen c) st) = vs w (verts c)) by congruence. rewrite X'. cbn [own tl]. rewrite <- (vs_app M). apply (vs_perm M). cbn [verts flat_map app]. fold (fverts cs). constructor. apply Permutation_app_comm.
Qed.

(** ** subtree_sum *)
Lemma sub_range s x : sub s t' -> In x (verts s) <-> x < n /\ I (root s) <= I x < O (root s).
Proof.
  intros S. destruct (sub_dec S Dt) as (ts & hs & ds & Ds & L1 & L2). destruct (dec_root Ds) as (E1 & E2 & _). change (gv (a_in a)) with I in E1. change (gv (a_out a)) with O in E2. rewrite E1, E2. split.
  - intros J. destruct (dec_node Ds x J) as (_ & N1 & N2 & _). change (gv (a_in a)) with I in N1, N2. split; [apply verts', (sub_verts S); auto|lia].
  - intros [Hx R]. destruct (dec_onto Ds R) as (y & Iy & Ey). change (gv (a_in a)) with I in Ey. assert (x = y) as -> by (apply (in_inj B); auto; apply verts', (sub_verts S); auto). auto.
Qed.
Lemma sub_anc s x : sub s t' -> x < n -> In x (verts s) <-> anc t (root s) x.
Proof. intros S Hx. rewrite (sub_range x S). assert (root s < n) by (apply verts', (sub_verts S), root_in). rewrite (b_anc B) by auto. tauto. Qed.
Lemma sum_ok w st r l : length st = n -> (forall s, sub s t' -> cell w st s) -> r < n -> NoDup l -> (forall x, In x l <-> x < n /\ anc t r x) ->
  hl_subtree_sum l_sum h r st = Some (vs w l).
Proof.
  intros Ls Hc Hr N Hl. apply verts' in Hr as Ir. apply sub_at in Ir as (s & S & <-). destruct (sub_dec S Dt) as (ts & hs & ds & Ds & L1 & L2). destruct (dec_root Ds) as (E1 & _). change (gv (a_in a)) with I in E1. unfold hl_subtree_sum. rewrite (b_in B Hr). cbn [obind]. pose proof (dec_clen Ds) as Ec. cbn [a_clen a] in Ec. rewrite Ec. cbn [obind]. rewrite E1. pose proof tsize'.
  rewrite (@chain_sum w st s Ls ts hs ds Ds); [|lia|intros s' S'; apply Hc, (sub_trans S' S)]. f_equal. apply (vs_perm M). apply NoDup_Permutation; [apply (sub_nd S), nd'|auto|]. intros x. rewrite Hl. split.
  - intros J. assert (x < n) by (apply verts', (sub_verts S); auto). split; [auto|]. apply (sub_anc S); auto.
  - intros [Hx A]. apply (sub_anc S); auto.
Qed.

(** ** subtree_build *)
Lemma build_sub w s : forall fuel time hh d q st, height s <= fuel -> dec a time hh d s -> good (edge h) (par h) (size h) q s -> time + tsize s <= n -> length st = n ->
  (forall x, In x (verts s) -> x < n /\ get st (I x) = Some (w x)) -> NoDup (verts s) ->
  exists st', dfs_subtree_build l_add l_sum fuel h (root s) st = Some st' /\ length st' = n /\ (forall s', sub s' s -> cell w st' s') /\ (forall i, ~ time <= i < time + tsize s -> get st' i = get st i).
Proof.
  induction s as [v cs IH] using tree_ind2. intros fuel time hh d q st Hf Ds Gs Hn Ls Hw ND. destruct fuel as [|fuel]; [cbn in Hf; lia|]. cbn [dfs_subtree_build root]. inversion Gs as [p0 v0 cs0 row Er Fr Hd Gp _ Gc]. subst p0 v0 cs0. rewrite Er. cbn [obind].
  destruct (dec_kids Ds) as (K1 & _). destruct (dec_root Ds) as (E1 & _). change (gv (a_in a)) with I in E1. cbn [root] in E1. assert (Hv : v < n) by (apply Hw; now left). pose proof (tsize_pos (Node v cs)) as Tp.
  match goal with |- context [for_up _ _ ?bd _] => set (body := bd) end.
  destruct (@for_up_rule _ (fun i st1 => exists pre suf don pend, row = pre ++ suf /\ length pre = i /\ filter (np q) pre = map root don /\ filter (np q) suf = map root pend /\ cs = don ++ pend /\ length st1 = n /\
    get st1 time = Some (vs w (v :: fverts (tl don))) /\ (forall c s', In c don -> sub s' c -> cell w st1 s') /\ (forall c x, In c pend -> In x (verts c) -> get st1 (I x) = Some (w x)) /\
    (forall i, ~ time <= i < time + tsize (Node v cs) -> get st1 i = get st i)) body (length row) 0 st) as (st1 & Ef & Hinv).
  - exists [], row, [], cs. split; [auto|]. split; [auto|]. split; [auto|]. split; [auto|]. split; [auto|]. split; [auto|]. split; [|split; [intros ? ? []|split; [|auto]]].
    + rewrite <- E1. cbn [tl]. destruct (Hw v) as [_ ->]; [now left|]. unfold HldSub.vs, fverts. cbn [flat_map map]. now rewrite (product_one (cm_mon M)).
    + intros c x Ic Ix. apply Hw. right. apply in_fverts. eauto.
  - intros i st1 Hi (pre & suf & don & pend & Erow & Lp & Fp & Fs & Ecs & L1 & Gv & Hdon & Hpend & Hout). destruct suf as [|y suf]; [rewrite app_nil_r in Erow; subst pre; lia|].
    assert (Gy : get row i = Some y) by (rewrite Erow, <- Lp; apply get_head). unfold body. rewrite Gy. cbn [obind]. rewrite Gp. cbn [obind]. cbn [filter] in Fs. destruct (oeq (Some y) q) eqn:N0.
    + replace (np q y) with false in Fs by (unfold np; now rewrite N0). eexists. split; [reflexivity|]. exists (pre ++ [y]), suf, don, pend. rewrite <- app_assoc. split; [auto|]. split; [rewrite app_length; cbn; lia|]. split; [rewrite filter_app; cbn [filter]; replace (np q y) with false by (unfold np; now rewrite N0); now rewrite app_nil_r|]. auto 10.
    + assert (Ny : np q y = true) by (unfold np; now rewrite N0). rewrite Ny in Fs. destruct pend as [|c pend]; [discriminate|]. cbn [map] in Fs. injection Fs as Ey Fs. assert (Ic : In c cs) by (rewrite Ecs; apply in_or_app; right; now left). destruct (K1 c Ic) as (tc & hc & dc & Dc & H1 & H2 & _).
      destruct (IH c Ic fuel tc hc dc (Some v) st1) as (st2 & E2 & L2 & C2 & O2); auto; [pose proof (height_child v cs c Ic); lia|lia|intros x Ix; split; [apply Hw; right; apply in_fverts; eauto|apply (Hpend c); auto; now left]|now apply (sub_nodup c ND Ic)|].
      subst y. rewrite E2. cbn [obind]. assert (Gv2 : get st2 time = Some (vs w (v :: fverts (tl don)))) by (rewrite O2 by lia; auto).
      assert (Dis : forall c' x, In c' cs -> c' <> c -> In x (verts c') -> get st2 (I x) = get st1 (I x)).
      { intros c' x Ic' Nc Ix. apply O2. intros R. destruct (dec_onto Dc R) as (z & Iz & Ez). change (gv (a_in a)) with I in Ez. assert (z = x) as -> by (apply (in_inj B); [apply Hw; right; apply in_fverts; eauto|apply Hw; right; apply in_fverts; eauto|auto]). apply Nc. apply (@sub_uniq v cs c' c x); auto. }
      assert (Nd : NoDup cs). { clear -ND. cbn in ND. apply NoDup_cons_iff in ND as [_ ND]. induction cs as [|c cs IHc]; [constructor|]. cbn [flat_map] in ND. apply NoDup_app_iff in ND as (_ & N2 & N3). constructor; [|auto]. intros J. apply (N3 (root c)); [apply root_in|]. apply in_flat_map. exists c. split; [auto|apply root_in]. }
      rewrite Ecs in Nd. apply NoDup_app_iff in Nd as (Nd1 & Nd2 & Nd3). inversion_clear Nd2 as [|? ? Nc1 Nc2].
      assert (Cdon : forall c' s', In c' don -> sub s' c' -> get st2 (I (root s')) = get st1 (I (root s'))). { intros c' s' Ic' S. apply (Dis c'); [rewrite Ecs; apply in_or_app; auto| |apply (sub_verts S), root_in]. intros ->. apply (Nd3 c Ic'). now left. }
      assert (Cpend : forall c' x, In c' pend -> In x (verts c') -> get st2 (I x) = Some (w x)). { intros c' x Ic' Ix. rewrite (Dis c'); [apply (Hpend c'); auto; now right|rewrite Ecs; apply in_or_app; right; now right| |auto]. intros ->. auto. }
      assert (Ctime : forall c' x, In c' cs -> In x (verts c') -> I x <> time). { intros c' x Ic' Ix E. destruct (sub_nodup c' ND Ic') as [_ Nv]. apply Nv. assert (x = v) as <-; [|auto]. apply (in_inj B); [apply Hw; right; apply in_fverts; eauto|auto|congruence]. }
      destruct (Nat.ltb_spec 0 i) as [Hi0|Hi0].
      * rewrite (b_in B Hv). cbn [obind]. assert (Hrc : root c < n) by (apply Hw; right; apply in_fverts; exists c; split; [auto|apply root_in]). rewrite (b_in B Hrc). cbn [obind]. pose proof (dec_clen Dc) as Ec. cbn [a_clen a] in Ec. rewrite Ec. cbn [obind]. destruct (dec_root Dc) as (Ec1 & _). change (gv (a_in a)) with I in Ec1. rewrite Ec1.
        rewrite (@chain_sum w st2 c L2 tc hc dc Dc) by (auto; lia). cbn [obind]. unfold l_add. rewrite E1, Gv2. cbn [obind]. rewrite set_some by lia.
        eexists. split; [reflexivity|]. exists (pre ++ [root c]), suf, (don ++ [c]), pend. rewrite <- !app_assoc. split; [auto|]. split; [rewrite app_length; cbn; lia|]. split; [rewrite filter_app, map_app; cbn [filter map]; rewrite Ny; now rewrite Fp|]. split; [auto|]. split; [auto|]. split; [now rewrite lset_length|]. split; [|split; [|split]].
        -- rewrite get_lset_eq by lia. f_equal. rewrite <- (vs_app M). assert (Hdn : don <> []). { intros ->. destruct pre as [|r0 pre]; [cbn in Lp; lia|]. cbn [app] in Ecs. subst cs. destruct Hd as [Hd _]. rewrite Erow in Hd. injection Hd as ->. cbn [filter] in Fp. rewrite Ny in Fp. discriminate. }
           destruct don as [|d0 don]; [congruence|]. cbn [app tl]. f_equal. unfold fverts. rewrite flat_map_app. cbn. now rewrite app_nil_r.
        -- intros c' s' J S. apply in_app_or in J as [J|[<-|[]]]; unfold cell; (rewrite get_lset_neq; [|apply not_eq_sym; eapply Ctime; [|apply (sub_verts S), root_in]; rewrite Ecs; apply in_or_app; cbn; auto]); [rewrite (Cdon c' s' J S); now apply (Hdon c')|now apply C2].
        -- intros c' x J Ix. rewrite get_lset_neq; [now apply (Cpend c')|]. apply not_eq_sym. apply (Ctime c'); [rewrite Ecs; apply in_or_app; right; now right|auto].
        -- intros j Hj. rewrite get_lset_neq by lia. rewrite O2 by lia. auto.
      * eexists. split; [reflexivity|]. assert (pre = []) by (destruct pre; [auto|cbn in Lp; lia]). subst pre. assert (don = []) by (destruct don; [auto|discriminate]). subst don. exists [root c], suf, [c], pend. split; [auto|]. split; [cbn in *; lia|]. split; [cbn [filter map]; now rewrite Ny|]. split; [auto|]. split; [auto|]. split; [auto|]. split; [exact Gv2|]. split; [|split].
        -- intros c' s' [<-|[]] S. now apply C2.
        -- intros c' x J Ix. now apply (Cpend c').
        -- intros j Hj. rewrite O2 by lia. auto.
  - destruct Hinv as (pre & suf & don & pend & Erow & Lp & Fp & Fs & Ecs & L1 & Gv & Hdon & Hpend & Hout). assert (suf = []) by (rewrite Erow, app_length in Lp; destruct suf; [auto|cbn in Lp; lia]). subst suf. destruct pend; [|discriminate]. rewrite app_nil_r in Ecs. subst don. exists st1. split; [exact Ef|]. split; [auto|]. split; [|auto].
    intros s' S. destruct (sub_inv S) as [->|(c & Ic & S')]; [unfold cell; cbn [root own]; rewrite E1; auto|]. now apply (Hdon c).
Qed.
Lemma build_all w st : length st = n -> (forall x, x < n -> get st (I x) = Some (w x)) ->
  exists st', hl_subtree_build l_add l_sum h st = Some st' /\ length st' = n /\ forall s, sub s t' -> cell w st' s.
Proof.
  intros Ls Hw. unfold hl_subtree_build. rewrite (b_root B). pose proof tsize'. pose proof (height_le t'). destruct Eq as (Er & _). rewrite <- Er. destruct (@build_sub w t' (S (hn h)) 0 (root t) 0 None st) as (st' & E & L & C & _); auto; [rewrite (b_n B); lia|lia|intros x Ix; apply verts' in Ix; auto|apply nd'|]. eauto.
Qed.

(** ** subtree_point_add *)
Definition at_own (y u : nat) : Prop := y < n /\ u < n /\ (u = y \/ exists c, In (y, c) (tedges t) /\ H c = c /\ anc t c u).
Lemma own_in s u : sub s t' -> at_own (root s) u -> In u (own s).
Proof.
  intros S (Hy & Hu & [->|(c & E & Hc & A)]); [destruct s; now left|]. destruct s as [v cs]. cbn [root own] in *. right. destruct (sub_dec S Dt) as (ts & hs & ds & Ds & _). destruct (e_lt B E) as [_ Hcn].
  assert (E' : In (v, c) (tedges t')) by (destruct Eq as (_ & _ & P); eapply Permutation_in; eauto).
  assert (Ic : In c (verts (Node v cs))). { apply (sub_anc S); auto. cbn [root]. apply anc_step with v; [constructor|auto]. }
  destruct Ic as [<-|Ic]; [pose proof (b_edge B E); lia|]. apply in_fverts in Ic as (k & Ik & Ic).
  assert (k' : c = root k). { destruct (edge_exists k c Ic) as [|(p & Ep)]; [auto|]. assert (Ep' : In (p, c) (tedges t')) by (apply (sub_edges (sub_child S k Ik)); auto). assert (p = v) as -> by (apply (edge_parent nd' Ep' E')). exfalso. apply (sub_nodup k (sub_nd S nd') Ik). apply (edge_verts _ _ _ Ep). }
  subst c. assert (Iu : In u (verts k)) by (apply (sub_anc (sub_child S k Ik)); auto). apply in_fverts. exists k. split; [|auto].
  destruct cs as [|c0 cs]; [destruct Ik|]. destruct Ik as [->|Ik]; [|auto]. exfalso. inversion Ds as [|? ? ? ? ? ? Ff Fo Dc L]; subst. destruct (dec_root Dc) as (_ & _ & R3 & _). destruct (dec_root Ds) as (_ & _ & Q3 & _). change (gv (a_head a)) with H in R3, Q3. cbn [root] in Q3. destruct (head_ok B Hy) as (_ & Ah & _). apply (anc_le B) in Ah. destruct (b_edge B E) as [Le _]. rewrite Q3, <- R3, Hc in Ah. lia.
Qed.
(** a vertex strictly above [y] on its chain has [y] below its heavy child *)
Lemma own_out s y u : sub s t' -> y < n -> u < n -> anc t (root s) y -> root s <> y -> D (root s) = D y -> anc t y u -> ~ In u (own s).
Proof.
  intros S Hy Hu A1 Ne Ed A2 J. destruct s as [v cs]. cbn [root own] in *. pose proof (sub_nd S nd') as ND. assert (Iy : In y (verts (Node v cs))) by (apply (sub_anc S); auto). destruct Iy as [?|Iy]; [congruence|]. apply in_fverts in Iy as (k & Ik & Iy). destruct (sub_dec S Dt) as (ts & hs & ds & Ds & _).
  assert (Iu : In u (verts k)). { assert (Sk := sub_child S k Ik). apply (sub_anc Sk); auto. apply anc_trans with y; [|auto]. apply (sub_anc Sk); auto. }
  destruct cs as [|c0 cs]; [destruct Ik|]. cbn [tl] in J. destruct Ik as [->|Ik].
  - destruct J as [->|J]; [apply (sub_nodup k ND (or_introl eq_refl)); auto|]. cbn in ND. apply NoDup_cons_iff in ND as [_ ND]. apply NoDup_app_iff in ND as (_ & _ & ND). apply (ND u Iu J).
  - inversion Ds as [|? ? ? ? ? ? Ff Fo Dc L]; subst. destruct (light_kids L) as [K _]. destruct (K k Ik) as (tk & Dk & _). destruct (dec_node Dk y Iy) as (_ & _ & _ & Ld). destruct (dec_root Ds) as (_ & _ & _ & Q4). change (gv (a_dep a)) with D in *. cbn [root] in Q4. lia.
Qed.
Lemma own_nodup s : sub s t' -> NoDup (own s).
Proof.
  intros S. pose proof (sub_nd S nd') as ND. destruct s as [v cs]. cbn [own]. cbn in ND. apply NoDup_cons_iff in ND as [N1 N2]. fold (fverts cs) in N1, N2. destruct cs as [|c cs]; cbn [tl]; [constructor; [intros []|constructor]|]. unfold fverts in N1, N2. cbn [flat_map] in N1, N2. apply NoDup_app_iff in N2 as (_ & N2 & _). constructor; [intros J; apply N1, in_or_app; auto|auto].
Qed.
Lemma own_anc s u : sub s t' -> u < n -> In u (own s) -> anc t (root s) u.
Proof. intros S Hu J. apply (sub_anc S); auto. destruct s as [v cs]. destruct J as [<-|J]; [now left|]. right. change (In u (fverts cs)). destruct cs as [|c cs]; [destruct J|]. unfold fverts. cbn [flat_map]. apply in_or_app. auto. Qed.

Lemma add_ok w st u x : u < n -> length st = n -> (forall s, sub s t' -> cell w st s) ->
  exists st', hl_point_add l_add h u x st = Some st' /\ length st' = n /\ forall s, sub s t' -> cell (bump mul w u x) st' s.
Proof.
  intros Hu Ls Hc. unfold hl_point_add. match goal with |- context [loop _ ?bd _] => set (body := bd) end.
  destruct (@loop_rule _ _ (fun '(y, st) => length st = n /\ match y with None => forall s, sub s t' -> cell (bump mul w u x) st s | Some y => at_own y u /\ anc t y u /\ forall s, sub s t' -> cell (if I (root s) <=? I y then if I y <? O (root s) then w else bump mul w u x else bump mul w u x) st s end)
    (fun '(y, st) => match y with None => 0 | Some y => S (D y) end) (fun st => length st = n /\ forall s, sub s t' -> cell (bump mul w u x) st s) body) with (fuel := S (hn h)) (s := (Some u, st)) as (st' & E & L & C).
  - intros [y st1] (L1 & Hy). destruct y as [y|]; unfold body; [|exists (inr st1); split; [reflexivity|split; auto]]. destruct Hy as (Ho & Ay & Hs). pose proof Ho as (Hyn & _). rewrite (b_in B Hyn). cbn [obind].
    assert (Iy : In y (verts t')) by (apply verts'; auto). destruct (sub_at t' y Iy) as (sy & Sy & Ey).
    pose proof (Hs sy Sy) as Cy. unfold cell in Cy. rewrite Ey in Cy. pose proof (b_lt B Hyn) as Hlt. rewrite Nat.leb_refl in Cy. destruct (Nat.ltb_spec (I y) (O y)) as [Hyo|Hyo]; [|lia]. unfold l_add. rewrite Cy. cbn [obind]. rewrite set_some by (rewrite L1; apply (i_lt B Hyn)). cbn [obind]. rewrite (rd_par B Hyn).
    set (st2 := lset _ _ _). assert (L2 : length st2 = n) by (unfold st2; now rewrite lset_length).
    assert (Hr : forall s, sub s t' -> root s < n) by (intros s S; apply verts', (sub_verts S), root_in).
    (* the cells of vertices not strictly above the chain of y *)
    assert (Done : forall s, sub s t' -> ~ (anc t (root s) y /\ D (root s) < D y) -> cell (bump mul w u x) st2 s).
    { intros s S Na. pose proof (Hs s S) as Cs. pose proof (Hr s S) as Hrs. unfold cell, st2. destruct (Nat.eq_dec (root s) y) as [E|Ne].
      - rewrite E. rewrite get_lset_eq by (rewrite L1; apply (i_lt B Hyn)). f_equal. assert (Io : In u (own s)) by (apply own_in; [auto|now rewrite E]). rewrite (vs_bump_in M w u x (own_nodup S) Io). f_equal.
        unfold cell in Cs. rewrite E, Cy in Cs. rewrite Nat.leb_refl in Cs. destruct (Nat.ltb_spec (I y) (O y)) as [Hyo2|Hyo2]; [|lia]. congruence.
      - rewrite get_lset_neq by (intros E; apply Ne; apply (in_inj B); auto). unfold cell in Cs. destruct (Nat.leb_spec (I (root s)) (I y)) as [R1|R1]; [destruct (Nat.ltb_spec (I y) (O (root s))) as [R2|R2]|]; try exact Cs.
        assert (A : anc t (root s) y) by (apply (b_anc B); auto). rewrite Cs. f_equal. symmetry. apply vs_bump_out. apply (own_out S Hyn Hu); auto. pose proof (proj1 (anc_dep B A)). destruct (Nat.eq_dec (D (root s)) (D y)); [auto|]. exfalso. apply Na. split; [auto|lia]. }
    destruct (D y) eqn:Edy.
    + rewrite (dep0 B Hyn Edy), (b_par0 B). cbn [obind]. eexists. split; [reflexivity|]. cbn beta iota. split; [|lia]. split; [auto|]. intros s S. apply Done; auto. lia.
    + destruct (jump B Hyn) as (q & Eq1 & Eq2); [lia|]. rewrite (b_par B Eq1). cbn [obind]. eexists. split; [reflexivity|]. cbn beta iota. split; [|lia]. split; [auto|]. destruct (e_lt B Eq1) as [Hq HH]. destruct (head_ok B Hyn) as (_ & Ah & Hh & _). split; [|split].
      * split; [auto|]. split; [auto|]. right. exists (H y). split; [auto|]. split; [auto|]. apply anc_trans with y; auto.
      * apply anc_trans with y; [|auto]. apply anc_trans with (H y); [|auto]. apply anc_step with q; [constructor|auto].
      * intros s S. pose proof (Hr s S) as Hrs. assert (X : anc t (root s) q <-> anc t (root s) y /\ D (root s) < D y).
        { split; [intros A|intros [A Ld]; apply (@anc_jump n t h B (root s) y q); auto]. split; [apply anc_trans with q; [auto|]; apply anc_trans with (H y); [|auto]; apply anc_step with q; [constructor|auto]|]. pose proof (proj1 (anc_dep B A)). lia. }
        assert (Y : anc t (root s) q -> cell w st2 s). { intros A. pose proof (proj1 X A) as [Ay' Ld]. pose proof (Hs s S) as Cs. apply (b_anc B) in Ay'; auto. destruct (Nat.leb_spec (I (root s)) (I y)); [|lia]. destruct (Nat.ltb_spec (I y) (O (root s))); [|lia]. unfold cell, st2. rewrite get_lset_neq; [exact Cs|]. intros E. apply (in_inj B) in E; auto. rewrite E in Ld. lia. }
        destruct (Nat.leb_spec (I (root s)) (I q)) as [R1|R1]; [destruct (Nat.ltb_spec (I q) (O (root s))) as [R2|R2]|].
        -- apply Y. apply (b_anc B); auto.
        -- apply Done; [auto|]. rewrite <- Edy, <- X, (b_anc B) by auto. lia.
        -- apply Done; [auto|]. rewrite <- Edy, <- X, (b_anc B) by auto. lia.
  - split; [auto|]. split; [split; [auto|split; [auto|auto]]|]. split; [constructor|]. intros s S. pose proof (Hc s S) as C. assert (Hrs : root s < n) by (apply verts', (sub_verts S), root_in). destruct (Nat.leb_spec (I (root s)) (I u)) as [R1|R1]; [destruct (Nat.ltb_spec (I u) (O (root s))) as [R2|R2]|]; try exact C.
    all: unfold cell in *; rewrite C; f_equal; symmetry; apply vs_bump_out; intros J; apply (own_anc S Hu) in J; apply (b_anc B) in J; auto; lia.
  - rewrite (b_n B). pose proof (dep_lt B Hu). lia.
  - eauto.
Qed.
End Sub.
