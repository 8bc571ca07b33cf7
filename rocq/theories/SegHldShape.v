(** SegmentHld: the division of the positions into nodes. *)
From Verif Require Import SegHldModel BaseLemmas NthExtra ListExtra.
Set Implicit Arguments.

(** strictly increasing *)
Definition inc (cw : list nat) (n : nat) : Prop := length cw = S n /\ forall i, i < n -> nth i cw 0 < nth (S i) cw 0.
Lemma inc_lt cw n i j : inc cw n -> i < j -> j <= n -> nth i cw 0 < nth j cw 0.
Proof. intros [_ H] L. induction L as [|j L IH]; intros Lj; [apply H; lia|]. specialize (H j). lia. Qed.
Lemma inc_get cw n i : inc cw n -> i <= n -> get cw i = Some (nth i cw 0).
Proof. intros [E _] L. apply get_nth. lia. Qed.
Lemma ub_ok cw n l r v : inc cw n -> l <= r -> r <= n -> exists k, ub cw l r v = Some k /\ l <= k <= r /\ (k < r -> v < nth k cw 0).
Proof.
  intros H Lr Rn. unfold ub. match goal with |- context [loop _ ?bd _] => set (body := bd) end.
  assert (Lp : forall f i, r - i < f -> l <= i <= r -> exists k, loop f body i = Some k /\ l <= k <= r /\ (k < r -> v < nth k cw 0)).
  { induction f as [|f IH]; intros i Lf Li; [lia|]. cbn [loop]. unfold body at 1. destruct (Nat.ltb_spec i r) as [L|L]; [|exists i; repeat split; lia].
    rewrite (@inc_get cw n i H) by lia. cbn [obind]. destruct (Nat.ltb_spec v (nth i cw 0)) as [L2|L2]; [exists i; repeat split; auto; lia|]. apply IH; lia. }
  apply Lp; lia.
Qed.
Lemma mid_ok cw n l r : inc cw n -> l + 2 <= r -> r <= n -> exists m, sh_mid cw l r = Some m /\ l < m < r.
Proof.
  intros H Lr Rn. unfold sh_mid. rewrite (@inc_get cw n r H), (@inc_get cw n l H) by lia. cbn [obind]. set (v := (nth r cw 0 + nth l cw 0 + 1) / 2).
  pose proof (@inc_lt cw n l r H ltac:(lia) Rn) as Q. assert (Lv : nth l cw 0 <= v) by (apply Nat.div_le_lower_bound; lia).
  destruct (@ub_ok cw n l r v H ltac:(lia) Rn) as (k & E & Lk & Hk). rewrite E. cbn [obind]. assert (Nk : l <> k) by (intros <-; lia). destruct (Nat.eqb_spec l k) as [|_]; [lia|]. cbn [negb guard obind].
  rewrite (@inc_get cw n (k - 1) H), (@inc_get cw n k H) by lia. cbn [obind]. eexists. split; [reflexivity|]. destruct (Nat.ltb_spec (nth r cw 0 - nth k cw 0) (nth (k - 1) cw 0 - nth l cw 0)) as [L|L].
  - destruct (Nat.eq_dec (k - 1) l) as [Q1|]; [rewrite Q1 in L; lia|lia].
  - destruct (Nat.eq_dec k r) as [->|]; [|lia]. assert (Q2 : nth l cw 0 < nth (r - 1) cw 0) by (apply (@inc_lt cw n); auto; lia). lia.
Qed.

(** the nodes while they are made: those before [i] are done *)
Definition done (T : list sn) (tg : list nat) (u : nat) (x : sn) : Prop :=
  ssize x = 1 /\ slc x = None /\ src x = None /\ get tg (sl x) = Some u \/
  1 < ssize x /\ exists a b y z, slc x = Some a /\ src x = Some b /\ u < a /\ u < b /\ get T a = Some y /\ get T b = Some z /\ sl y = sl x /\ sr y = sl z /\ sr z = sr x /\ sp y = Some u /\ sp z = Some u.
Record SI (n i : nat) (T : list sn) (tg : list nat) : Prop := {
  si_i : i <= length T;
  si_tg : length tg = n;
  si_lt : forall u x, get T u = Some x -> sl x < sr x /\ sr x <= n;
  si_new : forall u x, get T u = Some x -> i <= u -> slc x = None /\ src x = None;
  si_done : forall u x, get T u = Some x -> u < i -> done T tg u x;
  si_root : exists x, get T 0 = Some x /\ sl x = 0 /\ sr x = n /\ sp x = None;
  si_dis : forall u v x y, u <> v -> get T u = Some x -> get T v = Some y -> slc x = None -> slc y = None -> sr x <= sl y \/ sr y <= sl x }.
(** how many nodes come of those not done *)
Definition todo (i : nat) (T : list sn) : nat := list_sum (map (fun x => 2 * ssize x - 1) (skipn i T)).

Lemma shape_init n : 1 <= n -> SI n 0 [SN 0 n None None None] (repeat 0 n).
Proof.
  intros L. split; cbn; [lia|apply repeat_length| | |lia| |].
  - intros [|[|u]] x; cbn; intros [=]; subst; cbn; lia.
  - intros [|[|u]] x; cbn; intros [=]; subst; cbn; auto.
  - eauto.
  - intros [|[|u]] [|[|v]] x y N; cbn; intros [=] [=]; congruence.
Qed.
Lemma shape_leaf n i T tg x : SI n i T tg -> get T i = Some x -> ssize x = 1 -> exists tg', set tg (sl x) i = Some tg' /\ SI n (S i) T tg'.
Proof.
  intros H G E. destruct (si_lt H _ G) as [L1 L2]. assert (Lt : sl x < length tg) by (rewrite (si_tg H); lia). exists (lset tg (sl x) i). split; [now apply set_some|].
  destruct (si_new H G (le_n _)) as [Nl Nr]. split; [apply get_some_lt in G; lia|rewrite lset_length; apply H|apply H|intros u y Gu Lu; apply (si_new H Gu); lia| |apply H|apply H].
  intros u y Gu Lu. destruct (Nat.eq_dec u i) as [->|Ni].
  - assert (y = x) as -> by congruence. left. rewrite get_lset_eq by auto. auto.
  - destruct (si_done H Gu) as [(A1 & A2 & A3 & A4)|D]; [lia| |now right]. left. repeat (split; [assumption|]). rewrite get_lset_neq; [auto|]. intros Q. destruct (si_dis H Ni Gu G A2 Nl) as [D|D]; unfold ssize in *; lia.
Qed.
Lemma shape_split n i T tg x m : SI n i T tg -> get T i = Some x -> sl x < m -> m < sr x ->
  let T' := lset T i (SN (sl x) (sr x) (sp x) (Some (length T)) (Some (S (length T)))) ++ [SN (sl x) m (Some i) None None; SN m (sr x) (Some i) None None] in SI n (S i) T' tg.
Proof.
  intros H G L1 L2 T'. destruct (si_lt H _ G) as [L3 L4]. destruct (si_new H G (le_n _)) as [Nl Nr]. pose proof (get_some_lt _ _ G) as Li.
  assert (Ge : forall u y, get T' u = Some y -> (u < length T /\ u <> i /\ get T u = Some y) \/ (u = i /\ y = SN (sl x) (sr x) (sp x) (Some (length T)) (Some (S (length T)))) \/ (u = length T /\ y = SN (sl x) m (Some i) None None) \/ (u = S (length T) /\ y = SN m (sr x) (Some i) None None)).
  { intros u y Gu. unfold T' in Gu. destruct (Nat.lt_ge_cases u (length T)) as [Lu|Lu].
    - rewrite get_app_l in Gu by (now rewrite lset_length). destruct (Nat.eq_dec u i) as [->|Ni]; [rewrite get_lset_eq in Gu by auto; injection Gu as <-; auto|rewrite get_lset_neq in Gu by auto; auto].
    - rewrite get_app_r in Gu by (now rewrite lset_length). rewrite lset_length in Gu. destruct (u - length T) as [|[|k]] eqn:Eu; cbn in Gu; [injection Gu as <-; right; right; left; split; [lia|auto]|injection Gu as <-; right; right; right; split; [lia|auto]|]. rewrite get_none in Gu by (cbn; lia). discriminate. }
  assert (Gk : forall u y, u <> i -> get T u = Some y -> get T' u = Some y). { intros u y Ni Gu. pose proof (get_some_lt _ _ Gu). unfold T'. rewrite get_app_l by (now rewrite lset_length). rewrite get_lset_neq; auto. }
  assert (G1 : get T' (length T) = Some (SN (sl x) m (Some i) None None)). { unfold T'. rewrite get_app_r by (rewrite lset_length; lia). now rewrite lset_length, Nat.sub_diag. }
  assert (G2 : get T' (S (length T)) = Some (SN m (sr x) (Some i) None None)). { unfold T'. rewrite get_app_r by (rewrite lset_length; lia). rewrite lset_length. now replace (S (length T) - length T) with 1 by lia. }
  split.
  - unfold T'. rewrite app_length, lset_length. cbn. lia.
  - apply H.
  - intros u y Gu. apply Ge in Gu as [(_ & _ & Gu)|[(_ & ->)|[(_ & ->)|(_ & ->)]]]; [exact (si_lt H _ Gu)|cbn; lia..].
  - intros u y Gu Lu. apply Ge in Gu as [(_ & _ & Gu)|[(-> & ->)|[(_ & ->)|(_ & ->)]]]; [apply (si_new H Gu); lia|lia|cbn; auto..].
  - intros u y Gu Lu. apply Ge in Gu as [(Lu2 & Nu & Gu)|[(-> & ->)|[(-> & ->)|(-> & ->)]]]; [|right; unfold ssize; cbn; split; [lia|] |lia..].
    + destruct (si_done H Gu) as [D|(D1 & a & b & y' & z & D2 & D3 & D4 & D5 & D6 & D7 & D8 & D9 & D10 & D11 & D12)]; [lia|now left|]. right. split; [auto|].
      assert (Q : forall c w, get T c = Some w -> exists w', get T' c = Some w' /\ sl w' = sl w /\ sr w' = sr w /\ sp w' = sp w). { intros c w Gc. destruct (Nat.eq_dec c i) as [->|Nc]; [|exists w; auto]. assert (w = x) as -> by congruence. eexists. unfold T'. rewrite get_app_l by (now rewrite lset_length). rewrite get_lset_eq by auto. split; [reflexivity|auto]. }
      destruct (Q _ _ D6) as (y2 & Q1 & Q2 & Q3 & Q4). destruct (Q _ _ D7) as (z2 & R1 & R2 & R3 & R4). exists a, b, y2, z2. rewrite Q2, Q3, Q4, R2, R3, R4. auto 12.
    + eexists _, _, _, _. split; [reflexivity|]. split; [reflexivity|]. split; [lia|]. split; [lia|]. split; [exact G1|]. split; [exact G2|]. cbn. auto.
  - destruct (si_root H) as (y & Gy & R1 & R2 & R3). destruct (Nat.eq_dec 0 i) as [<-|N0]; [|exists y; auto]. assert (y = x) as -> by congruence. eexists. unfold T'. rewrite get_app_l by (now rewrite lset_length). rewrite get_lset_eq by auto. split; [reflexivity|auto].
  - assert (Q : forall u y, u <> i -> get T u = Some y -> slc y = None -> sr y <= sl x \/ sr x <= sl y). { intros u y Ni Gu Ny. destruct (si_dis H Ni Gu G Ny Nl); auto. }
    intros u v y z N Gu Gv Ny Nz. apply Ge in Gu as [(Lu & Iu & Gu)|[(-> & ->)|[(-> & ->)|(-> & ->)]]]; apply Ge in Gv as [(Lv & Iv & Gv)|[(-> & ->)|[(-> & ->)|(-> & ->)]]]; cbn in *; try discriminate; try (exfalso; now apply N).
    + exact (si_dis H N Gu Gv Ny Nz).
    + destruct (Q _ _ Iu Gu Ny); lia.
    + destruct (Q _ _ Iu Gu Ny); lia.
    + destruct (Q _ _ Iv Gv Nz); lia.
    + lia.
    + destruct (Q _ _ Iv Gv Nz); lia.
    + lia.
Qed.
Lemma lset_app_l {A} (P X : list A) i x : i < length P -> lset (P ++ X) i x = lset P i x ++ X.
Proof. revert i. induction P as [|a P IH]; intros [|i] L; cbn in *; auto; try lia. f_equal. apply IH. lia. Qed.
Lemma skipn_lset {A} (l : list A) i k x : i < k -> skipn k (lset l i x) = skipn k l.
Proof. revert i k. induction l as [|a l IH]; intros [|i] [|k] L; cbn; auto; try lia. apply IH. lia. Qed.
Lemma step_ok cw n i T tg x : inc cw n -> SI n i T tg -> get T i = Some x -> exists T' tg', sh_step cw i T tg = Some (T', tg') /\ SI n (S i) T' tg' /\ S (todo (S i) T') <= todo i T.
Proof.
  intros Hc H G. unfold sh_step. rewrite G. cbn [obind]. assert (Es : skipn i T = x :: skipn (S i) T) by (apply skipn_get_cons, G).
  assert (Et : todo i T = (2 * ssize x - 1) + todo (S i) T) by (unfold todo; rewrite Es; reflexivity). destruct (si_lt H _ G) as [L1 L2].
  destruct (Nat.eqb_spec (ssize x) 1) as [E|E].
  - destruct (shape_leaf H G E) as (tg' & -> & H'). cbn [obind]. exists T, tg'. split; [auto|]. split; [auto|]. rewrite Et, E. lia.
  - unfold ssize in E. destruct (@mid_ok cw n (sl x) (sr x) Hc ltac:(lia) L2) as (m & -> & Lm). cbn [obind]. destruct (Nat.ltb_spec (sl x) m) as [_|]; [|lia]. pose proof (get_some_lt _ _ G) as Li. rewrite set_some by auto. cbn [obind].
    destruct (Nat.ltb_spec m (sr x)) as [_|]; [|lia]. rewrite get_app_l by (now rewrite lset_length). rewrite get_lset_eq by auto. cbn [obind sl sr sp slc src]. rewrite set_some by (rewrite app_length, lset_length; lia). cbn [obind].
    eexists _, _. split; [reflexivity|].
    match goal with |- SI _ _ ?t _ /\ _ => assert (ET : t = lset T i (SN (sl x) (sr x) (sp x) (Some (length T)) (Some (S (length T)))) ++ [SN (sl x) m (Some i) None None; SN m (sr x) (Some i) None None]) end.
    { rewrite app_length, lset_length. cbn [length]. rewrite Nat.add_1_r. rewrite lset_app_l by (now rewrite lset_length). rewrite lset_lset. now rewrite <- app_assoc. }
    rewrite ET. split; [exact (@shape_split n i T tg x m H G ltac:(lia) ltac:(lia))|]. rewrite Et. unfold todo at 1. rewrite skipn_app, skipn_lset by lia. rewrite lset_length. replace (S i - length T) with 0 by lia. rewrite skipn_O. rewrite map_app, list_sum_app. fold (todo (S i) T). generalize (todo (S i) T). intros td. cbn. unfold ssize. cbn. lia.
Qed.
Lemma build_SI cw n : inc cw n -> 1 <= n -> exists T tg, sh_shape cw n = Some (T, tg) /\ SI n (length T) T tg.
Proof.
  intros Hc Ln. unfold sh_shape. match goal with |- context [loop _ ?bd _] => set (body := bd) end.
  assert (Lp : forall f i T tg, SI n i T tg -> todo i T < f -> exists T' tg', loop f body (i, T, tg) = Some (T', tg') /\ SI n (length T') T' tg').
  { induction f as [|f IH]; intros i T tg H L; [lia|]. cbn [loop]. unfold body at 1. destruct (Nat.ltb_spec i (length T)) as [Li|Li].
    - destruct (@get_lt _ T i Li) as (x & G). destruct (step_ok Hc H G) as (T' & tg' & -> & H' & L'). cbn [obind]. apply IH; [auto|lia].
    - exists T, tg. split; [reflexivity|]. replace (length T) with i; [auto|]. pose proof (si_i H). lia. }
  apply Lp; [now apply shape_init|]. unfold todo. cbn. unfold ssize. cbn. lia.
Qed.

(** * The tree of the nodes *)
Inductive gt := GL (u : nat) | GN (u : nat) (L R : gt).
Definition gid (t : gt) : nat := match t with GL u | GN u _ _ => u end.
Fixpoint gids (t : gt) : list nat := match t with GL u => [u] | GN u L R => u :: gids L ++ gids R end.
Fixpoint grep (T : list sn) (tg : list nat) (t : gt) (l r : nat) (p : option nat) : Prop :=
  match t with
  | GL u => get T u = Some (SN l r p None None) /\ r = S l /\ get tg l = Some u
  | GN u L R => exists m, get T u = Some (SN l r p (Some (gid L)) (Some (gid R))) /\ grep T tg L l m (Some u) /\ grep T tg R m r (Some u)
  end.
Lemma grep_lt T tg t : forall l r p, grep T tg t l r p -> l < r.
Proof. induction t as [u|u L IL R IR]; intros l r p H; [cbn in H; lia|]. destruct H as (m & _ & HL & HR). apply IL in HL. apply IR in HR. lia. Qed.
Lemma grep_in T tg t : forall l r p, grep T tg t l r p -> forall u, In u (gids t) -> exists x, get T u = Some x /\ l <= sl x /\ sr x <= r /\ sl x < sr x.
Proof.
  induction t as [v|v L IL R IR]; intros l r p H u I.
  - destruct I as [<-|[]]. destruct H as (G & -> & _). eexists. split; [exact G|]. cbn. lia.
  - pose proof (grep_lt _ _ _ _ _ _ H) as Q. destruct H as (m & G & HL & HR). pose proof (grep_lt _ _ _ _ _ _ HL) as QL. pose proof (grep_lt _ _ _ _ _ _ HR) as QR. destruct I as [<-|I].
    + eexists. split; [exact G|]. cbn. lia.
    + apply in_app_or in I as [I|I]; [destruct (IL _ _ _ HL _ I) as (x & Gx & X)|destruct (IR _ _ _ HR _ I) as (x & Gx & X)]; exists x; split; auto; lia.
Qed.
Lemma grep_nodup T tg t : forall l r p, grep T tg t l r p -> NoDup (gids t).
Proof.
  induction t as [v|v L IL R IR]; intros l r p H; [constructor; [intros []|constructor]|].
  destruct H as (m & G & HL & HR). pose proof (grep_lt _ _ _ _ _ _ HL) as QL. pose proof (grep_lt _ _ _ _ _ _ HR) as QR. cbn. constructor.
  - intros I. apply in_app_or in I as [I|I]; [destruct (grep_in _ _ _ _ _ _ HL _ I) as (x & Gx & X)|destruct (grep_in _ _ _ _ _ _ HR _ I) as (x & Gx & X)]; rewrite G in Gx; injection Gx as <-; cbn in X; lia.
  - apply NoDup_app_iff. split; [exact (IL _ _ _ HL)|]. split; [exact (IR _ _ _ HR)|]. intros u I1 I2. destruct (grep_in _ _ _ _ _ _ HL _ I1) as (x & Gx & X), (grep_in _ _ _ _ _ _ HR _ I2) as (y & Gy & Y). rewrite Gx in Gy. injection Gy as <-. lia.
Qed.
Lemma grep_ex n T tg : SI n (length T) T tg -> forall k u x, get T u = Some x -> ssize x <= k -> exists t, grep T tg t (sl x) (sr x) (sp x) /\ gid t = u.
Proof.
  intros H. induction k as [|k IH]; intros u x G L; [destruct (si_lt H _ G); unfold ssize in L; lia|].
  destruct (si_done H G (get_some_lt _ _ G)) as [(D1 & D2 & D3 & D4)|(D1 & a & b & y & z & D2 & D3 & D4 & D5 & D6 & D7 & D8 & D9 & D10 & D11 & D12)]; destruct (si_lt H _ G) as [L1 L2]; unfold ssize in *.
  - exists (GL u). split; [|auto]. split; [rewrite G; f_equal; destruct x; cbn in *; subst; auto|]. split; [lia|auto].
  - destruct (si_lt H _ D6), (si_lt H _ D7). destruct (IH a y D6) as (tl & Rl & El); [lia|]. destruct (IH b z D7) as (tr & Rr & Er); [lia|]. exists (GN u tl tr). split; [|auto]. exists (sr y). split; [rewrite G, El, Er; f_equal; destruct x; cbn in *; subst; auto|].
    rewrite D8, D11 in Rl. rewrite D10, D12, <- D9 in Rr. auto.
Qed.
Fixpoint gh (t : gt) : nat := match t with GL _ => 1 | GN _ L R => S (Nat.max (gh L) (gh R)) end.
Lemma gh_len t : gh t <= length (gids t).
Proof. induction t as [u|u L IL R IR]; cbn; [lia|]. rewrite app_length. lia. Qed.
Lemma grep_height T tg t l r p : grep T tg t l r p -> gh t <= length T.
Proof.
  intros H. pose proof (gh_len t). enough (length (gids t) <= length T) by lia. apply NoDup_bound; [exact (grep_nodup _ _ _ _ _ _ H)|]. intros i I. destruct (grep_in _ _ _ _ _ _ H _ I) as (x & G & _). exact (get_some_lt _ _ G).
Qed.

Lemma shape_ok cw n : inc cw n -> 1 <= n -> exists T tg t, sh_shape cw n = Some (T, tg) /\ SI n (length T) T tg /\ grep T tg t 0 n None /\ gid t = 0.
Proof.
  intros Hc Ln. destruct (build_SI Hc Ln) as (T & tg & E & H). destruct (si_root H) as (x & G & R1 & R2 & R3). destruct (@grep_ex n T tg H (ssize x) 0 x G (le_n _)) as (t & Rt & Et). rewrite R1, R2, R3 in Rt. exists T, tg, t. auto.
Qed.
