(** Proofs about [McfModel]: construction, and the cost shown by a residual network. *)
From Verif Require Import Base BaseLemmas NthExtra FlowModel FlowProof FlowNet McfModel McfCost.
Set Implicit Arguments.
Open Scope Z_scope.

Definition placed (es : list (edge * Z)) (g : cnet) : Prop := forall i a b c k, get es i = Some ((a, b, c), k) ->
  (exists e, get2 g a (pos1 (map fst es) i) = Some (e, k)) /\ (exists e, get2 g b (pos2 (map fst es) i) = Some (e, - k)).
Record cbuilt (M K : Z) (n : nat) (es : list (edge * Z)) (g : cnet) : Prop := {
  cb_built : built M n (map fst es) (strip g);
  cb_costed : costed K g;
  cb_placed : placed es g;
  cb_pos : forall u i e k, get2 g u i = Some (e, k) -> cap e <> 0 -> 0 <= k }.

Lemma get2_snoc {A} (g : list (list A)) (u : nat) (row : list A) x v j : get g u = Some row -> get2 (lset g u (row ++ [x])) v j = if (v =? u)%nat && (j =? length row)%nat then Some x else get2 g v j.
Proof.
  intros E. pose proof (get_some_lt _ _ E) as H. unfold get2. destruct (Nat.eqb_spec v u) as [->|N]; cbn [andb].
  - rewrite get_lset_eq, E by auto. cbn [obind]. destruct (Nat.eqb_spec j (length row)) as [->|Nj]; [rewrite get_app_r, Nat.sub_diag by auto; auto|]. destruct (Nat.lt_ge_cases j (length row)); [now rewrite get_app_l|].
    rewrite get_app_r, (get_none row) by lia. destruct (j - length row)%nat as [|k] eqn:Ek; [lia|]. now destruct k.
  - now rewrite get_lset_neq by auto.
Qed.
Lemma mach_some w x : - 2 ^ (w - 1) <= x < 2 ^ (w - 1) -> mach w x = Some x.
Proof. intros H. unfold mach. replace ((- 2 ^ (w - 1) <=? x) && (x <? 2 ^ (w - 1))) with true; auto. symmetry. apply andb_true_iff. split; [apply Z.leb_le|apply Z.ltb_lt]; lia. Qed.

Lemma cadd_ok w M K n es g a b c k : cbuilt M K n es g -> (a < n)%nat -> (b < n)%nat -> 0 <= c <= M -> 0 <= k <= K -> K < 2 ^ (w - 1) ->
  exists g', mc_add w g a b c k = Some g' /\ cbuilt M K n (es ++ [((a, b, c), k)]) g'.
Proof.
  intros [B Co Pl Po] Ha Hb Hc Hk HK. assert (L : length g = n) by (rewrite <- (bt_len B), strip_len; auto). unfold mc_add. destruct (@get_lt _ g b) as [rb Eb]; [lia|]. destruct (@get_lt _ g a) as [ra Ea]; [lia|]. rewrite Eb, Ea. cbn [obind]. rewrite set_some by lia. cbn [obind].
  assert (Row : forall v row, get g v = Some row -> length row = deg (map fst es) v) by (intros v row E; rewrite <- (bt_row B), strip_row, (@nth_get _ _ _ _ [] E); auto).
  assert (Da := Row _ _ Ea). assert (Db := Row _ _ Eb).
  set (ra1 := ra ++ [(Arc b c (length rb), k)]). set (g1 := lset g a ra1). assert (Ea1 : get g1 a = Some ra1) by (apply get_lset_eq; lia). destruct (@get_lt _ g1 b) as [rb1 Eb1]; [unfold g1; rewrite lset_length; lia|]. rewrite Eb1, Ea1. cbn [obind].
  rewrite mach_some by lia. cbn [obind]. rewrite set_some by (unfold g1; rewrite lset_length; lia). set (g2 := lset g1 b _). exists g2. split; [auto|]. assert (La1 : length ra1 = S (length ra)) by (unfold ra1; rewrite app_length; cbn; lia).
  assert (Lb1 : length rb1 = (deg (map fst es) b + if (a =? b)%nat then 1 else 0)%nat).
  { destruct (Nat.eqb_spec a b) as [->|N]; [rewrite Ea1 in Eb1; injection Eb1 as <-; lia|]. unfold g1 in Eb1. rewrite get_lset_neq, Eb in Eb1 by auto. injection Eb1 as <-. lia. }
  set (pb := (deg (map fst es) b + if (a =? b)%nat then 1 else 0)%nat) in *. set (pa := deg (map fst es) a) in *.
  assert (G : forall v j, get2 g2 v j = if (v =? b)%nat && (j =? pb)%nat then Some (Arc a 0 pa, - k) else if (v =? a)%nat && (j =? pa)%nat then Some (Arc b c (deg (map fst es) b), k) else get2 g v j).
  { intros v j. unfold g2. rewrite (get2_snoc _ _ _ _ _ Eb1). rewrite La1, Lb1. unfold g1, ra1. rewrite (get2_snoc _ _ _ _ _ Ea). rewrite Da, Db. replace (S pa - 1)%nat with pa by lia. reflexivity. }
  assert (Old : forall v j x, get2 g v j = Some x -> get2 g2 v j = Some x).
  { intros v j x E. rewrite G. pose proof (get2_lt _ _ _ E) as [_ Hj]. rewrite <- strip_row, (bt_row B) in Hj.
    replace ((v =? b)%nat && (j =? pb)%nat) with false by (destruct (Nat.eqb_spec v b) as [->|]; [symmetry; apply Nat.eqb_neq; unfold pb; lia|auto]).
    replace ((v =? a)%nat && (j =? pa)%nat) with false by (destruct (Nat.eqb_spec v a) as [->|]; [symmetry; apply Nat.eqb_neq; unfold pa; lia|auto]). auto. }
  assert (CL : forall v j x, get2 g2 v j = Some x -> get2 g v j = Some x \/ (v = a /\ j = pa /\ x = (Arc b c (deg (map fst es) b), k)) \/ (v = b /\ j = pb /\ x = (Arc a 0 pa, - k))).
  { intros v j x E. rewrite G in E. destruct (Nat.eqb_spec v b) as [->|]; cbn [andb] in E.
    - destruct (Nat.eqb_spec j pb) as [->|]; [right; right; injection E as <-; auto|]. destruct (Nat.eqb_spec b a) as [<-|]; cbn [andb] in E; [|auto]. destruct (Nat.eqb_spec j pa) as [->|]; [right; left; injection E as <-; auto|auto].
    - destruct (Nat.eqb_spec v a) as [->|]; cbn [andb] in E; [|auto]. destruct (Nat.eqb_spec j pa) as [->|]; [right; left; injection E as <-; auto|auto]. }
  assert (N2 : get2 g2 b pb = Some (Arc a 0 pa, - k)) by (rewrite G, !Nat.eqb_refl; auto).
  assert (N1 : get2 g2 a pa = Some (Arc b c (deg (map fst es) b), k)).
  { rewrite G, !Nat.eqb_refl. destruct (Nat.eqb_spec a b) as [Eab|]; cbn [andb]; [|auto]. assert (pa <> pb) by (unfold pa, pb; rewrite Eab, ?Nat.eqb_refl; lia). destruct (Nat.eqb_spec pa pb); [congruence|auto]. }
  assert (Fl : fl_add (strip g) a b c = Some (strip g2)).
  { unfold fl_add. assert (Gs : forall (h : cnet) v row, get h v = Some row -> get (strip h) v = Some (map fst row)) by (intros h v row E; unfold strip; rewrite get_map, E; auto).
    rewrite (Gs _ _ _ Eb), (Gs _ _ _ Ea). cbn [obind]. rewrite set_some by (rewrite strip_len; lia). cbn [obind].
    assert (X : lset (strip g) a (map fst ra ++ [Arc b c (length (map fst rb))]) = strip g1) by (unfold g1, strip, ra1; rewrite lset_map, map_app, map_length; auto).
    rewrite X, (Gs _ _ _ Eb1), (Gs _ _ _ Ea1). cbn [obind]. rewrite set_some by (rewrite strip_len; unfold g1; rewrite lset_length; lia). unfold g2, strip at 2. rewrite lset_map, map_app, map_length. auto. }
  destruct (add_ok B Ha Hb Hc) as (g' & E' & B'). assert (g' = strip g2) by congruence. subst g'.
  split.
  - rewrite map_app. exact B'.
  - split.
    + intros v j x y E N. apply CL in E as [E|[(-> & -> & [= -> ->])|(-> & -> & [= -> ->])]].
      * destruct (co_anti Co _ E N) as (r & Er). exists r. apply Old; auto.
      * cbn in N |- *. exists (Arc a 0 pa). unfold pb in N2. destruct (Nat.eqb_spec a b); [congruence|]. rewrite Nat.add_0_r in N2. auto.
      * cbn in N |- *. rewrite Z.opp_involutive. eauto.
    + intros v j x y E. apply CL in E as [E|[(-> & -> & [= -> ->])|(-> & -> & [= -> ->])]]; [apply (co_bd Co _ _ E)|lia|lia].
  - intros i a' b' c' k' E. destruct (Nat.lt_ge_cases i (length es)) as [H|H].
    + rewrite get_app_l in E by auto. destruct (Pl i a' b' c' k' E) as [(e1 & P1) (e2 & P2)]. unfold pos1, pos2 in *. rewrite map_app, app_nth1 by (rewrite map_length; auto). cbn [map fst]. rewrite firstn_snoc by (rewrite map_length; lia).
      split; [exists e1|exists e2]; apply Old; auto.
    + rewrite get_app_r in E by auto. destruct (i - length es)%nat as [|q] eqn:Ek; [|destruct q; discriminate]. cbn in E. injection E as <- <- <- <-. assert (i = length es) by lia. subst i.
      unfold pos1, pos2. rewrite map_app, app_nth2 by (rewrite map_length; auto). rewrite map_length, Nat.sub_diag. cbn [map nth fst]. rewrite firstn_snoc by (rewrite map_length; lia). rewrite firstn_all2 by (rewrite map_length; lia). split; eauto.
  - intros v j x y E N. apply CL in E as [E|[(-> & -> & [= -> ->])|(-> & -> & [= -> ->])]]; [apply (Po _ _ _ _ E N)|lia|cbn in N; congruence].
Qed.

Lemma cbuild_ok w M K n es : cedges_ok M K n es -> K < 2 ^ (w - 1) -> exists g, mc_build w n es = Some g /\ cbuilt M K n es g.
Proof.
  unfold mc_build. intros H HK. assert (X : forall l pre g, cbuilt M K n pre g -> (forall x, In x l -> In x es) -> exists g', for_each l (fun '((a, b, c), k) g => mc_add w g a b c k) g = Some g' /\ cbuilt M K n (pre ++ l) g').
  { induction l as [|[[[a b] c] k] l IH]; intros pre g B Hl; cbn [for_each].
    - exists g. rewrite app_nil_r. auto.
    - destruct (H a b c k) as (Ha & Hb & Hc & Hk); [apply Hl; now left|]. destruct (cadd_ok w B Ha Hb Hc Hk HK) as (g1 & E1 & B1). rewrite E1. cbn [obind].
      destruct (IH _ _ B1) as (g2 & E2 & B2); [intros x Hx; apply Hl; now right|]. exists g2. split; [auto|]. now rewrite <- app_assoc in B2. }
  apply (X es [] (mc_new n)); [|auto]. assert (E : forall v j, get2 (mc_new n) v j = None).
  { intros v j. unfold get2, mc_new. destruct (get (repeat [] n) v) as [row|] eqn:E; [|auto]. apply get_In, repeat_spec in E. subst. cbn. now destruct j. }
  split.
  - unfold strip, mc_new. replace (map (map fst) (repeat [] n)) with (fl_new n); [apply built_nil|]. unfold fl_new. clear. induction n; cbn; [auto|now f_equal].
  - split; intros; rewrite E in *; discriminate.
  - intros [|i]; discriminate.
  - intros; rewrite E in *; discriminate.
Qed.

(** ** The cost of the flow that a residual network shows *)
Section Price.
Variables (M K : Z) (n : nat) (es : list (edge * Z)) (g0 : cnet) (s t : nat).
Hypothesis HE : cedges_ok M K n es.
Hypothesis B : cbuilt M K n es g0.
Hypothesis St : s <> t.
Hypothesis Hs : (s < n)%nat.
Hypothesis Ht : (t < n)%nat.

Lemma edges_ok' : edges_ok M n (map fst es).
Proof. intros a b c I. apply in_map_iff in I as ([[[a' b'] c'] k] & [= -> -> ->] & I). apply HE in I. tauto. Qed.

Lemma price_flow g r : state M (strip g0) s t (strip g) r -> placed es g -> price g = cost_bound es - 2 * flow_cost es (flow_of (map fst es) (strip g)).
Proof.
  intros T Pl. pose proof edges_ok' as HE'. assert (L : length g = n) by (rewrite <- strip_len, (sm_len (st_same T)); apply (bt_len (cb_built B))).
  assert (Rw : forall v, length (nth v g []) = deg (map fst es) v) by (intros v; rewrite <- strip_row, (sm_row (st_same T)); apply (bt_row (cb_built B))).
  unfold price. rewrite L. transitivity (zsum (fun v => zsum (fun i => let '(a, b, _) := nth i (map fst es) edge0 in (if (a =? v)%nat then cost_at g a (pos1 (map fst es) i) else 0) + (if (b =? v)%nat then cost_at g b (pos2 (map fst es) i) else 0)) (seq 0 (length es))) (seq 0 n)).
  { apply zsum_ext. intros v _. rewrite rowcost_at, Rw, (bt_sum (cb_built B)). now rewrite map_length. }
  rewrite zsum_swap. unfold cost_bound, flow_cost. rewrite (zsum_nth _ es cedge0). rewrite (zsum_combine _ _ _ cedge0 0) by (unfold flow_of; rewrite !map_length, seq_length; auto). rewrite <- zsum_mul, <- zsum_sub. apply zsum_ext. intros i I. apply in_seq in I.
  rewrite nth_fst. destruct (nth i es cedge0) as [[[a b] c] k] eqn:En. cbn [fst]. assert (E : get es i = Some ((a, b, c), k)) by (rewrite (get_nth es i cedge0) by lia; congruence).
  assert (E' : get (map fst es) i = Some (a, b, c)) by (rewrite get_map, E; auto).
  assert (Ef : nth i (flow_of (map fst es) (strip g)) 0 = flow_at (map fst es) (strip g) i).
  { unfold flow_of. rewrite (nth_indep _ 0 (flow_at (map fst es) (strip g) 0)) by (rewrite map_length, seq_length, map_length; lia). rewrite map_nth, seq_nth by (rewrite map_length; lia). auto. }
  rewrite Ef. destruct (arcs_of HE' (cb_built B) St Hs Ht i T E') as (e & e' & Ee & Ee' & _ & _ & Ce & Ce' & _ & Zz). destruct (Pl i a b c k E) as [(x1 & P1) (x2 & P2)].
  pose proof (get2_strip_some _ _ _ P1) as Q1. pose proof (get2_strip_some _ _ _ P2) as Q2. assert (x1 = e) by congruence. assert (x2 = e') by congruence. subst x1 x2.
  destruct (HE a b c k (get_In _ _ E)) as (Ha & Hb & _). transitivity (cost_at g a (pos1 (map fst es) i) + cost_at g b (pos2 (map fst es) i)).
  - rewrite zsum_add. f_equal.
    + etransitivity; [|apply (@zsum_ind_at (fun _ => cost_at g a (pos1 (map fst es) i)) a n Ha)]. apply zsum_ext. intros v _. now rewrite Nat.eqb_sym.
    + etransitivity; [|apply (@zsum_ind_at (fun _ => cost_at g b (pos2 (map fst es) i)) b n Hb)]. apply zsum_ext. intros v _. now rewrite Nat.eqb_sym.
  - unfold cost_at. rewrite P1, P2, Ce, Ce'. destruct (Nat.eqb_spec a b); [rewrite Zz by auto|]; ring.
Qed.

Lemma price0 : price g0 = cost_bound es.
Proof.
  assert (T : state M (strip g0) s t (strip g0) 0) by apply (state0 s t (cb_built B)). rewrite (price_flow T (cb_placed B)). replace (flow_cost es (flow_of (map fst es) (strip g0))) with 0; [ring|]. symmetry. unfold flow_cost.
  rewrite (zsum_combine _ _ _ cedge0 0) by (unfold flow_of; rewrite !map_length, seq_length; auto). apply zsum_0. intros i I. apply in_seq in I. destruct (nth i es cedge0) as [[[a b] c] k] eqn:En.
  assert (Ef : nth i (flow_of (map fst es) (strip g0)) 0 = flow_at (map fst es) (strip g0) i).
  { unfold flow_of. rewrite (nth_indep _ 0 (flow_at (map fst es) (strip g0) 0)) by (rewrite map_length, seq_length, map_length; lia). rewrite map_nth, seq_nth by (rewrite map_length; lia). auto. }
  assert (E' : get (map fst es) i = Some (a, b, c)) by (rewrite get_map, (get_nth es i cedge0), En by lia; auto).
  rewrite Ef. unfold flow_at, pos1. rewrite nth_fst, En. cbn [fst]. unfold cap_at. rewrite (proj1 (bt_fwd (cb_built B) i E')). cbn [cap]. ring.
Qed.

Lemma cost_le g r : state M (strip g0) s t (strip g) r -> 0 <= flow_cost es (flow_of (map fst es) (strip g)) <= cost_bound es.
Proof.
  intros T. pose proof edges_ok' as HE'. pose proof (state_flow HE' (cb_built B) St Hs Ht T) as F. assert (L : length (flow_of (map fst es) (strip g)) = length es) by (unfold flow_of; rewrite !map_length, seq_length; auto).
  unfold flow_cost, cost_bound. rewrite (zsum_combine _ _ _ cedge0 0) by auto. rewrite (zsum_nth _ es cedge0).
  assert (X : forall i, In i (seq 0 (length es)) -> 0 <= (let '((_, k), x) := (nth i es cedge0, nth i (flow_of (map fst es) (strip g)) 0) in x * k) <= (let '((_, _, c), k) := nth i es cedge0 in c * k)).
  { intros i I. apply in_seq in I. destruct (nth i es cedge0) as [[[a b] c] k] eqn:En. assert (E : get es i = Some ((a, b, c), k)) by (rewrite (get_nth es i cedge0) by lia; congruence). assert (E' : get (map fst es) i = Some (a, b, c)) by (rewrite get_map, E; auto).
    pose proof (get_nth (flow_of (map fst es) (strip g)) i 0 ltac:(lia)) as Gx. pose proof (fl_cap F _ E' Gx). pose proof (HE _ _ _ _ (get_In _ _ E)). nia. }
  split; [apply zsum_nonneg|apply zsum_le]; intros i I; apply X in I; destruct (nth i es cedge0) as [[[a b] c] k]; lia.
Qed.
End Price.
