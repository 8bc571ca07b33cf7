(** Proofs about [FlowModel]: construction of the network, flows and cuts. *)
From Verif Require Import Base BaseLemmas NthExtra FlowModel FlowProof.
Set Implicit Arguments.
Open Scope Z_scope.

(** ** Flows and cuts *)
Definition edge0 : edge := (0%nat, 0%nat, 0).
Lemma zsum_combine {A B} (F : A * B -> Z) (l : list A) (r : list B) (a : A) (b : B) : length r = length l ->
  zsum F (combine l r) = zsum (fun i => F (nth i l a, nth i r b)) (seq 0 (length l)).
Proof.
  revert r. induction l as [|x l IH]; intros [|y r] L; cbn in L; try discriminate; [reflexivity|]. cbn [combine length seq]. rewrite !zsum_cons, <- seq_shift, zsum_map, (IH r) by lia. reflexivity.
Qed.
Lemma zsum_nth {A} (F : A -> Z) (l : list A) a : zsum F l = zsum (fun i => F (nth i l a)) (seq 0 (length l)).
Proof. induction l as [|x l IH]; [reflexivity|]. cbn [length seq]. rewrite !zsum_cons, <- seq_shift, zsum_map, IH. reflexivity. Qed.

Lemma ind_sum (S : nat -> bool) a N : (a < N)%nat -> zsum (fun v => if S v then ind (a =? v)%nat else 0) (seq 0 N) = ind (S a).
Proof.
  intros H. rewrite <- (zsum_ind_at (fun v => ind (S v)) H). apply zsum_ext. intros v _. rewrite (Nat.eqb_sym v a). destruct (Nat.eqb_spec a v) as [<-|]; destruct (S _); reflexivity.
Qed.
Lemma cut_flow es s t xs r S : is_flow es s t xs r -> is_cut s t S ->
  zsum (fun '((a, b, _), x) => x * (ind (S a) - ind (S b))) (combine es xs) = r.
Proof.
  intros [L C Cs V] [Ss St]. set (N := (s + 1 + list_max (map (fun '(a, b, _) => a + b) es))%nat).
  assert (HN : forall a b c, In (a, b, c) es -> (a < N /\ b < N)%nat).
  { intros a b c I. assert (a + b <= list_max (map (fun '(a, b, _) => a + b) es))%nat; [|unfold N; lia].
    pose proof (proj1 (list_max_le (map (fun '(a, b, _) => a + b)%nat es) _) (le_n _)) as F. rewrite Forall_forall in F. apply F. apply in_map_iff. now exists (a, b, c). }
  assert (E1 : zsum (fun v => if S v then net_out (combine es xs) v else 0) (seq 0 N) = r).
  { rewrite <- V. rewrite <- (@zsum_ind_at (fun v => net_out (combine es xs) v) s N) by (unfold N; lia). apply zsum_ext. intros v _. destruct (Nat.eqb_spec v s) as [->|Nv]; [now rewrite Ss|]. destruct (S v) eqn:E; [|auto]. apply Cs; [auto|]. intros ->. congruence. }
  rewrite <- E1. transitivity (zsum (fun v => zsum (fun '((a, b, _), x) => if S v then x * (ind (a =? v)%nat - ind (b =? v)%nat) else 0) (combine es xs)) (seq 0 N)).
  - rewrite zsum_swap. apply zsum_ext. intros [[[a b] c] x] I. apply in_combine_l in I. apply HN in I as [Ha Hb]. transitivity (x * (zsum (fun v => if S v then ind (a =? v)%nat else 0) (seq 0 N) - zsum (fun v => if S v then ind (b =? v)%nat else 0) (seq 0 N))); [now rewrite !ind_sum|].
    rewrite <- zsum_sub, <- zsum_mul. apply zsum_ext. intros v _. destruct (S v); ring.
  - apply zsum_ext. intros v _. destruct (S v).
    + apply zsum_ext. intros [[[a b] c] x] _. reflexivity.
    + apply zsum_0. intros [[[a b] c] x] _. reflexivity.
Qed.
Lemma weak_duality es s t xs r S : is_flow es s t xs r -> is_cut s t S -> r <= cut_cap es S.
Proof.
  intros F K. rewrite <- (cut_flow F K). unfold cut_cap. rewrite (zsum_combine _ _ _ edge0 0) by apply (fl_len F). rewrite (zsum_nth _ es edge0). apply zsum_le. intros i I. apply in_seq in I.
  destruct (nth i es edge0) as [[a b] c] eqn:E. pose proof (get_nth es i edge0 ltac:(lia)) as Ge. pose proof (get_nth xs i 0 ltac:(rewrite (fl_len F); lia)) as Gx. rewrite E in Ge. pose proof (fl_cap F _ Ge Gx). destruct (S a), (S b); cbn [ind andb negb]; lia.
Qed.
Lemma strong es s t xs r S : is_flow es s t xs r -> is_cut s t S ->
  (forall i a b c x, get es i = Some (a, b, c) -> get xs i = Some x -> (S a = true -> S b = false -> x = c) /\ (S a = false -> S b = true -> x = 0)) -> cut_cap es S = r.
Proof.
  intros F K H. rewrite <- (cut_flow F K). unfold cut_cap. rewrite (zsum_combine _ _ _ edge0 0) by apply (fl_len F). rewrite (zsum_nth _ es edge0). apply zsum_ext. intros i I. apply in_seq in I.
  destruct (nth i es edge0) as [[a b] c] eqn:E. pose proof (get_nth es i edge0 ltac:(lia)) as Ge. pose proof (get_nth xs i 0 ltac:(rewrite (fl_len F); lia)) as Gx. rewrite E in Ge. destruct (H i a b c _ Ge Gx) as [H1 H2]. destruct (S a), (S b); cbn [ind andb negb]; [lia|rewrite H1 by auto; lia|rewrite H2 by auto; lia|lia].
Qed.
Lemma cut_max es s t xs r S : is_flow es s t xs r -> is_cut s t S -> cut_cap es S <= r -> max_flow es s t r.
Proof. intros F K H. split; [eauto|]. intros xs' r' F'. pose proof (weak_duality F' K). lia. Qed.

(** ** Construction *)
Definition pos1 (es : list edge) (i : nat) : nat := let '(a, _, _) := nth i es edge0 in deg (firstn i es) a.
Definition pos2 (es : list edge) (i : nat) : nat := let '(a, b, _) := nth i es edge0 in (deg (firstn i es) b + if a =? b then 1 else 0)%nat.

Lemma deg_app es r v : deg (es ++ r) v = (deg es v + deg r v)%nat.
Proof. unfold deg. now rewrite map_app, list_sum_app. Qed.

Record built (M : Z) (n : nat) (es : list edge) (g : net) : Prop := {
  bt_len : length g = n;
  bt_row : forall v, length (nth v g []) = deg es v;
  bt_ok : ok M g;
  bt_fwd : forall i a b c, get es i = Some (a, b, c) -> get2 g a (deg (firstn i es) a) = Some (Arc b c (deg (firstn i es) b)) /\ get2 g b (deg (firstn i es) b + if a =? b then 1 else 0)%nat = Some (Arc a 0 (deg (firstn i es) a));
  bt_sum : forall (h : nat -> nat -> Z) v, zsum (h v) (seq 0 (deg es v)) =
    zsum (fun i => let '(a, b, _) := nth i es edge0 in (if (a =? v)%nat then h a (pos1 es i) else 0) + (if (b =? v)%nat then h b (pos2 es i) else 0)) (seq 0 (length es)) }.

Lemma firstn_snoc {A} (l : list A) x i : (i <= length l)%nat -> firstn i (l ++ [x]) = firstn i l.
Proof. intros H. rewrite firstn_app. replace (i - length l)%nat with 0%nat by lia. apply app_nil_r. Qed.

Lemma get2_app g (u : nat) (row : list arc) x v j : get g u = Some row -> get2 (lset g u (row ++ [x])) v j = if (v =? u)%nat && (j =? length row)%nat then Some x else get2 g v j.
Proof.
  intros E. pose proof (get_some_lt _ _ E) as H. unfold get2. destruct (Nat.eqb_spec v u) as [->|N]; cbn [andb].
  - rewrite get_lset_eq, E by auto. cbn [obind]. destruct (Nat.eqb_spec j (length row)) as [->|Nj]; [rewrite get_app_r, Nat.sub_diag by auto; auto|]. destruct (Nat.lt_ge_cases j (length row)); [now rewrite get_app_l|].
    rewrite get_app_r, (get_none row) by lia. destruct (j - length row)%nat as [|k] eqn:Ek; [lia|]. now destruct k.
  - now rewrite get_lset_neq by auto.
Qed.

Lemma add_ok M n es g a b c : built M n es g -> (a < n)%nat -> (b < n)%nat -> 0 <= c <= M -> exists g', fl_add g a b c = Some g' /\ built M n (es ++ [(a, b, c)]) g'.
Proof.
  intros B Ha Hb Hc. pose proof (bt_len B) as L. unfold fl_add. destruct (@get_lt _ g b) as [rb Eb]; [lia|]. destruct (@get_lt _ g a) as [ra Ea]; [lia|]. rewrite Eb, Ea. cbn [obind]. rewrite set_some by lia. cbn [obind].
  assert (Da : length ra = deg es a) by (rewrite <- (bt_row B), (@nth_get _ _ _ _ [] Ea); auto). assert (Db : length rb = deg es b) by (rewrite <- (bt_row B), (@nth_get _ _ _ _ [] Eb); auto).
  set (ra1 := ra ++ [Arc b c (length rb)]). set (g1 := lset g a ra1). assert (Ea1 : get g1 a = Some ra1) by (apply get_lset_eq; lia). destruct (@get_lt _ g1 b) as [rb1 Eb1]; [unfold g1; rewrite lset_length; lia|]. rewrite Eb1, Ea1. cbn [obind].
  rewrite set_some by (unfold g1; rewrite lset_length; lia). set (g2 := lset g1 b _). exists g2. split; [auto|]. assert (La1 : length ra1 = S (length ra)) by (unfold ra1; rewrite app_length; cbn; lia).
  assert (Lb1 : length rb1 = (deg es b + if (a =? b)%nat then 1 else 0)%nat).
  { destruct (Nat.eqb_spec a b) as [->|N]; [rewrite Ea1 in Eb1; injection Eb1 as <-; lia|]. unfold g1 in Eb1. rewrite get_lset_neq, Eb in Eb1 by auto. injection Eb1 as <-. lia. }
  assert (G : forall v j, get2 g2 v j = if (v =? b)%nat && (j =? deg es b + if (a =? b)%nat then 1 else 0)%nat then Some (Arc a 0 (deg es a)) else if (v =? a)%nat && (j =? deg es a)%nat then Some (Arc b c (deg es b)) else get2 g v j).
  { intros v j. unfold g2. rewrite (get2_app _ _ _ _ _ Eb1). rewrite La1, Lb1. unfold g1, ra1. rewrite (get2_app _ _ _ _ _ Ea). rewrite Da, Db. replace (S (deg es a) - 1)%nat with (deg es a) by lia. reflexivity. }
  assert (Old : forall v j x, get2 g v j = Some x -> get2 g2 v j = Some x).
  { intros v j x E. rewrite G. pose proof (get2_lt _ _ _ E) as [_ Hj]. rewrite (bt_row B) in Hj.
    replace ((v =? b)%nat && (j =? deg es b + if (a =? b)%nat then 1 else 0)%nat) with false by (destruct (Nat.eqb_spec v b) as [->|]; [symmetry; apply Nat.eqb_neq; lia|auto]).
    replace ((v =? a)%nat && (j =? deg es a)%nat) with false by (destruct (Nat.eqb_spec v a) as [->|]; [symmetry; apply Nat.eqb_neq; lia|auto]). auto. }
  assert (CL : forall v j x, get2 g2 v j = Some x -> get2 g v j = Some x \/ (v = a /\ j = deg es a /\ x = Arc b c (deg es b)) \/ (v = b /\ j = (deg es b + if (a =? b)%nat then 1 else 0)%nat /\ x = Arc a 0 (deg es a))).
  { intros v j x E. rewrite G in E. destruct (Nat.eqb_spec v b) as [->|]; cbn [andb] in E.
    - destruct (Nat.eqb_spec j (deg es b + if (a =? b)%nat then 1 else 0)%nat) as [->|]; [right; right; injection E as <-; auto|]. destruct (Nat.eqb_spec b a) as [<-|]; cbn [andb] in E; [|auto]. destruct (Nat.eqb_spec j (deg es b)) as [->|]; [right; left; injection E as <-; auto|auto].
    - destruct (Nat.eqb_spec v a) as [->|]; cbn [andb] in E; [|auto]. destruct (Nat.eqb_spec j (deg es a)) as [->|]; [right; left; injection E as <-; auto|auto]. }
  assert (N2 : get2 g2 b (deg es b + if (a =? b)%nat then 1 else 0)%nat = Some (Arc a 0 (deg es a))) by (rewrite G, !Nat.eqb_refl; auto).
  assert (N1 : get2 g2 a (deg es a) = Some (Arc b c (deg es b))).
  { rewrite G, !Nat.eqb_refl. destruct (Nat.eqb_spec a b) as [<-|]; cbn [andb]; [|auto]. destruct (Nat.eqb_spec (deg es a) (deg es a + 1)); [lia|auto]. }
  assert (L2 : length g2 = n) by (unfold g2, g1; rewrite !lset_length; auto).
  assert (Dg : forall v, deg (es ++ [(a, b, c)]) v = (deg es v + ((if a =? v then 1 else 0) + (if b =? v then 1 else 0)))%nat) by (intros v; rewrite deg_app; unfold deg; cbn; lia).
  split.
  - exact L2.
  - intros v. rewrite Dg. unfold g2. rewrite nth_lset. unfold g1 at 1. rewrite lset_length. destruct (Nat.eqb_spec b v) as [<-|Nb]; cbn [andb].
    + replace (b <? length g)%nat with true by (symmetry; apply Nat.ltb_lt; lia). rewrite app_length, Lb1. cbn. lia.
    + unfold g1. rewrite nth_lset. destruct (Nat.eqb_spec a v) as [<-|Na]; cbn [andb]; [replace (a <? length g)%nat with true by (symmetry; apply Nat.ltb_lt; lia); rewrite La1; lia|]. rewrite (bt_row B). lia.
  - pose proof (bt_ok B) as O. split.
    + intros v j x E. rewrite L2. apply CL in E as [E|[(-> & -> & ->)|(-> & -> & ->)]]; [pose proof (ok_to O E); lia|auto|auto].
    + intros v j x E. apply CL in E as [E|[(-> & -> & ->)|(-> & -> & ->)]]; [apply (ok_cap O E)|cbn; lia|cbn; lia].
    + intros v j x E N. apply CL in E as [E|[(-> & -> & ->)|(-> & -> & ->)]].
      * destruct (ok_rv O E N) as (r & Er & H). exists r. split; [apply Old; auto|auto].
      * cbn in N |- *. exists (Arc a 0 (deg es a)). destruct (Nat.eqb_spec a b); [congruence|]. rewrite Nat.add_0_r in N2. split; [auto|]. cbn. repeat split; auto. lia.
      * cbn in N |- *. exists (Arc b c (deg es b)). split; [auto|]. destruct (Nat.eqb_spec a b); [congruence|]. cbn. repeat split; [lia|lia].
  - intros i a' b' c' E. destruct (Nat.lt_ge_cases i (length es)) as [H|H].
    + rewrite get_app_l in E by auto. rewrite firstn_snoc by lia. destruct (bt_fwd B i E) as [F1 F2]. split; apply Old; auto.
    + rewrite get_app_r in E by auto. destruct (i - length es)%nat as [|k] eqn:Ek; [|destruct k; discriminate]. cbn in E. injection E as <- <- <-. rewrite firstn_snoc, firstn_all2 by lia. auto.
  - intros h v. rewrite Dg, seq_app, zsum_app, (bt_sum B), app_length. cbn [length]. rewrite (seq_app (length es) 1 0), zsum_app. cbn [seq Nat.add]. rewrite (zsum_cons _ (length es)), app_nth2, Nat.sub_diag by auto. cbn [nth]. f_equal.
    + apply zsum_ext. intros i I. apply in_seq in I. unfold pos1, pos2. rewrite app_nth1 by lia. rewrite firstn_snoc by lia. reflexivity.
    + unfold pos1, pos2. rewrite app_nth2, Nat.sub_diag, firstn_snoc, firstn_all by auto. cbn [nth].
      destruct (Nat.eqb_spec a v) as [Ea'|Na], (Nat.eqb_spec b v) as [Eb'|Nb]; cbn [Nat.add seq]; unfold zsum; cbn [map fold_right].
      * subst a b. rewrite Nat.eqb_refl, Nat.add_1_r. ring.
      * subst a. ring.
      * subst b. destruct (Nat.eqb_spec a v); [congruence|]. rewrite Nat.add_0_r. ring.
      * ring.
Qed.

Lemma built_nil M n : built M n [] (fl_new n).
Proof.
  assert (E : forall v j, get2 (fl_new n) v j = None).
  { intros v j. unfold get2, fl_new. destruct (get (repeat [] n) v) as [row|] eqn:E; [|auto]. apply get_In, repeat_spec in E. subst. cbn. now destruct j. }
  split.
  - apply repeat_length.
  - intros v. unfold fl_new. destruct (Nat.lt_ge_cases v n); [rewrite nth_repeat; auto|]. rewrite nth_overflow by (rewrite repeat_length; auto). auto.
  - split; intros u i e H; rewrite E in H; discriminate.
  - intros [|i]; discriminate.
  - reflexivity.
Qed.
Lemma build_ok M n es : edges_ok M n es -> exists g, fl_build n es = Some g /\ built M n es g.
Proof.
  unfold fl_build. induction es as [|[[a b] c] es IH] using rev_ind; intros H.
  - exists (fl_new n). split; [auto|apply built_nil].
  - destruct IH as (g & E & B); [intros a' b' c' I; apply H, in_or_app; auto|]. destruct (H a b c) as (Ha & Hb & Hc); [apply in_or_app; right; now left|]. destruct (add_ok B Ha Hb Hc) as (g' & E' & B'). exists g'. split; [|auto].
    assert (X : forall l (x : net), for_each (l ++ [(a, b, c)]) (fun '(a, b, c) g => fl_add g a b c) x = let* y := for_each l (fun '(a, b, c) g => fl_add g a b c) x in fl_add y a b c).
    { intros l. induction l as [|[[a' b'] c'] l IHl]; intros x; cbn [app for_each]; [cbn [obind]; destruct (fl_add x a b c); auto|]. destruct (fl_add x a' b' c'); cbn [obind]; auto. }
    rewrite X, E. exact E'.
Qed.

(** ** From residual networks to flows *)
Section State.
Variables (M : Z) (n : nat) (es : list edge) (g0 : net) (s t : nat).
Hypothesis HE : edges_ok M n es.
Hypothesis B : built M n es g0.
Hypothesis St : s <> t.
Hypothesis Hs : (s < n)%nat.
Hypothesis Ht : (t < n)%nat.

Record state (g : net) (r : Z) : Prop := {
  st_same : same g0 g;
  st_ok : ok M g;
  st_row : forall v, rowcap g v = rowcap g0 v - r * (ind (v =? s)%nat - ind (v =? t)%nat) }.
Lemma state0 : state g0 0.
Proof. split; [apply same_refl|apply (bt_ok B)|]. intros; ring. Qed.
Lemma state_moved g r g' d : state g r -> moved M g g' s t d -> state g' (r + d).
Proof. intros [A1 A2 A3] (B1 & B2 & B3). split; [eapply same_trans; eauto|auto|]. intros v. rewrite B3, A3. ring. Qed.

Definition flow_at (g : net) (i : nat) : Z := let '(a, _, c) := nth i es edge0 in c - cap_at g a (pos1 es i).
Definition flow_of (g : net) : list Z := map (flow_at g) (seq 0 (length es)).

Lemma nth_in i a b c : get es i = Some (a, b, c) -> nth i es edge0 = (a, b, c) /\ (i < length es)%nat.
Proof. intros E. split; [now apply nth_get|now apply get_some_lt in E]. Qed.
Lemma arcs_of g r i a b c : state g r -> get es i = Some (a, b, c) ->
  exists e e', get2 g a (pos1 es i) = Some e /\ get2 g b (pos2 es i) = Some e' /\ to e = b /\ to e' = a /\
    cap e = c - flow_at g i /\ cap e' = (if (a =? b)%nat then 0 else flow_at g i) /\ 0 <= flow_at g i <= c /\ (a = b -> flow_at g i = 0).
Proof.
  intros [S O R] E. destruct (nth_in _ E) as [En Hi]. destruct (bt_fwd B i E) as [F1 F2]. unfold flow_at, pos1, pos2. rewrite En. unfold cap_at.
  destruct (sm_arc S _ _ F1) as (e & Ee & T1 & R1 & C1 & P1). destruct (sm_arc S _ _ F2) as (e' & Ee' & T2 & R2 & C2 & P2). cbn in *. exists e, e'. rewrite Ee. split; [auto|]. split; [auto|]. split; [auto|]. split; [auto|].
  pose proof (ok_cap O Ee) as K1. pose proof (ok_cap O Ee') as K2. destruct (Nat.eqb_spec a b) as [<-|N].
  - rewrite C1, C2 by auto. pose proof (HE _ _ _ (get_In _ _ E)). repeat split; lia.
  - rewrite Nat.add_0_r in *. specialize (P1 ltac:(congruence) _ _ F2 Ee'). cbn in P1. repeat split; lia.
Qed.
Lemma flow_get g i x : get (flow_of g) i = Some x -> x = flow_at g i.
Proof. unfold flow_of. rewrite get_map. intros E. destruct (get (seq 0 (length es)) i) as [k|] eqn:E1; [|discriminate]. pose proof (get_some_lt _ _ E1) as H. rewrite seq_length in H. rewrite get_seq in E1 by auto. injection E1 as <-. cbn in E. congruence. Qed.

Lemma net_out_row g r v : state g r -> net_out (combine es (flow_of g)) v = rowcap g0 v - rowcap g v.
Proof.
  intros T. pose proof T as [S O R]. rewrite !rowcap_at, (sm_row S), (bt_row B), !(bt_sum B), <- zsum_sub. unfold net_out. rewrite (zsum_combine _ _ _ edge0 0) by (unfold flow_of; rewrite map_length, seq_length; auto).
  apply zsum_ext. intros i I. apply in_seq in I. destruct (nth i es edge0) as [[a b] c] eqn:En. assert (E : get es i = Some (a, b, c)) by (rewrite (get_nth es i edge0) by lia; congruence).
  assert (Ef : nth i (flow_of g) 0 = flow_at g i). { unfold flow_of. rewrite (nth_indep _ 0 (flow_at g 0)) by (rewrite map_length, seq_length; lia). rewrite map_nth, seq_nth by lia. auto. }
  rewrite Ef. destruct (arcs_of _ T E) as (e & e' & Ee & Ee' & _ & _ & Ce & Ce' & _ & Z). destruct (bt_fwd B i E) as [F1 F2].
  assert (P1 : pos1 es i = deg (firstn i es) a) by (unfold pos1; now rewrite En). assert (P2 : pos2 es i = (deg (firstn i es) b + if (a =? b)%nat then 1 else 0)%nat) by (unfold pos2; now rewrite En).
  unfold cap_at. rewrite Ee, Ee', P1, P2, F1, F2. cbn [cap]. rewrite Ce, Ce'. destruct (Nat.eqb_spec a v), (Nat.eqb_spec b v), (Nat.eqb_spec a b); cbn [ind]; try congruence; try rewrite Z by auto; ring.
Qed.
Lemma state_flow g r : state g r -> is_flow es s t (flow_of g) r.
Proof.
  intros T. split.
  - unfold flow_of. now rewrite map_length, seq_length.
  - intros i a b c x E Ex. apply flow_get in Ex as ->. destruct (arcs_of _ T E) as (e & e' & _ & _ & _ & _ & _ & _ & H & _). auto.
  - intros v N1 N2. rewrite (net_out_row v T), (st_row T). destruct (Nat.eqb_spec v s), (Nat.eqb_spec v t); try congruence. cbn [ind]. ring.
  - rewrite (net_out_row s T), (st_row T), Nat.eqb_refl. destruct (Nat.eqb_spec s t); [congruence|]. cbn [ind]. ring.
Qed.
Lemma state_shows g r : state g r -> shows g es (flow_of g).
Proof.
  intros T i a b c x E Ex. apply flow_get in Ex as ->. destruct (arcs_of _ T E) as (e & e' & Ee & _ & Te & _ & Ce & _). exists e. unfold pos1 in Ee. rewrite (proj1 (nth_in _ E)) in Ee. auto.
Qed.
(** A set closed under residual arcs is a minimum cut. *)
Lemma state_cut g r S : state g r -> is_cut s t S -> (forall u i e, S u = true -> get2 g u i = Some e -> cap e <> 0 -> S (to e) = true) -> cut_cap es S = r.
Proof.
  intros T K C. apply (strong (state_flow T) K). intros i a b c x E Ex. apply flow_get in Ex as ->. destruct (arcs_of _ T E) as (e & e' & Ee & Ee' & Te & Te' & Ce & Ce' & H & Z). split; intros Sa Sb.
  - destruct (Z.eq_dec (cap e) 0) as [|N]; [lia|]. specialize (C _ _ _ Sa Ee N). congruence.
  - destruct (Z.eq_dec (cap e') 0) as [N|N]; [|specialize (C _ _ _ Sb Ee' N); congruence]. rewrite N in Ce'. destruct (Nat.eqb_spec a b); [congruence|lia].
Qed.
Lemma total_eq g : total g = zsum (fun v => rowcap g v) (seq 0 (length g)).
Proof. transitivity (zsum (fun row => zsum cap row) g); [reflexivity|]. now rewrite (zsum_nth _ g []). Qed.
Lemma row_nonneg g v : ok M g -> 0 <= rowcap g v.
Proof.
  intros O. rewrite rowcap_at. apply zsum_nonneg. intros j _. unfold cap_at. destruct (get2 g v j) eqn:E; [|lia]. apply (ok_cap O E).
Qed.
Lemma state_total g r : state g r -> r <= total g0.
Proof.
  intros T. pose proof (st_row T s) as R. rewrite Nat.eqb_refl in R. destruct (Nat.eqb_spec s t); [congruence|]. cbn [ind] in R. pose proof (row_nonneg s (st_ok T)). assert (rowcap g0 s <= total g0); [|lia].
  rewrite total_eq, (bt_len B). rewrite <- (@zsum_ind_at (fun v => rowcap g0 v) s n Hs). apply zsum_le. intros v _. destruct (Nat.eqb_spec v s) as [->|]; [lia|]. apply (row_nonneg v (bt_ok B)).
Qed.

(** The loop of [flow]: [step] augments or shows a cut. *)
Definition outcome (fup : Z) (stop : Z -> bool) (res : option (Z * net)) : Prop :=
  exists r g, res = Some (r, g) /\ 0 <= r /\ state g r /\ (stop (fup - r) = true \/ exists S, is_cut s t S /\ cut_cap es S = r).
Lemma flow_loop (step : net -> option (Z * net)) (stop : Z -> bool) (S0 : nat -> bool) fup :
  0 < M -> 0 <= fup <= M -> is_cut s t S0 -> cut_cap es S0 <= M ->
  (forall g r, state g r -> exists f g', step g = Some (f, g') /\ 0 <= f /\ moved M g g' s t f /\ (f = 0 -> exists S, is_cut s t S /\ cut_cap es S = r)) ->
  outcome fup stop (loop (S (Z.to_nat (total g0))) (fun '(flow, fup, g) =>
    if stop fup then Some (inr (flow, g))
    else let* (f, g) := step g in
      if 0 <? f then let* flow := ll M (flow + f) in let* fup := ll M (fup - f) in Some (inl (flow, fup, g))
      else Some (inr (flow, g))) (0, fup, g0)).
Proof.
  intros HM Hf K0 HC0 Hstep. assert (BD : forall g r, state g r -> r <= M) by (intros g r T; pose proof (weak_duality (state_flow T) K0); lia).
  assert (G : forall k r g, state g r -> 0 <= r -> (Z.to_nat (total g0 - r) < k)%nat -> outcome fup stop (loop k (fun '(flow, fup, g) =>
    if stop fup then Some (inr (flow, g))
    else let* (f, g) := step g in
      if 0 <? f then let* flow := ll M (flow + f) in let* fup := ll M (fup - f) in Some (inl (flow, fup, g))
      else Some (inr (flow, g))) (r, fup - r, g))).
  { induction k as [|k IH]; intros r g T Hr Hk; [lia|]. cbn [loop]. destruct (stop (fup - r)) eqn:Es.
    - exists r, g. auto.
    - destruct (Hstep g r T) as (f & g' & E & Hf0 & Mv & Z). rewrite E. cbn [obind]. pose proof (state_moved T Mv) as T'. pose proof (BD _ _ T') as Hb. pose proof (state_total T'). destruct (Z.ltb_spec 0 f) as [Hp|Hp].
      + rewrite ll_some by lia. cbn [obind]. rewrite ll_some by lia. cbn [obind]. replace (fup - r - f) with (fup - (r + f)) by ring. apply IH; [auto|lia|]. pose proof (state_total T). lia.
      + assert (f = 0) by lia. subst f. rewrite Z.add_0_r in T'. exists r, g'. split; [auto|]. auto. }
  pose proof (G (S (Z.to_nat (total g0))) 0 g0 state0) as H. rewrite !Z.sub_0_r in H. apply H; lia.
Qed.
End State.
