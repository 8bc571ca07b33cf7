(** Proofs about [McfModel]: potentials certify cheapest flows; construction; cost of a residual network. *)
From Verif Require Import Base BaseLemmas NthExtra FlowModel FlowProof FlowNet McfModel.
Set Implicit Arguments.
Open Scope Z_scope.

Definition cedge0 : edge * Z := (edge0, 0).
Lemma nth_fst (es : list (edge * Z)) i : nth i (map fst es) edge0 = fst (nth i es cedge0).
Proof. change edge0 with (fst cedge0). apply map_nth. Qed.

(** ** Potentials *)
Lemma flow_pot es s t xs r (p : nat -> Z) : s <> t -> is_flow es s t xs r ->
  zsum (fun '((a, b, _), x) => x * (p a - p b)) (combine es xs) = r * (p s - p t).
Proof.
  intros St F. pose proof F as [L C Cs V]. set (N := (s + t + 1 + list_max (map (fun '(a, b, _) => a + b) es))%nat).
  assert (HN : forall a b c, In (a, b, c) es -> (a < N /\ b < N)%nat).
  { intros a b c I. assert (a + b <= list_max (map (fun '(a, b, _) => a + b) es))%nat; [|unfold N; lia].
    pose proof (proj1 (list_max_le (map (fun '(a, b, _) => a + b)%nat es) _) (le_n _)) as G. rewrite Forall_forall in G. apply G. apply in_map_iff. now exists (a, b, c). }
  assert (Vt : net_out (combine es xs) t = - r).
  { pose proof (@cut_flow es s t xs r (fun v => negb (v =? t)%nat) F) as K. rewrite <- K.
    - unfold net_out. transitivity (zsum (fun y => -1 * (fun '((a, b, _), x) => x * (ind (negb (a =? t)%nat) - ind (negb (b =? t)%nat))) y) (combine es xs)).
      + apply zsum_ext. intros [[[a b] c] x] _. destruct (a =? t)%nat, (b =? t)%nat; cbn [ind negb]; cbv beta iota; ring.
      + rewrite zsum_mul. ring.
    - split; [apply negb_true_iff, Nat.eqb_neq; auto|apply negb_false_iff, Nat.eqb_refl]. }
  transitivity (zsum (fun v => p v * net_out (combine es xs) v) (seq 0 N)).
  - transitivity (zsum (fun v => zsum (fun '((a, b, _), x) => p v * (x * (ind (a =? v)%nat - ind (b =? v)%nat))) (combine es xs)) (seq 0 N)).
    + rewrite zsum_swap. apply zsum_ext. intros [[[a b] c] x] I. apply in_combine_l in I. apply HN in I as [Ha Hb].
      transitivity (x * (zsum (fun v => if (v =? a)%nat then p v else 0) (seq 0 N) - zsum (fun v => if (v =? b)%nat then p v else 0) (seq 0 N))); [now rewrite !zsum_ind_at|].
      rewrite <- zsum_sub, <- zsum_mul. apply zsum_ext. intros v _. rewrite (Nat.eqb_sym v a), (Nat.eqb_sym v b). destruct (a =? v)%nat, (b =? v)%nat; cbn; ring.
    + apply zsum_ext. intros v _. unfold net_out. rewrite <- zsum_mul. apply zsum_ext. intros [[[a b] c] x] _. reflexivity.
  - transitivity (zsum (fun v => (if (v =? s)%nat then r * p v else 0) + (if (v =? t)%nat then - r * p v else 0)) (seq 0 N)).
    + apply zsum_ext. intros v _. destruct (Nat.eqb_spec v s) as [->|N1]; [destruct (Nat.eqb_spec s t); [congruence|]; rewrite V; ring|]. destruct (Nat.eqb_spec v t) as [->|N2]; [rewrite Vt; ring|]. rewrite Cs by auto. ring.
    + rewrite zsum_add, (@zsum_ind_at (fun v => r * p v)), (@zsum_ind_at (fun v => - r * p v)) by (unfold N; lia). ring.
Qed.

Lemma flow_cost_pot es s t xs r (p : nat -> Z) : s <> t -> is_flow (map fst es) s t xs r ->
  flow_cost es xs = zsum (fun i => let '((a, b, _), k) := nth i es cedge0 in nth i xs 0 * (k + p a - p b)) (seq 0 (length es)) - r * (p s - p t).
Proof.
  intros St F. rewrite <- (flow_pot p St F). assert (L : length xs = length es) by (rewrite (fl_len F), map_length; auto).
  unfold flow_cost. rewrite (zsum_combine _ _ _ cedge0 0) by auto. rewrite (zsum_combine _ _ _ edge0 0) by (rewrite map_length; auto). rewrite map_length, <- zsum_sub.
  apply zsum_ext. intros i _. rewrite nth_fst. destruct (nth i es cedge0) as [[[a b] c] k]. cbn [fst]. ring.
Qed.

Lemma pot_cheapest es s t xs r (p : nat -> Z) : s <> t -> is_flow (map fst es) s t xs r ->
  (forall i a b c k x, get es i = Some ((a, b, c), k) -> get xs i = Some x -> (x < c -> 0 <= k + p a - p b) /\ (0 < x -> k + p a - p b <= 0)) ->
  cheapest es s t xs r.
Proof.
  intros St F H. split; [auto|]. intros ys Fy. rewrite (@flow_cost_pot es s t xs r p St F), (@flow_cost_pot es s t ys r p St Fy). assert (L : length xs = length es) by (rewrite (fl_len F), map_length; auto). assert (Ly : length ys = length es) by (rewrite (fl_len Fy), map_length; auto).
  apply Z.sub_le_mono_r. apply zsum_le. intros i I. apply in_seq in I. destruct (nth i es cedge0) as [[[a b] c] k] eqn:E.
  pose proof (get_nth es i cedge0 ltac:(lia)) as Ge. rewrite E in Ge. pose proof (get_nth xs i 0 ltac:(lia)) as Gx. pose proof (get_nth ys i 0 ltac:(lia)) as Gy.
  assert (Gm : get (map fst es) i = Some (a, b, c)) by (rewrite get_map, Ge; auto).
  pose proof (fl_cap F _ Gm Gx). pose proof (fl_cap Fy _ Gm Gy). destruct (H i a b c k _ Ge Gx) as [Q1 Q2]. set (x := nth i xs 0) in *. set (y := nth i ys 0) in *. set (rc := k + p a - p b) in *.
  destruct (Z.lt_trichotomy rc 0) as [N|[->|P]]; [|lia|].
  - assert (x = c) by (destruct (Z.eq_dec x c); [auto|]; lia). nia.
  - assert (x = 0) by (destruct (Z.eq_dec x 0); [auto|]; lia). nia.
Qed.

(** ** Residual networks with costs *)
Definition strip (g : cnet) : net := map (map fst) g.
Lemma get2_strip g u i : get2 (strip g) u i = option_map fst (get2 g u i).
Proof. unfold get2, strip. rewrite get_map. destruct (get g u) as [row|]; cbn [obind option_map]; [|auto]. now rewrite get_map. Qed.
Lemma get2_strip_some g u i e k : get2 g u i = Some (e, k) -> get2 (strip g) u i = Some e.
Proof. intros E. rewrite get2_strip, E. auto. Qed.
Lemma strip_get2 g u i e : get2 (strip g) u i = Some e -> exists k, get2 g u i = Some (e, k).
Proof. rewrite get2_strip. destruct (get2 g u i) as [[e' k]|]; cbn; [|discriminate]. intros [= ->]. eauto. Qed.
Lemma strip_len g : length (strip g) = length g.
Proof. apply map_length. Qed.
Lemma strip_row g v : length (nth v (strip g) []) = length (nth v g []).
Proof. unfold strip. change [] with (map (@fst arc Z) []) at 1. rewrite map_nth. apply map_length. Qed.
Lemma lset_map {A B} (f : A -> B) l i x : map f (lset l i x) = lset (map f l) i (f x).
Proof. revert i. induction l as [|y l IH]; intros [|i]; cbn; auto. now rewrite IH. Qed.
Lemma strip_set2 g u i e k g' : set2 g u i (e, k) = Some g' -> set2 (strip g) u i e = Some (strip g').
Proof.
  unfold set2, strip. rewrite get_map. destruct (get g u) as [row|] eqn:E; cbn [obind option_map]; [|discriminate]. pose proof (get_some_lt _ _ E) as Hu.
  destruct (Nat.lt_ge_cases i (length row)) as [H|H].
  - rewrite !set_some by (rewrite ?map_length; auto). cbn [obind]. rewrite !set_some by (rewrite ?map_length; auto). intros [= <-]. rewrite lset_map, lset_map. auto.
  - unfold set. rewrite (proj2 (Nat.ltb_ge _ _) H). discriminate.
Qed.

Record costed (K : Z) (g : cnet) : Prop := {
  co_anti : forall u i e k, get2 g u i = Some (e, k) -> to e <> u -> exists r, get2 g (to e) (rv e) = Some (r, - k);
  co_bd : forall u i e k, get2 g u i = Some (e, k) -> - K <= k <= K }.
(** The cost of the capacities *)
Definition rowcost (g : cnet) (v : nat) : Z := zsum (fun '(e, k) => cap e * k) (nth v g []).
Definition price (g : cnet) : Z := zsum (rowcost g) (seq 0 (length g)).

Definition cost_at (g : cnet) (v j : nat) : Z := match get2 g v j with Some (e, k) => cap e * k | None => 0 end.
Lemma rowcost_at g v : rowcost g v = zsum (cost_at g v) (seq 0 (length (nth v g []))).
Proof.
  unfold rowcost. rewrite zsum_at. apply zsum_ext. intros j I. apply in_seq in I. unfold at_, cost_at. destruct (Nat.lt_ge_cases v (length g)) as [H|H].
  - unfold get2. rewrite (get_nth g v []) by auto. cbn [obind]. now destruct (get (nth v g []) j) as [[e k]|].
  - rewrite nth_overflow in I by auto. cbn in I. lia.
Qed.
Lemma rowcost_set2 g g' u i e k e' k' v : get2 g u i = Some (e, k) -> set2 g u i (e', k') = Some g' -> rowcost g' v = rowcost g v + (if (v =? u)%nat then cap e' * k' - cap e * k else 0).
Proof.
  intros E S. rewrite !rowcost_at, (set2_row v S). destruct (Nat.eqb_spec v u) as [->|N].
  - pose proof (get2_lt _ _ _ E) as [H1 H2]. rewrite <- (zsum_ind_at (fun _ => cap e' * k' - cap e * k) H2), <- zsum_add. apply zsum_ext. intros j _. unfold cost_at. rewrite (get2_set2 u j S), Nat.eqb_refl. cbn [andb]. rewrite Nat.eqb_sym. destruct (Nat.eqb_spec j i) as [->|]; [rewrite E|]; ring.
  - rewrite Z.add_0_r. apply zsum_ext. intros j _. unfold cost_at. rewrite (get2_set2 v j S). destruct (Nat.eqb_spec u v); [congruence|auto].
Qed.
Lemma price_set2 g g' u i e k e' k' : get2 g u i = Some (e, k) -> set2 g u i (e', k') = Some g' -> price g' = price g + (cap e' * k' - cap e * k).
Proof.
  intros E S. unfold price. rewrite (set2_length S). pose proof (get2_lt _ _ _ E) as [H _]. rewrite <- (zsum_ind_at (fun _ => cap e' * k' - cap e * k) H), <- zsum_add. apply zsum_ext. intros v _. apply (@rowcost_set2 g g' u i e k e' k' v E S).
Qed.

Lemma mpush_ok M K g u j e k d : ok M (strip g) -> costed K g -> get2 g u j = Some (e, k) -> to e <> u -> 0 <= d <= cap e ->
  exists g' c, mc_push M g (to e) u j d = Some g' /\ fl_push M (strip g) u j d = Some (strip g') /\ length g' = length g /\ costed K g' /\ price g' = price g - 2 * (d * k) /\
    (forall v l, get2 g' v l = if (to e =? v)%nat && (rv e =? l)%nat then Some (Arc u c j, - k) else if (u =? v)%nat && (j =? l)%nat then Some (Arc (to e) (cap e - d) (rv e), k) else get2 g v l) /\
    (forall v l, option_map snd (get2 g' v l) = option_map snd (get2 g v l)).
Proof.
  intros O Co E N Hd. pose proof (get2_strip_some _ _ _ E) as Es. destruct (ok_rv O Es N) as (r & Er & Tr & Rr & Cr). pose proof (ok_cap O Es) as Ce. pose proof (ok_cap O Er) as Ccr.
  assert (Ek : get2 g (to e) (rv e) = Some (r, - k)). { destruct (co_anti Co _ E N) as (r' & Er'). pose proof (get2_strip_some _ _ _ Er'). congruence. }
  unfold mc_push, fl_push. rewrite E, Es. cbn [obind]. rewrite !ll_some by lia. cbn [obind].
  destruct (set2_some g u j (Arc (to e) (cap e - d) (rv e), k) E) as [g1 E1]. rewrite E1, (strip_set2 _ _ _ _ _ E1). cbn [obind].
  assert (Er1 : get2 g1 (to e) (rv e) = Some (r, - k)) by (rewrite (get2_set2 _ _ E1); destruct (Nat.eqb_spec u (to e)); [congruence|auto]). rewrite Er1, (get2_strip_some _ _ _ Er1). cbn [obind]. rewrite !ll_some by lia. cbn [obind].
  destruct (set2_some g1 (to e) (rv e) (Arc (to r) (cap r + d) (rv r), - k) Er1) as [g2 E2]. exists g2, (cap r + d). split; [auto|]. split; [apply (strip_set2 _ _ _ _ _ E2)|].
  assert (G : forall v l, get2 g2 v l = if (to e =? v)%nat && (rv e =? l)%nat then Some (Arc u (cap r + d) j, - k) else if (u =? v)%nat && (j =? l)%nat then Some (Arc (to e) (cap e - d) (rv e), k) else get2 g v l).
  { intros v l. rewrite (get2_set2 v l E2), (get2_set2 v l E1). now rewrite Tr, Rr. }
  assert (Sn : forall v l, option_map snd (get2 g2 v l) = option_map snd (get2 g v l)).
  { intros v l. rewrite G. destruct ((to e =? v)%nat && (rv e =? l)%nat) eqn:Q1; [apply andb_true_iff in Q1 as [Q1%Nat.eqb_eq Q2%Nat.eqb_eq]; subst; rewrite Ek; auto|].
    destruct ((u =? v)%nat && (j =? l)%nat) eqn:Q2; [apply andb_true_iff in Q2 as [Q2%Nat.eqb_eq Q3%Nat.eqb_eq]; subst v l; rewrite E; auto|auto]. }
  assert (St : forall v l x y, get2 g2 v l = Some (x, y) -> exists x', get2 g v l = Some (x', y) /\ to x' = to x /\ rv x' = rv x).
  { intros v l x y. rewrite G. destruct ((to e =? v)%nat && (rv e =? l)%nat) eqn:Q1; [apply andb_true_iff in Q1 as [Q1%Nat.eqb_eq Q2%Nat.eqb_eq]; subst v l; intros [= <- <-]; exists r; auto|].
    destruct ((u =? v)%nat && (j =? l)%nat) eqn:Q2; [apply andb_true_iff in Q2 as [Q2%Nat.eqb_eq Q3%Nat.eqb_eq]; subst v l; intros [= <- <-]; exists e; auto|eauto]. }
  split; [now rewrite (set2_length E2), (set2_length E1)|]. split; [|split; [|auto]].
  - split.
    + intros v l x y Ex Nx. destruct (St v l x y Ex) as (x' & Ex' & Tx & Rx). rewrite <- Tx, <- Rx in *. destruct (co_anti Co _ Ex' Nx) as (z & Ez). specialize (Sn (to x') (rv x')). rewrite Ez in Sn. destruct (get2 g2 (to x') (rv x')) as [[z' kz]|]; [|discriminate]. injection Sn as ->. eauto.
    + intros v l x y Ex. destruct (St v l x y Ex) as (x' & Ex' & _). apply (co_bd Co _ _ Ex').
  - rewrite (@price_set2 _ _ _ _ _ _ _ _ Er1 E2), (@price_set2 _ _ _ _ _ _ _ _ E E1). cbn [cap]. ring.
Qed.
