(** Proofs about [Matching] and [PSP] of [FlowModel] *)
From Verif Require Import Base BaseLemmas ListExtra NthExtra FlowModel FlowProof FlowNet FlowDinic FlowProp.
Set Implicit Arguments.
Open Scope Z_scope.

Lemma zsum_incl {A} (f : A -> Z) l : NoDup l -> (forall x, 0 <= f x) -> forall r, incl l r -> zsum f l <= zsum f r.
Proof.
  intros ND Hf. induction ND as [|x l Nx ND IH]; intros r I; [unfold zsum at 1; cbn; apply zsum_nonneg; auto|]. destruct (in_split x r (I x (or_introl eq_refl))) as (r1 & r2 & ->). rewrite zsum_cons, zsum_app, zsum_cons.
  assert (incl l (r1 ++ r2)) as I'. { intros y Hy. specialize (I y (or_intror Hy)). apply in_app_iff in I as [I|[<-|I]]; [apply in_or_app; auto|contradiction|apply in_or_app; auto]. }
  specialize (IH _ I'). rewrite zsum_app in IH. lia.
Qed.
Lemma zsum_const {A} c (l : list A) : zsum (fun _ => c) l = c * Z.of_nat (length l).
Proof. induction l as [|x l IH]; [cbn; lia|]. rewrite zsum_cons, IH. cbn [length]. lia. Qed.
Lemma zsum_opp {A} (f g : A -> Z) l : (forall x, In x l -> g x = - f x) -> zsum g l = - zsum f l.
Proof. intros H. rewrite (zsum_ext g (fun x => -1 * f x)) by (intros x I; rewrite H by auto; ring). rewrite zsum_mul. ring. Qed.
Lemma NoDup_count {A} (f : A -> nat) l : (forall v, zsum (fun p => ind (f p =? v)%nat) l <= 1) -> NoDup (map f l).
Proof.
  induction l as [|x l IH]; intros H; cbn [map]; constructor.
  - intros I. apply in_map_iff in I as (y & Ey & Iy). specialize (H (f x)). rewrite zsum_cons, Nat.eqb_refl in H. apply in_split in Iy as (l1 & l2 & ->). rewrite zsum_app, zsum_cons, Ey, Nat.eqb_refl in H. cbn [ind] in H.
    assert (N : forall r, 0 <= zsum (fun p => ind (f p =? f x)%nat) r) by (intros r; apply zsum_nonneg; intros z _; destruct (f z =? f x)%nat; cbn; lia). pose proof (N l1). pose proof (N l2). lia.
  - apply IH. intros v. specialize (H v). rewrite zsum_cons in H. assert (0 <= ind (f x =? v)%nat) by (destruct (f x =? v)%nat; cbn; lia). lia.
Qed.
Lemma zsum_flat {A B} (f : B -> Z) (h : A -> list B) l : zsum f (flat_map h l) = zsum (fun x => zsum f (h x)) l.
Proof. induction l as [|x l IH]; [reflexivity|]. cbn [flat_map]. now rewrite zsum_app, zsum_cons, IH. Qed.
Lemma combine_app {A B} (l1 l2 : list A) (r1 r2 : list B) : length l1 = length r1 -> combine (l1 ++ l2) (r1 ++ r2) = combine l1 r1 ++ combine l2 r2.
Proof. revert r1. induction l1 as [|x l IH]; intros [|y r] E; cbn in E; try discriminate; [auto|]. cbn [app combine]. now rewrite IH by lia. Qed.
Lemma combine_map_l {A A' B} (f : A -> A') (l : list A) (r : list B) : combine (map f l) r = map (fun '(a, b) => (f a, b)) (combine l r).
Proof. revert r. induction l as [|x l IH]; intros [|y r]; cbn; auto. now rewrite IH. Qed.
Lemma combine_seq_at (X : list Z) k v : length X = k -> zsum (fun '(i, x) => x * ind (i =? v)%nat) (combine (seq 0 k) X) = nth v X 0.
Proof.
  intros L. rewrite (zsum_combine _ _ _ 0%nat 0) by (rewrite seq_length; auto). rewrite seq_length. destruct (Nat.lt_ge_cases v k) as [H|H].
  - rewrite <- (@zsum_ind_at (fun i => nth i X 0) v k H). apply zsum_ext. intros i I. apply in_seq in I. rewrite seq_nth by lia. cbn [Nat.add]. destruct (i =? v)%nat; cbn [ind]; ring.
  - rewrite nth_overflow by lia. apply zsum_0. intros i I. apply in_seq in I. rewrite seq_nth by lia. cbn [Nat.add]. destruct (Nat.eqb_spec i v); [lia|]. cbn [ind]. ring.
Qed.
Lemma for_up_app {A} (h : nat -> list A) (body : nat -> list A -> option (list A)) k : forall s acc,
  (forall i l, (s <= i < s + k)%nat -> body i l = Some (l ++ h i)) -> for_up k s body acc = Some (acc ++ flat_map h (seq s k)).
Proof.
  induction k as [|k IH]; intros s acc H; cbn [for_up seq flat_map]; [now rewrite app_nil_r|]. rewrite H by lia. cbn [obind]. rewrite IH by (intros; apply H; lia). now rewrite app_assoc.
Qed.

(** The adjacency list of [v], edge by edge *)
Lemma row_sum M n es g0 s t g r (psi : nat -> Z -> Z) v : edges_ok M n es -> built M n es g0 -> s <> t -> (s < n)%nat -> (t < n)%nat -> state M g0 s t g r ->
  zsum (fun e => psi (to e) (cap e)) (nth v g []) =
  zsum (fun '((a, b, c), x) => (if (a =? v)%nat then psi b (c - x) else 0) + (if (b =? v)%nat then psi a (if (a =? b)%nat then 0 else x) else 0)) (combine es (flow_of es g)).
Proof.
  intros HE B St Hs Ht T. assert (Lf : length (flow_of es g) = length es) by (unfold flow_of; now rewrite map_length, seq_length). rewrite (zsum_combine _ _ _ edge0 0 Lf).
  set (h := fun v j => match get2 g v j with Some e => psi (to e) (cap e) | None => 0 end).
  transitivity (zsum (h v) (seq 0 (deg es v))).
  - rewrite <- (bt_row B), <- (sm_row (st_same T)), zsum_at. apply zsum_ext. intros j I. apply in_seq in I. unfold at_, h. destruct (Nat.lt_ge_cases v (length g)) as [H|H].
    + unfold get2. now rewrite (get_nth g v []).
    + rewrite nth_overflow in I by auto. cbn in I. lia.
  - rewrite (bt_sum B). apply zsum_ext. intros i I. apply in_seq in I. destruct (nth i es edge0) as [[a b] c] eqn:En. assert (E : get es i = Some (a, b, c)) by (rewrite (get_nth es i edge0) by lia; congruence).
    destruct (arcs_of HE B St Hs Ht _ T E) as (e & e' & Ee & Ee' & Te & Te' & Ce & Ce' & _).
    assert (Ef : nth i (flow_of es g) 0 = flow_at es g i). { unfold flow_of. rewrite (nth_indep _ 0 (flow_at es g 0)) by (rewrite map_length, seq_length; lia). rewrite map_nth, seq_nth by lia. auto. }
    rewrite Ef. unfold h. rewrite Ee, Ee', Te, Te', Ce, Ce'. reflexivity.
Qed.

Section Mt.
Variables (M : Z) (n m : nat) (ps : list (nat * nat)).
Hypothesis HM : 0 < M.
Hypothesis Hn : Z.of_nat n <= M.
Hypothesis HP : forall a b, In (a, b) ps -> (a < n)%nat /\ (b < m)%nat.
Notation es := (mt_edges n m ps).

Lemma mt_edges_ok : edges_ok M (n + m + 2) es.
Proof.
  intros a b c I. unfold mt_edges in I. rewrite !in_app_iff, !in_map_iff in I. destruct I as [(i & [= <- <- <-] & I)|[(i & [= <- <- <-] & I)|([a' b'] & [= <- <- <-] & I)]].
  - apply in_seq in I. lia.
  - apply in_seq in I. lia.
  - apply HP in I. lia.
Qed.
Lemma mt_cut_cap S : cut_cap es S = zsum (fun i => ind (S (n + m)%nat && negb (S i))) (seq 0 n) + (zsum (fun i => ind (S (i + n)%nat && negb (S (n + m + 1)%nat))) (seq 0 m) + zsum (fun '(a, b) => ind (S a && negb (S (b + n)%nat))) ps).
Proof.
  unfold cut_cap, mt_edges. rewrite !zsum_app, !zsum_map. do 2 (f_equal; try reflexivity). apply zsum_ext. intros [a b] _. reflexivity.
Qed.
Lemma mt_cut0 : cut_cap es (fun v => (v =? n + m)%nat) <= M.
Proof.
  rewrite mt_cut_cap, Nat.eqb_refl. assert (A : zsum (fun i => ind (true && negb (i =? n + m)%nat)) (seq 0 n) <= Z.of_nat n).
  { transitivity (zsum (fun _ : nat => 1) (seq 0 n)); [|rewrite zsum_const, seq_length; lia]. apply zsum_le. intros i _. unfold ind. destruct (_ && _); lia. }
  rewrite (zsum_0 (fun i => ind ((i + n =? n + m)%nat && _))), (zsum_0 _ ps); [lia| |].
  - intros [a b] I. apply HP in I. destruct (Nat.eqb_spec a (n + m)); [lia|auto].
  - intros i I. apply in_seq in I. destruct (Nat.eqb_spec (i + n) (n + m)); [lia|auto].
Qed.

Lemma mt_seg (xs : list Z) (G : edge * Z -> Z) : length xs = length es -> exists X1 X2 X3, length X1 = n /\ length X2 = m /\ length X3 = length ps /\ xs = X1 ++ X2 ++ X3 /\
  forall G : edge * Z -> Z, zsum G (combine es xs) = zsum (fun '(i, x) => G ((n + m)%nat, i, 1, x)) (combine (seq 0 n) X1) + (zsum (fun '(i, x) => G ((i + n)%nat, (n + m + 1)%nat, 1, x)) (combine (seq 0 m) X2) +
    zsum (fun '((a, b), x) => G (a, (b + n)%nat, 1, x)) (combine ps X3)).
Proof.
  intros L. unfold mt_edges in L. rewrite !app_length, !map_length, !seq_length in L. exists (firstn n xs), (firstn m (skipn n xs)), (skipn m (skipn n xs)).
  assert (L1 : length (firstn n xs) = n) by (rewrite firstn_length; lia). assert (L2 : length (firstn m (skipn n xs)) = m) by (rewrite firstn_length, skipn_length; lia). assert (L3 : length (skipn m (skipn n xs)) = length ps) by (rewrite !skipn_length; lia).
  split; [auto|]. split; [auto|]. split; [auto|]. split; [now rewrite !firstn_skipn|]. intros G'. rewrite <- (firstn_skipn n xs) at 1. rewrite <- (firstn_skipn m (skipn n xs)) at 1. unfold mt_edges.
  rewrite combine_app by (rewrite map_length, seq_length; auto). rewrite combine_app by (rewrite map_length, seq_length; auto). rewrite !zsum_app, !combine_map_l, !zsum_map. f_equal; [|f_equal]; apply zsum_ext; [intros [i x] _|intros [i x] _|intros [[a b] x] _]; reflexivity.
Qed.

Lemma mt_ok : exists r g L, mt_flow M n m ps = Some (r, g) /\ mt_matches n m g = Some L /\ matching ps L /\ Z.of_nat (length L) = r /\
  forall L', matching ps L' -> (length L' <= length L)%nat.
Proof.
  set (s := (n + m)%nat). set (t := (n + m + 1)%nat). pose proof mt_edges_ok as HE. destruct (build_ok HE) as (g0 & E0 & B).
  assert (St : s <> t) by (unfold s, t; lia). assert (Hs : (s < n + m + 2)%nat) by (unfold s; lia). assert (Ht : (t < n + m + 2)%nat) by (unfold t; lia).
  assert (K0 : is_cut s t (fun v => (v =? n + m)%nat)) by (split; unfold s, t; [apply Nat.eqb_refl|apply Nat.eqb_neq; lia]).
  pose proof (dn_run HM HE B St Hs Ht (fup := M) ltac:(lia) K0 mt_cut0) as O.
  destruct (outcome_ok HE B St Hs Ht K0 mt_cut0 O) as (r & g & E & Hr & _ & Mx).
  destruct Mx as (_ & S & K & Ec); [auto|intros x Hx; apply Z.eqb_eq in Hx; lia|].
  destruct O as (r' & g' & E' & _ & T & _). rewrite E in E'. injection E' as <- <-. pose proof (state_flow HE B St Hs Ht T) as F. set (xs := flow_of es g) in *.
  destruct (mt_seg xs (fun _ => 0) (fl_len F)) as (X1 & X2 & X3 & L1 & L2 & L3 & Exs & SG).
  assert (X01 : forall x, In x xs -> x = 0 \/ x = 1).
  { intros x I. apply In_get in I as (i & _ & Ei). pose proof (get_some_lt _ _ Ei) as H. rewrite (fl_len F) in H. destruct (@get_lt _ es i H) as [[[a b] c] Ee]. pose proof (fl_cap F _ Ee Ei) as Hx. assert (c = 1); [|lia]. apply get_In in Ee. unfold mt_edges in Ee. rewrite !in_app_iff, !in_map_iff in Ee. destruct Ee as [(? & [= <- <- <-] & _)|[(? & [= <- <- <-] & _)|([? ?] & [= <- <- <-] & _)]]; auto. }
  set (L := flat_map (fun i => map (fun e => (i, (to e - n)%nat)) (filter (fun e => (n <=? to e)%nat && (to e <? n + m)%nat && (cap e =? 0)) (nth i g []))) (seq 0 n)).
  assert (KEY : forall phi : nat * nat -> Z, zsum phi L = zsum (fun '(p, x) => x * phi p) (combine ps X3)).
  { intros phi. unfold L. rewrite zsum_flat.
    transitivity (zsum (fun i => zsum (fun '((a, b, c), x) => (if (a =? i)%nat then (if (n <=? b)%nat && (b <? n + m)%nat && (c - x =? 0) then phi (i, (b - n)%nat) else 0) else 0) + (if (b =? i)%nat then (if (n <=? a)%nat && (a <? n + m)%nat && ((if (a =? b)%nat then 0 else x) =? 0) then phi (i, (a - n)%nat) else 0) else 0)) (combine es xs)) (seq 0 n)).
    - apply zsum_ext. intros i _. rewrite zsum_map, zsum_filter. apply (@row_sum M (n + m + 2) es g0 s t g r (fun tt cc => if (n <=? tt)%nat && (tt <? n + m)%nat && (cc =? 0) then phi (i, (tt - n)%nat) else 0) i HE B St Hs Ht T).
    - rewrite zsum_swap, SG. rewrite (zsum_0 _ (combine (seq 0 n) X1)), (zsum_0 _ (combine (seq 0 m) X2)).
      + rewrite !Z.add_0_l. apply zsum_ext. intros [[a b] x] I. assert (Hx : x = 0 \/ x = 1) by (apply X01; rewrite Exs; apply in_combine_r in I; rewrite !in_app_iff; auto). apply in_combine_l in I. apply HP in I as [Ha Hb]. cbn [fst snd].
        rewrite <- (@zsum_ind_at (fun _ => x * phi (a, b)) a n Ha). apply zsum_ext. intros i Ii. apply in_seq in Ii. destruct (Nat.eqb_spec (b + n) i) as [|_]; [lia|]. rewrite (Nat.eqb_sym i a). destruct (Nat.eqb_spec a i) as [<-|_]; [|auto].
        replace (n <=? b + n)%nat with true by (symmetry; apply Nat.leb_le; lia). replace (b + n <? n + m)%nat with true by (symmetry; apply Nat.ltb_lt; lia). replace (b + n - n)%nat with b by lia. cbn [andb]. destruct Hx as [-> | ->]; [change (1 - 0 =? 0) with false|change (1 - 1 =? 0) with true]; cbv iota; ring.
      + intros [i x] I. apply in_combine_l, in_seq in I. apply zsum_0. intros j J. apply in_seq in J. destruct (Nat.eqb_spec (i + n) j); [lia|]. destruct (Nat.eqb_spec (n + m + 1) j); [lia|auto].
      + intros [i x] I. apply in_combine_l, in_seq in I. apply zsum_0. intros j J. apply in_seq in J. destruct (Nat.eqb_spec (n + m) j); [lia|]. replace (n + m <? n + m)%nat with false by (symmetry; apply Nat.ltb_irrefl). rewrite andb_false_r. cbn [andb]. destruct (i =? j)%nat; auto. }
  assert (O1 : forall i, (i < n)%nat -> zsum (fun p => ind (fst p =? i)%nat) L = nth i X1 0).
  { intros i Hi. pose proof (fl_cons F (v := i) ltac:(unfold s; lia) ltac:(unfold t; lia)) as C. unfold net_out in C. rewrite SG in C. rewrite KEY, <- (combine_seq_at X1 i L1).
    rewrite (zsum_0 _ (combine (seq 0 m) X2)), Z.add_0_l in C; [|intros [j x] I; apply in_combine_l, in_seq in I; destruct (Nat.eqb_spec (j + n) i), (Nat.eqb_spec (n + m + 1) i); try lia; cbn [ind]; ring].
    rewrite (zsum_opp (fun '(j, x) => x * ind (j =? i)%nat) _ (combine (seq 0 n) X1)) in C; [|intros [j x] I; destruct (Nat.eqb_spec (n + m) i); [lia|]; cbn [ind]; ring].
    rewrite (zsum_ext _ (fun '(p, x) => x * ind (fst p =? i)%nat) (combine ps X3)) in C; [lia|]. intros [[a b] x] I. apply in_combine_l, HP in I. cbn [fst]. destruct (Nat.eqb_spec (b + n) i); [lia|]. cbn [ind]. ring. }
  assert (O2 : forall j, (j < m)%nat -> zsum (fun p => ind (snd p =? j)%nat) L = nth j X2 0).
  { intros j Hj. pose proof (fl_cons F (v := (j + n)%nat) ltac:(unfold s; lia) ltac:(unfold t; lia)) as C. unfold net_out in C. rewrite SG in C. rewrite KEY, <- (combine_seq_at X2 j L2).
    rewrite (zsum_0 _ (combine (seq 0 n) X1)), Z.add_0_l in C; [|intros [i x] I; apply in_combine_l, in_seq in I; destruct (Nat.eqb_spec (n + m) (j + n)), (Nat.eqb_spec i (j + n)); try lia; cbn [ind]; ring].
    rewrite (zsum_opp (fun '(p, x) => x * ind (snd p =? j)%nat) _ (combine ps X3)) in C; [|intros [[a b] x] I; apply in_combine_l, HP in I; cbn [snd]; destruct (Nat.eqb_spec a (j + n)); [lia|]; destruct (Nat.eqb_spec b j), (Nat.eqb_spec (b + n) (j + n)); try lia; cbn [ind]; ring].
    rewrite (zsum_ext _ (fun '(i, x) => x * ind (i =? j)%nat) (combine (seq 0 m) X2)) in C; [lia|]. intros [i x] I. apply in_combine_l, in_seq in I. destruct (Nat.eqb_spec (n + m + 1) (j + n)); [lia|]. destruct (Nat.eqb_spec i j), (Nat.eqb_spec (i + n) (j + n)); try lia; cbn [ind]; ring. }
  assert (LP : incl L ps).
  { intros [a b] I. pose proof (KEY (fun p => ind ((fst p =? a)%nat && (snd p =? b)%nat))) as Q. apply in_split in I as (l1 & l2 & EL). rewrite EL, zsum_app, zsum_cons in Q. cbn [fst snd] in Q. rewrite !Nat.eqb_refl in Q. cbn [andb ind] in Q.
    assert (N : forall l, 0 <= zsum (fun p => ind ((fst p =? a)%nat && (snd p =? b)%nat)) l) by (intros l; apply zsum_nonneg; intros p _; unfold ind; destruct (_ && _); lia). pose proof (N l1). pose proof (N l2).
    destruct (existsb (fun p => (fst p =? a)%nat && (snd p =? b)%nat) ps) eqn:X.
    - apply existsb_exists in X as ([a' b'] & I & H'). apply andb_prop in H' as [H1 H2]. cbn in *. apply Nat.eqb_eq in H1, H2. now subst.
    - exfalso. rewrite (zsum_0 _ (combine ps X3)) in Q; [lia|]. intros [p x] I. apply in_combine_l in I. destruct ((fst p =? a)%nat && (snd p =? b)%nat) eqn:X'; [|cbn [ind]; ring]. assert (existsb (fun p => (fst p =? a)%nat && (snd p =? b)%nat) ps = true); [|congruence]. apply existsb_exists. eauto. }
  assert (Le1 : forall X k, (forall x, In x X -> In x xs) -> nth k X 0 <= 1).
  { intros X k H. destruct (Nat.lt_ge_cases k (length X)) as [Hk|Hk]; [|rewrite nth_overflow by auto; lia]. destruct (X01 (nth k X 0)); [apply H, nth_In; auto|lia|lia]. }
  assert (Mt : matching ps L).
  { split; [auto|]. split; apply NoDup_count; intros v.
    - destruct (Nat.lt_ge_cases v n) as [H|H].
      + rewrite O1 by auto. apply Le1. intros x I. rewrite Exs, !in_app_iff. auto.
      + rewrite zsum_0; [lia|]. intros [a b] I. apply LP, HP in I. cbn. destruct (Nat.eqb_spec a v); [lia|auto].
    - destruct (Nat.lt_ge_cases v m) as [H|H].
      + rewrite O2 by auto. apply Le1. intros x I. rewrite Exs, !in_app_iff. auto.
      + rewrite zsum_0; [lia|]. intros [a b] I. apply LP, HP in I. cbn. destruct (Nat.eqb_spec b v); [lia|auto]. }
  assert (LL : Z.of_nat (length L) = r).
  { rewrite <- (fl_val F). unfold net_out. rewrite SG. transitivity (zsum (fun i => nth i X1 0) (seq 0 n)).
    - transitivity (zsum (fun p : nat * nat => 1) L); [rewrite zsum_const; lia|]. transitivity (zsum (fun i => zsum (fun p => ind (fst p =? i)%nat) L) (seq 0 n)); [|apply zsum_ext; intros i I; apply in_seq in I; apply O1; lia]. rewrite zsum_swap. apply zsum_ext. intros [a b] I. apply LP, HP in I. cbn [fst]. rewrite <- (@zsum_ind_at (fun _ => 1) a n) by lia. apply zsum_ext. intros i _. rewrite Nat.eqb_sym. unfold ind. reflexivity.
    - rewrite (zsum_0 _ (combine (seq 0 m) X2)), (zsum_0 _ (combine ps X3)).
      + rewrite (zsum_combine _ _ _ 0%nat 0) by (rewrite seq_length; auto). rewrite seq_length, !Z.add_0_r. apply zsum_ext. intros i I. apply in_seq in I. rewrite seq_nth by lia. cbn [Nat.add]. unfold s. rewrite Nat.eqb_refl. destruct (Nat.eqb_spec i (n + m)); [lia|]. cbn [ind]. ring.
      + intros [[a b] x] I. apply in_combine_l, HP in I. unfold s. destruct (Nat.eqb_spec a (n + m)), (Nat.eqb_spec (b + n) (n + m)); try lia; cbn [ind]; ring.
      + intros [i x] I. apply in_combine_l, in_seq in I. unfold s. destruct (Nat.eqb_spec (i + n) (n + m)), (Nat.eqb_spec (n + m + 1) (n + m)); try lia; cbn [ind]; ring. }
  exists r, g, L. split; [unfold mt_flow; rewrite E0; exact E|]. split.
  { unfold mt_matches. rewrite (@for_up_app _ (fun i => map (fun e => (i, (to e - n)%nat)) (filter (fun e => (n <=? to e)%nat && (to e <? n + m)%nat && (cap e =? 0)) (nth i g [])))); [reflexivity|]. intros i l Hi. rewrite (get_nth g i []) by (rewrite (sm_len (st_same T)), (bt_len B); lia). reflexivity. }
  split; [auto|]. split; [auto|]. intros L' (I' & N1 & N2). apply Nat2Z.inj_le. rewrite LL, <- Ec, mt_cut_cap. destruct K as [Ks Kt]. unfold s in Ks. unfold t in Kt. rewrite Ks.
  transitivity (zsum (fun p => ind (negb (S (fst p)))) L' + (zsum (fun p => ind (S (snd p + n)%nat)) L' + zsum (fun '(a, b) => ind (S a && negb (S (b + n)%nat))) L')).
  - rewrite <- !zsum_add. transitivity (zsum (fun p : nat * nat => 1) L'); [rewrite zsum_const; lia|]. apply zsum_le. intros [a b] _. cbn [fst snd]. destruct (S a), (S (b + n)%nat); cbn; lia.
  - apply Z.add_le_mono; [|apply Z.add_le_mono].
    + rewrite <- (zsum_map (fun i => ind (negb (S i))) fst). apply zsum_incl; [auto|intros x; destruct (S x); cbn; lia|]. intros a I. apply in_map_iff in I as ([a' b'] & <- & I). apply I', HP in I. apply in_seq. cbn. lia.
    + rewrite <- (zsum_map (fun j => ind (S (j + n)%nat)) snd). transitivity (zsum (fun j => ind (S (j + n)%nat)) (seq 0 m)); [|apply zsum_le; intros i _; rewrite Kt; destruct (S (i + n)%nat); cbn; lia]. apply zsum_incl; [auto|intros x; destruct (S (x + n)%nat); cbn; lia|]. intros b I. apply in_map_iff in I as ([a' b'] & <- & I). apply I', HP in I. apply in_seq. cbn. lia.
    + apply zsum_incl; [apply (NoDup_map_inv fst); auto|intros [a b]; unfold ind; destruct (_ && _); lia|auto].
Qed.
End Mt.
