From Coq Require Import Lia Permutation Ring_theory Ring.
From Verif Require Import Base BaseLemmas NthExtra RSum BitConvProof MatrixModel MatrixProof MatrixDet MatrixDetCode MatrixGauss MatrixSolve.

Section Solve.
Variable T : Type.
Variables (zero one : T) (add mul sub : T -> T -> T) (opp : T -> T).
Hypothesis RT : ring_theory zero one add mul sub opp eq.
Variables (div : T -> T -> T) (eqb : T -> T -> bool).
Hypothesis eqb_ok : forall x y, eqb x y = true <-> x = y.
Hypothesis div_ok : forall x, x <> zero -> mul (div one x) x = one.
Add Ring Tring : RT.
Let SR := SRT T zero one add mul sub opp RT.
Notation sum := (sum T zero add).
Notation ent := (ent zero).
Notation app := (row_apply zero add mul).
Notation echelon := (echelon zero one).
Notation in_kernel := (in_kernel zero add mul).
Notation kernel_basis := (kernel_basis zero add mul).
Notation basis_row := (basis_row T zero one opp).

Lemma app_ext w f g y z r : (forall j, j < w -> f r j = g r j) -> (forall j, j < w -> y j = z j) -> app w f y r = app w g z r.
Proof. intros H1 H2. rewrite !app_sum. apply sum_ext. intros j Hj. apply in_seq in Hj. rewrite H1, H2 by lia. reflexivity. Qed.
Lemma app_S w f y r : app (w + 1) f y r = add (app w f y r) (mul (f r w) (y w)).
Proof. rewrite !app_sum, seq_app, (sum_app _ _ _ _ _ SR). cbn [seq Nat.add]. rewrite sum_cons, sum_nil. ring. Qed.
Lemma left_ok R C x rank row column : row <= R -> column < C -> dims R C x ->
  exists bad, left_over zero eqb x rank row column = Some bad /\ (bad = false <-> forall i, rank <= i < row -> ent x i column = zero).
Proof.
  intros HR HC D. unfold left_over. match goal with |- context [for_up _ _ ?bd _] => set (body := bd) end.
  destruct (@for_up_rule _ (fun i0 (bad : bool) => bad = false <-> forall i, rank <= i < i0 -> i < row -> ent x i column = zero) body (row - rank) rank false) as (bad & E & V).
  - split; auto. intros _ i. lia.
  - intros i bad Hi V. unfold body. destruct bad.
    + eexists. split; [reflexivity|]. split; [discriminate|]. intros H. apply V. intros j Hj Hj'. apply H; auto; lia.
    + rewrite (get2_ent T zero R C) by (auto; lia). cbn [obind]. eexists. split; [reflexivity|]. rewrite negb_false_iff, eqb_ok. split.
      * intros Z j Hj Hj'. destruct (Nat.eq_dec j i); [now subst|]. apply (proj1 V eq_refl); auto; lia.
      * intros H. apply H; lia.
  - exists bad. split; [exact E|]. rewrite V. split; intros H i Hi; [apply H; lia|]. intros. apply H; lia.
Qed.
Lemma fill_ok R C row column a b : row <= R -> column <= C -> dims R C a -> dims R 1 b ->
  exists x, for_up row 0 (fun i x =>
    let* x := for_up column 0 (fun j x => let* y := get2 a i j in set2 x i j y) x in
    let* y := get2 b i 0 in
    set2 x i column y) (m_zero zero R (C + 1)) = Some x /\ dims R (C + 1) x /\
    forall i, i < row -> (forall j, j < column -> ent x i j = ent a i j) /\ ent x i column = ent b i 0.
Proof.
  intros HR HC Da Db. match goal with |- context [for_up row 0 ?bd _] => set (body := bd) end.
  destruct (@for_up_rule _ (fun i0 x => dims R (C + 1) x /\ forall i, i < i0 -> (forall j, j < column -> ent x i j = ent a i j) /\ ent x i column = ent b i 0) body row 0 (m_zero zero R (C + 1))) as (x & E & D & V).
  - split; [apply zero_dims|lia].
  - intros i0 x Hi (D & V). unfold body.
    destruct (@for_up_rule _ (fun j0 x1 => dims R (C + 1) x1 /\ (forall i j, i <> i0 -> ent x1 i j = ent x i j) /\ forall j, j < j0 -> ent x1 i0 j = ent a i0 j)
      (fun j x => let* y := get2 a i0 j in set2 x i0 j y) column 0 x) as (x1 & E1 & D1 & O1 & V1).
    + split; [auto|]. split; [auto|lia].
    + intros j0 x1 Hj (D1 & O1 & V1). rewrite (get2_ent T zero R C) by (auto; lia). cbn [obind].
      destruct (set2_ent T zero R (C + 1) x1 i0 j0 (ent a i0 j0)) as (x2 & E2 & D2 & V2); auto; try lia. exists x2. split; [exact E2|]. split; [auto|]. split.
      * intros i j N. rewrite V2. destruct (Nat.eqb_spec i0 i); [lia|]. cbn [andb]. auto.
      * intros j Hj'. rewrite V2, Nat.eqb_refl. cbn [andb]. destruct (Nat.eqb_spec j0 j); [now subst|]. apply V1. lia.
    + rewrite E1. cbn [obind]. rewrite (get2_ent T zero R 1) by (auto; lia). cbn [obind].
      destruct (set2_ent T zero R (C + 1) x1 i0 column (ent b i0 0)) as (x2 & E2 & D2 & V2); auto; try lia. exists x2. split; [exact E2|]. split; [auto|].
      intros i Hi'. destruct (Nat.eq_dec i i0) as [->|N].
      * split.
        -- intros j Hj. rewrite V2, Nat.eqb_refl. cbn [andb]. destruct (Nat.eqb_spec column j); [lia|]. apply V1. lia.
        -- rewrite V2, !Nat.eqb_refl. reflexivity.
      * split; [intros j Hj|]; rewrite V2; destruct (Nat.eqb_spec i0 i); try lia; cbn [andb]; rewrite O1 by lia; apply V; auto; lia.
  - exists x. auto.
Qed.

(** The result matrix of solve, built from a reduced system. *)
Definition result (R C row column : nat) (x : list (list T)) (rank : nat) (col : list nat) : option (nat * list (list T) * bool) :=
  let* res := for_up rank 0 (fun i res =>
    let* c := get col i in
    let* y := get2 x i column in
    set2 res 0 c y) (m_zero zero (R + 1) C) in
  let* col := set col rank column in
  let* c0 := get col 0 in
  let* res := for_up c0 0 (fun t res => set2 res (t + 1) t one) res in
  let* (res, t) := for_up rank 0 (fun i '(res, t) =>
    let* ci := get col i in
    let* ci1 := get col (i + 1) in
    for_up (ci1 - (ci + 1)) (ci + 1) (fun c '(res, t) =>
      let* res := for_up (i + 1) 0 (fun j res =>
        let* cj := get col j in
        let* y := get2 x j c in
        set2 res (t + 1) cj (opp y)) res in
      let* res := set2 res (t + 1) c one in
      Some (res, t + 1)) (res, t)) (res, c0) in
  let* _ := guard (t =? column - rank) in
  Some (column - rank, res, true).

Lemma result_ok R C row column x q : row <= R -> column <= C -> dims R (C + 1) x -> echelon row column q (ent x) -> column - length q <= R ->
  exists res, result R C row column x (length q) (q ++ skipn (length q) (repeat column (row + 1))) = Some (column - length q, res, true) /\ dims (R + 1) C res /\
    (forall s, s < length q -> ent res 0 (nth s q 0) = ent x s column) /\ (forall j, j < column -> ~ In j q -> ent res 0 j = zero) /\
    (forall t, t < column - length q -> basis_row column q (ent x) (nth t (free q column) 0) (ent res (t + 1))).
Proof.
  intros HR HC Dx Ec Hd. pose proof Ec as (H1 & H2 & H3 & H4 & H5 & H6 & H7). set (rank := length q) in *.
  destruct (ech_free_length T zero one row column q (ent x) Ec) as [Lf Lq]. fold rank in Lf, Lq.
  assert (Nq : NoDup q) by now apply inc_nodup.
  set (col := q ++ skipn rank (repeat column (row + 1))).
  assert (Lc : length col = row + 1). { unfold col. rewrite app_length, skipn_length, repeat_length. fold rank. lia. }
  assert (Gc : forall i, i < rank -> get col i = Some (nth i q 0)).
  { intros i Hi. rewrite (get_nth col i 0) by lia. f_equal. unfold col. apply app_nth1. auto. }
  unfold result. fold col.
  destruct (@for_up_rule _ (fun i0 res => dims (R + 1) C res /\ (forall s, s < i0 -> ent res 0 (nth s q 0) = ent x s column) /\
      (forall j, j < column -> (forall s, s < i0 -> nth s q 0 <> j) -> ent res 0 j = zero) /\ forall t j, ent res (t + 1) j = zero)
    (fun i res => let* c := get col i in let* y := get2 x i column in set2 res 0 c y) rank 0 (m_zero zero (R + 1) C)) as (r0 & E0 & D0 & P0 & Z0 & U0).
  { split; [apply zero_dims|]. split; [lia|]. split; intros; apply zero_ent. }
  { intros i res Hi (D & P & Z & U). rewrite Gc by lia. cbn [obind]. rewrite (get2_ent T zero R (C + 1)) by (auto; lia). cbn [obind].
    specialize (H2 i) as Hq. destruct (set2_ent T zero (R + 1) C res 0 (nth i q 0) (ent x i column)) as (r1 & E1 & D1 & V1); auto; try lia. exists r1. split; [exact E1|]. split; [auto|]. split; [|split].
    - intros s Hs. rewrite V1. cbn [Nat.eqb andb]. destruct (Nat.eqb_spec (nth i q 0) (nth s q 0)) as [E|E].
      + assert (i = s) by (apply (proj1 (NoDup_nth q 0) Nq); auto; fold rank; lia). now subst.
      + apply P. destruct (Nat.eq_dec s i); [now subst|lia].
    - intros j Hj Hs. rewrite V1. cbn [Nat.eqb andb]. destruct (Nat.eqb_spec (nth i q 0) j) as [E|E]; [exfalso; apply (Hs i); auto; lia|]. apply Z; auto.
    - intros t j. rewrite V1. destruct (Nat.eqb_spec 0 (t + 1)); [lia|]. cbn [andb]. auto. }
  rewrite E0. cbn [obind Nat.add] in *. rewrite set_some by lia. cbn [obind].
  set (cc := lset col rank column).
  pose (qq := fun i => nth i (q ++ [column]) 0).
  assert (Q1 : forall i, i < rank -> qq i = nth i q 0) by (intros i Hi; unfold qq; apply app_nth1; auto).
  assert (Q2 : qq rank = column) by (unfold qq, rank; rewrite app_nth2, Nat.sub_diag by lia; reflexivity).
  assert (Gq : forall i, i <= rank -> get cc i = Some (qq i)).
  { intros i Hi. unfold cc. destruct (Nat.eq_dec i rank) as [->|N]; [rewrite get_lset_eq, Q2 by lia; reflexivity|]. rewrite get_lset_neq by lia. rewrite Gc, Q1 by lia. reflexivity. }
  assert (Qlt : forall i j, i < j <= rank -> qq i < qq j).
  { intros i j Hij. rewrite (Q1 i) by lia. destruct (Nat.eq_dec j rank) as [->|N]; [rewrite Q2; apply H2; lia|]. rewrite Q1 by lia. apply H3. lia. }
  assert (Qge : forall d i, i + d <= rank -> qq i + d <= qq (i + d)).
  { induction d as [|d IH]; intros i Hi; [rewrite !Nat.add_0_r; lia|]. specialize (IH i ltac:(lia)). specialize (Qlt (i + d) (i + S d) ltac:(lia)). lia. }
  assert (Qcol : forall i, i <= rank -> qq i + (rank - i) <= column). { intros i Hi. pose proof (Qge (rank - i) i ltac:(lia)) as G. replace (i + (rank - i)) with rank in G by lia. lia. }
  assert (Qi : forall i, i <= rank -> i <= qq i). { intros i Hi. specialize (Qge i 0). cbn [Nat.add] in Qge. lia. }
  rewrite Gq by lia. cbn [obind].
  (* free columns before the first pivot *)
  assert (Idx : forall k c, k <= rank -> (0 < k -> qq (k - 1) < c) -> c < qq k -> k <= c /\ nth (c - k) (free q column) 0 = c /\ c - k < length (free q column)).
  { intros k c Hk Hl Hu. apply free_index; auto.
    - intros s Hs. rewrite <- Q1 by lia. destruct (Nat.eq_dec s (k - 1)) as [->|]; [apply Hl; lia|]. specialize (Qlt s (k - 1) ltac:(lia)). specialize (Hl ltac:(lia)). lia.
    - intros s Hs. fold rank in Hs. rewrite <- Q1 by lia. destruct (Nat.eq_dec s k) as [->|]; [auto|]. specialize (Qlt k s ltac:(lia)). lia.
    - pose proof (Qcol k Hk). lia. }
  destruct (@for_up_rule _ (fun t0 res => dims (R + 1) C res /\ (forall j, ent res 0 j = ent r0 0 j) /\
      (forall t, t < t0 -> basis_row column q (ent x) (nth t (free q column) 0) (ent res (t + 1))) /\ forall t j, t0 <= t -> ent res (t + 1) j = zero)
    (fun t res => set2 res (t + 1) t one) (qq 0) 0 r0) as (r1 & E1 & D1 & P1 & B1 & U1).
  { split; [auto|]. split; [auto|]. split; [lia|]. auto. }
  { intros t res Ht (D & P & B & U). pose proof (Qcol 0 ltac:(lia)). destruct (set2_ent T zero (R + 1) C res (t + 1) t one) as (r1 & E1 & D1 & V1); auto; try lia.
    exists r1. split; [exact E1|]. split; [auto|]. split; [|split].
    - intros j. rewrite V1. destruct (Nat.eqb_spec (t + 1) 0); [lia|]. cbn [andb]. auto.
    - intros t' Ht'. destruct (Nat.eq_dec t' t) as [->|N].
      + destruct (Idx 0 t) as (_ & In1 & _); try lia. rewrite Nat.sub_0_r in In1. rewrite In1. split; [|split].
        * rewrite V1, !Nat.eqb_refl. reflexivity.
        * intros s Hs. rewrite V1, Nat.eqb_refl. cbn [andb]. fold rank in Hs. rewrite <- Q1 by auto. assert (qq 0 <= qq s) by (destruct s; [lia|apply Nat.lt_le_incl, Qlt; lia]).
          destruct (Nat.eqb_spec t (qq s)); [lia|]. rewrite U by lia. rewrite H6; [ring|auto|]. rewrite <- Q1 by auto. lia.
        * intros j Hj Nj _. rewrite V1, Nat.eqb_refl. destruct (Nat.eqb_spec t j); [lia|]. cbn [andb]. apply U. lia.
      + destruct (B t') as (Ba & Bb & Bc); [lia|]. unfold MatrixSolve.basis_row. setoid_rewrite V1. destruct (Nat.eqb_spec (t + 1) (t' + 1)); [lia|]. cbn [andb]. auto.
    - intros t' j Ht'. rewrite V1. destruct (Nat.eqb_spec (t + 1) (t' + 1)); [lia|]. cbn [andb]. apply U. lia. }
  rewrite E1. cbn [obind Nat.add] in *.
  match goal with |- context [for_up rank 0 ?bd _] => set (body := bd) end.
  destruct (@for_up_rule _ (fun i0 '(res, t) => t = qq i0 - i0 /\ dims (R + 1) C res /\ (forall j, ent res 0 j = ent r0 0 j) /\
      (forall t', t' < t -> basis_row column q (ent x) (nth t' (free q column) 0) (ent res (t' + 1))) /\ forall t' j, t <= t' -> ent res (t' + 1) j = zero)
    body rank 0 (r1, qq 0)) as ([r2 t2] & E2 & Et & D2 & P2 & B2 & U2).
  { split; [lia|]. auto. }
  { clear r1 E1 D1 P1 B1 U1. intros i [r1 t1] Hi (Et & D1 & P1 & B1 & U1). unfold body. rewrite Gq by lia. cbn [obind]. rewrite Gq by lia. cbn [obind].
    match goal with |- context [for_up _ _ ?bd _] => set (body2 := bd) end. replace (i + 1) with (S i) in * by lia. pose proof (Qlt i (S i) ltac:(lia)) as Ql. pose proof (Qi i ltac:(lia)) as Qii.
    destruct (@for_up_rule _ (fun c '(res, t) => t = c - S i /\ dims (R + 1) C res /\ (forall j, ent res 0 j = ent r0 0 j) /\
        (forall t', t' < t -> basis_row column q (ent x) (nth t' (free q column) 0) (ent res (t' + 1))) /\ forall t' j, t <= t' -> ent res (t' + 1) j = zero)
      body2 (qq (S i) - (qq i + 1)) (qq i + 1) (r1, t1)) as ([r2 t2] & E2 & Et2 & D2 & P2 & B2 & U2).
    - split; [lia|]. auto.
    - clear r1 t1 Et D1 P1 B1 U1. intros c [r1 t1] Hc (Et & D1 & P1 & B1 & U1). unfold body2. pose proof (Qcol (S i) ltac:(lia)) as Qc.
      destruct (Idx (S i) c) as (I1 & I2 & I3); try lia. { cbn [Nat.sub]. rewrite Nat.sub_0_r. lia. } rewrite <- Et in I2, I3. rewrite Lf in I3.
      destruct (@for_up_rule _ (fun j0 res => dims (R + 1) C res /\ (forall t j, t <> t1 + 1 -> ent res t j = ent r1 t j) /\
          (forall s, s < j0 -> ent res (t1 + 1) (nth s q 0) = opp (ent x s c)) /\ forall j, j < column -> (forall s, s < j0 -> nth s q 0 <> j) -> ent res (t1 + 1) j = zero)
        (fun j res => let* cj := get cc j in let* y := get2 x j c in set2 res (t1 + 1) cj (opp y)) (S i) 0 r1) as (r2 & E2 & D2 & O2 & V2 & Z2).
      + split; [auto|]. split; [auto|]. split; [lia|]. intros j Hj _. apply U1. lia.
      + intros j res Hj (D & O & V & Z). rewrite Gq by lia. cbn [obind]. rewrite (get2_ent T zero R (C + 1)) by (auto; lia). cbn [obind]. pose proof (Qcol j ltac:(lia)) as Qj.
        destruct (set2_ent T zero (R + 1) C res (t1 + 1) (qq j) (opp (ent x j c))) as (r2 & E2 & D2 & V2); auto; try lia. exists r2. split; [exact E2|]. split; [auto|]. split; [|split].
        * intros t j' Nt. rewrite V2. destruct (Nat.eqb_spec (t1 + 1) t); [lia|]. cbn [andb]. auto.
        * intros s Hs. rewrite V2, Nat.eqb_refl. cbn [andb]. rewrite Q1 by lia. destruct (Nat.eqb_spec (nth j q 0) (nth s q 0)) as [E|E].
          -- assert (Ejs : j = s) by (apply (proj1 (NoDup_nth q 0) Nq); auto; fold rank; lia). now rewrite Ejs.
          -- apply V. destruct (Nat.eq_dec s j); [congruence|lia].
        * intros j' Hj' Hs. rewrite V2, Nat.eqb_refl. cbn [andb]. rewrite Q1 by lia. destruct (Nat.eqb_spec (nth j q 0) j') as [E|E]; [exfalso; apply (Hs j); auto; lia|]. apply Z; auto.
      + replace (i + 1) with (S i) by lia. rewrite E2. cbn [obind]. destruct (set2_ent T zero (R + 1) C r2 (t1 + 1) c one) as (r3 & E3 & D3 & V3); auto; try lia. rewrite E3. cbn [obind]. exists (r3, t1 + 1). split; [reflexivity|].
        cbn [Nat.add] in *. split; [lia|]. split; [auto|]. split; [|split].
        * intros j. rewrite V3. destruct (Nat.eqb_spec (t1 + 1) 0); [lia|]. cbn [andb]. rewrite O2 by lia. auto.
        * intros t' Ht'. destruct (Nat.eq_dec t' t1) as [->|N].
          -- rewrite I2. split; [|split].
             ++ rewrite V3, !Nat.eqb_refl. reflexivity.
             ++ intros s Hs. fold rank in Hs. rewrite V3, Nat.eqb_refl. cbn [andb]. destruct (Nat.lt_ge_cases s (S i)) as [Hsi|Hsi].
                ** destruct (Nat.eqb_spec c (nth s q 0)) as [E|E]; [|auto]. exfalso. rewrite <- Q1 in E by lia. assert (qq s <= qq i) by (destruct (Nat.eq_dec s i) as [->|]; [auto|apply Nat.lt_le_incl, Qlt; lia]). lia.
                ** assert (qq (S i) <= qq s) by (destruct (Nat.eq_dec s (S i)) as [->|]; [auto|apply Nat.lt_le_incl, Qlt; lia]).
                   destruct (Nat.eqb_spec c (nth s q 0)) as [E|E]; [exfalso; rewrite <- Q1 in E by lia; lia|].
                   rewrite Z2; [|now apply H2|].
                   --- rewrite H6; [ring|auto|]. rewrite <- Q1 by lia. lia.
                   --- intros u Hu Eu. assert (u = s) by (apply (proj1 (NoDup_nth q 0) Nq); auto; fold rank; lia). lia.
             ++ intros j Hj Nj Iq. rewrite V3, Nat.eqb_refl. destruct (Nat.eqb_spec c j); [lia|]. cbn [andb]. apply Z2; auto. intros s Hs Es. apply Iq. rewrite <- Es. apply nth_In. fold rank. lia.
          -- destruct (B1 t') as (Ba & Bb & Bc); [lia|]. unfold MatrixSolve.basis_row. setoid_rewrite V3. destruct (Nat.eqb_spec (t1 + 1) (t' + 1)); [lia|]. cbn [andb]. setoid_rewrite O2; auto; lia.
        * intros t' j Ht'. rewrite V3. destruct (Nat.eqb_spec (t1 + 1) (t' + 1)); [lia|]. cbn [andb]. rewrite O2 by lia. apply U1. lia.
    - exists (r2, t2). split; [exact E2|]. split; [lia|]. auto. }
  rewrite E2. cbn [obind Nat.add] in *. rewrite Q2 in Et. subst t2. rewrite Nat.eqb_refl. cbn [guard obind].
  exists r2. split; [reflexivity|]. split; [auto|]. split; [|split].
  - intros s Hs. rewrite P2. auto.
  - intros j Hj Iq. rewrite P2. apply Z0; auto. intros s Hs E. apply Iq. rewrite <- E. now apply nth_In.
  - exact B2.
Qed.

Definition solution (row column : nat) (a b : list (list T)) (v : nat -> T) : Prop :=
  forall i, i < row -> app column (ent a) v i = ent b i 0.

Lemma solve_ok R C row column a b : row <= R -> column <= C -> dims R C a -> dims R 1 b ->
  (column <= R \/ forall d B, kernel_basis row column (ent a) d B -> d <= R) ->
  exists d res ok, m_solve zero one sub mul opp div eqb R C a b row column = Some (d, res, ok) /\ dims (R + 1) C res /\
    (ok = true <-> exists v, solution row column a b v) /\
    (ok = true -> solution row column a b (ent res 0) /\ kernel_basis row column (ent a) d (fun t => ent res (t + 1))) /\
    exists B, kernel_basis row column (ent a) d B.
Proof.
  intros HR HC Da Db HB. unfold m_solve.
  destruct (fill_ok R C row column a b HR HC Da Db) as (x & Ex & Dx & Vx). rewrite Ex. cbn [obind].
  destruct (gauss_ok T zero one add mul sub opp RT div eqb eqb_ok div_ok R (C + 1) row column 1 x (Some [])) as (x' & q & pr & Eg & Dg & Ec & K & _ & P); auto; try lia.
  rewrite Eg. cbn [obind]. rewrite P. cbn [obind].
  assert (Ka : forall y, in_kernel row column (ent a) y <-> in_kernel row column (ent x') y).
  { intros y. pose (z := fun j => if j <? column then y j else zero). specialize (K z).
    assert (A1 : forall r, r < row -> app (column + 1) (ent x) z r = app column (ent a) y r).
    { intros r Hr. rewrite app_S. unfold z at 2. rewrite Nat.ltb_irrefl. transitivity (app column (ent x) z r); [ring|]. apply app_ext.
      - intros j Hj. now apply Vx.
      - intros j Hj. unfold z. now destruct (Nat.ltb_spec j column); [|lia]. }
    assert (A2 : forall r, app (column + 1) (ent x') z r = app column (ent x') y r).
    { intros r. rewrite app_S. unfold z at 2. rewrite Nat.ltb_irrefl. transitivity (app column (ent x') z r); [ring|]. apply app_ext; auto.
      intros j Hj. unfold z. now destruct (Nat.ltb_spec j column); [|lia]. }
    split; intros H.
    - assert (H1 : in_kernel row (column + 1) (ent x) z) by (intros r Hr; rewrite A1; auto). apply K in H1. intros r Hr. rewrite <- A2. now apply H1.
    - assert (H1 : in_kernel row (column + 1) (ent x') z) by (intros r Hr; rewrite A2; auto). apply K in H1. intros r Hr. rewrite <- A1 by auto. now apply H1. }
  assert (Kb : forall d B, kernel_basis row column (ent x') d B <-> kernel_basis row column (ent a) d B).
  { intros d B. unfold MatrixModel.kernel_basis. split; intros [H1 H2]; split; auto; intros y; rewrite <- H1; [|symmetry]; rewrite Ka; tauto. }
  assert (So : forall v, solution row column a b v <-> forall r, r < row -> app column (ent x') v r = ent x' r column).
  { intros v. pose (z := fun j => if j <? column then v j else opp one). specialize (K z).
    assert (Zc : z column = opp one) by (unfold z; now rewrite Nat.ltb_irrefl).
    assert (Zj : forall j, j < column -> z j = v j) by (intros j Hj; unfold z; now destruct (Nat.ltb_spec j column); [|lia]).
    assert (Sub0 : forall p u, add p (mul u (opp one)) = zero <-> p = u).
    { intros p u. split; intros H; [|subst; ring]. transitivity (add (add p (mul u (opp one))) u); [ring|]. rewrite H. ring. }
    assert (A1 : forall r, r < row -> app (column + 1) (ent x) z r = zero <-> app column (ent a) v r = ent b r 0).
    { intros r Hr. rewrite app_S, Zc, Sub0. rewrite (app_ext column (ent x) (ent a) z v r) by (auto; intros; now apply Vx). destruct (Vx r Hr) as [_ ->]. tauto. }
    assert (A2 : forall r, app (column + 1) (ent x') z r = zero <-> app column (ent x') v r = ent x' r column).
    { intros r. rewrite app_S, Zc, Sub0. rewrite (app_ext column (ent x') (ent x') z v r) by auto. tauto. }
    split; intros H.
    - assert (H1 : in_kernel row (column + 1) (ent x) z) by (intros r Hr; apply A1; auto). apply K in H1. intros r Hr. apply A2. now apply H1.
    - assert (H1 : in_kernel row (column + 1) (ent x') z) by (intros r Hr; apply A2; auto). apply K in H1. intros r Hr. apply A1; auto. }
  destruct (ech_free_length T zero one row column q (ent x') Ec) as [Lf Lq].
  assert (SB : kernel_basis row column (ent a) (column - length q) (some_basis T zero one add opp q column (ent x'))).
  { apply Kb. rewrite <- Lf. apply (ech_basis T zero one add mul sub opp RT row); auto. intros t Ht. now apply (some_basis_ok T zero one add mul sub opp RT row). }
  destruct (left_ok R (C + 1) x' (length q) row column) as (bad & El & Vb); auto; try lia. rewrite El. cbn [obind]. destruct bad.
  - exists (column - length q), (m_zero zero (R + 1) C), false. split; [reflexivity|]. split; [apply zero_dims|]. split; [|split; [discriminate|eauto]].
    split; [discriminate|]. intros (v & Hv). exfalso. assert (F : true = false); [|discriminate]. apply Vb. intros i Hi. rewrite So in Hv. rewrite <- Hv by lia. now apply (ech_low T zero one add mul sub opp RT row column q).
  - assert (Zl : forall i, length q <= i < row -> ent x' i column = zero) by now apply Vb.
    destruct (result_ok R C row column x' q) as (res & Er & Dr & P0 & Z0 & Br); auto. { destruct HB as [HB|HB]; [lia|]. now apply (HB _ _ SB). }
    replace (resize [] (row + 1) column) with (repeat column (row + 1)) by (unfold resize; rewrite firstn_nil; cbn [length List.app]; now rewrite Nat.sub_0_r).
    unfold result in Er. rewrite Er.
    assert (S0 : solution row column a b (ent res 0)).
    { apply So. intros r Hr. destruct (Nat.lt_ge_cases r (length q)) as [Hq|Hq].
      - rewrite (ech_app T zero one add mul sub opp RT row column q) by auto. rewrite P0 by auto. rewrite (sum_zero_ext _ _ _ _ _ SR); [ring|].
        intros c Hc. apply free_in in Hc as [H1 H2]. rewrite Z0 by auto. ring.
      - rewrite Zl by lia. apply (ech_low T zero one add mul sub opp RT row column q); auto. }
    exists (column - length q), res, true. split; [reflexivity|]. split; [auto|]. split; [split; eauto|]. split; [|eauto]. intros _. split; [auto|].
    apply Kb. rewrite <- Lf. apply (ech_basis T zero one add mul sub opp RT row); auto. rewrite Lf. auto.
Qed.

(** * Inverse *)

Lemma fill_inv_ok R C n a : n <= R -> n <= C -> dims R C a ->
  exists x, for_up n 0 (fun i x =>
    let* x := for_up n 0 (fun j x => let* y := get2 a i j in set2 x i j y) x in
    set2 x i (n + i) one) (m_zero zero R (C * 2)) = Some x /\ dims R (C * 2) x /\
    forall i j, i < n -> j < n -> ent x i j = ent a i j /\ ent x i (n + j) = delta zero one i j.
Proof.
  intros HR HC Da. match goal with |- context [for_up n 0 ?bd _] => set (body := bd) end.
  destruct (@for_up_rule _ (fun i0 x => dims R (C * 2) x /\ (forall i j, i < i0 -> j < n -> ent x i j = ent a i j /\ ent x i (n + j) = delta zero one i j) /\
     forall i j, i0 <= i -> ent x i j = zero) body n 0 (m_zero zero R (C * 2))) as (x & E & D & V & _).
  - split; [apply zero_dims|]. split; [lia|]. intros. apply zero_ent.
  - intros i0 x Hi (D & V & Z). unfold body.
    destruct (@for_up_rule _ (fun j0 x1 => dims R (C * 2) x1 /\ (forall i j, i <> i0 -> ent x1 i j = ent x i j) /\ (forall j, j < j0 -> ent x1 i0 j = ent a i0 j) /\ forall j, n <= j -> ent x1 i0 j = zero)
      (fun j x => let* y := get2 a i0 j in set2 x i0 j y) n 0 x) as (x1 & E1 & D1 & O1 & V1 & Z1).
    + split; [auto|]. split; [auto|]. split; [lia|]. auto.
    + intros j0 x1 Hj (D1 & O1 & V1 & Z1). rewrite (get2_ent T zero R C) by (auto; lia). cbn [obind].
      destruct (set2_ent T zero R (C * 2) x1 i0 j0 (ent a i0 j0)) as (x2 & E2 & D2 & V2); auto; try lia. exists x2. split; [exact E2|]. split; [auto|]. split; [|split].
      * intros i j N. rewrite V2. destruct (Nat.eqb_spec i0 i); [lia|]. cbn [andb]. auto.
      * intros j Hj'. rewrite V2, Nat.eqb_refl. cbn [andb]. destruct (Nat.eqb_spec j0 j); [now subst|]. apply V1. lia.
      * intros j Hj'. rewrite V2, Nat.eqb_refl. cbn [andb]. destruct (Nat.eqb_spec j0 j); [lia|]. now apply Z1.
    + rewrite E1. cbn [obind].
      destruct (set2_ent T zero R (C * 2) x1 i0 (n + i0) one) as (x2 & E2 & D2 & V2); auto; try lia. exists x2. split; [exact E2|]. split; [auto|]. split.
      * intros i j Hi' Hj'. destruct (Nat.eq_dec i i0) as [->|N].
        -- rewrite !V2, !Nat.eqb_refl. cbn [andb]. destruct (Nat.eqb_spec (n + i0) j); [lia|]. split; [apply V1; lia|]. unfold delta.
           destruct (Nat.eqb_spec (n + i0) (n + j)), (Nat.eqb_spec i0 j); try lia; [reflexivity|]. apply Z1. lia.
        -- rewrite !V2. destruct (Nat.eqb_spec i0 i); [lia|]. cbn [andb]. rewrite !O1 by auto. apply V; lia.
      * intros i j Hi'. rewrite V2. destruct (Nat.eqb_spec i0 i); [lia|]. cbn [andb]. rewrite O1 by lia. apply Z. lia.
  - exists x. auto.
Qed.
Lemma app_two n f y r : app (n + n) f y r = add (app n f y r) (app n (fun i j => f i (n + j)) (fun j => y (n + j)) r).
Proof.
  rewrite !app_sum, seq_app, (sum_app _ _ _ _ _ SR). f_equal. cbn [Nat.add].
  replace (seq n n) with (map (fun j => n + j) (seq 0 n)); [now rewrite sum_map|]. clear. generalize n at 1 3 as k. intros k.
  assert (G : forall m s, map (fun j => k + j) (seq s m) = seq (k + s) m) by (induction m as [|m IH]; intros s; [reflexivity|]; cbn [seq map]; rewrite IH; f_equal; f_equal; lia).
  rewrite G. f_equal. lia.
Qed.
Lemma inc_id q n : (forall r s, r < s < length q -> nth r q 0 < nth s q 0) -> (forall r, r < length q -> nth r q 0 < n) -> length q = n -> forall r, r < n -> nth r q 0 = r.
Proof.
  intros Inc B L r Hr.
  assert (Lo : forall k, k < length q -> k <= nth k q 0). { induction k as [|k IH]; intros Hk; [lia|]. specialize (IH ltac:(lia)). specialize (Inc k (S k)). lia. }
  assert (Hi : forall d k, k + d < length q -> nth k q 0 + d <= nth (k + d) q 0).
  { induction d as [|d IH]; intros k Hk; [rewrite !Nat.add_0_r; lia|]. specialize (IH k ltac:(lia)). specialize (Inc (k + d) (k + S d)). lia. }
  specialize (Lo r ltac:(lia)). specialize (Hi (n - 1 - r) r ltac:(lia)). specialize (B (r + (n - 1 - r)) ltac:(lia)). lia.
Qed.
Notation pe := (prod_entry zero add mul).
Definition is_inverse n (f g : nat -> nat -> T) : Prop :=
  forall i j, i < n -> j < n -> pe n f g i j = delta zero one i j.
(** A product applied to a vector. *)
Lemma app_prod n f g y i : app n (pe n f g) y i = app n f (fun k => app n g y k) i.
Proof.
  rewrite !app_sum. transitivity (sum (seq 0 n) (fun j => sum (seq 0 n) (fun k => mul (f i k) (mul (g k j) (y j))))).
  - apply sum_ext. intros j _. rewrite (pe_sum T zero add mul), <- (sum_mul_r _ _ _ _ _ SR). apply sum_ext. intros k _. ring.
  - rewrite (sum_swap _ _ _ _ _ SR). apply sum_ext. intros k _. rewrite app_sum. apply (sum_mul _ _ _ _ _ SR).
Qed.
Lemma app_delta n y i : i < n -> app n (delta zero one) y i = y i.
Proof. intros H. rewrite app_sum. now apply (sum_delta_l T zero one add mul SR). Qed.
Lemma app_unit n f i j : j < n -> app n f (fun k => delta zero one k j) i = f i j.
Proof.
  intros H. rewrite app_sum. rewrite (sum_ext _ _ _ _ _ (fun k => mul (delta zero one j k) (f i k))); [now apply (sum_delta_l T zero one add mul SR)|].
  intros k _. rewrite (delta_sym T zero one k j). ring.
Qed.
Lemma inv_core R C n a : one <> zero -> n <= R -> n <= C -> dims R C a ->
  exists ret ok, m_inv zero one sub mul div eqb R C a n = Some (ret, ok) /\ dims R C ret /\
    (ok = true -> is_inverse n (ent a) (ent ret) /\ is_inverse n (ent ret) (ent a)) /\
    (ok = false -> exists y, (exists j, j < n /\ y j <> zero) /\ in_kernel n n (ent a) y).
Proof.
  intros One HR HC Da. unfold m_inv. destruct (fill_inv_ok R C n a HR HC Da) as (x & Ex & Dx & Vx). rewrite Ex. cbn [obind].
  destruct (gauss_ok T zero one add mul sub opp RT div eqb eqb_ok div_ok R (C * 2) n n n x None) as (x' & q & pr & Eg & Dg & Ec & K & _ & P); auto; try lia.
  rewrite Eg. cbn [obind]. pose (join := fun (u v : nat -> T) j => if j <? n then u j else v (j - n)).
  assert (J1 : forall u v j, j < n -> join u v j = u j) by (intros u v j Hj; unfold join; now destruct (Nat.ltb_spec j n); [|lia]).
  assert (J2 : forall u v j, join u v (n + j) = v j) by (intros u v j; unfold join; destruct (Nat.ltb_spec (n + j) n); [lia|]; f_equal; lia).
  assert (A1 : forall u v r, r < n -> app (n + n) (ent x) (join u v) r = add (app n (ent a) u r) (v r)).
  { intros u v r Hr. rewrite app_two. f_equal.
    - apply app_ext; [intros j Hj; now apply Vx|auto].
    - rewrite <- (app_delta n v r) by auto. apply app_ext; [intros j Hj; now apply Vx|intros; apply J2]. }
  assert (A2 : forall u v r, app (n + n) (ent x') (join u v) r = add (app n (ent x') u r) (app n (fun i j => ent x' i (n + j)) v r)).
  { intros u v r. rewrite app_two. f_equal; apply app_ext; auto. }
  destruct (Nat.eqb_spec (length q) n) as [Eq|Nq]; cbn [negb].
  - destruct (each_same T zero n n (fun i j ret => let* y := get2 x' i (n + j) in set2 ret i j y) (fun i j _ => ent x' i (n + j)) (m_zero zero n n)) as (w & Ew & _).
    { intros i j m Hi Hj _. rewrite (get2_ent T zero R (C * 2)) by (auto; lia). reflexivity. }
    { apply zero_dims. }
    destruct (each_rule T zero n n R C (fun i j ret => let* y := get2 x' i (n + j) in set2 ret i j y) (fun i j => (i, j)) (fun i j _ => ent x' i (n + j)) (m_zero zero R C)) as (ret & Er & Dr & Vr & _).
    { cbn. intros. split; lia. }
    { intros i j i' j' _ _ _ _ H. split; congruence. }
    { intros i j m Hi Hj _. rewrite (get2_ent T zero R (C * 2)) by (auto; lia). reflexivity. }
    { apply zero_dims. }
    cbn [fst snd] in Vr. rewrite Er. cbn [obind]. exists ret, true. split; [reflexivity|]. split; [auto|]. split; [|discriminate]. intros _.
    pose proof Ec as (H1 & H2 & H3 & H4 & H5 & H6 & H7). assert (Qi := inc_id q n H3 H2 Eq).
    assert (Id : forall r j, r < n -> j < n -> ent x' r j = delta zero one r j).
    { intros r j Hr Hj. unfold delta. destruct (Nat.eqb_spec r j) as [<-|N].
      - rewrite <- (Qi r Hr) at 2. apply H4. lia.
      - rewrite <- (Qi j Hj). apply H5; auto; lia. }
    assert (Eqv : forall u z, (forall r, r < n -> app n (ent a) u r = z r) <-> (forall r, r < n -> u r = app n (ent ret) z r)).
    { intros u z. specialize (K (join u (fun j => mul (opp one) (z j)))).
      assert (S0 : forall p v, add p (mul (opp one) v) = zero <-> p = v). { intros p v. split; intros H; [|subst; ring]. transitivity (add (add p (mul (opp one) v)) v); [ring|]. rewrite H. ring. }
      assert (B2 : forall r, r < n -> app (n + n) (ent x') (join u (fun j => mul (opp one) (z j))) r = add (u r) (mul (opp one) (app n (ent ret) z r))).
      { intros r Hr. rewrite A2. f_equal.
        - rewrite <- (app_delta n u r) by auto. apply app_ext; auto.
        - rewrite !app_sum, <- (sum_mul _ _ _ _ _ SR). apply sum_ext. intros j Hj. apply in_seq in Hj. rewrite Vr by lia. ring. }
      split; intros H r Hr.
      - apply S0. rewrite <- B2 by auto. apply K; auto. intros s Hs. rewrite A1 by auto. apply S0. auto.
      - apply S0. rewrite <- (A1 u (fun j => mul (opp one) (z j))) by auto. apply K; auto. intros s Hs. rewrite B2 by auto. apply S0. auto. }
    split; intros i j Hi Hj.
    + rewrite <- (app_unit n (pe n (ent a) (ent ret)) i j) by auto. rewrite app_prod. apply (proj2 (Eqv (fun k => app n (ent ret) (fun k => delta zero one k j) k) (fun k => delta zero one k j))); auto.
    + rewrite <- (app_unit n (pe n (ent ret) (ent a)) i j) by auto. rewrite app_prod. symmetry. apply (proj1 (Eqv (fun k => delta zero one k j) (fun k => app n (ent a) (fun k => delta zero one k j) k))); auto.
  - exists (m_zero zero R C), false. split; [reflexivity|]. split; [apply zero_dims|]. split; [discriminate|]. intros _.
    destruct (ech_free_length T zero one n n q (ent x') Ec) as [Lf Lq].
    pose proof (some_basis_ok T zero one add mul sub opp RT n n q (ent x') 0 Ec ltac:(lia)) as SB0. set (y := some_basis T zero one add opp q n (ent x') 0) in *.
    exists y. split.
    + exists (nth 0 (free q n) 0). split.
      * assert (I : In (nth 0 (free q n) 0) (free q n)) by (apply nth_In; lia). now apply free_in in I.
      * destruct SB0 as (-> & _). auto.
    + assert (Ky : in_kernel n n (ent x') y).
      { assert (KB : kernel_basis n n (ent x') (length (free q n)) (some_basis T zero one add opp q n (ent x'))).
        { apply (ech_basis T zero one add mul sub opp RT n); auto. intros t Ht. now apply (some_basis_ok T zero one add mul sub opp RT n). }
        destruct KB as [KB _]. apply KB. exists (fun t => delta zero one 0 t). intros j Hj. symmetry. apply (sum_delta_l T zero one add mul SR (length (free q n)) 0 (fun t => some_basis T zero one add opp q n (ent x') t j)). lia. }
      assert (H : in_kernel n (n + n) (ent x) (join y (fun _ => zero))).
      { apply K. intros r Hr. rewrite A2, Ky by auto. rewrite app_sum, (sum_zero_ext _ _ _ _ _ SR); [ring|]. intros; ring. }
      intros r Hr. specialize (H r Hr). rewrite A1 in H by auto. transitivity (add (app n (ent a) y r) zero); [ring|exact H].
Qed.

Lemma inverse_app n f g y i : is_inverse n f g -> i < n -> app n f (fun k => app n g y k) i = y i.
Proof.
  intros H Hi. rewrite <- app_prod. rewrite <- (app_delta n y i) by auto. apply app_ext; auto.
Qed.
Lemma no_kernel n f g y : is_inverse n g f -> in_kernel n n f y -> forall j, j < n -> y j = zero.
Proof.
  intros H K j Hj. rewrite <- (inverse_app n g f y j) by auto. rewrite app_sum. apply (sum_zero_ext _ _ _ _ _ SR). intros k Hk. apply in_seq in Hk. rewrite K by lia. ring.
Qed.
Definition tabulate n (g : nat -> nat -> T) : list (list T) := map (fun i => map (g i) (seq 0 n)) (seq 0 n).
Lemma tabulate_dims n g : dims n n (tabulate n g).
Proof.
  split; [unfold tabulate; now rewrite map_length, seq_length|]. apply Forall_forall. intros r Hr. apply in_map_iff in Hr as (i & <- & _). now rewrite map_length, seq_length.
Qed.
Lemma nth_tab {X} (h : nat -> X) n i d : i < n -> nth i (map h (seq 0 n)) d = h i.
Proof. intros H. rewrite (nth_indep _ d (h 0)) by (now rewrite map_length, seq_length). rewrite map_nth. now rewrite seq_nth. Qed.
Lemma tabulate_ent n g i j : i < n -> j < n -> ent (tabulate n g) i j = g i j.
Proof. intros Hi Hj. unfold MatrixModel.ent, tabulate. rewrite (nth_tab (fun i => map (g i) (seq 0 n))) by auto. now apply nth_tab. Qed.
Lemma is_inverse_ext n f f' g g' : feq T n f f' -> feq T n g g' -> is_inverse n f g -> is_inverse n f' g'.
Proof. intros Hf Hg H i j Hi Hj. rewrite <- (pe_ext T zero add mul n f f' g g' Hf Hg i j Hi Hj). auto. Qed.
Lemma inverse_comm n f g : one <> zero -> is_inverse n f g -> is_inverse n g f.
Proof.
  intros One H. destruct (inv_core n n n (tabulate n g) One (le_n _) (le_n _) (tabulate_dims n g)) as (ret & ok & _ & _ & Ht & Hf).
  assert (Eg : feq T n (ent (tabulate n g)) g) by (intros i j Hi Hj; now apply tabulate_ent).
  destruct ok.
  - destruct (Ht eq_refl) as [H1 H2].
    assert (G1 : is_inverse n g (ent ret)) by (revert H1; apply is_inverse_ext; auto; apply feq_refl).
    assert (Efr : feq T n f (ent ret)).
    { eapply feq_trans; [apply feq_sym, (pe_id_r T zero one add mul SR)|]. eapply feq_trans; [apply pe_ext; [apply feq_refl|apply feq_sym; exact G1]|].
      eapply feq_trans; [apply (pe_assoc T zero one add mul SR)|]. eapply feq_trans; [apply pe_ext; [exact H|apply feq_refl]|]. apply (pe_id_l T zero one add mul SR). }
    revert G1. apply is_inverse_ext; [apply feq_refl|now apply feq_sym].
  - destruct (Hf eq_refl) as (y & (j & Hj & Nj) & K). exfalso. apply Nj. apply (no_kernel n g f y); auto.
    intros r Hr. etransitivity; [|exact (K r Hr)]. apply app_ext; auto. intros k Hk. symmetry. now apply tabulate_ent.
Qed.
Lemma inv_ok R C n a : one <> zero -> n <= R -> n <= C -> dims R C a ->
  exists ret ok, m_inv zero one sub mul div eqb R C a n = Some (ret, ok) /\ dims R C ret /\
    (ok = true -> is_inverse n (ent a) (ent ret) /\ is_inverse n (ent ret) (ent a)) /\
    (ok = true <-> exists g, is_inverse n (ent a) g) /\ (ok = true <-> exists g, is_inverse n g (ent a)).
Proof.
  intros One HR HC Da. destruct (inv_core R C n a One HR HC Da) as (ret & ok & E & D & Ht & Hf). exists ret, ok. split; [auto|]. split; [auto|]. split; [auto|].
  assert (L : (exists g, is_inverse n g (ent a)) -> ok = true).
  { intros (g & Hg). destruct ok; auto. destruct (Hf eq_refl) as (y & (j & Hj & Nj) & K). exfalso. apply Nj. now apply (no_kernel n (ent a) g y). }
  split; split; intros H; auto.
  - exists (ent ret). now apply Ht.
  - apply L. destruct H as (g & Hg). exists g. now apply inverse_comm.
  - exists (ent ret). now apply Ht.
Qed.
End Solve.
