From Verif Require Import Base BaseLemmas SearchModel LiChaoModel.
Local Open Scope Z_scope.
Ltac Zify.zify_post_hook ::= idtac.

Ltac inj := try discriminate; try lia; match goal with E : Some _ = Some _ |- _ => injection E as <-; auto end.

Section LiChao.
Variable w : Z.
Variable mx : bool.
Hypothesis Hw : 1 <= w.
Notation INV := (INV w mx).
Notation cmp := (cmp mx).
Notation fits := (fits w).

(** Values are compared through a key, larger is better. *)
Definition key (v : Z) : Z := if mx then v else - v.
Lemma cmp_key x y : cmp x y = (key x <? key y).
Proof. unfold LiChaoModel.cmp, key. destruct mx; auto. destruct (Z.ltb_spec y x), (Z.ltb_spec (- x) (- y)); auto; lia. Qed.
Lemma pow_pos : 1 <= 2 ^ (w - 1).
Proof. pose proof (Z.pow_pos_nonneg 2 (w - 1)). lia. Qed.
Lemma INV_eq : INV = worst w mx.
Proof.
  unfold LiChaoModel.INV, worst, LiChaoModel.cmp, MINF, INF. pose proof pow_pos. destruct mx.
  - destruct (Z.ltb_spec (- 2 ^ (w - 1)) (2 ^ (w - 1) - 1)); auto. lia.
  - destruct (Z.ltb_spec (2 ^ (w - 1) - 1) (- 2 ^ (w - 1))); auto. lia.
Qed.
Lemma INV_fits : fits INV.
Proof. rewrite INV_eq. unfold worst, LiChaoModel.fits. pose proof pow_pos. destruct mx; lia. Qed.
Lemma key_INV v : fits v -> key INV <= key v.
Proof. rewrite INV_eq. unfold worst, LiChaoModel.fits, key. destruct mx; lia. Qed.
Lemma key_INV_lt v : fits v -> v <> INV -> key INV < key v.
Proof. rewrite INV_eq. unfold worst, LiChaoModel.fits, key. destruct mx; lia. Qed.
Lemma key_inj x y : key x = key y -> x = y.
Proof. unfold key. destruct mx; lia. Qed.
Lemma mach_fits v : fits v -> mach w v = Some v.
Proof.
  unfold LiChaoModel.fits, mach. intros H. destruct (_ && _) eqn:E; auto.
  apply andb_false_iff in E as [E|E]; [apply Z.leb_gt in E|apply Z.ltb_ge in E]; lia.
Qed.

Definition val (l : line) (x : Z) : Z := fst l * x + snd l.
Lemma f_ok l x : fits (fst l * x) -> fits (val l x) -> lc_f w l x = Some (val l x).
Proof. intros A B. unfold lc_f. rewrite (mach_fits _ A). cbn [obind]. apply mach_fits. exact B. Qed.

Lemma key_val l (x : Z) : exists d e, (forall y, key (val l y) = d * y + e) .
Proof. unfold key, val. destruct mx; [exists (fst l), (snd l)|exists (- fst l), (- snd l)]; intros; ring. Qed.

(** Two lines cross at most once. *)
Lemma cross_right l1 l2 x y z : x <= y <= z ->
  key (val l2 x) <= key (val l1 x) -> key (val l1 y) <= key (val l2 y) ->
  key (val l1 y) < key (val l2 y) \/ key (val l2 x) < key (val l1 x) ->
  key (val l1 z) <= key (val l2 z).
Proof.
  destruct (key_val l1 x) as (d1 & e1 & H1), (key_val l2 x) as (d2 & e2 & H2). rewrite !H1, !H2.
  intros O A B C.
  assert (d1 <= d2) by nia. nia.
Qed.
Lemma cross_mid l1 l2 x y z : x <= y <= z ->
  key (val l1 x) <= key (val l2 x) -> key (val l1 z) <= key (val l2 z) -> key (val l1 y) <= key (val l2 y).
Proof.
  destruct (key_val l1 x) as (d1 & e1 & H1), (key_val l2 x) as (d2 & e2 & H2). rewrite !H1, !H2.
  intros O A B. destruct (Z.le_gt_cases d1 d2); nia.
Qed.

(** ** The tree *)
Variable n : nat.
Variable K : nat.
Variable X : list Z.
Hypothesis HX : length X = n.
Hypothesis HN : (n <= 2 ^ K)%nat.
Hypothesis Srt : sorted X.
Notation N := (2 ^ K)%nat.
Notation pt i := (nth i X 0).

Definition lok (l : line) (i : nat) : Prop :=
  fits (fst l * pt i) /\ fits (val l (pt i)) /\ val l (pt i) <> INV.
Definition noline : line := (0, INV).
(** [l] may sit at a node over [lo, lo + len). *)
Definition lsafe (l : line) (lo len : nat) : Prop :=
  l = noline \/ (snd l <> INV /\ forall i, (lo <= i < lo + len)%nat -> (i < n)%nat -> lok l i).
Definition level (j u : nat) : Prop := (j <= K)%nat /\ (2 ^ (K - j) <= u < 2 * 2 ^ (K - j))%nat.
Definition safe (t : list line) : Prop :=
  length t = (2 * N)%nat /\
  forall j u lo, level j u -> (lo + N = u * 2 ^ j)%nat ->
    lsafe (nth u t noline) lo (2 ^ j) /\ ((n <= lo + 2 ^ j / 2)%nat -> nth u t noline = noline).

Definition ub (t : list line) (i : nat) (k : Z) : Prop :=
  forall j, (j <= K)%nat -> key (val (nth ((i + N) / 2 ^ j) t noline) (pt i)) <= k.

Lemma p2 k : (0 < 2 ^ k)%nat. Proof. apply Nat.neq_0_lt_0, Nat.pow_nonzero. lia. Qed.
Lemma get_pt i : (i < n)%nat -> get X i = Some (pt i).
Proof. intros H. unfold get. apply nth_error_nth'. lia. Qed.

Lemma level_lt j u : level j u -> (0 < u /\ u < 2 * N)%nat.
Proof.
  intros [A [B C]]. pose proof (p2 (K - j)). split; [lia|].
  assert (2 ^ (K - j) <= 2 ^ K)%nat by (apply Nat.pow_le_mono_r; lia). lia.
Qed.
Lemma level_anc j i : (j <= K)%nat -> (i < N)%nat -> level j ((i + N) / 2 ^ j).
Proof.
  intros Hj Hi. split; auto. pose proof (p2 j).
  assert (E : N = (2 ^ j * 2 ^ (K - j))%nat) by (rewrite <- Nat.pow_add_r; f_equal; lia).
  split; [apply Nat.div_le_lower_bound|apply Nat.div_lt_upper_bound]; lia.
Qed.
Lemma level_inj j k u : level j u -> level k u -> j = k.
Proof.
  intros [A [B C]] [D [E F]]. destruct (lt_eq_lt_dec j k) as [[L|L]|L]; auto; exfalso.
  - assert (2 * 2 ^ (K - k) <= 2 ^ (K - j))%nat; [|lia].
    change (2 * 2 ^ (K - k))%nat with (2 ^ S (K - k))%nat. apply Nat.pow_le_mono_r; lia.
  - assert (2 * 2 ^ (K - j) <= 2 ^ (K - k))%nat; [|lia].
    change (2 * 2 ^ (K - j))%nat with (2 ^ S (K - j))%nat. apply Nat.pow_le_mono_r; lia.
Qed.
Lemma inside j u lo i : (lo + N = u * 2 ^ j)%nat -> ((i + N) / 2 ^ j = u <-> lo <= i < lo + 2 ^ j)%nat.
Proof.
  intros E. pose proof (p2 j). split.
  - intros <-. pose proof (Nat.div_mod (i + N) (2 ^ j) ltac:(lia)). pose proof (Nat.mod_upper_bound (i + N) (2 ^ j) ltac:(lia)). nia.
  - intros H1. symmetry. apply (Nat.div_unique (i + N) (2 ^ j) u (i - lo)); lia.
Qed.
Lemma nth_lset (t : list line) u l k : (u < length t)%nat -> nth k (lset t u l) noline = if (k =? u)%nat then l else nth k t noline.
Proof.
  intros Hi. destruct (Nat.eqb_spec k u) as [->|Nk].
  - apply nth_error_nth. now apply get_lset_eq.
  - rewrite <- !nth_default_eq. unfold nth_default. fold (get (lset t u l) k) (get t k). rewrite get_lset_neq; auto.
Qed.

(** The bounds on a path, except at height [j]. *)
Definition others (t : list line) (i : nat) (j : nat) (k : Z) : Prop :=
  forall j', (j' <= K)%nat -> j' <> j -> key (val (nth ((i + N) / 2 ^ j') t noline) (pt i)) <= k.
Lemma ub_split t i j k : (j <= K)%nat -> (ub t i k <-> others t i j k /\ key (val (nth ((i + N) / 2 ^ j) t noline) (pt i)) <= k).
Proof.
  intros Hj. split.
  - intros H. split; [|now apply H]. intros j' A B. now apply H.
  - intros [H1 H2] j' A. destruct (Nat.eq_dec j' j) as [->|B]; auto.
Qed.
Lemma others_lset t i j u l k : level j u -> (i < n)%nat -> length t = (2 * N)%nat -> (others (lset t u l) i j k <-> others t i j k).
Proof.
  intros Lv Hi Len. pose proof (level_lt _ _ Lv).
  assert (E : forall j', (j' <= K)%nat -> j' <> j -> nth ((i + N) / 2 ^ j') (lset t u l) noline = nth ((i + N) / 2 ^ j') t noline).
  { intros j' A B. rewrite nth_lset by lia. destruct (Nat.eqb_spec ((i + N) / 2 ^ j') u) as [E|E]; auto.
    exfalso. apply B. apply (level_inj j' j u); auto. rewrite <- E. apply level_anc; auto. lia. }
  split; intros Ho j' A B; specialize (Ho j' A B); [rewrite <- E|rewrite E]; auto.
Qed.
Lemma ub_lset t i j u l k lo : level j u -> (lo + N = u * 2 ^ j)%nat -> (i < n)%nat -> length t = (2 * N)%nat ->
  (ub (lset t u l) i k <-> others t i j k /\ key (val (if ((lo <=? i) && (i <? lo + 2 ^ j))%nat then l else nth ((i + N) / 2 ^ j) t noline) (pt i)) <= k).
Proof.
  intros Lv El Hi Len. pose proof (level_lt _ _ Lv). rewrite (ub_split _ i j) by apply Lv. rewrite others_lset by auto.
  rewrite nth_lset by lia.
  assert (((i + N) / 2 ^ j =? u) = ((lo <=? i) && (i <? lo + 2 ^ j)))%nat as ->; [|reflexivity].
  pose proof (inside j u lo i El) as [I1 I2].
  destruct (Nat.eqb_spec ((i + N) / 2 ^ j) u) as [E|E].
  - specialize (I1 E). symmetry. apply andb_true_iff. rewrite Nat.leb_le, Nat.ltb_lt. lia.
  - symmetry. apply andb_false_iff. rewrite Nat.leb_gt, Nat.ltb_ge.
    destruct (le_lt_dec lo i); [|now left]. destruct (le_lt_dec (lo + 2 ^ j) i); [now right|]. exfalso. apply E, I2. lia.
Qed.

Lemma val_noline x : val noline x = INV. Proof. reflexivity. Qed.
Lemma lsafe_eval l lo len i : lsafe l lo len -> (lo <= i < lo + len)%nat -> (i < n)%nat ->
  lc_f w l (pt i) = Some (val l (pt i)) /\ fits (val l (pt i)).
Proof.
  intros [->|[_ H]] A B.
  - assert (fits INV) by apply INV_fits. split; auto. apply f_ok; cbn [fst noline].
    + pose proof pow_pos. unfold LiChaoModel.fits. lia.
    + rewrite val_noline. auto.
  - destruct (H i A B) as (H1 & H2 & _). split; auto. now apply f_ok.
Qed.
Lemma lsafe_sub l lo len lo' len' : lsafe l lo len -> (lo <= lo')%nat -> (lo' + len' <= lo + len)%nat -> lsafe l lo' len'.
Proof. intros [->|[A H]] B C; [now left|right]. split; auto. intros i D E. apply H; auto. lia. Qed.

Lemma safe_lset t j u lo l : safe t -> level j u -> (lo + N = u * 2 ^ j)%nat -> lsafe l lo (2 ^ j) ->
  (lo + 2 ^ j / 2 < n)%nat -> safe (lset t u l).
Proof.
  intros [Len H] Lv El Ls Lm. pose proof (level_lt _ _ Lv). split; [now rewrite lset_length|].
  intros j' u' lo' Lv' El'. rewrite nth_lset by lia. destruct (Nat.eqb_spec u' u) as [->|E]; [|now apply H].
  assert (j' = j) as -> by (apply (level_inj j' j u); auto). assert (lo' = lo) as -> by lia. split; auto. lia.
Qed.

Lemma add_rec_ok : forall fuel j u lo l t, level j u -> (lo + N = u * 2 ^ j)%nat -> safe t -> lsafe l lo (2 ^ j) ->
  (j < fuel)%nat ->
  exists t', add_line_rec w mx fuel n X l u lo (lo + 2 ^ j) t = Some t' /\ safe t' /\
    forall i k, (i < n)%nat -> key INV <= k ->
      (ub t' i k <-> ub t i k /\ ((lo <= i < lo + 2 ^ j)%nat -> key (val l (pt i)) <= k)).
Proof.
  induction fuel as [|fuel IH]; intros j u lo l t Lv El St Sl Hf; [lia|]. cbn [add_line_rec].
  destruct (Z.eqb_spec (snd l) INV) as [Ei|Ei].
  { exists t. split; [auto|]. split; [auto|]. intros i k Hi Hk. split; [|tauto]. intros U. split; auto.
    intros _. destruct Sl as [->|[C _]]; [|congruence]. now rewrite val_noline. }
  destruct Sl as [->|[_ Sl]]; [exfalso; apply Ei; reflexivity|].
  pose proof St as [Len Sf]. destruct (Sf j u lo Lv El) as [Ss Sm]. pose proof (level_lt _ _ Lv) as Lu. pose proof (p2 j) as Pj.
  replace (lo + 2 ^ j - lo)%nat with (2 ^ j)%nat by lia.
  set (mid := (lo + 2 ^ j / 2)%nat) in *.
  assert (Lmid : (mid < lo + 2 ^ j)%nat).
  { unfold mid. pose proof (Nat.div_lt (2 ^ j) 2 ltac:(lia) ltac:(lia)). lia. }
  destruct (@get_lt _ t u ltac:(lia)) as (s & Gs). rewrite Gs. cbn [obind].
  assert (Es : nth u t noline = s) by (now apply nth_error_nth). rewrite Es in *.
  (* the comparison at a point *)
  assert (Bt : forall i, (lo <= i < lo + 2 ^ j)%nat ->
    (if (i <? n)%nat then let* x := get X i in let* a := lc_f w s x in let* b := lc_f w l x in Some (cmp a b) else Some false)
    = Some ((i <? n)%nat && (key (val s (pt i)) <? key (val l (pt i))))).
  { intros i Hi. destruct (Nat.ltb_spec i n) as [L|L]; [|reflexivity]. rewrite get_pt by auto. cbn [obind].
    destruct (lsafe_eval s lo (2 ^ j) i Ss Hi L) as [-> _]. destruct (Sl i Hi L) as (F1 & F2 & _). rewrite f_ok by auto. cbn [obind].
    now rewrite cmp_key. }
  rewrite (Bt lo) by lia. cbn [obind]. rewrite (Bt mid) by (unfold mid in *; lia). cbn [obind].
  set (el := ((lo <? n)%nat && (key (val s (pt lo)) <? key (val l (pt lo))))).
  set (em := ((mid <? n)%nat && (key (val s (pt mid)) <? key (val l (pt mid))))).
  set (new := if em then l else s). set (rest := if em then s else l).
  set (t1 := lset t u new).
  assert (Est : (if em then let* seg := set t u l in Some (s, seg) else Some (l, t)) = Some (rest, t1)).
  { unfold rest, t1, new. destruct em.
    - rewrite set_some by lia. reflexivity.
    - f_equal. f_equal. symmetry. clear -Gs. revert u Gs. induction t as [|y t IH]; intros [|u] G; cbn in *; auto; [congruence|].
      f_equal. now apply IH. }
  rewrite Est. cbn [obind]. clear Est.
  assert (Sl' : lsafe l lo (2 ^ j)) by (right; auto).
  assert (St1 : safe t1).
  { unfold t1, new. destruct em eqn:Em.
    - apply (safe_lset t j u lo); auto. unfold em in Em. apply andb_true_iff in Em as [Em _]. apply Nat.ltb_lt in Em. exact Em.
    - split; [now rewrite lset_length|]. intros j' u' lo' Lv' El'. rewrite nth_lset by lia. destruct (Nat.eqb_spec u' u) as [->|E]; [|now apply Sf].
      rewrite <- Es. now apply Sf. }
  assert (Sr : lsafe rest lo (2 ^ j)) by (unfold rest; destruct em; auto).
  (* bounds before and after the exchange *)
  assert (U0 : forall i k, (i < n)%nat -> (lo <= i < lo + 2 ^ j)%nat -> (ub t i k <-> others t i j k /\ key (val s (pt i)) <= k)).
  { intros i k Hi Hin. rewrite (ub_split t i j) by apply Lv. apply (inside j u lo i El) in Hin. rewrite Hin, Es. reflexivity. }
  assert (U1 : forall i k, (i < n)%nat -> (lo <= i < lo + 2 ^ j)%nat -> (ub t1 i k <-> others t i j k /\ key (val new (pt i)) <= k)).
  { intros i k Hi Hin. unfold t1. rewrite (ub_lset t i j u new k lo) by auto.
    destruct (Nat.leb_spec lo i), (Nat.ltb_spec i (lo + 2 ^ j)); try lia. reflexivity. }
  assert (Uo : forall i k, (i < n)%nat -> ~ (lo <= i < lo + 2 ^ j)%nat -> (ub t1 i k <-> ub t i k)).
  { intros i k Hi Hin. unfold t1. rewrite (ub_lset t i j u new k lo) by auto. rewrite (ub_split t i j) by apply Lv.
    destruct (Nat.leb_spec lo i), (Nat.ltb_spec i (lo + 2 ^ j)); cbn [andb]; try lia; reflexivity. }
  assert (Two : forall i k, (key (val new (pt i)) <= k /\ key (val rest (pt i)) <= k) <-> (key (val s (pt i)) <= k /\ key (val l (pt i)) <= k)).
  { intros i k. unfold new, rest. destruct em; tauto. }
  assert (Dom : forall i k, (i < n)%nat -> (lo <= i < lo + 2 ^ j)%nat -> key (val rest (pt i)) <= key (val new (pt i)) ->
            (ub t1 i k <-> ub t i k /\ key (val l (pt i)) <= k)).
  { intros i k Hi Hin D. rewrite U0, U1 by auto. specialize (Two i k). intuition; try lia. }
  destruct (Nat.eqb_spec (2 ^ j) 1) as [E1|E1].
  - (* leaf *)
    exists t1. split; [auto|]. split; [auto|]. intros i k Hi Hk.
    destruct (Nat.eq_dec i lo) as [->|Ne].
    + assert (D : key (val rest (pt lo)) <= key (val new (pt lo))).
      { unfold new, rest. assert (mid = lo) as Em by (unfold mid; rewrite E1; cbn; lia).
        unfold em. rewrite Em. destruct (Nat.ltb_spec lo n); [|lia]. cbn [andb].
        destruct (Z.ltb_spec (key (val s (pt lo))) (key (val l (pt lo)))); lia. }
      rewrite Dom by (auto; lia). intuition.
    + rewrite Uo by lia. assert (~ (lo <= i < lo + 2 ^ j)%nat) by lia. tauto.
  - destruct j as [|j]; [now rewrite Nat.pow_0_r in E1|].
    assert (Ej : (2 ^ S j = 2 ^ j + 2 ^ j)%nat) by (cbn; lia). pose proof (p2 j) as Pj'.
    assert (Em : (mid = lo + 2 ^ j)%nat).
    { unfold mid. rewrite Ej. replace (2 ^ j + 2 ^ j)%nat with (2 ^ j * 2)%nat by lia. now rewrite Nat.div_mul. }
    assert (Lv2 : forall v, (v = u * 2 \/ v = u * 2 + 1)%nat -> level j v).
    { intros v Hv. destruct Lv as [A B]. split; [lia|]. replace (K - j)%nat with (S (K - S j)) by lia. cbn [Nat.pow]. lia. }
    assert (Xs : forall a b, (a <= b)%nat -> (b < n)%nat -> pt a <= pt b) by (intros; apply Srt; lia).
    (* where the kept line wins *)
    assert (Dm : forall i, (i < n)%nat -> (lo <= i < lo + 2 ^ S j)%nat ->
       (if Bool.eqb el em then (i < mid)%nat else (mid <= i)%nat) -> key (val rest (pt i)) <= key (val new (pt i))).
    { intros i Hi Hin Hc. destruct (le_lt_dec n mid) as [Lm|Lm].
      - exfalso. assert (em = false) as Em0 by (unfold em; destruct (Nat.ltb_spec mid n); [lia|reflexivity]).
        assert (el = true) as El0.
        { unfold el. destruct (Nat.ltb_spec lo n); [|lia]. rewrite (Sm Lm). rewrite val_noline. cbn [andb].
          apply Z.ltb_lt. destruct (Sl lo ltac:(lia) ltac:(lia)) as (_ & F & Ne). now apply key_INV_lt. }
        rewrite El0, Em0 in Hc. cbn in Hc. lia.
      - unfold el, em in *. unfold new, rest, em.
        destruct (Nat.ltb_spec lo n) as [Llo|]; [|lia]. destruct (Nat.ltb_spec mid n) as [_|]; [|lia]. cbn [andb] in *.
        destruct (Z.ltb_spec (key (val s (pt lo))) (key (val l (pt lo)))) as [C1|C1],
                 (Z.ltb_spec (key (val s (pt mid))) (key (val l (pt mid)))) as [C2|C2]; cbn [Bool.eqb] in Hc.
        + apply (cross_mid s l (pt lo) (pt i) (pt mid)); try lia. split; apply Xs; lia.
        + apply (cross_right l s (pt lo) (pt mid) (pt i)); try lia. split; apply Xs; lia.
        + apply (cross_right s l (pt lo) (pt mid) (pt i)); try lia. split; apply Xs; lia.
        + apply (cross_mid l s (pt lo) (pt i) (pt mid)); try lia. split; apply Xs; lia. }
    assert (Fin : forall lo2 t2, (if Bool.eqb el em then lo2 = mid else lo2 = lo) ->
       (forall i k, (i < n)%nat -> key INV <= k ->
          (ub t2 i k <-> ub t1 i k /\ ((lo2 <= i < lo2 + 2 ^ j)%nat -> key (val rest (pt i)) <= k))) ->
       forall i k, (i < n)%nat -> key INV <= k ->
         (ub t2 i k <-> ub t i k /\ ((lo <= i < lo + 2 ^ S j)%nat -> key (val l (pt i)) <= k))).
    { intros lo2 t2 Hlo U2 i k Hi Hk. rewrite U2 by auto.
      assert (Dec : (lo <= i < lo + 2 ^ S j)%nat \/ ~ (lo <= i < lo + 2 ^ S j)%nat) by lia.
      destruct Dec as [Hin|Hin].
      - assert (Dec2 : (lo2 <= i < lo2 + 2 ^ j)%nat \/ ~ (lo2 <= i < lo2 + 2 ^ j)%nat) by lia.
        destruct Dec2 as [H2|H2].
        + rewrite U0, U1 by auto. specialize (Two i k). tauto.
        + rewrite Dom; auto; [|apply Dm; auto; destruct (Bool.eqb el em); lia]. tauto.
      - rewrite Uo by auto. assert (~ (lo2 <= i < lo2 + 2 ^ j)%nat) by (destruct (Bool.eqb el em); lia). tauto. }
    destruct (Bool.eqb el em) eqn:Eq.
    + destruct (IH j (u * 2 + 1)%nat mid rest t1) as (t2 & E2 & S2 & U2); auto.
      * rewrite Em. lia.
      * apply (lsafe_sub rest lo (2 ^ S j)); auto; lia.
      * lia.
      * exists t2. split; [replace (lo + 2 ^ S j)%nat with (mid + 2 ^ j)%nat by lia; exact E2|]. split; [auto|].
        apply (Fin mid); auto.
    + destruct (IH j (u * 2)%nat lo rest t1) as (t2 & E2 & S2 & U2); auto.
      * lia.
      * apply (lsafe_sub rest lo (2 ^ S j)); auto; lia.
      * lia.
      * exists t2. split; [rewrite Em; exact E2|]. split; [auto|].
        apply (Fin lo); auto.
Qed.

(** ** Insertion over a range of indices *)
Notation mk seg := (mk_lct n N X seg).
Lemma add_line_ok t a b : safe t -> lsafe (a, b) 0 N ->
  exists t', add_line w mx (mk t) a b = Some (mk t') /\ safe t' /\
    forall i k, (i < n)%nat -> key INV <= k -> (ub t' i k <-> ub t i k /\ key (a * pt i + b) <= k).
Proof.
  intros St Sl. unfold add_line, put_line. cbn [lc_N lc_n lc_X lc_seg].
  destruct (add_rec_ok (N + 1) K 1 0 (a, b) t) as (t' & E & S' & U); auto.
  - split; [lia|]. rewrite Nat.sub_diag. cbn. lia.
  - lia.
  - pose proof (Nat.pow_gt_lin_r 2 K). lia.
  - rewrite Nat.add_0_l in E. rewrite E. cbn [obind]. exists t'. split; [reflexivity|]. split; [auto|].
    intros i k Hi Hk. rewrite U by auto. unfold val. cbn [fst snd]. assert (0 <= i < 0 + N)%nat by lia. tauto.
Qed.

Lemma add_seg_ok t a b l r : safe t -> (l <= r <= n)%nat -> lsafe (a, b) l (r - l) ->
  exists t', add_segment_idx w mx (mk t) a b l r = Some (mk t') /\ safe t' /\
    forall i k, (i < n)%nat -> key INV <= k -> (ub t' i k <-> ub t i k /\ ((l <= i < r)%nat -> key (a * pt i + b) <= k)).
Proof.
  intros St Hlr Sl. unfold add_segment_idx, put_line. cbn [lc_N lc_n lc_X lc_seg].
  match goal with |- context [loop _ ?bd _] => set (body := bd) end.
  pose proof (p2 K) as PK.
  destruct (@loop_rule _ _
    (fun '(u, v, L, R, range, seg) => exists j,
        range = (2 ^ j)%nat /\ (u * 2 ^ j = L + N)%nat /\ (v * 2 ^ j = R + N)%nat /\ (l <= L <= R)%nat /\ (R <= r)%nat /\
        (j <= K \/ u = v)%nat /\ safe seg /\
        forall i k, (i < n)%nat -> key INV <= k ->
          (ub seg i k <-> ub t i k /\ ((l <= i < L \/ R <= i < r)%nat -> key (a * pt i + b) <= k)))
    (fun '(u, v, L, R, range, seg) => v)
    (fun '(L, R, seg) => L = R /\ (l <= L <= r)%nat /\ safe seg /\
        forall i k, (i < n)%nat -> key INV <= k -> (ub seg i k <-> ub t i k /\ ((l <= i < r)%nat -> key (a * pt i + b) <= k))) body)
    with (fuel := (r + N + 2)%nat) (s := ((l + N)%nat, (r + N)%nat, l, r, 1%nat, t)) as ([[L R] seg] & E & EL & HL & S' & U').
  - intros [[[[[u v] L] R] range] seg] (j & -> & Eu & Ev & HL & HR & Hj & Ss & U). unfold body.
    pose proof (p2 j) as Pj.
    destruct (Nat.ltb_spec u v) as [C|C].
    2:{ eexists; split; [reflexivity|]. cbn beta iota. assert (L = R) by nia. subst R. split; [auto|]. split; [lia|]. split; [auto|].
        intros i k Hi Hk. rewrite U by auto. intuition; apply H0; lia. }
    destruct Hj as [Hj|Hj]; [|lia].
    assert (EN : N = (2 ^ (K - j) * 2 ^ j)%nat) by (rewrite <- Nat.pow_add_r; f_equal; lia).
    assert (Lv : forall x, (u <= x < v)%nat -> level j x).
    { intros x Hx. split; auto. nia. }
    (* left end *)
    assert (exists u1 L1 seg1, (if Nat.odd u then
          let* seg := add_line_rec w mx (N + 1) n X (a, b) u L (L + 2 ^ j) seg in Some ((u + 1)%nat, (L + 2 ^ j)%nat, seg)
        else Some (u, L, seg)) = Some (u1, L1, seg1) /\ Nat.odd u1 = false /\ (u1 * 2 ^ j = L1 + N)%nat /\ (l <= L1 <= R)%nat /\ (u1 <= v)%nat /\ (u <= u1)%nat /\ safe seg1 /\
        forall i k, (i < n)%nat -> key INV <= k ->
          (ub seg1 i k <-> ub t i k /\ ((l <= i < L1 \/ R <= i < r)%nat -> key (a * pt i + b) <= k)))
      as (u1 & L1 & seg1 & -> & O1 & Eu1 & HL1 & C1 & Cu & S1 & U1).
    { destruct (Nat.odd u) eqn:Od.
      - destruct (add_rec_ok (N + 1) j u L (a, b) seg) as (seg1 & -> & S1 & U1); [apply Lv; lia|lia|auto| | |].
        + apply (lsafe_sub (a, b) l (r - l)); auto; [lia|]. nia.
        + pose proof (Nat.pow_gt_lin_r 2 K). lia.
        + cbn [obind]. exists (u + 1)%nat, (L + 2 ^ j)%nat, seg1. split; [auto|]. split; [now rewrite Nat.odd_add, Od|].
          split; [nia|]. split; [nia|]. split; [lia|]. split; [lia|]. split; [auto|].
          intros i k Hi Hk. rewrite U1, U by auto. unfold val. cbn [fst snd].
          assert (L + 2 ^ j <= R)%nat by nia. intuition.
      - exists u, L, seg. split; [auto|]. split; [auto|]. split; [auto|]. split; [lia|]. split; [lia|]. split; [lia|]. auto. }
    cbn [obind].
    assert (exists v1 R1 seg2, (if Nat.odd v then
          let* seg := add_line_rec w mx (N + 1) n X (a, b) (v - 1) (R - 2 ^ j) (R - 2 ^ j + 2 ^ j) seg1 in Some ((v - 1)%nat, (R - 2 ^ j)%nat, seg)
        else Some (v, R, seg1)) = Some (v1, R1, seg2) /\ Nat.odd v1 = false /\ (v1 * 2 ^ j = R1 + N)%nat /\ (L1 <= R1 <= R)%nat /\ (u1 <= v1 <= v)%nat /\ safe seg2 /\
        forall i k, (i < n)%nat -> key INV <= k ->
          (ub seg2 i k <-> ub t i k /\ ((l <= i < L1 \/ R1 <= i < r)%nat -> key (a * pt i + b) <= k)))
      as (v1 & R1 & seg2 & -> & O2 & Ev1 & HR1 & C2 & S2 & U2).
    { destruct (Nat.odd v) eqn:Od.
      - assert (u1 <> v) by congruence. assert (u1 <= v - 1)%nat by lia.
        assert (HR2 : (L1 + 2 ^ j <= R)%nat) by nia.
        destruct (add_rec_ok (N + 1) j (v - 1) (R - 2 ^ j) (a, b) seg1) as (seg2 & -> & S2 & U2); [apply Lv; lia|nia|auto| | |].
        + apply (lsafe_sub (a, b) l (r - l)); auto; [lia|]. lia.
        + pose proof (Nat.pow_gt_lin_r 2 K). lia.
        + cbn [obind]. exists (v - 1)%nat, (R - 2 ^ j)%nat, seg2. split; [auto|].
          split. { destruct v as [|v']; [lia|]. cbn [Nat.sub]. rewrite Nat.sub_0_r. rewrite Nat.odd_succ in Od. rewrite <- Nat.negb_even, Od. reflexivity. }
          split; [nia|]. split; [lia|]. split; [lia|]. split; [auto|].
          intros i k Hi Hk. rewrite U2, U1 by auto. unfold val. cbn [fst snd]. intuition.
      - exists v, R, seg1. split; [auto|]. split; [auto|]. split; [auto|]. split; [lia|]. split; [lia|]. auto. }
    cbn [obind]. eexists; split; [reflexivity|]. cbn beta iota.
    assert (Hf : forall x, Nat.odd x = false -> x = (2 * (x / 2))%nat).
    { intros x Hx. rewrite <- Nat.negb_even in Hx. apply negb_false_iff, Nat.even_spec in Hx as [y ->].
      rewrite (Nat.mul_comm 2 y), Nat.div_mul by lia. lia. }
    pose proof (Hf u1 O1) as Hu. pose proof (Hf v1 O2) as Hv. set (u2 := (u1 / 2)%nat) in *. set (v2 := (v1 / 2)%nat) in *. clearbody u2 v2.
    split.
    + exists (S j). cbn [Nat.pow]. split; [lia|]. split; [nia|]. split; [nia|]. split; [lia|]. split; [lia|].
      split; [|split; auto].
      destruct (le_lt_dec (S j) K) as [|G]; [now left|right]. assert (j = K) as -> by lia. rewrite Nat.sub_diag in *. nia.
    + lia.
  - exists 0%nat. rewrite Nat.pow_0_r. split; [lia|]. split; [lia|]. split; [lia|]. split; [lia|]. split; [lia|]. split; [lia|]. split; [auto|].
    intros i k Hi Hk. intuition lia.
  - lia.
  - rewrite E. cbn [obind]. subst R. rewrite Nat.eqb_refl. cbn [guard obind]. exists seg. split; [reflexivity|]. auto.
Qed.

Lemma get_idx_ok t i : safe t -> (i < n)%nat ->
  exists v, get_idx w mx (mk t) i = Some v /\ key INV <= key v /\ forall k, key INV <= k -> (key v <= k <-> ub t i k).
Proof.
  intros St Hi. unfold get_idx. cbn [lc_N lc_n lc_X lc_seg]. rewrite get_pt by auto. cbn [obind].
  match goal with |- context [loop _ ?bd _] => set (body := bd) end.
  apply (@loop_rule _ _
    (fun '(u, ret) => exists j, u = ((i + N) / 2 ^ j)%nat /\ (j <= K + 1)%nat /\ key INV <= key ret /\
        forall k, key INV <= k -> (key ret <= k <-> forall j', (j' < j)%nat -> key (val (nth ((i + N) / 2 ^ j') t noline) (pt i)) <= k))
    (fun '(u, ret) => u)
    (fun v => key INV <= key v /\ forall k, key INV <= k -> (key v <= k <-> ub t i k)) body).
  - intros [u ret] (j & -> & Hj & Kr & U). unfold body.
    destruct (Nat.ltb_spec 0 ((i + N) / 2 ^ j)) as [C|C].
    + assert (Hj' : (j <= K)%nat).
      { destruct (le_lt_dec j K); auto. assert (j = K + 1)%nat as -> by lia. exfalso.
        rewrite Nat.div_small in C; [lia|]. rewrite Nat.pow_add_r. change (2 ^ 1)%nat with 2%nat. lia. }
      pose proof (level_anc j i Hj' ltac:(lia)) as Lv. destruct St as [Len Sf]. pose proof (level_lt _ _ Lv).
      set (u := ((i + N) / 2 ^ j)%nat) in *.
      destruct (@get_lt _ t u ltac:(lia)) as (s & Gs). rewrite Gs. cbn [obind].
      assert (Es : nth u t noline = s) by (now apply nth_error_nth).
      assert (Eu : (2 ^ K <= u * 2 ^ j)%nat).
      { destruct Lv as [_ [A _]]. replace N with (2 ^ (K - j) * 2 ^ j)%nat by (rewrite <- Nat.pow_add_r; f_equal; lia). apply Nat.mul_le_mono_r. auto. }
      destruct (Sf j u (u * 2 ^ j - N)%nat Lv ltac:(lia)) as [Ss _]. rewrite Es in Ss.
      destruct (lsafe_eval s _ _ i Ss) as [-> Fv]; auto.
      { apply (inside j u); [lia|reflexivity]. }
      cbn [obind]. eexists; split; [reflexivity|]. cbn beta iota. split.
      * exists (S j). split.
        { unfold u. rewrite Nat.div_div by (pose proof (p2 j); lia). f_equal. cbn. lia. }
        split; [lia|]. rewrite cmp_key. pose proof (key_INV _ Fv).
        split; [destruct (_ <? _); lia|]. intros k Hk.
        assert (Sp : (forall j', (j' < S j)%nat -> key (val (nth ((i + N) / 2 ^ j') t noline) (pt i)) <= k) <->
                 (key ret <= k /\ key (val s (pt i)) <= k)).
        { rewrite (U k Hk). split.
          - intros Q. split; [intros; apply Q; lia|]. specialize (Q j ltac:(lia)). fold u in Q. now rewrite Es in Q.
          - intros [Q1 Q2] j' Hj2. destruct (Nat.eq_dec j' j) as [->|]; [fold u; now rewrite Es|apply Q1; lia]. }
        rewrite Sp. destruct (Z.ltb_spec (key ret) (key (val s (pt i)))); lia.
      * apply Nat.div_lt; lia.
    + eexists; split; [reflexivity|]. cbn beta iota. split; auto. intros k Hk. rewrite (U k Hk).
      assert (j = K + 1)%nat as ->.
      { destruct (le_lt_dec j K) as [L|L]; [|lia]. destruct (level_lt _ _ (level_anc j i L ltac:(lia))). lia. }
      split; intros Q j' Hj2; apply Q; lia.
  - exists 0%nat. rewrite Nat.pow_0_r, Nat.div_1_r. split; [auto|]. split; [lia|]. split; [lia|].
    intros k Hk. split; [|auto]. intros _ j' Hj. lia.
  - lia.
Qed.

Lemma safe_init : safe (repeat noline (N * 2)).
Proof.
  split; [rewrite repeat_length; lia|]. intros j u lo _ _.
  assert (nth u (repeat noline (N * 2)) noline = noline) as -> by apply nth_repeat. split; [now left|auto].
Qed.
Lemma ub_init i k : key INV <= k -> ub (repeat noline (N * 2)) i k.
Proof. intros Hk j Hj. rewrite nth_repeat, val_noline. auto. Qed.

(** ** Programs *)
Lemma lower_bound_ok l x : (forall i j, (i <= j < length l)%nat -> nth i l 0 <= nth j l 0) ->
  (lower_bound l x <= length l)%nat /\
  forall i, (i < length l)%nat -> (nth i l 0 < x <-> (i < lower_bound l x)%nat).
Proof.
  induction l as [|y l IH]; intros S; cbn [lower_bound length]; [split; [lia|intros; lia]|].
  destruct (Z.ltb_spec y x) as [C|C].
  - destruct IH as [B I]. { intros i j H. apply (S (1 + i)%nat (1 + j)%nat). cbn. lia. }
    split; [lia|]. intros [|i] Hi; cbn [nth]; [lia|]. rewrite I by lia. lia.
  - split; [lia|]. intros i Hi. specialize (S 0%nat i ltac:(cbn; lia)). change (nth 0 (y :: l) 0) with y in S. lia.
Qed.

Lemma line_ok_lok a b i : line_ok w mx X a b i -> lok (a, b) i.
Proof. unfold line_ok, lok, val. cbn [fst snd]. rewrite INV_eq. auto. Qed.

Definition covered (past : list op) (i : nat) (k : Z) : Prop :=
  forall o v, In o past -> offer X i o = Some v -> key v <= k.
Lemma key_best x y k : key (best mx x y) <= k <-> key x <= k /\ key y <= k.
Proof. unfold key, best. destruct mx; lia. Qed.
Lemma answer_key past i : key INV <= key (answer w mx X past i) /\
  forall k, key INV <= k -> (key (answer w mx X past i) <= k <-> covered past i k).
Proof.
  unfold answer. rewrite <- INV_eq.
  assert (G : forall past v, key INV <= key v ->
     let r := fold_left (fun v o => match offer X i o with Some y => best mx v y | None => v end) past v in
     key INV <= key r /\ forall k, key r <= k <-> key v <= k /\ covered past i k).
  { clear past. induction past as [|o past IH]; intros v Hv; cbn [fold_left].
    - split; auto. intros k. split; [|tauto]. intros; split; auto. intros o u [].
    - assert (C : forall k, covered (o :: past) i k <-> (forall u, offer X i o = Some u -> key u <= k) /\ covered past i k).
      { intros k. unfold covered. cbn [In]. split.
        - intros Q. split; [intros u Eu; apply (Q o u); auto|intros o' u Ho Eu; apply (Q o' u); auto].
        - intros [Q1 Q2] o' u [<-|Ho] Eu; eauto. }
      destruct (offer X i o) as [y|] eqn:E.
      + destruct (IH (best mx v y)) as [I1 I2]; [unfold key, best in *; destruct mx; lia|]. split; auto. intros k. rewrite I2, key_best, C.
        intuition; inj.
      + destruct (IH v Hv) as [I1 I2]. split; auto. intros k. rewrite I2, C. intuition; inj. }
  destruct (G past INV ltac:(lia)) as [G1 G2]. split; auto. intros k Hk. rewrite G2. intuition.
Qed.
Lemma same_upper v v' : key INV <= key v -> key INV <= key v' ->
  (forall k, key INV <= k -> (key v <= k <-> key v' <= k)) -> v = v'.
Proof.
  intros A B C. apply key_inj. apply Z.le_antisymm; [apply C|apply C]; lia.
Qed.

Definition state_ok (t : list line) (past : list op) : Prop :=
  safe t /\ forall i k, (i < n)%nat -> key INV <= k -> (ub t i k <-> covered past i k).

Lemma covered_snoc past o i k : covered (past ++ [o]) i k <-> covered past i k /\ forall v, offer X i o = Some v -> key v <= k.
Proof.
  unfold covered. split.
  - intros Q. split; [intros o' u Ho Eu; apply (Q o' u); auto; apply in_or_app; now left|intros v Ev; apply (Q o v); auto; apply in_or_app; right; now left].
  - intros [Q1 Q2] o' u Ho Eu. apply in_app_or in Ho as [Ho|[<-|[]]]; eauto.
Qed.

Lemma state_query t past o : (forall i, offer X i o = None) -> state_ok t past -> state_ok t (past ++ [o]).
Proof.
  intros Ho [S U]. split; auto. intros i k Hi Hk. rewrite (U i k Hi Hk), covered_snoc. rewrite Ho. intuition; inj.
Qed.
Lemma get_answer t past i : state_ok t past -> (i < n)%nat -> get_idx w mx (mk t) i = Some (answer w mx X past i).
Proof.
  intros [S U] Hi. destruct (get_idx_ok t i S Hi) as (v & -> & V1 & V2). f_equal.
  destruct (answer_key past i) as [A1 A2]. apply same_upper; auto. intros k Hk. rewrite V2, A2, U by auto. reflexivity.
Qed.

Lemma step_ok t past o : state_ok t past -> op_ok w mx X o ->
  exists r t', step w mx (mk t) o = Some (r, mk t') /\ spec_out w mx X past o r /\ state_ok t' (past ++ [o]).
Proof.
  intros St Ok. pose proof St as [S U]. destruct o; cbn [step op_ok] in *.
  - destruct Ok as [Hb Ok]. destruct (add_line_ok t a b S) as (t' & -> & S' & U').
    { right. cbn [snd]. rewrite INV_eq. split; auto. intros i _ Hi. apply line_ok_lok, Ok. lia. }
    cbn [obind]. exists None, t'. split; [auto|]. split; [constructor|]. split; auto.
    intros i k Hi Hk. rewrite (U' i k Hi Hk), (U i k Hi Hk), covered_snoc. cbn [offer]. intuition; inj.
  - destruct Ok as (Hlr & Hb & Ok). rewrite HX in Hlr. destruct (add_seg_ok t a b l r S Hlr) as (t' & -> & S' & U').
    { right. cbn [snd]. rewrite INV_eq. split; auto. intros i Hi _. apply line_ok_lok, Ok. lia. }
    cbn [obind]. exists None, t'. split; [auto|]. split; [constructor|]. split; auto.
    intros i k Hi Hk. rewrite (U' i k Hi Hk), (U i k Hi Hk), covered_snoc. cbn [offer].
    destruct (Nat.leb_spec l i), (Nat.ltb_spec i r); cbn [andb]; intuition; inj.
  - destruct Ok as (Hx & Hb & Ok). unfold add_segment. destruct (Z.leb_spec xl xr); [|lia]. cbn [guard obind lc_X].
    destruct (lower_bound_ok X xl Srt) as [B1 I1]. set (i1 := lower_bound X xl) in *.
    assert (Hsk : forall q, nth q (skipn i1 X) 0 = pt (i1 + q)).
    { clear. generalize i1. induction X as [|y Y IH]; intros [|m] q; auto; cbn [skipn]; [now destruct q|]. now rewrite IH. }
    destruct (lower_bound_ok (skipn i1 X) xr) as [B2 I2].
    { intros p q Hpq. rewrite !Hsk. rewrite skipn_length in Hpq. apply Srt. lia. }
    set (d := lower_bound (skipn i1 X) xr) in *. rewrite skipn_length in *.
    assert (J : forall i, (i < n)%nat -> ((i1 <= i < i1 + d)%nat <-> xl <= pt i < xr)).
    { intros i Hi. rewrite HX in *. specialize (I1 i Hi). destruct (le_lt_dec i1 i) as [L|L].
      - specialize (I2 (i - i1)%nat ltac:(lia)). rewrite Hsk in I2. replace (i1 + (i - i1))%nat with i in I2 by lia. lia.
      - lia. }
    destruct (add_seg_ok t a b i1 (i1 + d) S) as (t' & -> & S' & U').
    { lia. }
    { right. cbn [snd]. rewrite INV_eq. split; auto. intros i Hi Hn. apply line_ok_lok, Ok; [lia|]. apply J; auto. lia. }
    cbn [obind]. exists None, t'. split; [auto|]. split; [constructor|]. split; auto.
    intros i k Hi Hk. rewrite (U' i k Hi Hk), (U i k Hi Hk), covered_snoc. cbn [offer]. rewrite (J i Hi).
    destruct (Z.leb_spec xl (pt i)), (Z.ltb_spec (pt i) xr); cbn [andb]; intuition; inj.
  - rewrite (get_answer t past i) by (auto; lia). cbn [obind]. eexists _, t. split; [reflexivity|]. split; [constructor|].
    apply state_query; auto.
  - destruct Ok as (y & Hy & Lx). unfold lc_get. cbn [lc_X].
    destruct (lower_bound_ok X x Srt) as [B1 I1]. set (i1 := lower_bound X x) in *.
    assert (Li : (i1 < n)%nat).
    { apply (In_nth X y 0) in Hy as (j & Hj & Ej). specialize (I1 j Hj). lia. }
    rewrite HX. destruct (Nat.ltb_spec i1 n); [|lia]. cbn [guard obind]. rewrite (get_answer t past i1) by auto. cbn [obind].
    eexists _, t. split; [reflexivity|]. split; [|apply state_query; auto].
    apply SGet. split; [lia|]. split.
    + specialize (I1 i1 ltac:(lia)). lia.
    + intros j Hj. apply I1; lia.
Qed.

Lemma run_ok ops : forall t past, state_ok t past -> Forall (op_ok w mx X) ops ->
  exists rs, run w mx (mk t) ops = Some rs /\ spec_run w mx X past ops rs.
Proof.
  induction ops as [|o ops IH]; intros t past St Ok; cbn [run].
  - exists []. split; [auto|constructor].
  - inversion Ok as [|? ? O1 O2]; subst. destruct (step_ok t past o St O1) as (r & t' & -> & Sp & St'). cbn [obind].
    destruct (IH t' (past ++ [o]) St' O2) as (rs & -> & Sr). cbn [obind]. exists (r :: rs). split; [auto|]. constructor; auto.
Qed.
Lemma start_ok : state_ok (repeat noline (N * 2)) [].
Proof.
  split; [apply safe_init|]. intros i k Hi Hk. split; [intros _ o v []|intros _; now apply ub_init].
Qed.
End LiChao.

Lemma build_ok w mx c : init_ok c -> (0 < length (points c))%nat ->
  exists K, (length (points c) <= 2 ^ K)%nat /\
    build w mx c = Some (mk_lct (length (points c)) (2 ^ K) (points c) (repeat (0, INV w mx) (2 ^ K * 2))).
Proof.
  intros Ok L.
  assert (Hn : forall n, (0 < n)%nat -> (n <= 2 ^ Nat.log2_up n)%nat).
  { intros n Hn. destruct (Nat.eq_dec n 1) as [->|]; [cbn; lia|]. apply Nat.log2_up_spec. lia. }
  destruct c as [n sets|xs]; cbn [points build init_ok] in *.
  - assert (G : forall sets (X : list Z) (N : nat) seg, (forall i x, In (i, x) sets -> (i < length X)%nat) ->
      let X' := fold_left (fun X '(i, x) => lset X i x) sets X in
      length X' = length X /\
      for_each sets (fun '(i, x) t => lc_set_x t i x) (mk_lct n N X seg) = Some (mk_lct n N X' seg)).
    { clear. induction sets as [|[i x] sets IH]; intros X N seg H; cbn [fold_left for_each]; [auto|].
      unfold lc_set_x at 1. cbn [lc_X lc_n lc_N lc_seg]. rewrite set_some by (apply (H i x); now left). cbn [obind].
      destruct (IH (lset X i x) N seg) as [I1 I2].
      - intros i' x' Hi. rewrite lset_length. apply (H i' x'). now right.
      - rewrite lset_length in I1. auto. }
    unfold lc_make.
    set (N := (if n =? 0 then 0 else 2 ^ Nat.log2_up n)%nat).
    destruct (G sets (map Z.of_nat (seq 0 n)) N (repeat (0, INV w mx) (N * 2))) as [G1 G2].
    { intros i x Hi. rewrite map_length, seq_length. eauto. }
    rewrite G1, map_length, seq_length in *. exists (Nat.log2_up n). split; [now apply Hn|]. rewrite G2. unfold N.
    destruct (Nat.eqb_spec n 0); [lia|]. reflexivity.
  - exists (Nat.log2_up (length xs)). split; [now apply Hn|]. unfold lc_range, lc_make. cbn [lc_n lc_N lc_seg].
    destruct (Nat.eqb_spec (length xs) 0); [lia|]. reflexivity.
Qed.
