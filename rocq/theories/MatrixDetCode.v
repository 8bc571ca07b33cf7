From Coq Require Import Lia Ring_theory Ring.
From Verif Require Import Base BaseLemmas NthExtra RSum BitConvProof MatrixModel MatrixProof MatrixDet.

Section Ops.
Variable T : Type.
Variables (zero : T).
Notation ent := (ent zero).
Lemma swap_ok R C (m : list (list T)) i j : dims R C m -> i < R -> j < R ->
  exists m', swap_rows m i j = Some m' /\ dims R C m' /\ forall a b, ent m' a b = ent m (if a =? i then j else if a =? j then i else a) b.
Proof.
  intros [L F] Hi Hj. unfold swap_rows. rewrite (get_nth m i []) by lia. cbn [obind]. rewrite (get_nth m j []) by lia. cbn [obind].
  rewrite set_some by lia. cbn [obind]. rewrite set_some by (rewrite lset_length; lia). eexists. split; [reflexivity|]. split; [split; [now rewrite !lset_length|]|].
  - apply Forall_forall. intros r Hr. apply (In_nth _ _ []) in Hr as (k & Hk & <-). rewrite !lset_length in Hk. rewrite Forall_forall in F.
    rewrite !nth_lset, lset_length. destruct ((j =? k) && (j <? length m)); [apply F, nth_In; lia|]. destruct ((i =? k) && (i <? length m)); apply F, nth_In; lia.
  - intros a b. unfold MatrixModel.ent. rewrite !nth_lset, lset_length. destruct (Nat.ltb_spec i (length m)), (Nat.ltb_spec j (length m)); try lia. rewrite !andb_true_r.
    rewrite (Nat.eqb_sym j a), (Nat.eqb_sym i a). destruct (Nat.eqb_spec a j), (Nat.eqb_spec a i); subst; reflexivity.
Qed.
Variables (sub mul : T -> T -> T).
Lemma row_sub_ok R C w lo j r c (m : list (list T)) : dims R C m -> j < R -> r < R -> j <> r -> w <= C ->
  exists m', for_up (w - lo) lo (fun k m => let* x := get2 m j k in let* y := get2 m r k in set2 m j k (sub x (mul c y))) m = Some m' /\ dims R C m' /\
    forall a b, ent m' a b = if (a =? j) && (lo <=? b) && (b <? w) then sub (ent m a b) (mul c (ent m r b)) else ent m a b.
Proof.
  intros D Hj Hr N Hw.
  destruct (@for_up_rule _ (fun k0 m' => dims R C m' /\ forall a b, ent m' a b = if (a =? j) && (lo <=? b) && (b <? k0) then sub (ent m a b) (mul c (ent m r b)) else ent m a b)
    (fun k m => let* x := get2 m j k in let* y := get2 m r k in set2 m j k (sub x (mul c y))) (w - lo) lo m) as (m' & E & D' & V).
  - split; auto. intros a b. destruct (a =? j), (Nat.leb_spec lo b), (Nat.ltb_spec b lo); cbn [andb]; try lia; reflexivity.
  - intros k0 m1 Hk (D1 & V1). rewrite !(get2_ent T zero R C) by (auto; lia). cbn [obind].
    edestruct (set2_ent T zero R C m1 j k0) as (m2 & E2 & D2 & V2); auto; [lia|]. rewrite E2. exists m2. split; [reflexivity|]. split; [auto|].
    intros a b. rewrite V2, (Nat.eqb_sym j a), (Nat.eqb_sym k0 b). destruct (Nat.eqb_spec a j) as [->|Na]; cbn [andb].
    + destruct (Nat.eqb_spec b k0) as [->|Nb].
      * rewrite !V1, Nat.eqb_refl. destruct (Nat.eqb_spec r j); [lia|]. cbn [andb]. destruct (Nat.leb_spec lo k0), (Nat.ltb_spec k0 k0), (Nat.ltb_spec k0 (S k0)); cbn [andb]; try lia; reflexivity.
      * rewrite V1, Nat.eqb_refl. cbn [andb]. destruct (Nat.leb_spec lo b), (Nat.ltb_spec b k0), (Nat.ltb_spec b (S k0)); cbn [andb]; try lia; reflexivity.
    + rewrite V1. destruct (Nat.eqb_spec a j); [lia|]. reflexivity.
  - exists m'. split; [exact E|]. split; [auto|]. intros a b. rewrite V. destruct (a =? j), (Nat.leb_spec lo b), (Nat.ltb_spec b (lo + (w - lo))), (Nat.ltb_spec b w); cbn [andb]; try lia; reflexivity.
Qed.
End Ops.

Section Code.
Variable T : Type.
Variables (zero one : T) (add mul sub : T -> T -> T) (opp : T -> T).
Hypothesis RT : ring_theory zero one add mul sub opp eq.
Variables (div : T -> T -> T) (eqb : T -> T -> bool).
Hypothesis eqb_ok : forall x y, eqb x y = true <-> x = y.
Hypothesis div_ok : forall x, x <> zero -> mul (div one x) x = one.
Add Ring Tring : RT.
Notation ent := (ent zero).
Notation D := (laplace zero one add mul opp).

Lemma recip_ok x : x <> zero -> recip zero one div eqb x = Some (div one x).
Proof.
  intros H. unfold recip. destruct (eqb x zero) eqn:E; [apply eqb_ok in E; easy|]. reflexivity.
Qed.
Lemma pivot_ok R C n x i : n <= R -> n <= C -> dims R C x -> i < n ->
  exists p, det_pivot zero eqb x n i = Some p /\ i <= p <= n /\ (forall a, i <= a < p -> ent x a i = zero) /\ (p < n -> ent x p i <> zero).
Proof.
  intros HR HC Dx Hi. unfold det_pivot. match goal with |- context [loop _ ?bd _] => set (body := bd) end.
  assert (G : forall f p, n - p < f -> i <= p <= n -> (forall a, i <= a < p -> ent x a i = zero) ->
    exists q, loop f body p = Some q /\ i <= q <= n /\ (forall a, i <= a < q -> ent x a i = zero) /\ (q < n -> ent x q i <> zero)).
  { induction f as [|f IH]; intros p Hf Hp H; [lia|]. cbn [loop]. unfold body at 1. destruct (Nat.ltb_spec p n) as [Hl|Hl].
    - rewrite (get2_ent T zero R C) by (auto; lia). cbn [obind]. destruct (eqb (ent x p i) zero) eqn:E.
      + apply IH; try lia. intros a Ha. destruct (Nat.eq_dec a p); [subst; now apply eqb_ok|]. apply H. lia.
      + exists p. split; [reflexivity|]. split; [auto|]. split; [auto|]. intros _ Z. apply eqb_ok in Z. congruence.
    - exists p. split; [reflexivity|]. split; [auto|]. split; [auto|lia]. }
  apply G; try lia.
Qed.
Fixpoint prd (f : nat -> T) (n : nat) : T := match n with 0 => one | S n => mul (prd f n) (f n) end.
Lemma prd_ext f g n : (forall i, i < n -> f i = g i) -> prd f n = prd g n.
Proof. induction n as [|n IH]; intros H; auto. cbn [prd]. rewrite IH, H; auto. Qed.

Lemma det_ok R C n a : n <= R -> n <= C -> dims R C a -> m_det zero one sub mul opp div eqb n a = Some (D n (ent a)).
Proof.
  intros HR HC Da. unfold m_det. match goal with |- context [loop _ ?bd _] => set (body := bd) end.
  assert (G : forall f i ret x, n - i < f -> i <= n -> dims R C x ->
     D n (ent a) = mul (mul ret (prd (fun t => ent x t t) i)) (D (n - i) (fun p q => ent x (i + p) (i + q))) ->
     exists r, loop f body (i, ret, x) = Some r /\
       match r with inl _ => D n (ent a) = zero | inr (ret, x) => dims R C x /\ D n (ent a) = mul ret (prd (fun t => ent x t t) n) end).
  { clear Da. induction f as [|f IH]; intros i ret x Hf Hi Dx HD; [lia|]. cbn [loop]. unfold body at 1. destruct (Nat.ltb_spec i n) as [Hl|Hl].
    2: { assert (i = n) by lia. subst i. exists (inr (ret, x)). split; [reflexivity|]. split; [auto|]. rewrite HD, Nat.sub_diag. cbn [laplace]. ring. }
    destruct (pivot_ok R C n x i HR HC Dx Hl) as (p & Ep & Hp & Z & NZ). rewrite Ep. cbn [obind]. destruct (Nat.eqb_spec p n) as [->|Np].
    - exists (inl tt). split; [reflexivity|]. rewrite HD. replace (n - i) with (S (n - i - 1)) by lia.
      rewrite (lap_zero T zero one add mul sub opp RT); [ring|]. intros b Hb. rewrite Nat.add_0_r. apply Z. lia.
    - assert (Hs : exists x1 ret1, (if p =? i then Some (x, ret) else let* x := swap_rows x p i in Some (x, opp ret)) = Some (x1, ret1) /\ dims R C x1 /\ ent x1 i i <> zero /\
        D n (ent a) = mul (mul ret1 (prd (fun t => ent x1 t t) i)) (D (n - i) (fun p q => ent x1 (i + p) (i + q)))).
      { destruct (Nat.eqb_spec p i) as [->|Npi].
        - exists x, ret. split; [reflexivity|]. split; [auto|]. split; [apply NZ; lia|auto].
        - destruct (swap_ok T zero R C x p i) as (x1 & E1 & D1 & V1); auto; try lia. rewrite E1. exists x1, (opp ret). split; [reflexivity|]. split; [auto|]. split.
          + rewrite V1, Nat.eqb_refl. destruct (Nat.eqb_spec i p); [lia|]. apply NZ. lia.
          + rewrite (prd_ext _ (fun t => ent x t t)).
            2: { intros t Ht. rewrite V1. destruct (Nat.eqb_spec t p), (Nat.eqb_spec t i); try lia. reflexivity. }
            rewrite (lap_ext T zero one add mul opp (n - i) (fun p q => ent x1 (i + p) (i + q)) (swp T (p - i) 0 (fun p q => ent x (i + p) (i + q)))).
            2: { intros b c Hb Hc. rewrite V1. unfold swp. destruct (Nat.eqb_spec (i + b) p), (Nat.eqb_spec b (p - i)); try lia; [f_equal; lia|].
                 destruct (Nat.eqb_spec (i + b) i), (Nat.eqb_spec b 0); try lia; f_equal; lia. }
            rewrite (lap_swap T zero one add mul sub opp RT) by lia. rewrite HD. ring. }
      destruct Hs as (x1 & ret1 & Es & D1 & N1 & HD1). rewrite Es. cbn [obind]. clear Es HD Z NZ Ep Dx.
      rewrite (get2_ent T zero R C) by (auto; lia). cbn [obind]. rewrite recip_ok by auto. cbn [obind].
      set (iv := div one (ent x1 i i)). assert (Hiv : mul iv (ent x1 i i) = one) by now apply div_ok.
      destruct (@for_up_rule _ (fun j0 x2 => dims R C x2 /\ forall b c, b < n -> c < n -> ent x2 b c = if (i <? b) && (b <? j0) && (i <? c) then sub (ent x1 b c) (mul (mul (ent x1 b i) iv) (ent x1 i c)) else ent x1 b c)
        (fun j x => let* xji := get2 x j i in let factor := mul xji iv in
          for_up (n - (i + 1)) (i + 1) (fun k x => let* xjk := get2 x j k in let* xik := get2 x i k in set2 x j k (sub xjk (mul factor xik))) x) (n - (i + 1)) (i + 1) x1) as (x2 & E2 & D2 & V2).
      + split; auto. intros b c _ _. destruct (Nat.ltb_spec i b), (Nat.ltb_spec b (i + 1)); cbn [andb]; try lia; reflexivity.
      + intros j0 x2 Hj (D2 & V2). rewrite (get2_ent T zero R C) by (auto; lia). cbn [obind].
        destruct (row_sub_ok T zero sub mul R C n (i + 1) j0 i (mul (ent x2 j0 i) iv) x2) as (x3 & E3 & D3 & V3); auto; try lia.
        exists x3. split; [exact E3|]. split; [auto|]. intros b c Hb Hc. rewrite V3. destruct (Nat.eqb_spec b j0) as [->|Nb]; cbn [andb].
        * rewrite !V2 by (auto; lia). destruct (Nat.ltb_spec i j0), (Nat.ltb_spec j0 j0), (Nat.ltb_spec j0 (S j0)), (Nat.ltb_spec i c), (Nat.leb_spec (i + 1) c), (Nat.ltb_spec c n), (Nat.ltb_spec i i); cbn [andb]; try lia; reflexivity.
        * rewrite V2 by auto. destruct (Nat.ltb_spec i b), (Nat.ltb_spec b j0), (Nat.ltb_spec b (S j0)); cbn [andb]; try lia; reflexivity.
      + cbv zeta in E2. rewrite E2. cbn [obind]. apply IH; auto; try lia. rewrite HD1. rewrite Nat.add_1_r. cbn [prd].
        rewrite (prd_ext (fun t => ent x2 t t) (fun t => ent x1 t t)).
        2: { intros t Ht. rewrite V2 by lia. destruct (Nat.ltb_spec i t); [lia|]. reflexivity. }
        replace (n - i) with (S (n - S i)) by lia. rewrite (lap_elim T zero one add mul sub opp RT _ _ (fun b => mul (ent x1 (i + b) i) iv)).
        2: { intros b Hb. rewrite !Nat.add_0_r. transitivity (mul (ent x1 (i + b) i) (mul iv (ent x1 i i))); [rewrite Hiv; ring|ring]. }
        rewrite !Nat.add_0_r. rewrite (V2 i i) by lia. destruct (Nat.ltb_spec i i); [lia|]. cbn [andb].
        rewrite (lap_ext T zero one add mul opp (n - S i) (fun p0 q => ent x2 (S i + p0) (S i + q)) (fun b c => sub (ent x1 (i + S b) (i + S c)) (mul (mul (ent x1 (i + S b) i) iv) (ent x1 i (i + S c))))).
        2: { intros b c Hb Hc. replace (S i + b) with (i + S b) by lia. replace (S i + c) with (i + S c) by lia. rewrite V2 by lia.
             destruct (Nat.ltb_spec i (i + S b)), (Nat.ltb_spec (i + S b) (i + 1 + (n - (i + 1)))), (Nat.ltb_spec i (i + S c)); cbn [andb]; try lia. reflexivity. }
        ring. }
  destruct (G (n + 1) 0 one a) as (r & Er & P); auto; try lia.
  { cbn [prd Nat.add]. rewrite Nat.sub_0_r. change (fun p q : nat => ent a p q) with (ent a). ring. }
  rewrite Er. cbn [obind]. destruct r as [u|[ret x]]; [now rewrite P|]. destruct P as [Dx ->].
  destruct (@for_up_rule _ (fun i r => r = mul ret (prd (fun t => ent x t t) i)) (fun i ret => let* y := get2 x i i in Some (mul ret y)) n 0 ret) as (r & E & V).
  - cbn [prd]. ring.
  - intros i r Hi ->. rewrite (get2_ent T zero R C) by (auto; lia). eexists. split; [reflexivity|]. cbn [prd]. ring.
  - rewrite E, V. reflexivity.
Qed.
End Code.
