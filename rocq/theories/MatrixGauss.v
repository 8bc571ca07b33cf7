From Coq Require Import Lia Ring_theory Ring.
From Verif Require Import Base BaseLemmas NthExtra RSum BitConvProof MatrixModel MatrixProof MatrixDet MatrixDetCode.

Section Gauss.
Variable T : Type.
Variables (zero one : T) (add mul sub : T -> T -> T) (opp : T -> T).
Hypothesis RT : ring_theory zero one add mul sub opp eq.
Variables (div : T -> T -> T) (eqb : T -> T -> bool).
Hypothesis eqb_ok : forall x y, eqb x y = true <-> x = y.
Hypothesis div_ok : forall x, x <> zero -> mul (div one x) x = one.
Add Ring Tring : RT.
Let SR := SRT T zero one add mul sub opp RT.
Notation sum := (sum T zero add).
Notation ent := (ent zero).
Notation app := (row_apply zero add mul).
Notation echelon := (echelon zero one).
Notation in_kernel := (in_kernel zero add mul).
Notation kernel_basis := (kernel_basis zero add mul).

Lemma app_sum w f y r : app w f y r = sum (seq 0 w) (fun j => mul (f r j) (y j)).
Proof. reflexivity. Qed.

Lemma gpivot_ok R C row rank i x : row <= R -> i < C -> rank <= row -> dims R C x ->
  exists p, gauss_pivot zero eqb x row rank i = Some p /\ rank <= p <= row /\ (forall a, rank <= a < p -> ent x a i = zero) /\ (p < row -> ent x p i <> zero).
Proof.
  intros HR HC Hr Dx. unfold gauss_pivot. match goal with |- context [loop _ ?bd _] => set (body := bd) end.
  assert (G : forall f p, row - p < f -> rank <= p <= row -> (forall a, rank <= a < p -> ent x a i = zero) ->
    exists q, loop f body p = Some q /\ rank <= q <= row /\ (forall a, rank <= a < q -> ent x a i = zero) /\ (q < row -> ent x q i <> zero)).
  { induction f as [|f IH]; intros p Hf Hp H; [lia|]. cbn [loop]. unfold body at 1. destruct (Nat.ltb_spec p row) as [Hl|Hl].
    - rewrite (get2_ent T zero R C) by (auto; lia). cbn [obind]. destruct (eqb (ent x p i) zero) eqn:E; cbn [negb].
      + apply IH; try lia. intros a Ha. destruct (Nat.eq_dec a p); [subst; now apply eqb_ok|]. apply H. lia.
      + exists p. split; [reflexivity|]. split; [auto|]. split; [auto|]. intros _ Z. apply eqb_ok in Z. congruence.
    - exists row. split; [reflexivity|]. split; [lia|]. split; [intros; apply H; lia|lia]. }
  apply G; try lia.
Qed.

(** The entries after one pivot step. *)
Definition step_entry (f : nat -> nat -> T) row w rank i (iv : T) (a b : nat) : T :=
  if (row <=? a) || (b <? i) || (w <=? b) then f a b
  else if a =? rank then (if b =? i then one else mul (f rank b) iv)
  else if b =? i then zero else sub (f a b) (mul (f a i) (mul (f rank b) iv)).
Lemma gcolumn_ok R C row w rank i m : row <= R -> w <= C -> rank < row -> i < w -> dims R C m -> ent m rank i <> zero ->
  exists m', gauss_column zero one sub mul div eqb m row w rank i = Some m' /\ dims R C m' /\
    forall a b, ent m' a b = step_entry (ent m) row w rank i (div one (ent m rank i)) a b.
Proof.
  intros HR HC Hr Hi D NZ. unfold gauss_column. rewrite (get2_ent T zero R C) by (auto; lia). cbn [obind].
  rewrite (recip_ok T zero one div eqb eqb_ok) by auto. cbn [obind]. set (iv := div one (ent m rank i)).
  destruct (set2_ent T zero R C m rank i one) as (m1 & E1 & D1 & V1); auto; try lia. rewrite E1. cbn [obind].
  destruct (@for_up_rule _ (fun j0 m2 => dims R C m2 /\ forall a b, ent m2 a b = if (a =? rank) && (i <? b) && (b <? j0) then mul (ent m1 a b) iv else ent m1 a b)
    (fun j m => let* x := get2 m rank j in set2 m rank j (mul x iv)) (w - (i + 1)) (i + 1) m1) as (m2 & E2 & D2 & V2).
  { split; auto. intros a b. destruct (a =? rank), (Nat.ltb_spec i b), (Nat.ltb_spec b (i + 1)); cbn [andb]; try lia; reflexivity. }
  { intros j0 m2 Hj (D2 & V2). rewrite (get2_ent T zero R C) by (auto; lia). cbn [obind].
    edestruct (set2_ent T zero R C m2 rank j0) as (m3 & E3 & D3 & V3); auto; try lia. rewrite E3. exists m3. split; [reflexivity|]. split; [auto|].
    intros a b. rewrite V3, (Nat.eqb_sym rank a), (Nat.eqb_sym j0 b). destruct (Nat.eqb_spec a rank) as [->|Na]; cbn [andb].
    - destruct (Nat.eqb_spec b j0) as [->|Nb]; rewrite V2, Nat.eqb_refl; cbn [andb].
      + destruct (Nat.ltb_spec i j0), (Nat.ltb_spec j0 j0), (Nat.ltb_spec j0 (S j0)); cbn [andb]; try lia; reflexivity.
      + destruct (Nat.ltb_spec i b), (Nat.ltb_spec b j0), (Nat.ltb_spec b (S j0)); cbn [andb]; try lia; reflexivity.
    - rewrite V2. destruct (Nat.eqb_spec a rank); [lia|]. reflexivity. }
  rewrite E2. cbn [obind].
  match goal with |- context [for_up _ _ ?bd _] => set (body := bd) end.
  destruct (@for_up_rule _ (fun j0 m3 => dims R C m3 /\ forall a b, ent m3 a b =
      if (a <? j0) && negb (a =? rank) then (if b =? i then zero else if (i <? b) && (b <? w) then sub (ent m2 a b) (mul (ent m2 a i) (ent m2 rank b)) else ent m2 a b) else ent m2 a b)
    body row 0 m2) as (m3 & E3 & D3 & V3).
  { split; auto. }
  { intros j0 m3 Hj (D3 & V3). unfold body. destruct (Nat.eqb_spec j0 rank) as [->|Nj].
    - exists m3. split; [reflexivity|]. split; [auto|]. intros a b. rewrite V3. destruct (Nat.ltb_spec a rank), (Nat.ltb_spec a (S rank)), (Nat.eqb_spec a rank); cbn [andb negb]; try lia; reflexivity.
    - rewrite (get2_ent T zero R C) by (auto; lia). cbn [obind].
      destruct (set2_ent T zero R C m3 j0 i zero) as (m4 & E4 & D4 & V4); auto; try lia. rewrite E4. cbn [obind].
      destruct (row_sub_ok T zero sub mul R C w (i + 1) j0 rank (ent m3 j0 i) m4) as (m5 & E5 & D5 & V5); auto; try lia. rewrite E5.
      exists m5. split; [reflexivity|]. split; [auto|]. intros a b. rewrite V5, !V4, !V3, (Nat.eqb_sym j0 a), (Nat.eqb_sym i b).
      destruct (Nat.eqb_spec j0 rank); [lia|]. destruct (Nat.eqb_spec rank rank); [|lia].
      destruct (Nat.eqb_spec a j0) as [->|Na]; cbn [andb negb].
      + destruct (Nat.ltb_spec j0 j0), (Nat.ltb_spec j0 (S j0)), (Nat.eqb_spec j0 rank), (Nat.eqb_spec b i), (Nat.leb_spec (i + 1) b), (Nat.ltb_spec i b), (Nat.ltb_spec b w), (Nat.ltb_spec rank j0); cbn [andb negb]; try lia; reflexivity.
      + destruct (Nat.ltb_spec a j0), (Nat.ltb_spec a (S j0)); try lia; reflexivity. }
  exists m3. split; [exact E3|]. split; [auto|]. intros a b. rewrite V3, !V2, !V1. unfold step_entry. cbn [Nat.add].
  replace (i + 1 + (w - (i + 1))) with w by lia. rewrite !Nat.eqb_refl. rewrite (Nat.eqb_sym rank a), (Nat.eqb_sym i b).
  destruct (Nat.eqb_spec a rank) as [->|Na]; cbn [andb negb].
  - destruct (Nat.ltb_spec rank row), (Nat.leb_spec row rank); try lia. cbn [andb negb orb].
    destruct (Nat.ltb_spec b i), (Nat.ltb_spec i b), (Nat.eqb_spec b i), (Nat.ltb_spec b w), (Nat.leb_spec w b); cbn [andb orb]; try lia; reflexivity.
  - destruct (Nat.ltb_spec a row), (Nat.leb_spec row a); try lia; cbn [andb negb orb]; [|destruct (b =? i); reflexivity].
    destruct (Nat.ltb_spec b i), (Nat.ltb_spec i b), (Nat.eqb_spec b i), (Nat.ltb_spec b w), (Nat.leb_spec w b); cbn [andb orb]; try lia; reflexivity.
Qed.

Lemma echelon_ext row lc q f g : (forall a b, a < row -> b < lc -> f a b = g a b) -> echelon row lc q f -> echelon row lc q g.
Proof.
  intros E (H1 & H2 & H3 & H4 & H5 & H6 & H7). repeat split; auto.
  - intros r Hr. rewrite <- E; auto. lia.
  - intros r j Hr Hj N. rewrite <- E; auto.
  - intros r c Hr Hc. rewrite <- E; auto; [lia|]. specialize (H2 r Hr). lia.
  - intros r c Hr Hc. rewrite <- E; auto. lia.
Qed.
Lemma kernel_swap row w f g p s : p < row -> s < row -> (forall a b, g a b = f (if a =? p then s else if a =? s then p else a) b) ->
  forall y, in_kernel row w f y <-> in_kernel row w g y.
Proof.
  intros Hp Hs E y.
  assert (A : forall a, app w g y a = app w f y (if a =? p then s else if a =? s then p else a)).
  { intros a. rewrite !app_sum. apply sum_ext. intros b _. now rewrite E. }
  split; intros K r Hr.
  - rewrite A. apply K. destruct (r =? p), (r =? s); auto.
  - specialize (K (if r =? p then s else if r =? s then p else r)). rewrite A in K.
    replace (if (if r =? p then s else if r =? s then p else r) =? p then s else if (if r =? p then s else if r =? s then p else r) =? s then p else (if r =? p then s else if r =? s then p else r)) with r in K.
    + apply K. destruct (r =? p), (r =? s); auto.
    + clear K. destruct (Nat.eqb_spec r p) as [E1|E1]; [|destruct (Nat.eqb_spec r s) as [E2|E2]].
      * destruct (Nat.eqb_spec s p); [congruence|]. rewrite Nat.eqb_refl. exact E1.
      * rewrite Nat.eqb_refl. exact E2.
      * destruct (Nat.eqb_spec r p), (Nat.eqb_spec r s); congruence.
Qed.
Lemma echelon_swap row i q f g p s : length q <= p < row -> length q <= s < row -> (forall a b, g a b = f (if a =? p then s else if a =? s then p else a) b) ->
  echelon row i q f -> echelon row i q g.
Proof.
  intros Hp Hs E (H1 & H2 & H3 & H4 & H5 & H6 & H7).
  assert (L : forall a b, a < length q -> g a b = f a b).
  { intros a b Ha. rewrite E. destruct (Nat.eqb_spec a p), (Nat.eqb_spec a s); try lia. reflexivity. }
  repeat split; auto.
  - intros r Hr. rewrite L; auto.
  - intros r j Hr Hj N. rewrite E. apply H5; auto; destruct (Nat.eqb_spec j p), (Nat.eqb_spec j s); lia.
  - intros r c Hr Hc. rewrite L; auto.
  - intros r c Hr Hc. rewrite E. apply H7; auto; destruct (Nat.eqb_spec r p), (Nat.eqb_spec r s); lia.
Qed.
Lemma kernel_step row w f g rank i : rank < row -> i < w -> f rank i <> zero -> (forall b, b < i -> f rank b = zero) ->
  (forall a b, a < row -> b < w -> g a b = step_entry f row w rank i (div one (f rank i)) a b) ->
  forall y, in_kernel row w f y <-> in_kernel row w g y.
Proof.
  intros Hr Hi NZ Z E y. set (iv := div one (f rank i)) in *. assert (Hiv : mul iv (f rank i) = one) by now apply div_ok.
  assert (R1 : forall b, b < w -> g rank b = mul iv (f rank b)).
  { intros b Hb. rewrite E by auto. unfold step_entry. rewrite Nat.eqb_refl. destruct (Nat.leb_spec row rank), (Nat.leb_spec w b); try lia. cbn [orb].
    rewrite orb_false_r. destruct (Nat.ltb_spec b i); [rewrite Z by auto; ring|]. destruct (Nat.eqb_spec b i); [subst; auto|ring]. }
  assert (R2 : forall a b, a < row -> a <> rank -> b < w -> g a b = sub (f a b) (mul (f a i) (g rank b))).
  { intros a b Ha N Hb. rewrite R1 by auto. rewrite E by auto. unfold step_entry. destruct (Nat.leb_spec row a), (Nat.leb_spec w b), (Nat.eqb_spec a rank); try lia. cbn [orb].
    rewrite orb_false_r. destruct (Nat.ltb_spec b i); [rewrite Z by auto; ring|]. destruct (Nat.eqb_spec b i); [subst; rewrite Hiv; ring|ring]. }
  assert (A1 : app w g y rank = mul iv (app w f y rank)).
  { rewrite !app_sum, <- (sum_mul _ _ _ _ _ SR). apply sum_ext. intros b Hb. apply in_seq in Hb. rewrite R1 by lia. ring. }
  assert (A2 : forall a, a < row -> a <> rank -> app w g y a = add (app w f y a) (mul (opp (f a i)) (app w g y rank))).
  { intros a Ha N. rewrite !app_sum, <- (sum_mul _ _ _ _ _ SR), <- (sum_add _ _ _ _ _ SR). apply sum_ext. intros b Hb. apply in_seq in Hb. rewrite R2 by (auto; lia). ring. }
  split; intros K a Ha.
  - destruct (Nat.eq_dec a rank) as [->|N]; [rewrite A1, K by auto; ring|]. rewrite A2, A1, (K a), (K rank) by auto. ring.
  - assert (F : app w f y rank = zero). { transitivity (mul (f rank i) (mul iv (app w f y rank))); [|rewrite <- A1, K by auto; ring]. transitivity (mul (mul iv (f rank i)) (app w f y rank)); [rewrite Hiv; ring|ring]. }
    destruct (Nat.eq_dec a rank) as [->|N]; [auto|].
    pose proof (A2 a Ha N) as H. rewrite (K a), (K rank) in H by auto. transitivity (add (app w f y a) (mul (opp (f a i)) zero)); [ring|]. now rewrite <- H.
Qed.
Lemma echelon_step row w i q f g : length q < row -> i < w -> f (length q) i <> zero -> echelon row i q f ->
  (forall a b, a < row -> b < w -> g a b = step_entry f row w (length q) i (div one (f (length q) i)) a b) ->
  echelon row (i + 1) (q ++ [i]) g.
Proof.
  intros Hr Hi NZ (H1 & H2 & H3 & H4 & H5 & H6 & H7) E. set (rank := length q) in *. set (iv := div one (f rank i)) in *.
  assert (Low : forall a b, a < row -> b < i -> g a b = f a b).
  { intros a b Ha Hb. rewrite E by lia. unfold step_entry. destruct (Nat.ltb_spec b i); [|lia]. now rewrite orb_true_r. }
  assert (Piv : forall a, a < row -> g a i = if a =? rank then one else zero).
  { intros a Ha. rewrite E by lia. unfold step_entry. rewrite Nat.eqb_refl. destruct (Nat.leb_spec row a), (Nat.ltb_spec i i), (Nat.leb_spec w i); try lia. reflexivity. }
  assert (N1 : forall r, r < rank -> nth r (q ++ [i]) 0 = nth r q 0) by (intros; now apply app_nth1).
  assert (N2 : nth rank (q ++ [i]) 0 = i) by (unfold rank; rewrite app_nth2, Nat.sub_diag by lia; reflexivity).
  assert (L : length (q ++ [i]) = rank + 1) by now rewrite app_length.
  unfold MatrixModel.echelon. rewrite L. assert (Q : forall r, r < rank + 1 -> r < rank \/ r = rank) by lia. repeat split.
  - lia.
  - intros r Hr'. destruct (Q r Hr') as [?| ->]; [rewrite N1 by auto; specialize (H2 r H); lia|lia].
  - intros r s [Hrs Hs]. destruct (Q s Hs) as [Hs'| ->].
    + rewrite !N1 by lia. now apply H3.
    + rewrite N1, N2 by lia. now apply H2.
  - intros r Hr'. destruct (Q r Hr') as [Hr2| ->].
    + rewrite N1 by auto. rewrite Low by (auto; lia). now apply H4.
    + rewrite N2, Piv by auto. now rewrite Nat.eqb_refl.
  - intros r j Hr' Hj N. destruct (Q r Hr') as [Hr2| ->].
    + rewrite N1 by auto. rewrite Low by auto. now apply H5.
    + rewrite N2, Piv by auto. destruct (Nat.eqb_spec j rank); [lia|auto].
  - intros r c Hr' Hc. destruct (Q r Hr') as [Hr2| ->].
    + rewrite N1 in Hc by auto. pose proof (H2 r Hr2). rewrite Low by lia. now apply H6.
    + rewrite N2 in Hc. rewrite Low by lia. apply H7; lia.
  - intros r c Hr' Hc. destruct (Nat.eq_dec c i) as [->|Nc].
    + rewrite Piv by lia. destruct (Nat.eqb_spec r rank); [lia|auto].
    + rewrite Low by lia. apply H7; lia.
Qed.

Lemma gauss_ok R C row lc rc m pr : row <= R -> lc + rc <= C -> dims R C m ->
  exists m' q pr', gauss zero one sub mul div eqb m row lc rc pr = Some (m', length q, pr') /\ dims R C m' /\
    echelon row lc q (ent m') /\ (forall y, in_kernel row (lc + rc) (ent m) y <-> in_kernel row (lc + rc) (ent m') y) /\
    (forall a b, row <= a -> ent m' a b = ent m a b) /\
    match pr with
    | Some p => pr' = Some (q ++ skipn (length q) (resize p (row + 1) lc))
    | None => pr' = None
    end.
Proof.
  intros HR HC D. unfold gauss. set (pr0 := match pr with Some p => Some (resize p (row + 1) lc) | None => None end).
  match goal with |- context [loop _ ?bd _] => set (body := bd) end.
  assert (LR : forall p, length (resize p (row + 1) lc) = row + 1) by (intros p; unfold resize; rewrite app_length, firstn_length, repeat_length; lia).
  assert (G : forall f i x q pr1, lc - i < f -> i <= lc -> dims R C x -> echelon row i q (ent x) ->
     (forall y, in_kernel row (lc + rc) (ent m) y <-> in_kernel row (lc + rc) (ent x) y) ->
     (forall a b, row <= a -> ent x a b = ent m a b) ->
     match pr with Some p => pr1 = Some (q ++ skipn (length q) (resize p (row + 1) lc)) | None => pr1 = None end ->
     exists m' q' pr', loop f body (i, x, length q, pr1) = Some (m', length q', pr') /\ dims R C m' /\
    echelon row lc q' (ent m') /\ (forall y, in_kernel row (lc + rc) (ent m) y <-> in_kernel row (lc + rc) (ent m') y) /\
    (forall a b, row <= a -> ent m' a b = ent m a b) /\
    match pr with
    | Some p => pr' = Some (q' ++ skipn (length q') (resize p (row + 1) lc))
    | None => pr' = None
    end).
  { clear D. induction f as [|f IH]; intros i x q pr1 Hf Hi Dx Ec K U P; [lia|]. cbn [loop]. unfold body at 1.
    assert (Lq : length q <= row) by apply Ec.
    destruct (Nat.ltb_spec i lc) as [Hl|Hl]; [destruct (Nat.ltb_spec (length q) row) as [Hr|Hr]|]; cbn [andb].
    2: { exists x, q, pr1. split; [reflexivity|]. split; [auto|]. split; [|auto]. destruct Ec as (H1 & H2 & H3 & H4 & H5 & H6 & H7). repeat split; auto.
         - intros r Hr'. specialize (H2 r Hr'). lia.
         - intros r c Hr'. lia. }
    2: { exists x, q, pr1. split; [reflexivity|]. split; [auto|]. assert (Ei : i = lc) by lia. rewrite Ei in Ec. auto. }
    destruct (gpivot_ok R C row (length q) i x) as (p & Ep & Hp & Z & NZ); auto; try lia. rewrite Ep. cbn [obind].
    destruct (Nat.eqb_spec p row) as [->|Np].
    - apply IH; auto; try lia. destruct Ec as (H1 & H2 & H3 & H4 & H5 & H6 & H7). repeat split; auto.
      + intros r Hr'. specialize (H2 r Hr'). lia.
      + intros r c Hr' Hc. destruct (Nat.eq_dec c i) as [->|Nc]; [apply Z; lia|]. apply H7; lia.
    - assert (Hs : exists x1, (if p =? length q then Some x else swap_rows x p (length q)) = Some x1 /\ dims R C x1 /\ echelon row i q (ent x1) /\
        (forall y, in_kernel row (lc + rc) (ent m) y <-> in_kernel row (lc + rc) (ent x1) y) /\ (forall a b, row <= a -> ent x1 a b = ent m a b) /\ ent x1 (length q) i <> zero).
      { destruct (Nat.eqb_spec p (length q)) as [->|Npq].
        - exists x. split; [auto|]. split; [auto|]. split; [auto|]. split; [auto|]. split; [auto|apply NZ; lia].
        - destruct (swap_ok T zero R C x p (length q)) as (x1 & E1 & D1 & V1); auto; try lia. exists x1. split; [auto|]. split; [auto|]. split; [|split; [|split]].
          + apply (echelon_swap row i q (ent x) (ent x1) p (length q)); auto; lia.
          + intros y. rewrite K. apply (kernel_swap row (lc + rc) (ent x) (ent x1) p (length q)); auto; lia.
          + intros a b Ha. rewrite V1. destruct (Nat.eqb_spec a p), (Nat.eqb_spec a (length q)); try lia. now apply U.
          + rewrite V1, Nat.eqb_refl. destruct (Nat.eqb_spec (length q) p); [lia|]. apply NZ. lia. }
      destruct Hs as (x1 & E1 & D1 & Ec1 & K1 & U1 & N1). rewrite E1. cbn [obind].
      assert (Hpr : exists pr2, match pr1 with Some p => let* p := set p (length q) i in Some (Some p) | None => Some None end = Some pr2 /\
        match pr with Some p => pr2 = Some ((q ++ [i]) ++ skipn (length (q ++ [i])) (resize p (row + 1) lc)) | None => pr2 = None end).
      { destruct pr as [p0|]; subst pr1; [|eauto]. rewrite set_some by (rewrite app_length, skipn_length, LR; lia). eexists. split; [reflexivity|]. f_equal.
        rewrite app_length. cbn [length]. set (z := resize p0 (row + 1) lc) in *. replace (length q + 1) with (S (length q)) by lia. destruct (skipn (length q) z) as [|y l] eqn:Es.
        - apply (f_equal (@length nat)) in Es. rewrite skipn_length in Es. unfold z in Es. rewrite LR in Es. cbn in Es. lia.
        - replace (skipn (S (length q)) z) with l.
          + rewrite <- app_assoc. cbn [List.app]. clear. induction q as [|a q IHq]; [reflexivity|]. cbn. now f_equal.
          + clearbody z. clear -Es. revert z Es. induction q as [|a q IHq]; intros z Es; [cbn in *; now subst|]. destruct z as [|b z]; [discriminate|]. cbn [length skipn] in *. now apply IHq. }
      destruct Hpr as (pr2 & E2 & P2). rewrite E2. cbn [obind].
      destruct (gcolumn_ok R C row (lc + rc) (length q) i x1) as (x2 & E3 & D3 & V3); auto; try lia. rewrite E3. cbn [obind].
      replace (length q + 1) with (length (q ++ [i])) by now rewrite app_length.
      apply IH; auto; try lia.
      + apply (echelon_step row (lc + rc) i q (ent x1)); auto; lia.
      + intros y. rewrite K1. apply (kernel_step row (lc + rc) (ent x1) (ent x2) (length q) i); auto; try lia. intros b Hb. apply Ec1; auto.
      + intros a b Ha. rewrite V3. unfold step_entry. destruct (Nat.leb_spec row a); [|lia]. cbn [orb]. auto. }
  apply (G (lc + 1) 0 m [] pr0); auto; try lia; cbn [length].
  - repeat split; cbn [length]; intros; lia.
  - intros y. reflexivity.
  - unfold pr0. destruct pr; reflexivity.
Qed.
End Gauss.
