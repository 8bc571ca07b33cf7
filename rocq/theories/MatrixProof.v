From Coq Require Import Lia Ring_theory Ring.
From Verif Require Import Base BaseLemmas NthExtra RSum MatrixModel.

Section M.
Variable T : Type.
Variable zero : T.
Notation ent := (ent zero).

Lemma dims_row (R C : nat) (m : list (list T)) i : dims R C m -> i < R -> length (nth i m []) = C.
Proof. intros [L F] H. rewrite Forall_forall in F. apply F, nth_In. lia. Qed.
Lemma get2_ent R C (m : list (list T)) i j : dims R C m -> i < R -> j < C -> get2 m i j = Some (ent m i j).
Proof.
  intros D Hi Hj. unfold get2, MatrixModel.ent. pose proof (dims_row R C m i D Hi) as L. destruct D as [Lm _].
  rewrite (get_nth m i []) by lia. cbn [obind]. apply get_nth. lia.
Qed.
Lemma set2_ent R C (m : list (list T)) i j x : dims R C m -> i < R -> j < C ->
  exists m', set2 m i j x = Some m' /\ dims R C m' /\ forall i' j', ent m' i' j' = if (i =? i') && (j =? j') then x else ent m i' j'.
Proof.
  intros D Hi Hj. pose proof (dims_row R C m i D Hi) as L. destruct D as [Lm F]. unfold set2. rewrite (get_nth m i []) by lia. cbn [obind].
  rewrite set_some by lia. cbn [obind]. rewrite set_some by lia. eexists. split; [reflexivity|]. split; [split; [now rewrite lset_length|]|].
  - apply Forall_forall. intros r Hr. apply (In_nth _ _ []) in Hr as (k & Hk & <-). rewrite lset_length in Hk. rewrite nth_lset.
    destruct ((i =? k) && (i <? length m)); [now rewrite lset_length|]. rewrite Forall_forall in F. now apply F, nth_In.
  - intros i' j'. unfold MatrixModel.ent. rewrite nth_lset. destruct (Nat.ltb_spec i (length m)); [|lia]. rewrite andb_true_r.
    destruct (Nat.eqb_spec i i'); auto. subst. cbn [andb]. rewrite nth_lset. destruct (Nat.ltb_spec j (length (nth i' m []))); [|lia]. now rewrite andb_true_r.
Qed.
Lemma zero_dims R C : dims R C (m_zero zero R C).
Proof. split; [apply repeat_length|]. apply Forall_forall. intros r Hr. apply repeat_spec in Hr. subst. apply repeat_length. Qed.
Lemma zero_ent R C i j : ent (m_zero zero R C) i j = zero.
Proof.
  unfold MatrixModel.ent, m_zero. destruct (Nat.lt_ge_cases i R).
  - rewrite (nth_indep _ [] (repeat zero C)) by now rewrite repeat_length. rewrite nth_repeat. apply nth_repeat.
  - rewrite (nth_overflow (repeat _ R)) by now rewrite repeat_length. now destruct j.
Qed.
Lemma ent_ext R C (m m' : list (list T)) : dims R C m -> dims R C m' -> (forall i j, i < R -> j < C -> ent m i j = ent m' i j) -> m = m'.
Proof.
  intros D D' H. destruct D as [L F] eqn:E, D' as [L' F'] eqn:E'. apply (nth_ext_len _ _ []); [lia|]. intros i Hi.
  assert (A : length (nth i m []) = C) by (apply (dims_row R C); [split; auto|lia]).
  assert (A' : length (nth i m' []) = C) by (apply (dims_row R C); [split; auto|lia]).
  apply (nth_ext_len _ _ zero); [lia|]. intros j Hj. apply H; lia.
Qed.

(** A double loop that sets entry [(i,j)] (or [(j,i)]) once. *)
Lemma each_rule R C R' C' (body : nat -> nat -> list (list T) -> option (list (list T))) (pi : nat -> nat -> nat * nat) (F : nat -> nat -> T -> T) m :
  (forall i j, i < R -> j < C -> fst (pi i j) < R' /\ snd (pi i j) < C') ->
  (forall i j i' j', i < R -> j < C -> i' < R -> j' < C -> pi i j = pi i' j' -> i = i' /\ j = j') ->
  (forall i j m, i < R -> j < C -> dims R' C' m -> body i j m = set2 m (fst (pi i j)) (snd (pi i j)) (F i j (ent m (fst (pi i j)) (snd (pi i j))))) ->
  dims R' C' m ->
  exists m', each_entry R C body m = Some m' /\ dims R' C' m' /\
    (forall i j, i < R -> j < C -> ent m' (fst (pi i j)) (snd (pi i j)) = F i j (ent m (fst (pi i j)) (snd (pi i j)))) /\
    (forall a b, (forall i j, i < R -> j < C -> pi i j <> (a, b)) -> ent m' a b = ent m a b).
Proof.
  intros Hr Hinj Hb D. unfold each_entry.
  destruct (@for_up_rule _ (fun i0 m' => dims R' C' m' /\
    (forall i j, i < R -> j < C -> ent m' (fst (pi i j)) (snd (pi i j)) = if i <? i0 then F i j (ent m (fst (pi i j)) (snd (pi i j))) else ent m (fst (pi i j)) (snd (pi i j))) /\
    (forall a b, (forall i j, i < R -> j < C -> pi i j <> (a, b)) -> ent m' a b = ent m a b))
    (fun i m => for_up C 0 (fun j m => body i j m) m) R 0 m) as (m' & E & D' & V & U).
  - split; [auto|]. split; auto.
  - intros i0 m1 Hi (D1 & V1 & U1). cbn [Nat.add] in Hi.
    destruct (@for_up_rule _ (fun j0 m' => dims R' C' m' /\
      (forall i j, i < R -> j < C -> ent m' (fst (pi i j)) (snd (pi i j)) = if (i <? i0) || (i =? i0) && (j <? j0) then F i j (ent m (fst (pi i j)) (snd (pi i j))) else ent m (fst (pi i j)) (snd (pi i j))) /\
      (forall a b, (forall i j, i < R -> j < C -> pi i j <> (a, b)) -> ent m' a b = ent m a b))
      (fun j m => body i0 j m) C 0 m1) as (m2 & E2 & D2 & V2 & U2).
    + split; [auto|]. split; [|auto]. intros i j Hi' Hj. rewrite V1 by auto. destruct (Nat.ltb_spec j 0); [lia|]. now rewrite andb_false_r, orb_false_r.
    + intros j0 m2 Hj (D2 & V2 & U2). rewrite Hb by (auto; lia). destruct (Hr i0 j0) as [Ra Rb]; try lia.
      edestruct (set2_ent R' C' m2) as (m3 & E3 & D3 & V3); [exact D2|exact Ra|exact Rb|]. rewrite E3. exists m3. split; [reflexivity|]. split; [auto|]. split.
      * intros i j Hi' Hj'. rewrite V3.
        destruct (Nat.eqb_spec (fst (pi i0 j0)) (fst (pi i j))) as [Ea|Ea], (Nat.eqb_spec (snd (pi i0 j0)) (snd (pi i j))) as [Eb|Eb]; cbn [andb].
        1: { assert (Ep : pi i0 j0 = pi i j) by (destruct (pi i0 j0), (pi i j); cbn in *; congruence).
             destruct (Hinj i0 j0 i j) as [-> ->]; auto; try lia. rewrite V2 by auto. rewrite !Nat.eqb_refl.
             destruct (Nat.ltb_spec i i), (Nat.ltb_spec j j), (Nat.ltb_spec j (S j)); try lia. reflexivity. }
        all: assert (Ne : i <> i0 \/ j <> j0) by (destruct (Nat.eq_dec i i0), (Nat.eq_dec j j0); subst; auto; congruence);
             rewrite V2 by auto; destruct (Nat.ltb_spec i i0), (Nat.eqb_spec i i0), (Nat.ltb_spec j j0), (Nat.ltb_spec j (S j0)); cbn [orb andb]; try lia; reflexivity.
      * intros a b Hab. rewrite V3. destruct (Nat.eqb_spec (fst (pi i0 j0)) a) as [Ea|Ea], (Nat.eqb_spec (snd (pi i0 j0)) b) as [Eb|Eb]; cbn [andb]; auto.
        exfalso. apply (Hab i0 j0); try lia. destruct (pi i0 j0); cbn in *; congruence.
    + exists m2. split; [exact E2|]. split; [auto|]. split; [|auto]. intros i j Hi' Hj. rewrite V2 by auto.
      destruct (Nat.ltb_spec i i0), (Nat.eqb_spec i i0), (Nat.ltb_spec j (0 + C)), (Nat.ltb_spec i (S i0)); cbn [orb andb]; try lia; reflexivity.
  - exists m'. split; [exact E|]. split; [auto|]. split; [|auto]. intros i j Hi Hj. rewrite V by auto. destruct (Nat.ltb_spec i (0 + R)); [auto|lia].
Qed.
Lemma each_same R C body (F : nat -> nat -> T -> T) m :
  (forall i j m, i < R -> j < C -> dims R C m -> body i j m = set2 m i j (F i j (ent m i j))) ->
  dims R C m ->
  exists m', each_entry R C body m = Some m' /\ dims R C m' /\ forall i j, i < R -> j < C -> ent m' i j = F i j (ent m i j).
Proof.
  intros Hb D. destruct (each_rule R C R C body (fun i j => (i, j)) F m) as (m' & E & D' & V & _); auto.
  - intros i j i' j' _ _ _ _ H. split; congruence.
  - exists m'. auto.
Qed.
End M.

Section Ring.
Variable T : Type.
Variables (zero one : T) (add sub mul : T -> T -> T) (opp : T -> T) (eqb : T -> T -> bool).
Notation ent := (ent zero).

Lemma add_ok R C a b : dims R C a -> dims R C b ->
  exists c, m_add add R C a b = Some c /\ dims R C c /\ forall i j, i < R -> j < C -> ent c i j = add (ent a i j) (ent b i j).
Proof.
  intros Da Db. apply (each_same T zero R C _ (fun i j x => add x (ent b i j))); auto. intros i j m Hi Hj D.
  rewrite (get2_ent T zero R C) by auto. cbn [obind]. rewrite (get2_ent T zero R C) by auto. reflexivity.
Qed.
Lemma neg_ok R C a : dims R C a ->
  exists c, m_neg zero opp R C a = Some c /\ dims R C c /\ forall i j, i < R -> j < C -> ent c i j = opp (ent a i j).
Proof.
  intros Da. apply (each_same T zero R C _ (fun i j x => opp (ent a i j))); auto using zero_dims. intros i j m Hi Hj D.
  rewrite (get2_ent T zero R C) by auto. reflexivity.
Qed.
Lemma sub_ok R C a b : dims R C a -> dims R C b ->
  exists c, m_sub opp R C a b = Some c /\ dims R C c /\ forall i j, i < R -> j < C -> ent c i j = opp (ent b i j).
Proof.
  intros Da Db. apply (each_same T zero R C _ (fun i j x => opp (ent b i j))); auto. intros i j m Hi Hj D.
  rewrite (get2_ent T zero R C) by auto. reflexivity.
Qed.
Lemma scale_ok R C l b : dims R C b ->
  exists c, m_scale zero mul R C l b = Some c /\ dims R C c /\ forall i j, i < R -> j < C -> ent c i j = mul l (ent b i j).
Proof.
  intros Db. apply (each_same T zero R C _ (fun i j x => mul l (ent b i j))); auto using zero_dims. intros i j m Hi Hj D.
  rewrite (get2_ent T zero R C) by auto. reflexivity.
Qed.
Lemma transpose_ok R C a : dims R C a ->
  exists c, m_transpose zero R C a = Some c /\ dims C R c /\ forall i j, i < R -> j < C -> ent c j i = ent a i j.
Proof.
  intros Da. destruct (each_rule T zero R C C R (fun i j ret => let* x := get2 a i j in set2 ret j i x) (fun i j => (j, i)) (fun i j _ => ent a i j) (m_zero zero C R)) as (c & E & D & V & _).
  - cbn. auto.
  - intros i j i' j' _ _ _ _ H. split; congruence.
  - intros i j m Hi Hj _. rewrite (get2_ent T zero R C) by auto. reflexivity.
  - apply zero_dims.
  - exists c. auto.
Qed.
End Ring.

Section Id.
Variable T : Type.
Variables (zero one : T).
Notation ent := (ent zero).
Lemma id_ok R C : exists c, m_id zero one R C = Some c /\ dims R C c /\ forall i j, i < R -> j < C -> ent c i j = delta zero one i j.
Proof.
  unfold m_id. destruct (@for_up_rule _ (fun i0 m => dims R C m /\ forall i j, i < R -> j < C -> ent m i j = if (i =? j) && (i <? i0) then one else zero)
    (fun i m => set2 m i i one) (min R C) 0 (m_zero zero R C)) as (c & E & D & V).
  - split; [apply zero_dims|]. intros i j Hi Hj. rewrite zero_ent. destruct (Nat.ltb_spec i 0); [lia|]. now rewrite andb_false_r.
  - intros i0 m Hi (D & V). edestruct (set2_ent T zero R C m i0 i0 one) as (m' & E & D' & V'); auto; try lia. exists m'. split; [exact E|]. split; [auto|].
    intros i j Hi' Hj. rewrite V', V by auto. destruct (Nat.eqb_spec i0 i), (Nat.eqb_spec i0 j), (Nat.eqb_spec i j), (Nat.ltb_spec i i0), (Nat.ltb_spec i (S i0)); cbn [andb]; try lia; reflexivity.
  - exists c. split; [exact E|]. split; [auto|]. intros i j Hi Hj. rewrite V by auto. unfold delta. destruct (Nat.eqb_spec i j); auto.
    destruct (Nat.ltb_spec i (0 + min R C)); [auto|lia].
Qed.
End Id.

Section Eq.
Variable T : Type.
Variables (zero : T) (eqb : T -> T -> bool).
Notation ent := (ent zero).
Lemma eq_ok (eqb_ok : forall x y, eqb x y = true <-> x = y) R C a b : dims R C a -> dims R C b ->
  exists r, m_eq eqb R C a b = Some r /\ (r = true <-> a = b).
Proof.
  intros Da Db. unfold m_eq.
  destruct (@for_up_rule _ (fun i0 (r : bool) => r = true <-> forall i j, i < i0 -> j < C -> ent a i j = ent b i j)
    (fun i acc => for_up C 0 (fun j (acc : bool) => if acc then let* x := get2 a i j in let* y := get2 b i j in Some (eqb x y) else Some false) acc) R 0 true) as (r & E & V).
  - split; auto. lia.
  - intros i0 r Hi V. destruct (@for_up_rule _ (fun j0 (r : bool) => r = true <-> (forall i j, i < i0 -> j < C -> ent a i j = ent b i j) /\ forall j, j < j0 -> ent a i0 j = ent b i0 j)
      (fun j (acc : bool) => if acc then let* x := get2 a i0 j in let* y := get2 b i0 j in Some (eqb x y) else Some false) C 0 r) as (r' & E' & V').
    + rewrite V. split; [intros H; split; [auto|lia]|tauto].
    + intros j0 r1 Hj V1. destruct r1.
      * rewrite !(get2_ent T zero R C) by (auto; lia). cbn [obind]. eexists. split; [reflexivity|]. rewrite eqb_ok.
        destruct V1 as [V1 _]. specialize (V1 eq_refl). destruct V1 as [Va Vb]. split.
        -- intros H. split; auto. intros j Hj'. destruct (Nat.eq_dec j j0); [now subst|]. apply Vb. lia.
        -- intros [_ H]. apply H. lia.
      * eexists. split; [reflexivity|]. split; [discriminate|]. intros [H1 H2]. apply V1. split; auto.
    + exists r'. split; [exact E'|]. rewrite V'. cbn [Nat.add]. split.
      * intros [H1 H2] i j Hi' Hj. destruct (Nat.eq_dec i i0); [subst; now apply H2|]. apply H1; auto. lia.
      * intros H. split; intros; apply H; auto; lia.
  - exists r. split; [exact E|]. rewrite V. split; [|intros ->; auto]. intros H. apply (ent_ext T zero R C); auto.
Qed.

End Eq.

Section Semi.
Variable T : Type.
Variables (zero one : T) (add mul : T -> T -> T).
Notation ent := (ent zero).
Hypothesis SR : semi_ring_theory zero one add mul eq.
Notation sum := (sum T zero add).
Lemma mul_ok R C D a b : dims R C a -> dims C D b ->
  exists c, m_mul zero add mul R C D a b = Some c /\ dims R D c /\ forall i j, i < R -> j < D -> ent c i j = prod_entry zero add mul C (ent a) (ent b) i j.
Proof.
  intros Da Db. unfold m_mul.
  assert (S1 : forall i k j, sum (seq 0 (S k)) (fun k => mul (ent a i k) (ent b k j)) = add (sum (seq 0 k) (fun k => mul (ent a i k) (ent b k j))) (mul (ent a i k) (ent b k j))).
  { intros i k j. rewrite seq_S, (sum_app _ _ _ _ _ SR). f_equal. rewrite sum_cons, sum_nil. apply (add_0_r _ _ _ _ _ SR). }
  destruct (@for_up_rule _ (fun i0 m => dims R D m /\ forall i j, i < R -> j < D -> ent m i j = if i <? i0 then sum (seq 0 C) (fun k => mul (ent a i k) (ent b k j)) else zero)
    (fun i ret => for_up C 0 (fun k ret => let* mik := get2 a i k in for_up D 0 (fun j ret =>
      let* x := get2 ret i j in let* y := get2 b k j in set2 ret i j (add x (mul mik y))) ret) ret) R 0 (m_zero zero R D)) as (c & E & Dc & V).
  - split; [apply zero_dims|]. intros. apply zero_ent.
  - intros i0 m Hi (Dm & V).
    destruct (@for_up_rule _ (fun k0 m => dims R D m /\ forall i j, i < R -> j < D -> ent m i j = if i <? i0 then sum (seq 0 C) (fun k => mul (ent a i k) (ent b k j)) else
        if i =? i0 then sum (seq 0 k0) (fun k => mul (ent a i k) (ent b k j)) else zero)
      (fun k ret => let* mik := get2 a i0 k in for_up D 0 (fun j ret =>
        let* x := get2 ret i0 j in let* y := get2 b k j in set2 ret i0 j (add x (mul mik y))) ret) C 0 m) as (m1 & E1 & D1 & V1).
    + split; auto. intros i j Hi' Hj. rewrite V by auto. destruct (i <? i0); auto. destruct (i =? i0); auto.
    + intros k0 m1 Hk (D1 & V1). rewrite (get2_ent T zero R C) by (auto; lia). cbn [obind].
      destruct (@for_up_rule _ (fun j0 m => dims R D m /\ forall i j, i < R -> j < D -> ent m i j = if i <? i0 then sum (seq 0 C) (fun k => mul (ent a i k) (ent b k j)) else
        if i =? i0 then sum (seq 0 (if j <? j0 then S k0 else k0)) (fun k => mul (ent a i k) (ent b k j)) else zero)
        (fun j ret => let* x := get2 ret i0 j in let* y := get2 b k0 j in set2 ret i0 j (add x (mul (ent a i0 k0) y))) D 0 m1) as (m2 & E2 & D2 & V2).
      * split; auto.
      * intros j0 m2 Hj (D2 & V2). rewrite (get2_ent T zero R D) by (auto; lia). cbn [obind]. rewrite (get2_ent T zero C D) by (auto; lia). cbn [obind].
        edestruct (set2_ent T zero R D m2 i0 j0) as (m3 & E3 & D3 & V3); auto; try lia. rewrite E3. exists m3. split; [reflexivity|]. split; [auto|].
        intros i j Hi' Hj'. rewrite V3. destruct (Nat.eqb_spec i0 i) as [<-|Ni].
        -- destruct (Nat.eqb_spec j0 j) as [<-|Nj]; cbn [andb]; rewrite V2, Nat.eqb_refl by auto.
           ++ destruct (Nat.ltb_spec i0 i0), (Nat.ltb_spec j0 j0), (Nat.ltb_spec j0 (S j0)); try lia. symmetry. apply S1.
           ++ destruct (Nat.ltb_spec j j0), (Nat.ltb_spec j (S j0)); try lia; reflexivity.
        -- cbn [andb]. rewrite V2 by auto. destruct (Nat.eqb_spec i i0); [lia|reflexivity].
      * rewrite E2. exists m2. split; [reflexivity|]. split; [auto|]. intros i j Hi' Hj. rewrite V2 by auto. destruct (Nat.ltb_spec j (0 + D)); [reflexivity|lia].
    + exists m1. split; [exact E1|]. split; [auto|]. intros i j Hi' Hj. rewrite V1 by auto. cbn [Nat.add].
      destruct (Nat.ltb_spec i i0), (Nat.eqb_spec i i0), (Nat.ltb_spec i (S i0)); try lia; reflexivity.
  - exists c. split; [exact E|]. split; [auto|]. intros i j Hi Hj. rewrite V by auto. destruct (Nat.ltb_spec i (0 + R)); [reflexivity|lia].
Qed.

(** * Powers *)

Definition feq n (f g : nat -> nat -> T) : Prop := forall i j, i < n -> j < n -> f i j = g i j.
Notation pe := (prod_entry zero add mul).
Lemma pe_sum n f g i j : pe n f g i j = sum (seq 0 n) (fun k => mul (f i k) (g k j)).
Proof. reflexivity. Qed.
Lemma pe_ext n f f' g g' : feq n f f' -> feq n g g' -> feq n (pe n f g) (pe n f' g').
Proof. intros Hf Hg i j Hi Hj. apply sum_ext. intros k Hk. apply in_seq in Hk. rewrite Hf, Hg by lia. reflexivity. Qed.
Lemma pe_assoc n f g h : feq n (pe n f (pe n g h)) (pe n (pe n f g) h).
Proof.
  intros i j Hi Hj. rewrite !pe_sum.
  transitivity (sum (seq 0 n) (fun k => sum (seq 0 n) (fun l => mul (f i k) (mul (g k l) (h l j))))).
  - apply sum_ext. intros k _. now rewrite pe_sum, (sum_mul _ _ _ _ _ SR).
  - rewrite (sum_swap _ _ _ _ _ SR). apply sum_ext. intros l _. rewrite pe_sum, <- (sum_mul_r _ _ _ _ _ SR). apply sum_ext. intros k _. apply (SRmul_assoc SR).
Qed.
Lemma sum_delta_l n i f : i < n -> sum (seq 0 n) (fun k => mul (delta zero one i k) (f k)) = f i.
Proof.
  intros H. assert (G : forall l, NoDup l -> In i l -> sum l (fun k => mul (delta zero one i k) (f k)) = f i).
  { induction l as [|x l IH]; intros N I; [easy|]. inversion N as [|? ? Nx Nl]; subst. rewrite sum_cons. unfold delta at 1. destruct (Nat.eqb_spec i x) as [<-|E].
    - rewrite (SRmul_1_l SR), (sum_zero_ext _ _ _ _ _ SR); [apply (add_0_r _ _ _ _ _ SR)|]. intros y Hy. unfold delta. destruct (Nat.eqb_spec i y); [now subst|apply (SRmul_0_l SR)].
    - rewrite (SRmul_0_l SR), (SRadd_0_l SR). apply IH; auto. destruct I; [congruence|auto]. }
  apply G; [apply seq_NoDup|apply in_seq; lia].
Qed.
Lemma delta_sym i j : delta zero one i j = delta zero one j i.
Proof. unfold delta. now rewrite Nat.eqb_sym. Qed.
Lemma pe_id_l n f : feq n (pe n (delta zero one) f) f.
Proof. intros i j Hi Hj. now apply (sum_delta_l n i (fun k => f k j)). Qed.
Lemma pe_id_r n f : feq n (pe n f (delta zero one)) f.
Proof.
  intros i j Hi Hj. rewrite pe_sum. rewrite <- (sum_delta_l n j (fun k => f i k)) by auto. apply sum_ext. intros k _. rewrite (SRmul_comm SR). now rewrite delta_sym.
Qed.
Lemma feq_trans n f g h : feq n f g -> feq n g h -> feq n f h.
Proof. intros H1 H2 i j Hi Hj. rewrite H1; auto. Qed.
Lemma feq_sym n f g : feq n f g -> feq n g f.
Proof. intros H i j Hi Hj. symmetry. auto. Qed.
Lemma feq_refl n f : feq n f f.
Proof. intros i j _ _. reflexivity. Qed.
Notation pw := (pow_entry zero one add mul).
Lemma pow_add n f a b : feq n (pw n f (a + b)) (pe n (pw n f a) (pw n f b)).
Proof.
  induction a as [|a IH]; cbn [pow_entry Nat.add].
  - apply feq_sym, pe_id_l.
  - eapply feq_trans; [apply pe_ext; [apply feq_refl|apply IH]|]. apply pe_assoc.
Qed.
Lemma pow_ext n f g k : feq n f g -> feq n (pw n f k) (pw n g k).
Proof. intros H. induction k as [|k IH]; [apply feq_refl|]. cbn [pow_entry]. apply pe_ext; auto. Qed.
Lemma pow_square n f k : feq n (pw n (pe n f f) k) (pw n f (2 * k)).
Proof.
  induction k as [|k IH]; [apply feq_refl|]. replace (2 * S k) with (2 + 2 * k) by lia. cbn [pow_entry Nat.add].
  eapply feq_trans; [apply pe_ext; [apply feq_refl|apply IH]|]. apply feq_sym, pe_assoc.
Qed.
Lemma pow_ok n a k : dims n n a ->
  exists c, m_pow zero one add mul n a k = Some c /\ dims n n c /\ forall i j, i < n -> j < n -> ent c i j = pw n (ent a) k i j.
Proof.
  intros Da. unfold m_pow. destruct (id_ok T zero one n n) as (t & E & Dt & Vt). rewrite E. cbn [obind].
  match goal with |- context [loop _ ?bd _] => set (body := bd) end.
  assert (G : forall f k u t, k < f -> dims n n u -> dims n n t ->
     exists c, loop f body (u, t, k) = Some c /\ dims n n c /\ feq n (ent c) (pe n (ent t) (pw n (ent u) k))).
  { clear k t E Dt Vt Da a. induction f as [|f IH]; intros k u t Hf Du Dt; [lia|]. cbn [loop]. unfold body at 1.
    destruct (Nat.eqb_spec k 0) as [->|Hk].
    - exists t. split; [reflexivity|]. split; [auto|]. cbn [pow_entry]. apply feq_sym, pe_id_r.
    - assert (Ht : exists t', (if Nat.odd k then m_mul zero add mul n n n t u else Some t) = Some t' /\ dims n n t' /\
        feq n (ent t') (if Nat.odd k then pe n (ent t) (ent u) else ent t)).
      { destruct (Nat.odd k); [|exists t; split; [auto|split; [auto|apply feq_refl]]]. destruct (mul_ok n n n t u Dt Du) as (t' & E & D & V). exists t'. auto. }
      destruct Ht as (t' & Et & Dt' & Vt'). rewrite Et. cbn [obind]. destruct (mul_ok n n n u u Du Du) as (u' & Eu & Du' & Vu'). rewrite Eu. cbn [obind].
      assert (Hd : k = 2 * Nat.div2 k + (if Nat.odd k then 1 else 0)).
      { rewrite (Nat.div2_odd k) at 1. unfold Nat.b2n. now destruct (Nat.odd k). }
      destruct (IH (Nat.div2 k) u' t') as (c & Ec & Dc & Vc); auto; [destruct (Nat.odd k); lia|].
      exists c. split; [exact Ec|]. split; [auto|]. eapply feq_trans; [exact Vc|].
      eapply feq_trans; [apply pe_ext; [exact Vt'|eapply feq_trans; [apply pow_ext; exact Vu'|apply pow_square]]|].
      rewrite Hd at 3. destruct (Nat.odd k).
      + replace (2 * Nat.div2 k + 1) with (1 + 2 * Nat.div2 k) by lia. cbn [pow_entry Nat.add]. apply feq_sym, pe_assoc.
      + rewrite Nat.add_0_r. apply feq_refl. }
  destruct (G (k + 1) k a t) as (c & Ec & Dc & Vc); auto; [lia|]. exists c. split; [exact Ec|]. split; [auto|].
  eapply feq_trans; [exact Vc|]. eapply feq_trans; [apply pe_ext; [exact Vt|apply feq_refl]|]. apply pe_id_l.
Qed.
End Semi.
