(** Proofs about [ChtModel]. *)
From Verif Require Import Base BaseLemmas SearchModel SearchProp ChtModel.
Local Open Scope Z_scope.

Section CHT.
Variable rev : bool.
Definition sgn : Z := if rev then -1 else 1.
Notation sl l := (sgn * fst l).
Definition V (l : line) (x : Z) : Z := sgn * eval l x.
Definition ilb (g h i : line) : Prop := (snd h - snd g) * (fst h - fst i) < (snd i - snd h) * (fst g - fst h).

Lemma cmp_spec x y : cmp rev x y = true <-> sgn * x < sgn * y.
Proof. unfold cmp, sgn. destruct rev; rewrite Z.ltb_lt; lia. Qed.
Lemma cmp_false x y : cmp rev x y = false <-> sgn * y <= sgn * x.
Proof. unfold cmp, sgn. destruct rev; rewrite Z.ltb_ge; lia. Qed.
Lemma V_eq l x : V l x = sl l * x + sgn * snd l.
Proof. unfold V, eval. ring. Qed.
Lemma ilb_eq g h i : ilb g h i <-> (sgn * snd h - sgn * snd g) * (sl h - sl i) < (sgn * snd i - sgn * snd h) * (sl g - sl h).
Proof. unfold ilb, sgn. destruct rev; rewrite ?Z.mul_1_l; [|reflexivity]. split; intros; nia. Qed.
Lemma tri_step g h k x : sl g < sl h -> sl h < sl k -> ilb g h k -> V h x <= V g x -> V k x < V h x.
Proof.
  rewrite ilb_eq, !V_eq. generalize (sl g) (sl h) (sl k) (sgn * snd g) (sgn * snd h) (sgn * snd k). intros a b c p q r H1 H2 H3 H4.
  assert (E : (c - b) * ((b - a) * x + (q - p)) <= 0) by (apply Z.mul_nonneg_nonpos; lia).
  assert ((b - a) * ((c - b) * x + (r - q)) < 0) by nia. assert ((c - b) * x + (r - q) < 0) by nia. lia.
Qed.
Lemma pop_dom g h k x : sl g < sl h -> sl h < sl k -> ~ ilb g h k -> V h x <= V g x \/ V h x <= V k x.
Proof.
  rewrite ilb_eq, !V_eq. generalize (sl g) (sl h) (sl k) (sgn * snd g) (sgn * snd h) (sgn * snd k). intros a b c p q r H1 H2 H3.
  destruct (Z.le_gt_cases (b * x + q) (a * x + p)) as [|H4]; [auto|]. right. apply Z.le_ngt. intros H5. apply H3.
  assert (0 < (c - b) * ((b - a) * x + (q - p))) by (apply Z.mul_pos_pos; lia).
  assert (0 < (b - a) * ((b - c) * x + (q - r))) by (apply Z.mul_pos_pos; lia). nia.
Qed.
Lemma il_some g h k : sl g < sl h -> sl h < sl k -> exists b, intersect_less g h k = Some b /\ (b = true <-> ilb g h k).
Proof.
  intros H1 H2. unfold intersect_less. destruct (Z.eqb_spec (fst g) (fst h)) as [E|_]; [rewrite E in H1; lia|]. destruct (Z.eqb_spec (fst h) (fst k)) as [E|_]; [rewrite E in H2; lia|].
  cbn [negb andb guard obind]. eexists. split; [reflexivity|]. apply Z.ltb_lt.
Qed.

Definition hull (L : list line) : Prop :=
  (forall i g h, get L i = Some g -> get L (S i) = Some h -> sl g < sl h) /\
  (forall i g h k, get L i = Some g -> get L (S i) = Some h -> get L (S (S i)) = Some k -> ilb g h k).
Lemma hull_nil : hull [].
Proof. split; intros i; destruct i; discriminate. Qed.
Lemma hull_one l : hull [l].
Proof. split; intros i; destruct i as [|[|i]]; discriminate. Qed.
Lemma hull_prefix M N : hull (M ++ N) -> hull M.
Proof.
  intros [H1 H2]. split; intros i; intros.
  - assert (S i < length M)%nat by (eapply get_some_lt; eauto). apply (H1 i); rewrite get_app_l by lia; auto.
  - assert (S (S i) < length M)%nat by (eapply get_some_lt; eauto). apply (H2 i); rewrite get_app_l by lia; auto.
Qed.
Lemma hull_tail g M : hull (g :: M) -> hull M.
Proof. intros [H1 H2]. split; intros i; intros; [apply (H1 (S i))|apply (H2 (S i))]; auto. Qed.
Lemma get_snoc {A} (M : list A) l i x : get (M ++ [l]) i = Some x -> (i < length M)%nat /\ get M i = Some x \/ i = length M /\ x = l.
Proof.
  intros H. destruct (Nat.lt_ge_cases i (length M)); [left; rewrite get_app_l in H by lia; auto|right]. rewrite get_app_r in H by lia.
  destruct (i - length M)%nat as [|k] eqn:E; [cbn in H; injection H as ->; split; [lia|auto]|]. destruct k; discriminate.
Qed.
Lemma hull_snoc M h l : hull (M ++ [h]) -> sl h < sl l -> (forall g M', M = M' ++ [g] -> ilb g h l) -> hull ((M ++ [h]) ++ [l]).
Proof.
  intros [H1 H2] Hs Hi. split.
  - intros i g k Eg Ek. pose proof (get_some_lt _ _ Ek) as Hk. rewrite !app_length in Hk. cbn [length] in Hk.
    apply get_snoc in Ek as [[? Ek]|[E ->]]; rewrite app_length in *; cbn [length] in *.
    + rewrite get_app_l in Eg by (rewrite app_length; cbn; lia). eauto.
    + rewrite get_app_l in Eg by (rewrite app_length; cbn; lia). apply get_snoc in Eg as [[? _]|[_ ->]]; [lia|auto].
  - intros i g k m Eg Ek Em. apply get_snoc in Em as [[? Em]|[E ->]]; rewrite app_length in *; cbn [length] in *.
    + rewrite get_app_l in Eg, Ek by (rewrite app_length; cbn; lia). eauto.
    + rewrite get_app_l in Eg, Ek by (rewrite app_length; cbn; lia). apply get_snoc in Ek as [[? _]|[_ ->]]; [lia|].
      rewrite get_app_l in Eg by lia. destruct (exists_last (l := M)) as (M' & g' & ->); [intros ->; cbn in *; lia|]. rewrite app_length in E. cbn [length] in E.
      apply get_snoc in Eg as [[? _]|[_ ->]]; [lia|]. eauto.
Qed.
Lemma hull_cons l g M : hull (g :: M) -> sl l < sl g -> (forall h M', M = h :: M' -> ilb l g h) -> hull (l :: g :: M).
Proof.
  intros [H1 H2] Hs Hi. split.
  - intros [|i] a b Ea Eb; [cbn in Ea, Eb; injection Ea as <-; injection Eb as <-; auto|]. eapply H1; eauto.
  - intros [|i] a b c Ea Eb Ec; [|eapply H2; eauto]. cbn in Ea, Eb, Ec. injection Ea as <-. injection Eb as <-. destruct M; [discriminate|]. injection Ec as ->. eauto.
Qed.

(** Every line is beaten by the one left over *)
Lemma right_max L x : hull L -> forall r k g h l, get L r = Some g -> get L (S r) = Some h -> V h x <= V g x -> get L (r + k) = Some l -> V l x <= V g x.
Proof.
  intros [H1 H2] r k.
  intros g h l Eg Eh Hv El. destruct k as [|k]; [rewrite Nat.add_0_r in El; replace l with g by congruence; lia|].
  rewrite Nat.add_succ_r in *. revert l El. induction k as [|k IH]; intros l El.
  - rewrite Nat.add_0_r in El. replace l with h by congruence. lia.
  - rewrite Nat.add_succ_r in El. destruct (@get_lt _ L (S (r + k)%nat)) as [c Ec]; [apply get_some_lt in El; lia|]. pose proof (IH c Ec) as I.
    assert (G : forall k a b, get L (r + k) = Some a -> get L (S (r + k)) = Some b -> V b x <= V a x).
    { clear - Eg Eh Hv H1 H2. induction k as [|k IH]; intros a b Ea Eb.
      - rewrite Nat.add_0_r in *. assert (a = g) by congruence. assert (b = h) by congruence. subst. auto.
      - rewrite Nat.add_succ_r in *. destruct (@get_lt _ L (r + k)%nat) as [c Ec]; [apply get_some_lt in Ea; lia|]. pose proof (IH c a Ec Ea).
        assert (V b x < V a x) by (apply (tri_step c a b); eauto). lia. }
    assert (V l x <= V c x); [|lia]. apply (G (S k)); rewrite Nat.add_succ_r; auto.
Qed.
Lemma left_max L x : hull L -> forall r k g h l, get L r = Some g -> get L (S r) = Some h -> V g x <= V h x -> (k <= r)%nat -> get L k = Some l -> V l x <= V h x.
Proof.
  intros [H1 H2] r k g h l Eg Eh Hv Hk El.
  assert (G : forall d, (d <= r)%nat -> forall a b, get L (r - d) = Some a -> get L (S (r - d)) = Some b -> V a x <= V b x /\ V a x <= V h x).
  { induction d as [|d IH]; intros Hd a b Ea Eb.
    - rewrite Nat.sub_0_r in *. assert (a = g) by congruence. assert (b = h) by congruence. subst. auto.
    - replace (S (r - S d)) with (r - d)%nat in Eb by lia. destruct (@get_lt _ L (S (r - d)%nat)) as [c Ec]; [apply get_some_lt in Eh; lia|]. destruct (IH ltac:(lia) b c Eb Ec) as [I1 I2].
      assert (V a x < V b x).
      { apply Z.lt_nge. intros F. apply (Z.lt_irrefl (V b x)). eapply Z.le_lt_trans; [exact I1|]. eapply (tri_step a b c); eauto.
        - eapply (H1 (r - S d)%nat); eauto. now replace (S (r - S d)) with (r - d)%nat by lia.
        - eapply (H2 (r - S d)%nat); eauto; now replace (S (r - S d)) with (r - d)%nat by lia. }
      lia. }
  destruct (@get_lt _ L (S k)) as [m Em]; [apply get_some_lt in Eh; lia|]. apply (G (r - k)%nat ltac:(lia) l m); replace (r - (r - k))%nat with k by lia; auto.
Qed.
Lemma hull_slopes L : hull L -> forall i j g h, (i < j)%nat -> get L i = Some g -> get L j = Some h -> sl g < sl h.
Proof.
  intros [H1 _] i j. induction j as [|j IH]; intros g h Hij Eg Eh; [lia|]. destruct (Nat.eq_dec i j) as [->|]; [eauto|].
  destruct (@get_lt _ L j) as [m Em]; [apply get_some_lt in Eh; lia|]. assert (sl g < sl m) by (apply IH; auto; lia). assert (sl m < sl h) by eauto. lia.
Qed.

(** ** Pushing *)
Lemma push_back_ok L a b : hull L -> (forall l, In l L -> sl l < sgn * a) ->
  exists L', push_back rev L a b = Some L' /\ hull L' /\ L' <> [] /\ (length L' <= S (length L))%nat /\ incl L' ((a, b) :: L) /\
    forall x l, In l ((a, b) :: L) -> exists l', In l' L' /\ V l x <= V l' x.
Proof.
  intros HL Hs. unfold push_back. set (new := (a, b)).
  assert (G0 : match L with [] => true | _ => match get L (length L - 1) with Some l => cmp rev (fst l) a | None => false end end = true).
  { destruct L as [|l0 L0] eqn:EL; [auto|]. destruct (@get_lt _ (l0 :: L0) (length (l0 :: L0) - 1)%nat) as [l El]; [cbn; lia|]. rewrite El. apply cmp_spec. apply Hs. eapply get_In; eauto. }
  rewrite G0. cbn [guard obind]. match goal with |- context [loop _ ?bd _] => set (body := bd) end.
  destruct (@loop_rule _ _ (fun M => hull M /\ (length M <= length L)%nat /\ incl M L /\ forall x l, In l L -> exists l', In l' (M ++ [new]) /\ V l x <= V l' x) (fun M => length M)
    (fun M => (hull (M ++ [new])) /\ (length M <= length L)%nat /\ incl M L /\ forall x l, In l L -> exists l', In l' (M ++ [new]) /\ V l x <= V l' x) body) with (fuel := S (length L)) (s := L) as (M & E & H1 & H2 & H3 & H4).
  - intros M (HM & LM & IM & DM). unfold body. destruct (Nat.leb_spec 2 (length M)).
    + destruct (exists_last (l := M)) as (M1 & h & E1); [intros ->; cbn in *; lia|]. subst M. rewrite app_length in *. cbn [length] in *.
      destruct (exists_last (l := M1)) as (M2 & g & E2); [intros ->; cbn in *; lia|]. subst M1. rewrite app_length in *. cbn [length] in *.
      assert (Eg : get ((M2 ++ [g]) ++ [h]) (length M2 + 1 + 1 - 2) = Some g).
      { rewrite <- app_assoc. rewrite get_app_r by lia. replace (length M2 + 1 + 1 - 2 - length M2)%nat with 0%nat by lia. reflexivity. }
      assert (Eh : get ((M2 ++ [g]) ++ [h]) (length M2 + 1 + 1 - 1) = Some h).
      { rewrite get_app_r by (rewrite app_length; cbn; lia). rewrite app_length. cbn [length]. replace (length M2 + 1 + 1 - 1 - (length M2 + 1))%nat with 0%nat by lia. reflexivity. }
      rewrite Eg, Eh. cbn [obind]. assert (S1 : sl g < sl h). { destruct HM as [H1 _]. apply (H1 _ _ _ Eg). replace (S (length M2 + 1 + 1 - 2)) with (length M2 + 1 + 1 - 1)%nat by lia. auto. }
      assert (S2 : sl h < sl new) by (apply Hs, IM, in_or_app; right; left; auto). destruct (il_some g h new S1 S2) as (c & -> & Hc). cbn [obind]. destruct c; cbn [negb].
      * eexists. split; [reflexivity|]. cbn beta iota. split; [|rewrite !app_length; cbn [length]; repeat split; auto; lia]. apply hull_snoc; auto. intros g' M' E'. apply app_inj_tail in E' as [_ <-]. now apply Hc.
      * eexists. split; [reflexivity|]. cbn beta iota. rewrite removelast_app by discriminate. cbn [removelast]. rewrite app_nil_r. rewrite app_length. cbn [length]. split; [|lia].
        split; [eapply hull_prefix; eauto|]. split; [lia|]. split; [intros y Hy; apply IM, in_or_app; auto|]. intros x l Hl. destruct (DM x l Hl) as (l' & Hl' & Hv).
        rewrite <- app_assoc in Hl'. apply in_app_or in Hl' as [Hl'|[<-|[<-|[]]]].
        -- exists l'. split; auto. apply in_or_app. auto.
        -- destruct (pop_dom g h new x S1 S2) as [P|P]; [rewrite <- Hc; discriminate| |].
           ++ exists g. split; [apply in_or_app; left; apply in_or_app; right; left; auto|lia].
           ++ exists new. split; [apply in_or_app; right; left; auto|lia].
        -- exists new. split; auto. apply in_or_app; right; left; auto.
    + eexists. split; [reflexivity|]. cbn beta iota. split; [|auto]. destruct M as [|h [|]]; [apply hull_one| |cbn in *; lia]. apply (hull_snoc []); auto; [apply Hs, IM; left; auto|].
      intros g [|]; discriminate.
  - repeat split; auto; try apply HL; [apply incl_refl|]. intros x l Hl. exists l. split; [apply in_or_app; auto|lia].
  - lia.
  - rewrite E. cbn [obind]. eexists. split; [reflexivity|]. split; [auto|]. split; [now destruct M|]. split; [rewrite app_length; cbn; lia|]. split.
    + intros y Hy. apply in_app_or in Hy as [Hy|[<-|[]]]; [right; auto|left; auto].
    + intros x l [<-|Hl]; [exists new; split; [apply in_or_app; right; left; auto|lia]|auto].
Qed.
Lemma push_front_ok L a b : hull L -> (forall l, In l L -> sgn * a < sl l) ->
  exists L', push_front rev L a b = Some L' /\ hull L' /\ L' <> [] /\ (length L' <= S (length L))%nat /\ incl L' ((a, b) :: L) /\
    forall x l, In l ((a, b) :: L) -> exists l', In l' L' /\ V l x <= V l' x.
Proof.
  intros HL Hs. unfold push_front. set (new := (a, b)).
  assert (G0 : match L with [] => true | h :: _ => cmp rev a (fst h) end = true).
  { destruct L as [|l0 L0] eqn:EL; [auto|]. apply cmp_spec. apply Hs. left; auto. }
  rewrite G0. cbn [guard obind]. match goal with |- context [loop _ ?bd _] => set (body := bd) end.
  destruct (@loop_rule _ _ (fun M => hull M /\ (length M <= length L)%nat /\ incl M L /\ forall x l, In l L -> exists l', In l' (new :: M) /\ V l x <= V l' x) (fun M => length M)
    (fun M => (hull (new :: M)) /\ (length M <= length L)%nat /\ incl M L /\ forall x l, In l L -> exists l', In l' (new :: M) /\ V l x <= V l' x) body) with (fuel := S (length L)) (s := L) as (M & E & H1 & H2 & H3 & H4).
  - intros M (HM & LM & IM & DM). unfold body. destruct M as [|g [|h M]].
    + cbn [length Nat.leb]. eexists. split; [reflexivity|]. cbn beta iota. split; [apply hull_one|auto].
    + cbn [length Nat.leb]. eexists. split; [reflexivity|]. cbn beta iota. split; [|auto]. apply hull_cons; auto; [apply Hs, IM; left; auto|discriminate].
    + cbn [length Nat.leb get nth_error obind]. assert (S1 : sl new < sl g) by (apply Hs, IM; left; auto). assert (S2 : sl g < sl h) by (destruct HM as [H1 _]; apply (H1 0%nat); auto).
      destruct (il_some new g h S1 S2) as (c & -> & Hc). cbn [obind]. destruct c; cbn [negb].
      * eexists. split; [reflexivity|]. cbn beta iota. split; [|auto]. apply hull_cons; auto. intros h' M' E'. injection E' as <- <-. now apply Hc.
      * eexists. split; [reflexivity|]. cbn beta iota. cbn [tl length]. split; [|lia].
        split; [eapply hull_tail; eauto|]. split; [cbn in LM; lia|]. split; [intros y Hy; apply IM; right; auto|]. intros x l Hl. destruct (DM x l Hl) as (l' & Hl' & Hv).
        destruct Hl' as [<-|[<-|Hl']].
        -- exists new. split; auto. left; auto.
        -- destruct (pop_dom new g h x S1 S2) as [P|P]; [rewrite <- Hc; discriminate| |].
           ++ exists new. split; [left; auto|lia].
           ++ exists h. split; [right; left; auto|lia].
        -- exists l'. split; auto. right; auto.
  - repeat split; auto; try apply HL; [apply incl_refl|]. intros x l Hl. exists l. split; [right; auto|lia].
  - lia.
  - rewrite E. cbn [obind]. eexists. split; [reflexivity|]. split; [auto|]. split; [discriminate|]. split; [cbn; lia|]. split.
    + intros y [<-|Hy]; [left; auto|right; auto].
    + intros x l [<-|Hl]; [exists new; split; [left; auto|lia]|auto].
Qed.

(** ** Queries *)
Definition top (L : list line) (x y : Z) : Prop := (exists l, In l L /\ y = eval l x) /\ forall l, In l L -> V l x <= sgn * y.
Lemma get_inc_ok L x : hull L -> L <> [] ->
  exists L' y, get_incremental rev L x = Some (L', y) /\ hull L' /\ L' <> [] /\ (length L' <= length L)%nat /\ incl L' L /\ top L x y /\
    forall x', x <= x' -> forall l, In l L -> exists l', In l' L' /\ V l x' <= V l' x'.
Proof.
  intros HL N. unfold get_incremental. destruct L as [|l0 L0]; [easy|]. cbn [get nth_error obind]. set (L := l0 :: L0) in *.
  match goal with |- context [loop _ ?bd _] => set (body := bd) end.
  destruct (@loop_rule _ _ (fun '(M, ret) => hull M /\ (exists l M', M = l :: M' /\ ret = eval l x) /\ (length M <= length L)%nat /\ incl M L /\ forall x', x <= x' -> forall l, In l L -> exists l', In l' M /\ V l x' <= V l' x')
     (fun '(M, _) => length M)
    (fun '(M, ret) => hull M /\ M <> [] /\ (length M <= length L)%nat /\ incl M L /\ top M x ret /\ forall x', x <= x' -> forall l, In l L -> exists l', In l' M /\ V l x' <= V l' x') body) with (fuel := S (length L)) (s := (L, eval l0 x)) as ([M y] & E & H1 & H2 & H3 & H4 & H5 & H6).
  - intros [M ret] (HM & (l & M' & -> & ->) & LM & IM & DM). unfold body. destruct M' as [|h M].
    + cbn [length Nat.leb]. eexists. split; [reflexivity|]. cbn beta iota. repeat (split; [first [assumption|discriminate]|]). split; [|auto]. split.
      * exists l. split; [left; auto|auto].
      * intros l' [<-|[]]. unfold V. lia.
    + cbn [length Nat.leb get nth_error obind]. destruct (cmp rev (eval l x) (eval h x)) eqn:C.
      * apply cmp_spec in C. eexists. split; [reflexivity|]. cbn beta iota. cbn [tl length]. split; [|lia]. split; [eapply hull_tail; eauto|]. split; [eauto|]. split; [cbn [length] in LM |- *; lia|].
        split; [intros y Hy; apply IM; right; auto|]. intros x' Hx l1 Hl1. destruct (DM x' Hx l1 Hl1) as (l' & [<-|Hl'] & Hv); [|eauto].
        exists h. split; [left; auto|]. assert (S1 : sl l < sl h) by (destruct HM as [H1 _]; apply (H1 0%nat); auto). fold (V l x) (V h x) in C. assert (0 <= (sl h - sl l) * (x' - x)) by (apply Z.mul_nonneg_nonneg; lia). rewrite !V_eq in *. lia.
      * apply cmp_false in C. eexists. split; [reflexivity|]. cbn beta iota. repeat (split; [first [assumption|discriminate]|]). split; [|auto]. split.
        -- exists l. split; [left; auto|auto].
        -- intros l' Hl'. apply In_get in Hl' as (k & _ & Ek). apply (right_max _ x HM 0 k l h); auto.
  - split; [auto|]. split; [unfold L; eauto|]. split; [lia|]. split; [apply incl_refl|]. intros x' _ l Hl. exists l. split; [auto|lia].
  - lia.
  - exists M, y. split; [exact E|]. repeat (split; [assumption|]). split; [|auto]. destruct H5 as [(l & Hl & ->) Hm]. split; [exists l; split; auto|].
    intros l1 Hl1. destruct (H6 x ltac:(lia) l1 Hl1) as (l' & Hl' & Hv). specialize (Hm l' Hl'). lia.
Qed.
Lemma get_dec_ok L x : hull L -> L <> [] ->
  exists L' y, get_decremental rev L x = Some (L', y) /\ hull L' /\ L' <> [] /\ (length L' <= length L)%nat /\ incl L' L /\ top L x y /\
    forall x', x' <= x -> forall l, In l L -> exists l', In l' L' /\ V l x' <= V l' x'.
Proof.
  intros HL N. unfold get_decremental. destruct (exists_last N) as (L1 & l0 & EL).
  assert (E0 : get L (length L - 1) = Some l0). { rewrite EL, app_length. cbn [length]. rewrite get_app_r by lia. replace (length L1 + 1 - 1 - length L1)%nat with 0%nat by lia. auto. }
  rewrite E0. cbn [obind].
  match goal with |- context [loop _ ?bd _] => set (body := bd) end.
  destruct (@loop_rule _ _ (fun '(M, ret) => hull M /\ (exists l M', M = M' ++ [l] /\ ret = eval l x) /\ (length M <= length L)%nat /\ incl M L /\ forall x', x' <= x -> forall l, In l L -> exists l', In l' M /\ V l x' <= V l' x')
     (fun '(M, _) => length M)
    (fun '(M, ret) => hull M /\ M <> [] /\ (length M <= length L)%nat /\ incl M L /\ top M x ret /\ forall x', x' <= x -> forall l, In l L -> exists l', In l' M /\ V l x' <= V l' x') body) with (fuel := S (length L)) (s := (L, eval l0 x)) as ([M y] & E & H1 & H2 & H3 & H4 & H5 & H6).
  - intros [M ret] (HM & (h & M' & -> & ->) & LM & IM & DM). unfold body.
    assert (Nn : M' ++ [h] <> []) by (now destruct M'). destruct (Nat.leb_spec 2 (length (M' ++ [h]))) as [Hlen|Hlen]; rewrite app_length in Hlen; cbn [length] in Hlen.
    + destruct (exists_last (l := M')) as (M2 & g & E2); [intros ->; cbn in *; lia|]. subst M'.
      assert (Eg : get ((M2 ++ [g]) ++ [h]) (length M2) = Some g) by (rewrite <- app_assoc, get_app_r, Nat.sub_diag by lia; reflexivity).
      assert (Eh : get ((M2 ++ [g]) ++ [h]) (S (length M2)) = Some h).
      { rewrite get_app_r by (rewrite app_length; cbn; lia). rewrite app_length. cbn [length]. replace (S (length M2) - (length M2 + 1))%nat with 0%nat by lia. reflexivity. }
      replace (length ((M2 ++ [g]) ++ [h]) - 2)%nat with (length M2) by (rewrite !app_length; cbn; lia). rewrite Eg. cbn [obind]. destruct (cmp rev (eval h x) (eval g x)) eqn:C.
      * apply cmp_spec in C. eexists. split; [reflexivity|]. cbn beta iota. rewrite removelast_app by discriminate. cbn [removelast]. rewrite app_nil_r. split; [|rewrite !app_length; cbn [length]; lia].
        split; [eapply hull_prefix; eauto|]. split; [eauto|]. split; [rewrite !app_length in *; cbn in *; lia|].
        split; [intros y Hy; apply IM, in_or_app; auto|]. intros x' Hx l1 Hl1. destruct (DM x' Hx l1 Hl1) as (l' & Hl' & Hv). apply in_app_or in Hl' as [Hl'|[<-|[]]]; [eauto|].
        exists g. split; [apply in_or_app; right; left; auto|]. assert (S1 : sl g < sl h) by (destruct HM as [H1 _]; eauto). fold (V g x) (V h x) in C. assert (0 <= (sl h - sl g) * (x - x')) by (apply Z.mul_nonneg_nonneg; lia). rewrite !V_eq in *. lia.
      * apply cmp_false in C. eexists. split; [reflexivity|]. cbn beta iota. repeat (split; [assumption|]). split; [|auto]. split.
        -- exists h. split; [apply in_or_app; right; left; auto|auto].
        -- intros l' Hl'. apply In_get in Hl' as (k & Hk & Ek). rewrite !app_length in Hk. cbn [length] in Hk. destruct (Nat.eq_dec k (S (length M2))) as [->|]; [replace l' with h by congruence; unfold V; lia|].
           apply (left_max _ x HM (length M2) k g h l'); auto. lia.
    + destruct M' as [|]; [|cbn in *; lia]. eexists. split; [reflexivity|]. cbn beta iota. repeat (split; [assumption|]). split; [|auto]. split.
      * exists h. split; [left; auto|auto].
      * intros l' [<-|[]]. unfold V. lia.
  - split; [auto|]. split; [eauto|]. split; [lia|]. split; [apply incl_refl|]. intros x' _ l Hl. exists l. split; [auto|lia].
  - lia.
  - exists M, y. split; [exact E|]. repeat (split; [assumption|]). split; [|auto]. destruct H5 as [(l & Hl & ->) Hm]. split; [exists l; split; auto|].
    intros l1 Hl1. destruct (H6 x ltac:(lia) l1 Hl1) as (l' & Hl' & Hv). specialize (Hm l' Hl'). lia.
Qed.

Lemma bisect_ok w ng f : 1 < w -> 0 <= ng < 2 ^ (w - 1) - 1 -> (forall c, -1 < c < ng -> exists b, f c = Some b) ->
  exists i, bisect w (S (S (Z.to_nat ng))) (-1) ng f = Some i /\ -1 <= i < ng /\ (i = -1 \/ f i = Some true) /\ (i + 1 = ng \/ f (i + 1) = Some false).
Proof.
  intros Hw Hng Hf. unfold bisect. match goal with |- context [loop _ ?bd _] => set (body := bd) end.
  destruct (@loop_rule _ _ (fun '(o, n) => -1 <= o < n /\ n <= ng /\ (o = -1 \/ f o = Some true) /\ (n = ng \/ f n = Some false)) (fun '(o, n) => Z.to_nat (n - o))
     (fun i => -1 <= i < ng /\ (i = -1 \/ f i = Some true) /\ (i + 1 = ng \/ f (i + 1) = Some false)) body) with (fuel := S (S (Z.to_nat ng))) (s := (-1, ng)) as (i & E & H).
  - intros [o n] (H1 & H2 & H3 & H4). unfold body. rewrite mach_some by (unfold in_range; lia). cbn [obind]. rewrite mach_some by (unfold in_range; lia). cbn [obind].
    destruct (Z.ltb_spec 1 (Z.abs (n - o))).
    + rewrite Z.quot_div_nonneg by lia. assert (0 < (n - o) / 2 < n - o) by (split; [apply Z.div_str_pos|apply Z.div_lt]; lia).
      rewrite mach_some by (unfold in_range; lia). cbn [obind]. rewrite mach_some by (unfold in_range; lia). cbn [obind]. destruct (Hf (o + (n - o) / 2)) as [b Eb]; [lia|]. rewrite Eb. cbn [obind].
      destruct b; eexists; (split; [reflexivity|]); cbn beta iota; (split; [|lia]); repeat split; try lia; auto.
    + eexists. split; [reflexivity|]. cbn beta iota. replace (o + 1) with n by lia. repeat split; auto; lia.
  - repeat split; try lia; auto.
  - lia.
  - eauto.
Qed.
Lemma getz_some L c l : getz L c = Some l -> 0 <= c /\ get L (Z.to_nat c) = Some l.
Proof. unfold getz. destruct (Z.ltb_spec c 0); [discriminate|auto]. Qed.
Lemma getz_lt L c : 0 <= c < Z.of_nat (length L) -> exists l, getz L c = Some l.
Proof. intros H. unfold getz. destruct (Z.ltb_spec c 0); [lia|]. apply get_lt. lia. Qed.
Lemma get_ok w L x : 1 < w -> Z.of_nat (length L) < 2 ^ (w - 1) -> hull L -> L <> [] -> exists y, cht_get rev w L x = Some y /\ top L x y.
Proof.
  intros Hw Hlen HL N. unfold cht_get. rewrite mach_some by (unfold in_range; lia). cbn [obind]. assert (1 <= Z.of_nat (length L)) by (destruct L; [easy|cbn; lia]).
  match goal with |- context [bisect _ _ _ _ ?ff] => set (f := ff) end.
  destruct (bisect_ok w (Z.of_nat (length L) - 1) f) as (i & E & Hi & Hl & Hr); auto; [lia| |].
  - intros c Hc. unfold f. destruct (Z.eqb_spec c (-1)); [lia|]. destruct (getz_lt L c) as [l ->]; [lia|]. destruct (getz_lt L (c + 1)) as [r ->]; [lia|]. cbn [obind]. eauto.
  - replace (S (S (Z.to_nat (Z.of_nat (length L) - 1)))) with (S (length L)) in E by lia. rewrite E. cbn [obind]. destruct (getz_lt L (i + 1)) as [g Eg]; [lia|]. rewrite Eg. cbn [obind]. eexists. split; [reflexivity|].
    apply getz_some in Eg as [_ Eg]. split; [exists g; split; [eapply get_In; eauto|auto]|]. fold (V g x). intros l Hl'. apply In_get in Hl' as (k & Hk & Ek).
    destruct (Z.le_gt_cases (Z.of_nat k) i) as [Hki|Hki].
    + destruct Hl as [->|Hl]; [lia|]. unfold f in Hl. destruct (Z.eqb_spec i (-1)); [lia|]. destruct (getz L i) as [a|] eqn:Ea; [|discriminate]. cbn [obind] in Hl.
      destruct (getz L (i + 1)) as [b|] eqn:Eb; [|discriminate]. cbn [obind] in Hl. injection Hl as Hl. apply cmp_spec in Hl. apply getz_some in Ea as [_ Ea], Eb as [_ Eb]. assert (b = g) by congruence. subst b.
      apply (left_max L x HL (Z.to_nat i) k a g l); auto; [|unfold V; lia|lia]. replace (S (Z.to_nat i)) with (Z.to_nat (i + 1)) by lia. auto.
    + destruct (Z.eq_dec (Z.of_nat k) (i + 1)) as [Ek2|Nk]; [replace (Z.to_nat (i + 1)) with k in Eg by lia; replace l with g by congruence; lia|].
      destruct Hr as [Hr|Hr]; [lia|]. unfold f in Hr. destruct (Z.eqb_spec (i + 1) (-1)); [lia|]. destruct (getz L (i + 1)) as [a|] eqn:Ea; [|discriminate]. cbn [obind] in Hr.
      destruct (getz L (i + 1 + 1)) as [b|] eqn:Eb; [|discriminate]. cbn [obind] in Hr. injection Hr as Hr. apply cmp_false in Hr. apply getz_some in Ea as [_ Ea], Eb as [_ Eb]. assert (a = g) by congruence. subst a.
      apply (right_max L x HL (Z.to_nat (i + 1)) (k - Z.to_nat (i + 1))%nat g b l); auto.
      * replace (S (Z.to_nat (i + 1))) with (Z.to_nat (i + 1 + 1)) by lia. auto.
      * now replace (Z.to_nat (i + 1) + (k - Z.to_nat (i + 1)))%nat with k by lia.
Qed.

(** ** Histories *)
Definition inr_ (lo hi : option Z) (x : Z) : Prop := (match lo with Some l => l <= x | None => True end) /\ (match hi with Some h => x <= h | None => True end).
Definition rep (A : list line) (lo hi : option Z) (L : list line) : Prop :=
  hull L /\ incl L A /\ (A <> [] -> L <> []) /\ (length L <= length A)%nat /\ forall x, inr_ lo hi x -> forall l, In l A -> exists l', In l' L /\ V l x <= V l' x.
Lemma beyond_spec a b : beyond rev a b <-> sgn * a < sgn * b.
Proof. unfold beyond, sgn. destruct rev; lia. Qed.
Lemma top_best A lo hi L x y : rep A lo hi L -> inr_ lo hi x -> top L x y -> best rev A x y.
Proof.
  intros (_ & I & _ & _ & D) Hx [(l & Hl & ->) Hm]. split; [exists l; split; auto|]. intros l1 Hl1. destruct (D x Hx l1 Hl1) as (l' & Hl' & Hv). specialize (Hm l' Hl').
  unfold V, sgn in *. unfold eval in *. destruct rev; lia.
Qed.
Lemma run_ok w : 1 < w -> forall h A lo hi L out, rep A lo hi L -> legal rev A lo hi h -> Z.of_nat (length A + length h) < 2 ^ (w - 1) ->
  exists L' o, for_each h (fun o '(L, out) => let* (L, o) := cht_step rev w o L in Some (L, out ++ o)) (L, out) = Some (L', out ++ o) /\ answers rev A h o.
Proof.
  intros Hw h. induction h as [|o h IH]; intros A lo hi L out R Lg Hlen; [exists L, []; cbn; rewrite app_nil_r; auto|]. cbn [for_each]. pose proof R as (HL & I & Ne & Ln & D).
  assert (Q : forall (Hd : Z) lo' hi' L' y, rep A lo' hi' L' -> legal rev A lo' hi' h -> best rev A Hd y ->
    exists L'' o', for_each h (fun o '(L, out) => let* (L, o) := cht_step rev w o L in Some (L, out ++ o)) (L', out ++ [y]) = Some (L'', out ++ o') /\ exists z t, o' = z :: t /\ best rev A Hd z /\ answers rev A h t).
  { intros x lo' hi' L' y R' Lg' B. destruct (IH A lo' hi' L' (out ++ [y]) R' Lg') as (L2 & o2 & E & An); [cbn [length] in Hlen; lia|]. exists L2, (y :: o2). rewrite E, <- app_assoc. split; [reflexivity|]. eauto 6. }
  destruct o as [a b|a b| |x|x|x]; cbn [legal cht_step answers] in *.
  - destruct Lg as [Hb Lg]. destruct (push_back_ok L a b HL) as (L' & E & H1 & H2 & H3 & H4 & H5); [intros l Hl; apply beyond_spec; auto|]. rewrite E. cbn [obind]. rewrite app_nil_r.
    eapply IH; eauto; [|cbn [length] in *; lia]. split; [auto|]. split; [|split; [auto|split; [cbn; lia|]]].
    + intros y Hy. apply H4 in Hy as [<-|Hy]; [left; auto|right; auto].
    + intros x Hx l [<-|Hl]; [apply H5; left; auto|]. destruct (D x Hx l Hl) as (l' & Hl' & Hv). destruct (H5 x l') as (l2 & ? & ?); [right; auto|]. exists l2. split; [auto|lia].
  - destruct Lg as [Hb Lg]. destruct (push_front_ok L a b HL) as (L' & E & H1 & H2 & H3 & H4 & H5); [intros l Hl; apply beyond_spec; auto|]. rewrite E. cbn [obind]. rewrite app_nil_r.
    eapply IH; eauto; [|cbn [length] in *; lia]. split; [auto|]. split; [|split; [auto|split; [cbn; lia|]]].
    + intros y Hy. apply H4 in Hy as [<-|Hy]; [left; auto|right; auto].
    + intros x Hx l [<-|Hl]; [apply H5; left; auto|]. destruct (D x Hx l Hl) as (l' & Hl' & Hv). destruct (H5 x l') as (l2 & ? & ?); [right; auto|]. exists l2. split; [auto|lia].
  - cbn [obind]. rewrite app_nil_r. eapply IH; eauto; [|cbn [length] in *; lia]. unfold cht_clear. split; [apply hull_nil|]. split; [apply incl_refl|]. split; [auto|]. split; [cbn; lia|]. intros ? _ ? [].
  - destruct Lg as [(Na & Hx) Lg]. destruct (get_ok w L x Hw) as (y & E & T); auto; [lia|]. rewrite E. cbn [obind]. eapply Q; eauto. eapply top_best; eauto.
  - destruct Lg as [(Na & Hx) Lg]. destruct (get_inc_ok L x HL) as (L' & y & E & H1 & H2 & H3 & H4 & T & H5); auto. rewrite E. cbn [obind]. eapply Q; eauto; [|eapply top_best; eauto].
    split; [auto|]. split; [eapply incl_tran; eauto|]. split; [auto|]. split; [lia|]. intros x' [Hx1 Hx2] l Hl. destruct (D x') with (l := l) as (l' & Hl' & Hv); auto.
    { split; auto. destruct lo; [|auto]. destruct Hx. lia. }
    destruct (H5 x' Hx1 l' Hl') as (l2 & ? & ?). exists l2. split; [auto|lia].
  - destruct Lg as [(Na & Hx) Lg]. destruct (get_dec_ok L x HL) as (L' & y & E & H1 & H2 & H3 & H4 & T & H5); auto. rewrite E. cbn [obind]. eapply Q; eauto; [|eapply top_best; eauto].
    split; [auto|]. split; [eapply incl_tran; eauto|]. split; [auto|]. split; [lia|]. intros x' [Hx1 Hx2] l Hl. destruct (D x') with (l := l) as (l' & Hl' & Hv); auto.
    { split; auto. destruct hi; [|auto]. destruct Hx. lia. }
    destruct (H5 x' Hx2 l' Hl') as (l2 & ? & ?). exists l2. split; [auto|lia].
Qed.
End CHT.
