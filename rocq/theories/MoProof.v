From Coq Require Import Permutation.
From Verif Require Import Base BaseLemmas MoModel.

(** ** Replay *)
Lemma replay_app a b st : replay (a ++ b) st = match replay a st with Some st' => replay b st' | None => None end.
Proof.
  revert st. induction a as [|e a IH]; intros [w sv]; cbn [app replay]; auto.
  destruct e; auto.
  - destruct w; auto. destruct (_ =? _); auto.
  - destruct (rev w); auto. destruct (_ =? _); auto.
  - destruct sv; auto.
Qed.
Lemma reports_app a b : reports (a ++ b) = reports a ++ reports b.
Proof. apply flat_map_app. Qed.

Lemma replay_pushl k : forall l w sv, replay (map PushL (rev (seq l k))) (w, sv) = Some (seq l k ++ w, sv).
Proof.
  induction k as [|k IH]; intros l w sv; auto.
  cbn [seq rev]. rewrite map_app, replay_app, IH. reflexivity.
Qed.
Lemma replay_pushr k : forall r w sv, replay (map PushR (seq r k)) (w, sv) = Some (w ++ seq r k, sv).
Proof.
  induction k as [|k IH]; intros r w sv; cbn [seq map replay]; [now rewrite app_nil_r|].
  rewrite IH, <- app_assoc. reflexivity.
Qed.
Lemma replay_popl k : forall l w sv, replay (map PopL (seq l k)) (seq l k ++ w, sv) = Some (w, sv).
Proof.
  induction k as [|k IH]; intros l w sv; cbn [seq map replay app]; auto. rewrite Nat.eqb_refl. apply IH.
Qed.
Lemma replay_popr k : forall r w sv, replay (map PopR (rev (seq r k))) (w ++ seq r k, sv) = Some (w, sv).
Proof.
  induction k as [|k IH]; intros r w sv; cbn [seq rev map replay]; [now rewrite app_nil_r|].
  rewrite map_app, replay_app. replace (w ++ r :: seq (S r) k) with ((w ++ [r]) ++ seq (S r) k) by now rewrite <- app_assoc.
  rewrite IH. cbn [map replay]. rewrite rev_app_distr. cbn [rev app]. rewrite Nat.eqb_refl. now rewrite rev_involutive.
Qed.
Lemma reports_map (f : nat -> event) l : (forall i t, f i <> Rem t) -> reports (map f l) = [].
Proof. intros H. induction l as [|x l IH]; cbn; auto. specialize (H x). destruct (f x); auto. now destruct (H t). Qed.

(** ** The loops *)
Lemma loop_pushl' l : forall fuel l0 tr, l0 < fuel ->
  loop fuel (fun '(l0, tr) => if l <? l0 then Some (inl (l0 - 1, tr ++ [PushL (l0 - 1)])) else Some (inr (l0, tr))) (l0, tr)
  = Some (Nat.min l l0, tr ++ map PushL (rev (seq l (l0 - l)))).
Proof.
  induction fuel as [|fuel IH]; intros l0 tr H; [lia|]. cbn [loop].
  destruct (Nat.ltb_spec l l0) as [C|C]; cbn [obind].
  - rewrite IH by lia.
    f_equal. f_equal; [lia|]. rewrite <- app_assoc. f_equal.
    replace (l0 - l) with (S (l0 - 1 - l)) by lia. rewrite seq_S, rev_app_distr. cbn [rev app map].
    replace (l + (l0 - 1 - l)) with (l0 - 1) by lia. reflexivity.
  - replace (l0 - l) with 0 by lia. cbn. rewrite app_nil_r. repeat f_equal. lia.
Qed.
Lemma loop_popr r : forall fuel r0 tr, r0 < fuel ->
  loop fuel (fun '(r0, tr) => if r <? r0 then Some (inl (r0 - 1, tr ++ [PopR (r0 - 1)])) else Some (inr (r0, tr))) (r0, tr)
  = Some (Nat.min r r0, tr ++ map PopR (rev (seq r (r0 - r)))).
Proof.
  induction fuel as [|fuel IH]; intros r0 tr H; [lia|]. cbn [loop].
  destruct (Nat.ltb_spec r r0) as [C|C]; cbn [obind].
  - rewrite IH by lia.
    f_equal. f_equal; [lia|]. rewrite <- app_assoc. f_equal.
    replace (r0 - r) with (S (r0 - 1 - r)) by lia. rewrite seq_S, rev_app_distr. cbn [rev app map].
    replace (r + (r0 - 1 - r)) with (r0 - 1) by lia. reflexivity.
  - replace (r0 - r) with 0 by lia. cbn. rewrite app_nil_r. repeat f_equal. lia.
Qed.
Lemma loop_up (f : nat -> event) r : forall fuel r0 tr, r - r0 < fuel ->
  loop fuel (fun '(r0, tr) => if r0 <? r then Some (inl (r0 + 1, tr ++ [f r0])) else Some (inr (r0, tr))) (r0, tr)
  = Some (Nat.max r r0, tr ++ map f (seq r0 (r - r0))).
Proof.
  induction fuel as [|fuel IH]; intros r0 tr H; [lia|]. cbn [loop].
  destruct (Nat.ltb_spec r0 r) as [C|C]; cbn [obind].
  - rewrite IH by lia.
    f_equal. f_equal; [lia|]. rewrite <- app_assoc. f_equal.
    replace (r - r0) with (S (r - (r0 + 1))) by lia. cbn [seq map app]. now rewrite Nat.add_1_r.
  - replace (r - r0) with 0 by lia. cbn. rewrite app_nil_r. repeat f_equal. lia.
Qed.
(** ** Good prefixes *)
Definition okp (qs : list (nat * nat)) (tr : list event) : Prop :=
  forall pre t post, tr = pre ++ Rem t :: post ->
    exists l r saved, nth_error qs t = Some (l, r) /\ replay pre ([], None) = Some (seq l (r - l), saved).
Lemma okp_nil qs : okp qs [].
Proof. intros pre t post E. destruct pre; discriminate. Qed.
Lemma okp_app qs tr evs : okp qs tr -> reports evs = [] -> okp qs (tr ++ evs).
Proof.
  intros H R pre t post E. apply app_eq_app in E as (m & [[E1 E2]|[E1 E2]]).
  - destruct m as [|e m].
    + exfalso. cbn in E2. rewrite <- E2 in R. discriminate.
    + injection E2 as <- E2. apply (H pre t m E1).
  - exfalso. rewrite E2, reports_app in R. cbn in R. destruct (reports m); discriminate.
Qed.
Lemma okp_rem qs tr t l r sv : okp qs tr -> replay tr ([], None) = Some (seq l (r - l), sv) -> nth_error qs t = Some (l, r) ->
  okp qs (tr ++ [Rem t]).
Proof.
  intros H R Hq pre t' post E. destruct post as [|e post] using rev_ind.
  - apply app_inj_tail in E as [-> E]. injection E as ->. eauto.
  - clear IHpost. rewrite app_comm_cons, app_assoc in E. apply app_inj_tail in E as [E _]. apply (H _ _ _ E).
Qed.

Lemma add_all_ok qs : (forall l r, In (l, r) qs -> l <= r) -> exists segs, add_all qs = Some segs /\ length segs = length qs /\
  forall i, i < length qs -> exists l r, nth_error qs i = Some (l, r) /\ nth_error segs i = Some (i, l, r).
Proof.
  intros H. unfold add_all.
  destruct (@for_each_rule _ _ (fun done rest segs => qs = done ++ rest /\ length segs = length done /\
    forall i, i < length done -> exists l r, nth_error done i = Some (l, r) /\ nth_error segs i = Some (i, l, r))
    (fun '(l, r) segs => add_segment segs l r) qs [] []) as (segs & E & Eq & L & S).
  - split; auto. split; auto. cbn. intros i Hi. lia.
  - intros done [l r] rest segs (Eq & L & S). unfold add_segment, seg in *.
    assert (Hlr : l <= r) by (apply H; rewrite Eq; apply in_or_app; right; now left).
    apply Nat.leb_le in Hlr. rewrite Hlr. eexists; split; [reflexivity|]. split; [now rewrite <- app_assoc|].
    rewrite !app_length. cbn [length]. split; [lia|]. intros i Hi. destruct (Nat.eq_dec i (length done)) as [->|].
    + exists l, r. rewrite nth_error_app2, Nat.sub_diag by lia. split; auto. rewrite nth_error_app2 by lia. now rewrite L, Nat.sub_diag.
    + destruct (S i ltac:(lia)) as (l' & r' & E1 & E2). exists l', r'. rewrite !nth_error_app1 by lia. auto.
  - exists segs. rewrite app_nil_r in Eq. subst. auto.
Qed.

Section Mo.
Variable ceil_div : nat -> nat -> nat.
Variable srt : sorter.
Variable segs : list seg.
Variable qs : list (nat * nat).
Hypothesis Hle : forall l r, In (l, r) qs -> l <= r.
Hypothesis Hlen : length segs = length qs.
Hypothesis Hsegs : forall i, i < length qs -> exists l r, nth_error qs i = Some (l, r) /\ nth_error segs i = Some (i, l, r).
Hypothesis Hsrt : sort_spec srt.
Hypothesis Hceil : ceil_spec ceil_div.

Lemma sget_eq i l r : nth_error segs i = Some (i, l, r) -> sget segs i = (i, l, r).
Proof. intros H. now apply nth_error_nth. Qed.
Lemma seg_of i : i < length qs -> exists l r, nth_error qs i = Some (l, r) /\ nth_error segs i = Some (i, l, r) /\ sget segs i = (i, l, r) /\ l <= r.
Proof.
  intros Hi. destruct (Hsegs i Hi) as (l & r & E1 & E2). exists l, r. split; auto. split; auto. split; [now apply sget_eq|].
  apply Hle. eapply nth_error_In; eauto.
Qed.

Lemma mo_comp_weak block : (forall x y, x <= y -> block x <= block y) -> weak_order (mo_comp segs block).
Proof.
  intros M. unfold mo_comp. split; [|split].
  - intros x. rewrite Nat.eqb_refl. cbn [negb]. rewrite !Nat.ltb_irrefl. now destruct (_ =? 0).
  - intros x y z. set (a := sg_l (sget segs x)); set (b := sg_l (sget segs y)); set (c := sg_l (sget segs z)).
    pose proof (M a b) as M1. pose proof (M b a) as M1'. pose proof (M b c) as M2. pose proof (M c b) as M2'. pose proof (M a c) as M3. pose proof (M c a) as M3'.
    destruct (Nat.eqb_spec (block a) (block b)) as [E1|], (Nat.eqb_spec (block b) (block c)) as [E2|], (Nat.eqb_spec (block a) (block c)) as [E3|]; cbn [negb];
      try lia; rewrite ?E1, ?E2; try destruct (block c mod 2 =? 0); try destruct (block b mod 2 =? 0); rewrite ?Nat.ltb_lt; lia.
  - intros x y z. set (a := sg_l (sget segs x)); set (b := sg_l (sget segs y)); set (c := sg_l (sget segs z)).
    pose proof (M a b) as M1. pose proof (M b a) as M1'. pose proof (M b c) as M2. pose proof (M c b) as M2'. pose proof (M a c) as M3. pose proof (M c a) as M3'.
    destruct (Nat.eqb_spec (block a) (block b)) as [E1|], (Nat.eqb_spec (block b) (block c)) as [E2|], (Nat.eqb_spec (block a) (block c)) as [E3|]; cbn [negb];
      try lia; rewrite ?E1, ?E2; try destruct (block c mod 2 =? 0); try destruct (block b mod 2 =? 0); rewrite ?Nat.ltb_ge; lia.
Qed.
Lemma rb_comp_weak block : (forall x y, x <= y -> block x <= block y) -> weak_order (rb_comp segs block).
Proof.
  intros M. unfold rb_comp. split; [|split].
  - intros x. rewrite Nat.eqb_refl. cbn [negb]. now rewrite Nat.ltb_irrefl.
  - intros x y z. set (a := sg_l (sget segs x)); set (b := sg_l (sget segs y)); set (c := sg_l (sget segs z)).
    pose proof (M a b) as M1. pose proof (M b a) as M1'. pose proof (M b c) as M2. pose proof (M c b) as M2'. pose proof (M a c) as M3. pose proof (M c a) as M3'.
    destruct (Nat.eqb_spec (block a) (block b)) as [E1|], (Nat.eqb_spec (block b) (block c)) as [E2|], (Nat.eqb_spec (block a) (block c)) as [E3|]; cbn [negb];
      try lia; rewrite ?Nat.ltb_lt; lia.
  - intros x y z. set (a := sg_l (sget segs x)); set (b := sg_l (sget segs y)); set (c := sg_l (sget segs z)).
    pose proof (M a b) as M1. pose proof (M b a) as M1'. pose proof (M b c) as M2. pose proof (M c b) as M2'. pose proof (M a c) as M3. pose proof (M c a) as M3'.
    destruct (Nat.eqb_spec (block a) (block b)) as [E1|], (Nat.eqb_spec (block b) (block c)) as [E2|], (Nat.eqb_spec (block a) (block c)) as [E3|]; cbn [negb];
      try lia; rewrite ?Nat.ltb_ge; lia.
Qed.
Lemma block_even_mono b x y : x <= y -> x / b <= y / b.
Proof. intros H. destruct b; [cbn; lia|]. now apply Nat.div_le_mono. Qed.
Lemma block_odd_mono b x y : x <= y -> get_bo b x <= get_bo b y.
Proof.
  intros H. unfold get_bo. destruct (Nat.ltb_spec x (b - b / 2)), (Nat.ltb_spec y (b - b / 2)); try (apply Nat.le_0_l); try lia.
  apply Nat.add_le_mono_r. apply block_even_mono. lia.
Qed.

Lemma move_ok l r l0 r0 tr sv : l <= r -> l0 <= r0 -> replay tr ([], None) = Some (seq l0 (r0 - l0), sv) ->
  exists evs, move_to l r (l0, r0, tr) = Some (l, r, tr ++ evs) /\ reports evs = [] /\ replay (tr ++ evs) ([], None) = Some (seq l (r - l), sv).
Proof.
  intros H H0 R. unfold move_to. rewrite loop_pushl' by lia. cbn [obind]. rewrite loop_up by lia. cbn [obind].
  rewrite loop_up by lia. cbn [obind]. rewrite loop_popr by lia. cbn [obind].
  exists (map PushL (rev (seq l (l0 - l))) ++ map PushR (seq r0 (r - r0)) ++ map PopL (seq (Nat.min l l0) (l - Nat.min l l0)) ++
          map PopR (rev (seq r (Nat.max r r0 - r)))).
  split; [|split].
  - rewrite <- !app_assoc. repeat f_equal; lia.
  - rewrite !reports_app, !reports_map by discriminate. reflexivity.
  - rewrite replay_app, R, replay_app, replay_pushl, replay_app, replay_pushr, replay_app.
    set (m := Nat.min l l0). set (M := Nat.max r r0).
    assert (E : (seq l (l0 - l) ++ seq l0 (r0 - l0)) ++ seq r0 (r - r0) = seq m (l - m) ++ seq l (r - l) ++ seq r (M - r)).
    { transitivity (seq m (M - m)).
      - destruct (Nat.le_gt_cases l l0).
        + replace m with l by lia. replace l0 with (l + (l0 - l)) at 2 by lia. rewrite <- seq_app.
          replace r0 with (l + (l0 - l + (r0 - l0))) at 2 by lia. rewrite <- seq_app. f_equal. lia.
        + replace (l0 - l) with 0 by lia. cbn [seq app]. replace m with l0 by lia.
          replace r0 with (l0 + (r0 - l0)) at 2 by lia. rewrite <- seq_app. f_equal. lia.
      - replace (seq r (M - r)) with (seq (l + (r - l)) (M - r)) by (f_equal; lia). rewrite <- seq_app.
        replace (seq l (r - l + (M - r))) with (seq (m + (l - m)) (r - l + (M - r))) by (f_equal; lia). rewrite <- seq_app. f_equal. lia. }
    rewrite E, replay_popl. apply replay_popr.
Qed.

Lemma visit_ok ids : (forall i, In i ids -> i < length qs) ->
  exists p tr, visit segs ids = Some (p, tr) /\ reports tr = ids /\ okp qs tr /\ exists st, replay tr ([], None) = Some st.
Proof.
  intros Hi. unfold visit. match goal with |- context [for_each _ ?bd _] => set (body := bd) end.
  destruct (@for_each_rule _ _ (fun done rest '(l0, r0, tr) => ids = done ++ rest /\ l0 <= r0 /\
     replay tr ([], None) = Some (seq l0 (r0 - l0), None) /\ reports tr = done /\ okp qs tr) body ids [] (0, 0, [])) as ([[l0 r0] tr] & E & Ei & _ & R & Rp & Ok).
  - split; auto. split; auto. split; auto. split; auto. apply okp_nil.
  - intros done i rest [[l0 r0] tr] (Ei & H0 & R & Rp & Ok). unfold body.
    assert (Hq : i < length qs) by (apply Hi; rewrite Ei; apply in_or_app; right; now left).
    destruct (seg_of i Hq) as (l & r & E1 & E2 & E3 & Hlr). unfold get. rewrite E2. cbn [obind]. unfold sg_l, sg_r, sg_t. cbn [fst snd].
    destruct (move_ok l r l0 r0 tr None Hlr H0 R) as (evs & -> & Re & R'). cbn [obind]. eexists; split; [reflexivity|]. cbn beta iota.
    split; [now rewrite <- app_assoc|]. split; [auto|]. split; [rewrite replay_app, R'; reflexivity|].
    split; [rewrite !reports_app, Rp, Re, app_nil_r; reflexivity|].
    apply (okp_rem qs (tr ++ evs) i l r None); auto. now apply okp_app.
  - rewrite app_nil_r in Ei. exists (l0, r0), tr. rewrite E. split; auto. split; [congruence|]. split; eauto.
Qed.

Lemma maxr_pos : 0 < maxr segs <-> exists l r, In (l, r) qs /\ 0 < r.
Proof.
  unfold maxr. assert (H : forall (l : list nat) a, 0 < fold_left Nat.max l a <-> 0 < a \/ exists x, In x l /\ 0 < x).
  { induction l as [|x l IH]; intros a; cbn [fold_left].
    - split; auto. intros [|(x & [] & _)]; auto.
    - rewrite IH. split.
      + intros [Q|(y & Hy & P)]; [|right; exists y; cbn; auto]. destruct (Nat.eq_dec a 0); [right; exists x; cbn; split; auto; lia|left; lia].
      + intros [Q|(y & [<-|Hy] & P)]; [left; lia|left; lia|right; eauto]. }
  rewrite H. split.
  - intros [Q|(x & Hx & P)]; [lia|]. apply in_map_iff in Hx as (s & <- & Hs). apply In_nth_error in Hs as (i & Hs).
    assert (Hi : i < length qs) by (rewrite <- Hlen; apply nth_error_Some; congruence).
    destruct (Hsegs i Hi) as (l & r & E1 & E2). assert (s = (i, l, r)) by congruence. subst s. exists l, r. split; [eapply nth_error_In; eauto|auto].
  - intros (l & r & Hin & P). right. apply In_nth_error in Hin as (i & Hin).
    assert (Hi : i < length qs) by (apply nth_error_Some; congruence). destruct (Hsegs i Hi) as (l' & r' & E1 & E2).
    assert ((l', r') = (l, r)) by congruence. injection H0 as -> ->.
    exists r. split; auto. apply in_map_iff. exists (i, l, r). split; auto. eapply nth_error_In; eauto.
Qed.

Lemma solve_ok : (length qs <= 1 \/ exists l r, In (l, r) qs /\ 0 < r) ->
  exists tr, solve ceil_div srt segs = Some tr /\ good_trace qs tr.
Proof.
  intros Hp. unfold solve, q. rewrite Hlen. destruct (Nat.eqb_spec (length qs) 0) as [E0|N0].
  { exists []. split; auto. split; [cbn; rewrite E0; constructor|]. split; [cbn; eauto|]. apply okp_nil. }
  assert (Hc : exists ids, calc_mos_move ceil_div srt segs = Some ids /\ Permutation (seq 0 (length qs)) ids).
  { unfold calc_mos_move, q. rewrite Hlen. set (b := ceil_div _ _).
    assert (((b =? 0) && (2 <=? length qs))%bool = false) as ->.
    { destruct Hp as [Hp|Hp].
      - apply andb_false_iff. right. apply Nat.leb_gt. lia.
      - apply andb_false_iff. left. apply Nat.eqb_neq. unfold b. intros Z. apply (Hceil (maxr segs)) in Z; [|lia]. apply maxr_pos in Hp. lia. }
    eexists; split; [reflexivity|].
    destruct (Hsrt _ (seq 0 (length qs)) (mo_comp_weak (fun x => x / b) (block_even_mono b))) as [P1 _].
    destruct (Hsrt _ (srt (mo_comp segs (fun x => x / b)) (seq 0 (length qs))) (mo_comp_weak (get_bo b) (block_odd_mono b))) as [P2 _].
    destruct (_ <? _); auto. eapply perm_trans; eauto. }
  destruct Hc as (ids & -> & P). cbn [obind]. destruct (visit_ok ids) as (p & tr & -> & Rp & Ok & St).
  { intros i Hi. apply (Permutation_in _ (Permutation_sym P)) in Hi. apply in_seq in Hi. lia. }
  cbn [obind]. exists tr. split; auto. split; [rewrite Rp; now apply Permutation_sym|]. split; auto.
Qed.

(** ** With rollback *)
Definition long (b i : nat) : bool := negb (sg_r (sget segs i) - sg_l (sget segs i) <? b).
Lemma short_ok b : exists tr w, short_ones segs b = Some (filter (long b) (seq 0 (length qs)), tr) /\
  reports tr = filter (fun i => negb (long b i)) (seq 0 (length qs)) /\ okp qs tr /\ replay tr ([], None) = Some (w, None).
Proof.
  unfold short_ones, q. rewrite Hlen. match goal with |- context [for_up _ _ ?bd _] => set (body := bd) end.
  destruct (@for_up_rule _ (fun i '(J, tr) => J = filter (long b) (seq 0 i) /\ reports tr = filter (fun i => negb (long b i)) (seq 0 i) /\
     okp qs tr /\ exists w, replay tr ([], None) = Some (w, None)) body (length qs) 0 ([], [])) as ([J tr] & E & EJ & Er & Ok & w & R).
  - split; auto. split; auto. split; [apply okp_nil|cbn; eauto].
  - intros i [J tr] Hi (EJ & Er & Ok & w & R). unfold body. destruct (seg_of i ltac:(lia)) as (l & r & E1 & E2 & E3 & Hlr).
    unfold get. rewrite E2. cbn [obind]. unfold sg_l, sg_r, sg_t. cbn [fst snd].
    assert (EL : long b i = negb (r - l <? b)) by (unfold long; rewrite E3; reflexivity).
    rewrite seq_S, !filter_app. cbn [filter]. rewrite Nat.add_0_l. rewrite EL. destruct (r - l <? b).
    + unfold push_range. rewrite loop_up by lia. cbn [obind negb]. eexists; split; [reflexivity|]. cbn beta iota.
      split; [now rewrite app_nil_r|]. rewrite !reports_app, reports_map by discriminate.
      split; [rewrite Er; cbn; now rewrite !app_nil_r|].
      assert (R2 : replay ((tr ++ [Init]) ++ map PushR (seq l (r - l))) ([], None) = Some (seq l (r - l), None)).
      { rewrite replay_app, replay_app, R. cbn [replay]. rewrite replay_pushr. reflexivity. }
      split.
      * apply (okp_rem qs _ i l r None); auto. apply okp_app; [|apply reports_map; discriminate]. now apply okp_app.
      * rewrite replay_app, R2. cbn. eauto.
    + cbn [negb]. eexists; split; [reflexivity|]. cbn beta iota. split; [congruence|]. rewrite app_nil_r. eauto.
  - rewrite E. exists tr, w. subst J. auto.
Qed.

(** An order of long segments with their blocks, ready for [rb_step]. *)
Definition item_ok (b : nat) (x : nat * (nat * nat)) : Prop :=
  let '(i, (_, be)) := x in i < length qs /\ sg_l (sget segs i) <= be /\ be - sg_l (sget segs i) <= b /\ be <= sg_r (sget segs i).
Fixpoint adj_ok (l : list (nat * (nat * nat))) : Prop :=
  match l with
  | [] => True
  | x :: t => match t with
              | y :: _ => fst (snd x) = fst (snd y) -> sg_r (sget segs (fst x)) <= sg_r (sget segs (fst y)) /\ snd (snd x) = snd (snd y)
              | [] => True
              end /\ adj_ok t
  end.
Lemma rb_ok b : forall ord cb r0 tr w, Forall (item_ok b) ord -> adj_ok ord -> okp qs tr -> replay tr ([], None) = Some (w, None) ->
  (forall c x t, cb = Some c -> ord = x :: t -> c = fst (snd x) -> snd (snd x) <= r0 <= sg_r (sget segs (fst x)) /\ w = seq (snd (snd x)) (r0 - snd (snd x))) ->
  exists p tr' st, for_each ord (rb_step segs b) (cb, r0, tr) = Some (p, tr') /\ reports tr' = reports tr ++ map fst ord /\ okp qs tr' /\ replay tr' ([], None) = Some st.
Proof.
  induction ord as [|[i [bi be]] ord IH]; intros cb r0 tr w F Adj Ok R Hcb.
  { cbn [for_each map]. exists (cb, r0), tr, (w, None). rewrite app_nil_r. auto. }
  inversion F as [|? ? F1 F2]; subst. destruct F1 as (Hi & L1 & L2 & L3). destruct Adj as [Adj1 Adj2].
  cbn [for_each]. unfold rb_step at 1. destruct (seg_of i Hi) as (l & r & E1 & E2 & E3 & Hlr).
  unfold get. rewrite E2. cbn [obind]. rewrite E3 in *. unfold sg_l, sg_r, sg_t in L1, L2, L3 |- *. cbn [fst snd] in L1, L2, L3 |- *.
  set (same := match cb with Some c => c =? bi | None => false end).
  assert (St : exists r1 tr1, (if same then (r0, tr) else (be, tr ++ [Init])) = (r1, tr1) /\ be <= r1 <= r /\ okp qs tr1 /\ reports tr1 = reports tr /\
     replay tr1 ([], None) = Some (seq be (r1 - be), None)).
  { destruct same eqn:Es.
    - unfold same in Es. destruct cb as [c|]; [|discriminate]. apply Nat.eqb_eq in Es.
      destruct (Hcb c _ _ eq_refl eq_refl Es) as [Q1 Q2]. cbn [fst snd] in Q1, Q2. rewrite E3 in Q1. cbn [sg_r fst snd] in Q1.
      exists r0, tr. split; auto. split; [exact Q1|]. split; auto. split; auto. now rewrite R, Q2.
    - exists be, (tr ++ [Init]). split; auto. split; [lia|]. split; [now apply okp_app|]. split; [rewrite reports_app; cbn; now rewrite app_nil_r|].
      rewrite replay_app, R. cbn. now rewrite Nat.sub_diag. }
  destruct St as (r1 & tr1 & -> & Hr1 & Ok1 & Rp1 & R1).
  assert (r1 <=? r = true) as -> by (apply Nat.leb_le; lia). cbn [guard obind]. rewrite loop_up by lia. cbn [obind].
  assert (l <=? be = true) as -> by (apply Nat.leb_le; lia). cbn [guard obind].
  assert (be - l <=? b = true) as -> by (apply Nat.leb_le; lia). cbn [guard obind].
  rewrite loop_pushl' by lia. cbn [obind].
  set (evs := map PushR (seq r1 (r - r1)) ++ [Snapshot] ++ map PushL (rev (seq l (be - l)))).
  assert (Ee : ((tr1 ++ map PushR (seq r1 (r - r1))) ++ [Snapshot]) ++ map PushL (rev (seq l (be - l))) = tr1 ++ evs) by (unfold evs; now rewrite <- !app_assoc).
  rewrite Ee.
  assert (Re : replay (tr1 ++ evs) ([], None) = Some (seq l (r - l), Some (seq be (r - be)))).
  { unfold evs. rewrite replay_app, R1, replay_app, replay_pushr.
    replace (seq r1 (r - r1)) with (seq (be + (r1 - be)) (r - r1)) by (f_equal; lia). rewrite <- seq_app.
    replace (r1 - be + (r - r1)) with (r - be) by lia. cbn [app replay]. rewrite replay_pushl.
    replace (seq be (r - be)) with (seq (l + (be - l)) (r - be)) at 1 by (f_equal; lia). rewrite <- seq_app. replace (be - l + (r - be)) with (r - l) by lia. reflexivity. }
  assert (Rev : reports evs = []) by (unfold evs; rewrite !reports_app, !reports_map by discriminate; reflexivity).
  replace (Nat.max r r1) with r by lia.
  set (tr2 := (tr1 ++ evs) ++ [Rem i; Rollback]).
  assert (Ok2 : okp qs tr2).
  { unfold tr2. change [Rem i; Rollback] with ([Rem i] ++ [Rollback]). rewrite app_assoc. apply okp_app; auto.
    apply (okp_rem qs _ i l r (Some (seq be (r - be)))); auto. now apply okp_app. }
  assert (R2 : replay tr2 ([], None) = Some (seq be (r - be), None)) by (unfold tr2; rewrite replay_app, Re; reflexivity).
  destruct (IH (Some bi) r tr2 (seq be (r - be)) F2 Adj2 Ok2 R2) as (p & tr' & st & E & Rp & Ok' & R').
  - intros c x t Ec Eo Eb. injection Ec as <-. subst ord. cbn [fst snd] in Adj1. destruct (Adj1 Eb) as [Q1 Q2]. rewrite E3 in Q1. cbn [sg_r fst snd] in Q1.
    rewrite <- Q2. split; auto.
  - exists p, tr', st. split; [exact E|]. split; [|auto]. rewrite Rp. unfold tr2. rewrite !reports_app, Rp1, Rev. cbn [reports flat_map app map fst].
    rewrite app_nil_r, <- app_assoc. reflexivity.
Qed.

Lemma calc_rb_ok b block bend J : (forall i, In i J -> i < length qs /\ long b i = true) ->
  (forall x y, x <= y -> block x <= block y) ->
  (forall l, l <= bend (block l) /\ bend (block l) - l <= b) ->
  let ord := fst (calc_rb srt segs block bend J) in
  Forall (item_ok b) ord /\ adj_ok ord /\ Permutation J (map fst ord).
Proof.
  intros HJ M B. unfold calc_rb. cbn [fst]. destruct (Hsrt (rb_comp segs block) J (rb_comp_weak block M)) as [P S].
  set (idx := srt (rb_comp segs block) J) in *.
  assert (Hin : forall i, In i idx -> i < length qs /\ long b i = true) by (intros i Hi; apply HJ; eapply Permutation_in; [apply Permutation_sym|]; eauto).
  split; [|split].
  - apply Forall_forall. intros [i [bi be]] Hx. apply in_map_iff in Hx as (i' & E & Hi). injection E as -> <- <-.
    destruct (Hin i Hi) as [Q1 Q2]. destruct (seg_of i Q1) as (l & r & E1 & E2 & E3 & Hlr). unfold long in Q2. cbn [item_ok]. rewrite E3 in *.
    cbn [sg_l sg_r fst snd] in *. unfold sg_l, sg_r in *. cbn [fst snd] in *. apply negb_true_iff, Nat.ltb_ge in Q2. destruct (B l) as [B1 B2]. lia.
  - clear P Hin. revert S. generalize idx as il. induction il as [|x [|y t] IH]; intros S; cbn [map adj_ok]; auto. split.
    + cbn [fst snd]. intros Eb. specialize (S [] x y t eq_refl). unfold rb_comp in S. rewrite Eb, Nat.eqb_refl in S. cbn [negb] in S.
      apply Nat.ltb_ge in S. split; auto.
    + apply IH. intros l1 a c l2 E. apply (S (x :: l1) a c l2). now rewrite E.
  - rewrite map_map. cbn [fst]. now rewrite map_id.
Qed.

Lemma bend_even_ok b l : 0 < b -> l <= (l / b + 1) * b /\ (l / b + 1) * b - l <= b.
Proof. intros H. pose proof (Nat.div_mod l b ltac:(lia)). pose proof (Nat.mod_upper_bound l b ltac:(lia)). nia. Qed.
Lemma bend_odd_ok b l : 0 < b -> l <= (b - b / 2) + get_bo b l * b /\ (b - b / 2) + get_bo b l * b - l <= b.
Proof.
  intros H. unfold get_bo. assert (b / 2 <= b) by (apply Nat.div_le_upper_bound; lia). generalize dependent (b / 2). intros h Hh.
  destruct (Nat.ltb_spec l (b - h)); [lia|].
  pose proof (Nat.div_mod (l - (b - h)) b ltac:(lia)). pose proof (Nat.mod_upper_bound (l - (b - h)) b ltac:(lia)). nia.
Qed.
Lemma perm_filter_split (f : nat -> bool) l : Permutation l (filter (fun i => negb (f i)) l ++ filter f l).
Proof.
  induction l as [|x l IH]; cbn [filter]; auto. destruct (f x); cbn [negb app].
  - eapply perm_trans; [apply perm_skip, IH|]. apply Permutation_middle.
  - now constructor.
Qed.

Lemma rollback_ok : (qs = [] \/ exists l r, In (l, r) qs /\ 0 < r) ->
  exists tr, solve_rollback ceil_div srt segs = Some tr /\ good_trace qs tr.
Proof.
  intros Hp. unfold solve_rollback, q. rewrite Hlen. destruct (Nat.eqb_spec (length qs) 0) as [E0|N0].
  { exists []. split; auto. split; [cbn; rewrite E0; constructor|]. split; [cbn; eauto|]. apply okp_nil. }
  set (b := ceil_div _ _).
  assert (Hb : 0 < b).
  { destruct Hp as [->|Hp]; [cbn in N0; lia|]. apply maxr_pos in Hp. assert (b <> 0) by (unfold b; intros Z; apply (Hceil (maxr segs)) in Z; lia). lia. }
  destruct (short_ok b) as (tr & w & -> & Rs & Oks & R). cbn [obind].
  set (J := filter (long b) (seq 0 (length qs))) in *.
  assert ((b =? 0) = false) as -> by (apply Nat.eqb_neq; lia). cbn [andb].
  destruct (calc_rb srt segs (fun x => x / b) (fun bi => (bi + 1) * b) J) as [even de] eqn:Ee.
  assert (HJ : forall i, In i J -> i < length qs /\ long b i = true).
  { intros i Hi. apply filter_In in Hi as [H1 H2]. apply in_seq in H1. split; [lia|auto]. }
  destruct (calc_rb_ok b (fun x => x / b) (fun bi => (bi + 1) * b) J HJ (block_even_mono b) (fun l => bend_even_ok b l Hb)) as (F1 & A1 & P1).
  rewrite Ee in F1, A1, P1. cbn [fst] in F1, A1, P1.
  destruct (calc_rb srt segs (get_bo b) (fun bi => b - b / 2 + bi * b) (map fst even)) as [odd do_] eqn:Eo.
  destruct (calc_rb_ok b (get_bo b) (fun bi => b - b / 2 + bi * b) (map fst even)) as (F2 & A2 & P2).
  { intros i Hi. apply HJ. eapply Permutation_in; [apply Permutation_sym; eauto|auto]. }
  { apply block_odd_mono. }
  { intros l. apply bend_odd_ok; auto. }
  rewrite Eo in F2, A2, P2. cbn [fst] in F2, A2, P2.
  set (ord := if (do_ <? de)%Z then odd else even).
  assert (Ho : Forall (item_ok b) ord /\ adj_ok ord /\ Permutation J (map fst ord)).
  { unfold ord. destruct (_ <? _)%Z; auto. split; auto. split; auto. eapply perm_trans; eauto. }
  destruct Ho as (F & A & P). destruct (rb_ok b ord None 0 tr w F A Oks R) as (p & tr' & st & -> & Rp & Ok & St); [discriminate|].
  cbn [obind]. exists tr'. split; auto. split; [|split; eauto].
  rewrite Rp, Rs. apply Permutation_sym. eapply perm_trans; [apply (perm_filter_split (long b))|]. now apply Permutation_app_head.
Qed.
End Mo.

(** Insertion sort meets the contract. *)
Fixpoint ins (ltb : nat -> nat -> bool) (x : nat) (l : list nat) : list nat :=
  match l with [] => [x] | y :: t => if ltb y x then y :: ins ltb x t else x :: l end.
Definition isort : sorter := fun ltb l => fold_right (ins ltb) [] l.
Lemma isort_spec : sort_spec isort.
Proof.
  intros ltb l (Ir & Tr & Nt). split.
  - assert (H : forall x m, Permutation (x :: m) (ins ltb x m)).
    { intros x. induction m as [|y m IHm]; cbn [ins]; auto. destruct (ltb y x); auto. eapply perm_trans; [apply perm_swap|]. now constructor. }
    induction l as [|x l IH]; cbn [isort fold_right]; auto. eapply perm_trans; [apply perm_skip, IH|]. apply H.
  - induction l as [|a l IH]; [intros [|? [|? ?]] x y l2 E; discriminate|]. cbn [isort fold_right]. fold (isort ltb l).
    revert IH. generalize (isort ltb l) as m. induction m as [|c m IHm]; intros IH l1 x y l2 E; cbn [ins] in E.
    + destruct l1 as [|? [|? ?]]; discriminate.
    + assert (As : forall u v, ltb u v = true -> ltb v u = false) by (intros u v H; destruct (ltb v u) eqn:E'; auto; rewrite <- (Ir u); symmetry; now apply (Tr u v u)).
      destruct (ltb c a) eqn:C.
      * destruct l1 as [|z l1].
        -- injection E as <- E. destruct m as [|d m]; cbn [ins] in E; [injection E as <- _; auto|].
           destruct (ltb d a); injection E as <- _; [apply (IH [] c d m eq_refl)|auto].
        -- injection E as <- E. apply (IHm (fun l1 x y l2 E => IH (c :: l1) x y l2 (f_equal (cons c) E)) l1 x y l2 E).
      * destruct l1 as [|z l1].
        -- injection E as <- <- _. auto.
        -- injection E as <- E. apply (IH l1 x y l2). exact E.
Qed.
