From Coq Require Import Permutation Sorted.
From Verif Require Import Base BaseLemmas ListExtra StdAlgo BitModel BitProof BmapModel BmapProof BvModel BvProof BsetModel BsetProof BsetProp WmModel WmProof WmPath WmTree WmProp OrsModel OrsProof.
Set Implicit Arguments.

Lemma loop_partial {A R} (I : A -> Prop) (Q : R -> Prop) (body : A -> option (A + R)) :
  (forall s x, I s -> body s = Some x -> match x with inl s' => I s' | inr r => Q r end) ->
  forall fuel s r, I s -> loop fuel body s = Some r -> Q r.
Proof.
  intros H. induction fuel as [|fuel IH]; intros s r Hs E; [discriminate|]. cbn [loop] in E. destruct (body s) as [x|] eqn:Eb; [|discriminate]. specialize (H s x Hs Eb). destruct x as [s'|r']; [eauto|]. injection E as <-. auto.
Qed.
Lemma obind_some A B (x : option A) (k : A -> option B) b : obind x k = Some b -> exists a, x = Some a /\ k a = Some b.
Proof. destruct x as [a|]; [|discriminate]. eauto. Qed.

(** [enumerate] never reaches its leaf callback. *)
Lemma step_no_leaf A m a b internal leaf leaf' (st : A * list (nat * nat * Z)) : ors_step m a b internal leaf st = ors_step m a b internal leaf' st.
Proof.
  destruct st as (s, [|((l, r), c) qs]); [reflexivity|]. unfold ors_step. destruct (guard (0 <? wn m)); [|reflexivity]. cbn [obind]. unfold usub. destruct (Nat.leb_spec (l / wn m) (wh m)) as [L|L]; [|reflexivity]. cbn [guard obind].
  destruct (Nat.eqb_spec (l / wn m) (wh m)) as [E|E]; [|reflexivity]. rewrite E, Nat.sub_diag. change (one_ull 0) with (Some 1%Z). cbn [obind]. change (1 - 1)%Z with 0%Z. rewrite Z.lor_0_r.
  destruct (Z.ltb_spec c a), (Z.leb_spec b c), (Z.leb_spec a c), (Z.ltb_spec c b); cbn [orb andb]; try lia; reflexivity.
Qed.
Lemma loop_ext A R (b b' : A -> option (A + R)) : (forall s, b s = b' s) -> forall fuel s, loop fuel b s = loop fuel b' s.
Proof. intros H. induction fuel as [|fuel IH]; intros s; [reflexivity|]. cbn [loop]. rewrite H. destruct (b' s) as [[|]|]; auto. Qed.
Theorem enumerate_nil fuel o xl xh yl yh R : ors_enumerate fuel o xl xh yl yh = Some R -> R = [].
Proof.
  unfold ors_enumerate, ors_traverse. intros E. apply obind_some in E. destruct E as ((((i & j) & a) & b) & _ & E).
  rewrite (loop_ext _ (ors_step (oW o) a b (fun _ _ _ ret => Some ret) (fun _ _ _ ret => Some ret))) in E by (intros; apply step_no_leaf).
  revert E. apply (@loop_partial _ _ (fun s => fst s = []) (fun R => R = [])); [|reflexivity]. clear. intros (s & qs) x H E. cbn [fst] in H. subst s. unfold ors_step in E. destruct qs as [|((l & r) & c) qs]; [injection E as <-; reflexivity|].
  repeat (apply obind_some in E; destruct E as (? & _ & E)). destruct ((_ || _)%bool) in E; [injection E as <-; reflexivity|]. destruct ((_ && _)%bool) in E; [injection E as <-; reflexivity|].
  destruct (_ =? _) in E; [injection E as <-; reflexivity|]. apply obind_some in E. destruct E as ((? & ?) & _ & E). apply obind_some in E. destruct E as ((? & ?) & _ & E). apply obind_some in E. destruct E as (? & _ & E). injection E as <-. reflexivity.
Qed.

(** ** Sums of weights *)
Definition wsum (l : list (Z * Z)) : Z := fold_right Z.add 0%Z (map snd l).
Lemma wsum_app l k : wsum (l ++ k) = (wsum l + wsum k)%Z.
Proof. unfold wsum. rewrite map_app. induction (map snd l) as [|x r IH]; cbn [app fold_right]; [lia|]. rewrite IH. lia. Qed.
Lemma wsum_split (f g e : Z * Z -> bool) l : (forall q, In q l -> e q = f q || g q) -> (forall q, In q l -> f q && g q = false) -> wsum (filter e l) = (wsum (filter f l) + wsum (filter g l))%Z.
Proof.
  induction l as [|q l IH]; intros H1 H2; [reflexivity|]. pose proof (H1 q (or_introl eq_refl)) as A. pose proof (H2 q (or_introl eq_refl)) as B. specialize (IH (fun x I => H1 x (or_intror I)) (fun x I => H2 x (or_intror I))). cbn [filter]. rewrite A. unfold wsum in *. destruct (f q), (g q); cbn [orb andb map fold_right] in *; try discriminate; lia.
Qed.
Definition wpart (k : nat) (l : list (Z * Z)) : list (Z * Z) := filter (fun q => negb (vbit (fst q) k)) l ++ filter (fun q => vbit (fst q) k) l.
Fixpoint wlay (h : nat) (w0 : list (Z * Z)) (t : nat) : list (Z * Z) := match t with O => w0 | S t => wpart (h - 1 - t) (wlay h w0 t) end.
Lemma map_filter_fst (f : Z -> bool) (l : list (Z * Z)) : map fst (filter (fun q => f (fst q)) l) = filter f (map fst l).
Proof. induction l as [|q l IH]; auto. cbn [filter map]. destruct (f (fst q)); cbn [map]; now rewrite IH. Qed.
Lemma len_filter_fst (f : Z -> bool) (l : list (Z * Z)) : length (filter (fun q => f (fst q)) l) = length (filter f (map fst l)).
Proof. now rewrite <- map_filter_fst, map_length. Qed.

Section Sum.
Variable h : nat.
Variable w0 : list (Z * Z).
Notation xs0 := (map fst w0).
Notation n := (length xs0).
Hypothesis Hn : 0 < n.
Hypothesis Hh : 0 < h.
Hypothesis Hv : forall x, In x xs0 -> (0 <= x < 2 ^ Z.of_nat h)%Z.
Variable m : wm.
Hypothesis M : wmi h xs0 m.
Variable l0 r0 : nat.
Hypothesis Hr : l0 <= r0 <= n.
Notation wl := (wlay h w0).
Notation ws := (slice l0 r0 w0).
Notation lay := (lay h xs0).
Lemma wl_lay t : map fst (wl t) = lay t.
Proof. induction t as [|t IH]; [reflexivity|]. cbn [wlay WmProof.lay]. unfold wpart, part. rewrite map_app. rewrite (map_filter_fst (fun x => negb (vbit x (h - 1 - t)))), (map_filter_fst (fun x => vbit x (h - 1 - t))). now rewrite IH. Qed.
Lemma map_slice A B (f : A -> B) l r (xs : list A) : map f (slice l r xs) = slice l r (map f xs).
Proof. unfold slice. now rewrite skipn_map, firstn_map. Qed.
Definition WF (t : nat) (P : Z) : list (Z * Z) := filter (fun q => sh h t (fst q) =? P)%Z ws.
Lemma WF_F t P : map fst (WF t P) = F h (slice l0 r0 xs0) t P.
Proof. unfold WF, F. rewrite (map_filter_fst (fun x => sh h t x =? P)%Z). now rewrite map_slice. Qed.
Lemma wcpos t l r b : l <= r -> r <= n -> slice (cpos h xs0 t l b) (cpos h xs0 t r b) (wl (S t)) = filter (fun q => fb h t b (fst q)) (slice l r (wl t)).
Proof.
  intros Hl Hr'. assert (K : forall f p, length (filter f (firstn p (lay t))) = length (filter (fun q : Z * Z => f (fst q)) (firstn p (wl t)))) by (intros f p; rewrite len_filter_fst, <- firstn_map, wl_lay; reflexivity).
  assert (K0 : length (filter (f0 h t) (lay t)) = length (filter (fun q : Z * Z => f0 h t (fst q)) (wl t))) by (rewrite len_filter_fst, wl_lay; reflexivity).
  cbn [wlay]. unfold wpart, cpos. rewrite !K. destruct b.
  - rewrite K0. change (fun q : Z * Z => negb (vbit (fst q) (h - 1 - t))) with (fun q : Z * Z => f0 h t (fst q)). rewrite slice_app_r.
    replace (filter (fun q : Z * Z => vbit (fst q) (h - 1 - t)) (wl t)) with (filter (fun q : Z * Z => fb h t true (fst q)) (wl t)) by (apply filter_ext; intros q; unfold fb; now destruct (vbit (fst q) (h - 1 - t))). now apply filter_slice.
  - cbn [Nat.add]. replace (filter (fun q : Z * Z => negb (vbit (fst q) (h - 1 - t))) (wl t)) with (filter (fun q : Z * Z => fb h t false (fst q)) (wl t)) by (apply filter_ext; intros q; unfold fb; now destruct (vbit (fst q) (h - 1 - t))).
    rewrite slice_app_l by apply filter_firstn_le. now apply filter_slice.
Qed.
Lemma WF_S t P (b : bool) : t < h -> WF (S t) (2 * P + (if b then 1 else 0)) = filter (fun q => fb h t b (fst q)) (WF t P).
Proof.
  intros Ht. unfold WF. rewrite filter_filter. apply filter_ext_in. intros q I. rewrite (@sh_S h xs0 Hn Hh Hv m M) by auto. unfold fb. destruct (Z.eqb_spec (sh h t (fst q)) P), (vbit (fst q) (h - 1 - t)), b; cbn [Bool.eqb andb]; try (apply Z.eqb_eq; lia); apply Z.eqb_neq; lia.
Qed.
Definition wnode (t a b : nat) (P : Z) : Prop := node h xs0 t a b (F h (slice l0 r0 xs0) t P) /\ slice (a - n * t) (b - n * t) (wl t) = WF t P.
Lemma wroot : wnode 0 l0 r0 0.
Proof.
  split; [apply (root Hn Hh Hv M Hr)|]. cbn [wlay]. rewrite Nat.mul_0_r, !Nat.sub_0_r. unfold WF. symmetry. apply filter_all. intros q I. apply Z.eqb_eq. apply (@sh_0 h xs0 Hn Hh Hv m M). apply Hv. apply in_map. now apply slice_In in I.
Qed.
Lemma wexpand t a b P (bb : bool) : t < h -> wnode t a b P -> exists a' b', child_tie m t a b bb = Some (a', b') /\ a' <= b' /\ wnode (S t) a' b' (2 * P + (if bb then 1 else 0)).
Proof.
  intros Ht (N & W). destruct (@expand h xs0 Hn Hh Hv m M l0 r0 t a b P bb Ht N) as (a' & b' & E & L & N'). exists a', b'. split; auto. split; auto. split; auto.
  rewrite (WmPath.tie_eq Hn Hh Hv M 0%Z Hr bb Ht N) in E. injection E as <- <-. destruct N as (_ & N1 & N2 & N3 & _). rewrite WF_S by auto. rewrite <- W. rewrite <- wcpos by lia. f_equal; lia.
Qed.
Variables x y : Z.
Definition p (q : Z * Z) : bool := ((x <=? fst q) && (fst q <? y))%Z.
Definition pre_of (a : nat) (c : Z) : Z := Z.shiftr c (Z.of_nat (h - a / n)).
Definition qval (z : tri) : Z := let '(a, b, c) := z in if a <? b then wsum (filter p (WF (a / n) (pre_of a c))) else 0%Z.
Definition qok (z : tri) : Prop := let '(a, b, c) := z in a = b \/ (a < b /\ wnode (a / n) a b (pre_of a c) /\ (0 <= pre_of a c)%Z /\ c = (pre_of a c * 2 ^ Z.of_nat (h - a / n))%Z).
Definition qtot (qs : list tri) : Z := fold_right Z.add 0%Z (map qval qs).
Lemma qtot_app l k : qtot (l ++ k) = (qtot l + qtot k)%Z.
Proof. unfold qtot. rewrite map_app. induction (map qval l) as [|v r IH]; cbn [app fold_right]; [lia|]. rewrite IH. lia. Qed.
Lemma qmk t a b P c : wnode t a b P -> (0 <= P)%Z -> c = (P * 2 ^ Z.of_nat (h - t))%Z -> a <= b -> qok (a, b, c) /\ qval (a, b, c) = wsum (filter p (WF t P)).
Proof.
  intros N HP -> L. destruct (Nat.eq_dec a b) as [<-|Ne].
  - split; [now left|]. unfold qval. rewrite Nat.ltb_irrefl. destruct N as (_ & W). unfold slice in W. rewrite Nat.sub_diag in W. cbn [firstn] in W. now rewrite <- W.
  - assert (E : a / n = t) by (apply (nlev Hn Hh Hv M Hr (proj1 N)); lia). assert (EP : pre_of a (P * 2 ^ Z.of_nat (h - t)) = P) by (unfold pre_of; rewrite E; apply (pow_shift Hn Hh Hv M Hr); auto). split.
    + right. rewrite EP, E. repeat split; auto; try lia; apply N.
    + unfold qval. rewrite EP, E. destruct (Nat.ltb_spec a b); [auto|lia].
Qed.
Variable f : nat -> nat -> Z.
Hypothesis F0 : forall l, f l l = 0%Z.
Hypothesis F1 : forall t l r, t <= h -> n * t <= l -> l <= r -> r <= n * t + n -> f l r = wsum (slice (l - n * t) (r - n * t) (wl t)).

Theorem sum_partial fuel R : h < 64 ->
  loop fuel (ors_step m x y (fun l r _ ret => Some (ret + f l r)%Z) (fun _ _ _ ret => Some ret)) (0%Z, [(l0, r0, 0%Z)]) = Some R ->
  R = wsum (filter p ws).
Proof using Hn Hh Hv M Hr F0 F1.
  intros H64. apply (@loop_partial _ _ (fun s : Z * list tri => let (ret, qs) := s in Forall qok qs /\ (ret + qtot qs = wsum (filter p ws))%Z) (fun R => R = wsum (filter p ws))).
  2: { destruct (@qmk 0 l0 r0 0 0 wroot ltac:(lia) ltac:(lia) ltac:(lia)) as (A & B). split; [constructor; auto|]. unfold qtot. cbn [map fold_right]. rewrite B. replace (WF 0 0) with ws; [lia|]. destruct wroot as (_ & W). rewrite <- W. cbn [wlay]. now rewrite Nat.mul_0_r, !Nat.sub_0_r. }
  intros (ret & qs) z (Q & SM) E. unfold ors_step in E. destruct qs as [|((a & b) & c) qs].
  { injection E as <-. cbn in SM. rewrite Z.add_0_r in SM. exact SM. }
  inversion_clear Q as [|? ? Q0 Q1]. rewrite (w_n M), (w_h M) in E. destruct (Nat.ltb_spec 0 n) as [_|]; [|lia]. cbn [guard obind] in E. unfold usub in E. destruct (Nat.leb_spec (a / n) h) as [Lv|]; [|discriminate]. cbn [guard obind] in E.
  assert (K64 : h - a / n < 64) by (eapply Nat.le_lt_trans; [apply Nat.le_sub_l|exact H64]). rewrite (@WmPath.one_ull_ok h xs0 Hn Hh m M _ K64) in E. cbn [obind] in E. unfold qtot in SM. cbn [map fold_right] in SM. change (fold_right Z.add 0%Z (map qval qs)) with (qtot qs) in SM. unfold qok in Q0. destruct Q0 as [Eab|(Lab & N & HP & Ec)].
  - (* an empty range *)
    subst b. assert (V0 : qval (a, a, c) = 0%Z) by (unfold qval; now rewrite Nat.ltb_irrefl). rewrite V0 in SM. destruct ((_ || _)%bool) in E; [injection E as <-; split; auto; lia|]. destruct ((_ && _)%bool) in E; [injection E as <-; split; auto; rewrite F0; lia|].
    destruct (_ =? _) in E; [injection E as <-; split; auto; lia|]. apply obind_some in E. destruct E as ((a1 & b1) & E1 & E). apply obind_some in E. destruct E as ((a2 & b2) & E2 & E). apply obind_some in E. destruct E as (o & _ & E). injection E as <-.
    assert (T : forall bb u v, child_tie m (a / n) a a bb = Some (u, v) -> u = v). { intros bb u v K. unfold child_tie in K. destruct (child m (a / n) a bb); cbn [obind] in K; congruence. }
    apply T in E1, E2. subst b1 b2. split; [repeat (apply Forall_app; split); auto; constructor; auto; now left|]. rewrite !qtot_app. unfold qtot at 2 3. cbn [map fold_right qval]. rewrite !Nat.ltb_irrefl. lia.
  - assert (V0 : qval (a, b, c) = wsum (filter p (WF (a / n) (pre_of a c)))) by (unfold qval; destruct (Nat.ltb_spec a b); [auto|lia]). rewrite V0 in SM. clear V0.
    set (t := a / n) in *. set (P := pre_of a c) in *. clearbody t P. subst c. rewrite (lor_ones Hn Hh Hv M Hr) in E by auto.
    assert (FB : forall q, In q (WF t P) -> (P * 2 ^ Z.of_nat (h - t) <= fst q <= P * 2 ^ Z.of_nat (h - t) + (2 ^ Z.of_nat (h - t) - 1))%Z). { intros q I. apply (@F_bounds h xs0 Hn Hh Hv m M l0 r0 Hr t P). rewrite <- WF_F. now apply in_map. }
    set (w := (2 ^ Z.of_nat (h - t))%Z) in *. assert (0 < w)%Z by (apply Z.pow_pos_nonneg; lia).
    destruct (Z.ltb_spec (P * w + (w - 1)) x) as [C1|C1]; cbn [orb] in E; [|destruct (Z.leb_spec y (P * w)) as [C2|C2]].
    + injection E as <-. split; auto. rewrite (@filter_none _ p (WF t P)) in SM; [cbn in SM; lia|]. intros v Hx. specialize (FB _ Hx). unfold p. destruct (Z.leb_spec x (fst v)); [lia|reflexivity].
    + injection E as <-. split; auto. rewrite (@filter_none _ p (WF t P)) in SM; [cbn in SM; lia|]. intros v Hx. specialize (FB _ Hx). unfold p. destruct (Z.leb_spec x (fst v)), (Z.ltb_spec (fst v) y); auto; lia.
    + destruct ((x <=? P * w) && (P * w + (w - 1) <? y))%Z eqn:C3.
      { apply andb_true_iff in C3. destruct C3 as (C3 & C4). apply Z.leb_le in C3. apply Z.ltb_lt in C4. cbn [obind] in E. injection E as <-. split; auto. rewrite (@filter_all _ p (WF t P)) in SM; [|intros v Hx; specialize (FB _ Hx); unfold p; destruct (Z.leb_spec x (fst v)), (Z.ltb_spec (fst v) y); auto; lia].
        destruct N as ((Nt & N1 & N2 & N3 & _) & W). rewrite (@F1 t a b) by auto. rewrite W. lia. }
      destruct (Nat.eqb_spec t h) as [Eh|Nh].
      { exfalso. subst t. unfold w in *. rewrite Nat.sub_diag in *. change (2 ^ Z.of_nat 0)%Z with 1%Z in *. destruct (Z.leb_spec x (P * 1)), (Z.ltb_spec (P * 1 + (1 - 1)) y); cbn in C3; try discriminate; lia. }
      assert (Hlt : t < h) by lia. destruct (@wexpand t a b P false Hlt N) as (a1 & b1 & E1 & L1 & N1). destruct (@wexpand t a b P true Hlt N) as (a2 & b2 & E2 & L2 & N2). rewrite E1 in E. cbn [obind] in E. rewrite E2 in E. cbn [obind] in E. assert (K64' : h - t - 1 < 64) by (clear - H64; lia). rewrite (@WmPath.one_ull_ok h xs0 Hn Hh m M _ K64') in E. cbn [obind] in E. injection E as <-. cbv iota in N1, N2.
      destruct (@qmk (S t) a1 b1 (2 * P + 0) (P * w) N1 ltac:(lia)) as (A1 & A2); [unfold w; replace (h - t) with (S (h - S t)) by lia; rewrite Nat2Z.inj_succ, Z.pow_succ_r by lia; ring|auto|].
      destruct (@qmk (S t) a2 b2 (2 * P + 1) (Z.lor (P * w) (Z.shiftl 1 (Z.of_nat (h - t - 1)))) N2 ltac:(lia)) as (B1 & B2); [unfold w; replace (h - t) with (S (h - S t)) by lia; replace (S (h - S t) - 1) with (h - S t) by lia; apply (@lor_pow P (h - S t) true)|auto|].
      split; [repeat (apply Forall_app; split); auto|]. rewrite !qtot_app. unfold qtot at 2 3. cbn [map fold_right]. rewrite A2, B2.
      pose proof (@WF_S t P false Hlt) as S1. pose proof (@WF_S t P true Hlt) as S2. cbv iota in S1, S2. rewrite S1, S2. rewrite !filter_filter.
      rewrite (@wsum_split (fun q => fb h t false (fst q) && p q) (fun q => fb h t true (fst q) && p q) p) in SM; [lia| |]; intros q _; unfold fb; destruct (vbit (fst q) (h - 1 - t)), (p q); reflexivity.
Qed.
End Sum.
