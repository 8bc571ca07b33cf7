From Coq Require Import Permutation Sorted.
From Verif Require Import Base BaseLemmas ListExtra StdAlgo BitModel BitProof BmapModel BmapProof BvModel BvProof BsetModel BsetProof BsetProp WmModel WmProof WmPath WmTree WmProp OrsModel OrsProof OrsSum.
Set Implicit Arguments.

Lemma fill_ok : forall o j xs, length o <= j -> j <= length xs -> ors_fill o j xs = Some (j - length o, firstn (j - length o) xs ++ rev o ++ skipn j xs).
Proof.
  unfold ors_fill. induction o as [|x o IH]; intros j xs L Lx; cbn [length rev app for_each] in *; [now rewrite Nat.sub_0_r, firstn_skipn|].
  rewrite usub_ok by lia. cbn [obind]. rewrite set_some by lia. cbn [obind]. rewrite IH by (rewrite ?lset_length; lia). do 2 f_equal; [lia|].
  replace (j - S (length o)) with (j - 1 - length o) by lia. rewrite <- app_assoc. f_equal; [|f_equal].
  - apply get_ext. intros i. destruct (Nat.lt_ge_cases i (j - 1 - length o)).
    + rewrite !get_firstn by auto. apply get_lset_neq. lia.
    + rewrite !get_none by (rewrite firstn_length, ?lset_length; lia). auto.
  - cbn [app]. rewrite (@skipn_get_cons _ (lset xs (j - 1) x) (j - 1) x) by (apply get_lset_eq; lia). f_equal. replace (S (j - 1)) with j by lia. apply get_ext. intros i. rewrite !get_skipn. apply get_lset_neq. lia.
Qed.
Fixpoint calls_at (b : nat) (l : list Z) : list (nat * Z) := match l with [] => [] | w :: l => (b, w) :: calls_at (S b) l end.
Lemma calls_app l : forall b k, calls_at b (l ++ k) = calls_at b l ++ calls_at (b + length l) k.
Proof. induction l as [|w l IH]; intros b k; cbn [app calls_at length]; [now rewrite Nat.add_0_r|]. rewrite IH. now replace (S b + length l) with (b + S (length l)) by lia. Qed.
Lemma firstn_get A (l : list A) i x : get l i = Some x -> firstn (S i) l = firstn i l ++ [x].
Proof. revert i. induction l as [|y l IH]; intros [|i] E; try discriminate; [injection E as ->; reflexivity|]. cbn [firstn app]. f_equal. now apply IH. Qed.

Section L.
Variables (n h : nat) (w0 : list (Z * Z)).
Hypothesis Hl : length w0 = n.
Notation wl := (wlay h w0).
Lemma wl_len t : length (wl t) = n.
Proof. induction t as [|t IH]; [exact Hl|]. cbn [wlay]. unfold wpart. rewrite app_length. pose proof (filter_two (fun q => vbit (fst q) (h - 1 - t)) (wl t)). lia. Qed.
(** the weights of the levels below [t], in order *)
Definition levels (t : nat) : list Z := concat (map (fun s => map snd (wl s)) (seq 0 t)).
Lemma levels_S t : levels (S t) = levels t ++ map snd (wl t).
Proof. unfold levels. rewrite seq_S, map_app, concat_app. cbn [map concat Nat.add]. now rewrite app_nil_r. Qed.
Lemma levels_len t : length (levels t) = n * t.
Proof. induction t as [|t IH]; [unfold levels; cbn; lia|]. rewrite levels_S, app_length, IH, map_length, wl_len. lia. Qed.
Lemma level_w t : t < h -> ors_level n h (h - 1 - t) (wl t, calls_at 0 (levels t)) = Some (wl (S t), calls_at 0 (levels (S t))).
Proof.
  intros Ht. unfold ors_level. set (k := h - 1 - t). match goal with |- context [for_up _ _ ?bd _] => set (body := bd) end.
  destruct (@for_up_rule _ (fun i (s : list (Z * Z) * list (Z * Z) * list (nat * Z)) => s = (rev (filter (fun q => negb (vbit (fst q) k)) (firstn i (wl t))), rev (filter (fun q => vbit (fst q) k) (firstn i (wl t))), calls_at 0 (levels t ++ map snd (firstn i (wl t))))) body n 0 ([], [], calls_at 0 (levels t))) as (s & -> & ->).
  - cbn. now rewrite app_nil_r.
  - intros i s Hi ->. unfold body. destruct (@get_lt _ (wl t) i) as (q & Eq); [rewrite wl_len; lia|]. rewrite Eq. cbn [obind]. rewrite (firstn_get _ _ Eq), !filter_app, !map_app, !app_assoc, (calls_app (levels t ++ _)). cbn [filter map calls_at]. rewrite app_length, levels_len, map_length, firstn_length, wl_len.
    replace (0 + (n * t + min i n)) with (n * (h - 1 - k) + i) by (unfold k; replace (h - 1 - (h - 1 - t)) with t by lia; lia). destruct (vbit (fst q) k); cbn [negb]; (eexists; split; [reflexivity|]); rewrite ?app_nil_r, rev_app_distr; reflexivity.
  - cbn [Nat.add obind]. rewrite firstn_all2 by (rewrite wl_len; lia). pose proof (filter_two (fun q => vbit (fst q) k) (wl t)) as Tw. rewrite wl_len in Tw.
    rewrite fill_ok by (rewrite ?rev_length, ?wl_len; lia). cbn [obind]. rewrite rev_involutive, rev_length. rewrite (skipn_all2 (wl t)) by (rewrite wl_len; lia). rewrite app_nil_r.
    set (z := filter (fun q => negb (vbit (fst q) k)) (wl t)) in *. set (o := filter (fun q => vbit (fst q) k) (wl t)) in *. assert (Ez : n - length o = length z) by lia. rewrite Ez. rewrite fill_ok by (rewrite ?rev_length, ?app_length, ?firstn_length, ?wl_len; lia). cbn [obind]. rewrite rev_involutive, rev_length, Nat.sub_diag. cbn [firstn app].
    rewrite skipn_app, skipn_all2 by (rewrite firstn_length; lia). rewrite firstn_length, wl_len. replace (length z - min (length z) n) with 0 by lia. cbn [skipn app]. rewrite levels_S. reflexivity.
Qed.
Lemma levels_w : for_down h 0 (ors_level n h) (w0, []) = Some (wl h, calls_at 0 (levels h)).
Proof.
  destruct (@for_down_rule _ (fun k st => st = (wl (h - k), calls_at 0 (levels (h - k)))) (ors_level n h) 0 h (w0, [])) as (st & E & ->).
  - cbn [Nat.add]. now rewrite Nat.sub_diag.
  - intros k s Hk ->. exists (wl (h - k), calls_at 0 (levels (h - k))). split; [|reflexivity]. pose proof (@level_w (h - S k) ltac:(lia)) as K. replace (h - 1 - (h - S k)) with k in K by lia. replace (S (h - S k)) with (h - k) in K by lia. exact K.
  - rewrite E, Nat.sub_0_r. reflexivity.
Qed.
Lemma last_w sw : sw = wl h -> for_up n 0 (fun i calls => let* q := get sw i in Some (calls ++ [(n * h + i, snd q)])) (calls_at 0 (levels h)) = Some (calls_at 0 (levels (S h))).
Proof.
  intros ->. match goal with |- context [for_up _ _ ?bd _] => set (body := bd) end. destruct (@for_up_rule _ (fun i s => s = calls_at 0 (levels h ++ map snd (firstn i (wl h)))) body n 0 (calls_at 0 (levels h))) as (s & -> & ->).
  - cbn. now rewrite app_nil_r.
  - intros i s Hi ->. unfold body. destruct (@get_lt _ (wl h) i) as (q & Eq); [rewrite wl_len; lia|]. rewrite Eq. cbn [obind]. eexists. split; [reflexivity|]. rewrite (firstn_get _ _ Eq), map_app, app_assoc, (calls_app (levels h ++ _)). cbn [map calls_at]. rewrite app_length, levels_len, map_length, firstn_length, wl_len. now replace (0 + (n * h + min i n)) with (n * h + i) by lia.
  - cbn [Nat.add]. rewrite firstn_all2 by (rewrite wl_len; lia). now rewrite levels_S.
Qed.
Lemma slice_levels t l r : t <= h -> n * t <= l -> l <= r -> r <= n * t + n -> slice l r (levels (S h)) = map snd (slice (l - n * t) (r - n * t) (wl t)).
Proof.
  intros Ht L1 L2 L3. unfold levels. replace (seq 0 (S h)) with (seq 0 t ++ t :: seq (S t) (h - t)).
  2: { replace (S h) with (t + S (h - t)) by lia. rewrite seq_app. reflexivity. }
  rewrite map_app, concat_app. cbn [map concat]. fold (levels t). replace l with (length (levels t) + (l - n * t)) at 1 by (rewrite levels_len; lia). replace r with (length (levels t) + (r - n * t)) at 1 by (rewrite levels_len; lia). rewrite slice_app_r, slice_app_l by (rewrite map_length, wl_len; lia). unfold slice. now rewrite skipn_map, firstn_map.
Qed.
End L.
Lemma adds_ok v : forall pre, for_each (calls_at (length pre) v) (fun '(i, w) A => let* x := get A i in set A i (x + w)%Z) (pre ++ repeat 0%Z (length v)) = Some (pre ++ v).
Proof.
  induction v as [|w v IH]; intros pre; [reflexivity|]. cbn [calls_at for_each length repeat]. rewrite get_app_r, Nat.sub_diag by lia. cbn [get nth_error obind]. rewrite set_some by (rewrite app_length; cbn; lia). cbn [obind]. specialize (IH (pre ++ [w])). rewrite app_length in IH. cbn [length] in IH. replace (length pre + 1) with (S (length pre)) in IH by lia. rewrite <- !app_assoc in IH. cbn [app] in IH. rewrite <- IH. f_equal.
  clear. induction pre as [|a pre IH]; cbn; [reflexivity|]. f_equal. exact IH.
Qed.

Section W.
Variables (ps ss : list (point * Z)).
Hypothesis Pm : Permutation ps ss.
Hypothesis St : StronglySorted (fun p q => point_lt (fst q) (fst p) = false) ss.
Hypothesis Sm : small (map fst ps).
Hypothesis Ln : (Z.of_nat (length ps) < 2 ^ 31)%Z.
Notation Y := (map snd (map fst ss)).
Definition lab (q : point * Z) : Z * Z := (Z.of_nat (below Y (snd (fst q))), snd q).
Lemma fst_sorted : map fst ss = std_sort point_lt (map fst ps).
Proof.
  apply (sorted_unique point_lt_so); [|apply std_sort_sorted, point_lt_so|].
  - clear - St. induction St as [|q l S IH F]; cbn [map]; constructor; auto. apply Forall_map. eapply Forall_impl; [|exact F]. intros r K. exact K.
  - eapply perm_trans; [apply Permutation_map, Permutation_sym, Pm|]. apply std_sort_perm.
Qed.
Lemma w0_eq : combine (map (fun p => Z.of_nat (below Y (snd p))) (map fst ss)) (map snd ss) = map lab ss.
Proof. unfold lab. generalize Y. intros K. clear. induction ss as [|q l IH]; [reflexivity|]. cbn [map combine]. now rewrite IH. Qed.
Lemma lab_fst : map fst (map lab ss) = map (fun p => Z.of_nat (below Y (snd p))) (map fst ss).
Proof. unfold lab. generalize Y. intros K. now rewrite !map_map. Qed.

Theorem wbuild_ok : exists o sz calls A, ors_wbuild ss = Some (o, sz, calls) /\ apply_adds sz calls = Some A /\ ors_ok (map fst ps) o /\
  (ss = [] -> wn (oW o) = 0) /\
  forall h, built None (map (fun p => Z.of_nat (below Y (snd p))) (map fst ss)) h (oW o) -> A = levels h (map lab ss) (S h).
Proof.
  assert (Sm' : small (map fst ss)) by (intros x y I; apply Sm; eapply Permutation_in; [apply Permutation_map, Permutation_sym, Pm|exact I]).
  assert (Ln' : (Z.of_nat (length (map fst ss)) < 2 ^ 31)%Z) by (rewrite map_length, <- (Permutation_length Pm); auto).
  unfold ors_wbuild. destruct (index_ok Sm' Ln') as (X & Y' & -> & HX & HY). cbn [obind]. destruct (@matrix_ok (map fst ss) Ln') as (m & Em & Me & Mb). rewrite Em. cbn [obind]. rewrite w0_eq.
  assert (D : exists h, wh m = h /\ wn m = length ss /\ (ss = [] -> wn m = 0) /\ forall h', built None (map (fun p => Z.of_nat (below Y (snd p))) (map fst ss)) h' m -> h' = h).
  { exists (wh m). split; auto. assert (Wn : ss = [] -> wn m = 0) by (intros E; apply Me; now rewrite E). split; [|split; auto].
    - destruct ss as [|q l] eqn:E; [now apply Wn|]. rewrite <- E in *. destruct Mb as (h & _ & B); [rewrite E; discriminate|]. rewrite (w_n (b_m B)). now rewrite !map_length.
    - intros h' B. symmetry. apply (w_h (b_m B)). }
  destruct D as (h & Eh & En & Wn & Hb). rewrite Eh, En. rewrite (@levels_w (length ss) h (map lab ss) (map_length _ _)). cbn [obind]. rewrite (@last_w (length ss) h (map lab ss) (map_length _ _) _ eq_refl). cbn [obind].
  do 3 eexists. exists (levels h (map lab ss) (S h)). split; [reflexivity|]. split; [|split; [|split]].
  - unfold apply_adds. pose proof (adds_ok (levels h (map lab ss) (S h)) []) as K. cbn [length app] in K. rewrite (@levels_len (length ss) h (map lab ss) (map_length _ _)) in K. replace (h + 1) with (S h) by lia. exact K.
  - unfold ors_ok. cbv zeta. rewrite <- fst_sorted. cbn [oX oY oW]. repeat split; auto. intros Ne. apply Mb. intros K. apply Ne. apply map_eq_nil in K. rewrite K in Pm. apply Permutation_sym, Permutation_nil in Pm. now rewrite Pm.
  - exact Wn.
  - intros h' B. now rewrite (Hb h' B).
Qed.

Variables (xl xh yl yh : nat).
Hypothesis Hx : xl <= xh.
Notation li := (less (map fst (map fst ss)) xl).
Notation lj := (less (map fst (map fst ss)) xh).
Notation la := (Z.of_nat (below Y yl)).
Notation lb := (Z.of_nat (below Y yh)).
Lemma weight_eq : wsum (filter (p la lb) (slice li lj (map lab ss))) = zsum (map snd (filter (fun q => inside xl xh yl yh (fst q)) ps)).
Proof.
  assert (Es : slice li lj (map lab ss) = map lab (filter (fun q => (xl <=? fst (fst q)) && (fst (fst q) <? xh)) ss)).
  { rewrite <- (@slice_key _ (fun q : point * Z => fst (fst q))); auto; [unfold slice; rewrite skipn_map, firstn_map; now rewrite map_map|].
    clear - St. induction St as [|q l S IH F]; constructor; auto. eapply Forall_impl; [|exact F]. intros r. unfold point_lt. destruct (Nat.eqb_spec (fst (fst r)) (fst (fst q))); [lia|]. rewrite Nat.ltb_ge. lia. }
  rewrite Es. transitivity (zsum (map snd (filter (fun q => inside xl xh yl yh (fst q)) ss))).
  - assert (G : forall l, (forall q, In q l -> In q ss) -> wsum (filter (p la lb) (map lab (filter (fun q => (xl <=? fst (fst q)) && (fst (fst q) <? xh)) l))) = zsum (map snd (filter (fun q => inside xl xh yl yh (fst q)) l))); [|apply G; auto].
    induction l as [|q l IH]; intros Hl; auto. specialize (IH (fun r I => Hl r (or_intror I))). unfold wsum, zsum in *. cbn [filter]. unfold inside at 1. destruct ((xl <=? fst (fst q)) && (fst (fst q) <? xh)); cbn [andb]; [|exact IH]. cbn [map filter]. unfold p at 1. unfold lab at 1 2. cbn [fst].
    assert (Iy : In (snd (fst q)) Y) by (do 2 apply in_map; apply Hl; now left). pose proof (@below_in Y (snd (fst q)) yl Iy) as (A1 & _). pose proof (@below_in Y (snd (fst q)) yh Iy) as (_ & A2).
    destruct (Z.leb_spec (Z.of_nat (below Y yl)) (Z.of_nat (below Y (snd (fst q))))), (Z.ltb_spec (Z.of_nat (below Y (snd (fst q)))) (Z.of_nat (below Y yh))), (Nat.leb_spec yl (snd (fst q))), (Nat.ltb_spec (snd (fst q)) yh); cbn [andb map fold_right snd]; try lia.
    unfold lab at 1. cbn [snd]. lia.
  - assert (G : forall l l' : list (point * Z), Permutation l l' -> zsum (map snd (filter (fun q => inside xl xh yl yh (fst q)) l)) = zsum (map snd (filter (fun q => inside xl xh yl yh (fst q)) l'))); [|apply G, Permutation_sym, Pm].
    unfold zsum. induction 1; cbn [filter]; auto; repeat destruct (inside _ _ _ _ _); cbn [map fold_right]; lia.
Qed.
Hypothesis B32 : (Z.of_nat xh < 2 ^ 32)%Z /\ (Z.of_nat yl < 2 ^ 32)%Z /\ (Z.of_nat yh < 2 ^ 32)%Z.
(** The traversal for any [range_sum] that gives the weights of ranges inside one level. *)
Lemma sum_with o f fuel R : ors_ok (map fst ps) o -> (ss = [] -> wn (oW o) = 0) -> (forall l, f l l = 0%Z) ->
  (forall h t l r, built None (map (fun p => Z.of_nat (below Y (snd p))) (map fst ss)) h (oW o) -> t <= h -> length ss * t <= l -> l <= r -> r <= length ss * t + length ss ->
    f l r = wsum (slice (l - length ss * t) (r - length ss * t) (wlay h (map lab ss) t))) ->
  ors_sum fuel o xl xh yl yh f = Some R -> R = zsum (map snd (filter (fun q => inside xl xh yl yh (fst q)) ps)).
Proof.
  intros O Wn F0 F1. unfold ors_sum, ors_traverse. rewrite (@compress_ok (map fst ps) o ltac:(rewrite map_length; exact Ln) O xl xh yl yh Hx B32). rewrite <- fst_sorted. cbn [obind]. intros E.
  destruct (list_eq_dec (fun a b : point * Z => ltac:(decide equality; [apply Z.eq_dec|decide equality; apply Nat.eq_dec])) ss []) as [Es|Es].
  - exfalso. destruct fuel as [|fuel]; [discriminate|]. cbn [loop] in E. unfold ors_step in E at 1. rewrite (Wn Es) in E. discriminate.
  - destruct O as (_ & _ & _ & Bt). destruct Bt as (h & H64 & B). { intros K. apply Es. apply map_eq_nil in K. rewrite K in Pm. now apply Permutation_nil in Pm. }
    rewrite <- fst_sorted in B. rewrite <- weight_eq. pose proof (b_n B) as Hn. pose proof (b_h B) as Hh. pose proof (b_v B) as Hv. pose proof (b_m B) as M. rewrite <- lab_fst in Hn, Hv, M.
    refine (@sum_partial h (map lab ss) Hn Hh Hv (oW o) M li lj _ la lb f F0 _ fuel R H64 E).
    + rewrite !map_length. split; [now apply less_mono|]. pose proof (less_le (map fst (map fst ss)) xh) as K. now rewrite !map_length in K.
    + intros t l r. rewrite !map_length. intros. apply (F1 h); auto.
Qed.
End W.
