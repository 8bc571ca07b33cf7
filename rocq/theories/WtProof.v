(** Proofs for WtModel.v: the layers of the tree, construction, nodes *)
From Coq Require Import Permutation.
From Verif Require Import Base BaseLemmas ListExtra NthExtra BitModel BitProof BmapModel BmapProof BvModel BvSel BvProof BvOps BvProp WmModel WmProof WmPath RmqExc WtModel.
Set Implicit Arguments.

Lemma lset_mid A (pre : list A) b rest x : lset (pre ++ b :: rest) (length pre) x = pre ++ x :: rest.
Proof. induction pre as [|a pre IH]; cbn; [reflexivity|now rewrite IH]. Qed.
Lemma get_mid A (pre : list A) b rest : get (pre ++ b :: rest) (length pre) = Some b.
Proof. induction pre as [|a pre IH]; cbn; auto. Qed.

Lemma firstn_snoc A (l : list A) : forall i x, get l i = Some x -> firstn (S i) l = firstn i l ++ [x].
Proof. induction l as [|y l IH]; intros [|i] x G; try discriminate; cbn in *; [congruence|]. f_equal. now apply IH. Qed.

(** writing bits *)
Lemma write_ok k : forall ys xs0 m pre rest i, skipn i xs0 = ys -> binv m (pre ++ rest) -> clean m -> length ys <= length rest ->
  exists m' rest', for_up (length ys) i (fun i '(m, it) => let* x := get xs0 i in let* m := it_put m it (vbit x k) in Some (m, it_incr it)) (m, it_at (length pre)) = Some (m', it_at (length pre + length ys)) /\
    binv m' ((pre ++ map (fun x => vbit x k) ys) ++ rest') /\ clean m' /\ length rest' = length rest - length ys.
Proof.
  induction ys as [|x ys IH]; intros xs0 m pre rest i Hs I C L.
  - exists m, rest. cbn [for_up length map]. rewrite Nat.add_0_r, app_nil_r, Nat.sub_0_r. auto.
  - cbn [length for_up]. assert (G : get xs0 i = Some x). { pose proof (f_equal (fun l => get l 0) Hs) as K. cbv beta in K. rewrite get_skipn, Nat.add_0_r in K. exact K. }
    rewrite G. cbn [obind]. destruct rest as [|b rest]; [cbn in L; lia|]. destruct (@it_put_ok m (pre ++ b :: rest) (length pre) (vbit x k) I) as (m1 & -> & I1 & C1); [rewrite app_length; cbn; lia|]. cbn [obind]. rewrite lset_mid in I1. rewrite incr_ok.
    replace (pre ++ vbit x k :: rest) with ((pre ++ [vbit x k]) ++ rest) in I1 by (rewrite <- app_assoc; reflexivity). replace (length pre + 1) with (length (pre ++ [vbit x k])) by (rewrite app_length; reflexivity).
    destruct (IH xs0 m1 (pre ++ [vbit x k]) rest (S i)) as (m' & rest' & E & I' & C' & L'); auto.
    + rewrite (@skipn_get_cons _ xs0 i x G) in Hs. now injection Hs.
    + cbn in L; lia.
    + exists m', rest'. rewrite E. split; [do 2 f_equal; f_equal; rewrite app_length; cbn; lia|]. cbn [map length]. split; [rewrite <- (app_assoc pre) in I'; exact I'|]. split; auto.
Qed.

(** one node *)
Definition zer (k : nat) (g : list Z) := filter (fun x => negb (vbit x k)) g.
Definition one (k : nat) (g : list Z) := filter (fun x => vbit x k) g.
Definition ne (g : list Z) : list (list Z) := match g with [] => [] | _ => [g] end.
Definition splt (k : nat) (g : list Z) : list (list Z) := ne (zer k g) ++ ne (one k g).
Lemma zo_length k g : length (zer k g) + length (one k g) = length g.
Proof. unfold zer, one. rewrite Nat.add_comm. apply filter_two. Qed.
Lemma concat_ne g : concat (ne g) = g. Proof. destruct g; cbn; rewrite ?app_nil_r; reflexivity. Qed.
Lemma concat_splt k g : concat (splt k g) = zer k g ++ one k g. Proof. unfold splt. now rewrite concat_app, !concat_ne. Qed.
Lemma concat_fm k gs : length (concat (flat_map (splt k) gs)) = length (concat gs).
Proof. induction gs as [|g gs IH]; auto. cbn [flat_map concat]. rewrite concat_app, !app_length, IH, concat_splt, app_length, zo_length. reflexivity. Qed.
Lemma fm_ne k g : flat_map (splt k) (ne g) = splt k g. Proof. destruct g; cbn; rewrite ?app_nil_r; reflexivity. Qed.
Lemma collect_ok k A g C : wt_collect k (length A) (length A + length g) (A ++ g ++ C) = Some (zer k g, one k g).
Proof.
  unfold wt_collect. replace (length A + length g - length A) with (length g) by lia.
  assert (K : forall g1 g0, for_up (length g1) (length A + length g0) (fun i '(sz, so) => let* x := get (A ++ (g0 ++ g1) ++ C) i in if negb (vbit x k) then Some (sz ++ [x], so) else Some (sz, so ++ [x])) (zer k g0, one k g0) = Some (zer k (g0 ++ g1), one k (g0 ++ g1))).
  { induction g1 as [|x g1 IH]; intros g0; [cbn; now rewrite app_nil_r|]. cbn [length for_up].
    assert (G : get (A ++ (g0 ++ x :: g1) ++ C) (length A + length g0) = Some x) by (rewrite <- app_length; replace (A ++ (g0 ++ x :: g1) ++ C) with ((A ++ g0) ++ x :: (g1 ++ C)) by (rewrite <- !app_assoc; reflexivity); apply get_mid).
    rewrite G. cbn [obind]. specialize (IH (g0 ++ [x])). rewrite app_length in IH. cbn [length] in IH. rewrite <- (app_assoc g0 [x] g1) in IH. cbn [app] in IH. replace (length A + (length g0 + 1)) with (S (length A + length g0)) in IH by lia.
    rewrite <- IH. unfold zer, one. rewrite !filter_app. cbn [filter]. destruct (vbit x k); cbn [negb]; now rewrite ?app_nil_r. }
  specialize (K g []). cbn [app length] in K. rewrite Nat.add_0_r in K. exact K.
Qed.
Lemma drain_ok : forall q A B C, length B = length q -> wt_drain q (length A, A ++ B ++ C) = Some (length A + length q, A ++ q ++ C).
Proof.
  unfold wt_drain. induction q as [|x q IH]; intros A B C L; [destruct B; [|discriminate]; cbn; now rewrite Nat.add_0_r|]. destruct B as [|b B]; [discriminate|]. cbn [for_each app length].
  rewrite set_some by (rewrite app_length; cbn; lia). cbn [obind]. rewrite lset_mid. specialize (IH (A ++ [x]) B C). rewrite app_length in IH. cbn [length] in IH. rewrite <- !app_assoc in IH. cbn [app] in IH. rewrite IH by (cbn in L; lia). do 2 f_equal. lia.
Qed.
(** the boundaries of the groups *)
Definition bnd (gs : list (list Z)) : list nat := map (fun d => length (concat (firstn d gs))) (seq 0 (S (length gs))).
Lemma bnd_length gs : length (bnd gs) = S (length gs). Proof. unfold bnd. now rewrite map_length, seq_length. Qed.
Lemma bnd_get gs d : d <= length gs -> get (bnd gs) d = Some (length (concat (firstn d gs))).
Proof. intros Hd. unfold bnd. rewrite get_map, get_seq by lia. reflexivity. Qed.
Lemma bnd_snoc gs g : bnd (gs ++ [g]) = bnd gs ++ [length (concat gs) + length g].
Proof.
  unfold bnd. rewrite app_length. cbn [length]. replace (S (length gs + 1)) with (S (length gs) + 1) by lia. rewrite seq_app, map_app. f_equal.
  - apply map_ext_in. intros d Hd. apply in_seq in Hd. rewrite firstn_app. replace (d - length gs) with 0 by lia. now rewrite firstn_O, app_nil_r.
  - cbn [seq map]. do 2 f_equal. rewrite firstn_all2 by (rewrite app_length; cbn; lia). rewrite concat_app, app_length. cbn. now rewrite app_nil_r.
Qed.
Lemma bnd_ne gs g : bnd (gs ++ ne g) = if length g =? 0 then bnd gs else bnd gs ++ [length (concat gs) + length g].
Proof. destruct g as [|x g]; [cbn; now rewrite app_nil_r|]. cbn [ne length Nat.eqb]. apply bnd_snoc. Qed.
Lemma node_ok k gs d g : get gs d = Some g -> let hs := flat_map (splt k) (firstn d gs) in let hs' := flat_map (splt k) (firstn (S d) gs) in
  wt_node k (bnd gs) d (bnd hs, concat hs ++ concat (skipn d gs)) = Some (bnd hs', concat hs' ++ concat (skipn (S d) gs)).
Proof.
  intros G hs hs'. assert (Hd := get_some_lt _ _ G). unfold wt_node. rewrite !bnd_get by lia. cbn [obind]. assert (E1 : firstn (d + 1) gs = firstn d gs ++ [g]) by (replace (d + 1) with (S d) by lia; now apply firstn_snoc).
  rewrite E1, concat_app, app_length. cbn [concat]. rewrite app_nil_r. assert (E2 : skipn d gs = g :: skipn (S d) gs) by (now apply skipn_get_cons). rewrite E2. cbn [concat].
  replace (length (concat (firstn d gs))) with (length (concat hs)) by (apply concat_fm). rewrite collect_ok. cbn [obind]. pose proof (zo_length k g) as ZO.
  set (R := concat (skipn (S d) gs)). set (A := concat hs).
  assert (Eg : exists u v, g = u ++ v /\ length u = length (zer k g) /\ length v = length (one k g)) by (exists (firstn (length (zer k g)) g), (skipn (length (zer k g)) g); rewrite firstn_skipn, firstn_length, skipn_length; repeat split; lia).
  destruct Eg as (u & v & Eg & Lu & Lv). rewrite Eg at 2. replace (A ++ (u ++ v) ++ R) with (A ++ u ++ (v ++ R)) by (rewrite <- !app_assoc; reflexivity). rewrite (@drain_ok (zer k g) A u (v ++ R) Lu). cbn [obind].
  replace (A ++ zer k g ++ v ++ R) with ((A ++ zer k g) ++ v ++ R) by (rewrite <- !app_assoc; reflexivity). rewrite <- app_length. rewrite (@drain_ok (one k g) (A ++ zer k g) v R Lv). cbn [obind]. rewrite app_length.
  destruct (Nat.eqb_spec (length A + length (zer k g) + length (one k g)) (length A + length g)) as [_|]; [|lia]. cbn [guard obind]. assert (Eh : hs' = (hs ++ ne (zer k g)) ++ ne (one k g)).
  { unfold hs', hs. rewrite (firstn_snoc _ _ G), flat_map_app. cbn [flat_map]. rewrite app_nil_r. unfold splt at 2. now rewrite app_assoc. }
  rewrite Eh. f_equal. f_equal.
  - rewrite bnd_ne, bnd_ne. rewrite concat_app, concat_ne, app_length. fold A. rewrite <- ZO, Nat.add_assoc. destruct (Nat.eqb_spec (length (zer k g)) 0) as [Ez|Nz]; cbn [negb]; destruct (Nat.eqb_spec (length (one k g)) 0), (Nat.ltb_spec (length A + length (zer k g)) (length A + length (zer k g) + length (one k g))); try lia; auto.
  - rewrite !concat_app, !concat_ne. fold A. now rewrite <- !app_assoc.
Qed.
Lemma level_nodes k gs : for_up (length (bnd gs) - 1) 0 (wt_node k (bnd gs)) ([0], concat gs) = Some (bnd (flat_map (splt k) gs), concat (flat_map (splt k) gs)).
Proof.
  rewrite bnd_length. replace (S (length gs) - 1) with (length gs) by lia.
  destruct (@for_up_rule _ (fun d st => st = (bnd (flat_map (splt k) (firstn d gs)), concat (flat_map (splt k) (firstn d gs)) ++ concat (skipn d gs))) (wt_node k (bnd gs)) (length gs) 0 ([0], concat gs)) as (st & E & Q).
  - reflexivity.
  - intros d st Hd ->. destruct (@get_lt _ gs d ltac:(lia)) as (g & G). eexists. split; [apply (node_ok k gs d G)|reflexivity].
  - rewrite E, Q. cbn [Nat.add]. rewrite firstn_all, skipn_all. cbn [concat]. now rewrite app_nil_r.
Qed.

Section Layers.
Variable h : nat.
Variable xs0 : list Z.
Notation n := (length xs0).
Fixpoint levs (t : nat) : list (list Z) := match t with O => [xs0] | S t => flat_map (splt (h - 1 - t)) (levs t) end.
Definition tlay (t : nat) : list Z := concat (levs t).
Lemma tlay_length t : length (tlay t) = n.
Proof. unfold tlay. induction t as [|t IH]; [cbn; now rewrite app_nil_r|]. cbn [levs]. now rewrite concat_fm. Qed.
Definition tf (t : nat) : Z -> bool := fun x => vbit x (h - 1 - t).
Fixpoint tbits (t : nat) : list bool := match t with O => [] | S t => tbits t ++ map (tf t) (tlay t) end.
Lemma tbits_length t : length (tbits t) = n * t.
Proof. induction t as [|t IH]; [cbn; lia|]. cbn [tbits]. rewrite app_length, map_length, tlay_length, IH. lia. Qed.
Lemma tbits_app t u : t <= u -> exists s, tbits u = tbits t ++ s.
Proof. induction u as [|u IH]; intros L; [exists []; replace t with 0 by lia; reflexivity|]. destruct (Nat.eq_dec t (S u)) as [->|]; [exists []; now rewrite app_nil_r|]. destruct IH as (s & E); [lia|]. cbn [tbits]. rewrite E, <- app_assoc. eauto. Qed.

Definition ginv (t : nat) (st : bmap * biter * list Z * list nat) : Prop := let '(m, it, xs, D) := st in
  it = it_at (n * t) /\ clean m /\ (exists rest, binv m (tbits t ++ rest) /\ length rest = n * h - n * t) /\ xs = tlay t /\ D = bnd (levs t).
Lemma write_level t m rest : t < h -> clean m -> binv m (tbits t ++ rest) -> length rest = n * h - n * t ->
  exists m' rest', wt_write n (h - 1 - t) (tlay t) (m, it_at (n * t)) = Some (m', it_at (n * S t)) /\ clean m' /\ binv m' (tbits (S t) ++ rest') /\ length rest' = n * h - n * S t.
Proof.
  intros Ht C I L. destruct (@write_ok (h - 1 - t) (tlay t) (tlay t) m (tbits t) rest 0 eq_refl I C) as (m' & rest' & E & I' & C' & L'); [rewrite tlay_length; nia|]. rewrite tlay_length, tbits_length in E. rewrite tlay_length in L'. exists m', rest'. unfold wt_write. rewrite E. split; [do 3 f_equal; lia|]. split; auto. split; [exact I'|nia].
Qed.
Lemma level_ok t st : t < h -> ginv t st -> exists st', wt_level n (h - 1 - t) st = Some st' /\ ginv (S t) st'.
Proof.
  intros Ht. destruct st as (((m & it) & xs) & D). intros (-> & C & (rest & I & L) & -> & ->). unfold wt_level. destruct (@write_level t m rest Ht C I L) as (m' & rest' & -> & C' & I' & L'). cbn [obind]. unfold tlay. rewrite level_nodes. cbn [obind]. eexists. split; [reflexivity|].
  split; [reflexivity|]. split; [exact C'|]. split; [exists rest'; auto|]. split; reflexivity.
Qed.
Lemma down_levels st : 0 < h -> ginv 0 st -> exists st', for_down (h - 1) 1 (wt_level n) st = Some st' /\ ginv (h - 1) st'.
Proof.
  intros Hh G0. destruct (@for_down_rule _ (fun k st => ginv (h - k) st) (wt_level n) 1 (h - 1) st) as (st' & E & G); [replace (h - (1 + (h - 1))) with 0 by lia; exact G0| |exists st'; split; auto].
  intros k s Hk Gk. destruct (@level_ok (h - S k) s ltac:(lia) Gk) as (s' & E & G'). replace (h - 1 - (h - S k)) with k in E by lia. exists s'. split; auto. now replace (h - k) with (S (h - S k)) by lia.
Qed.

Record wti (w : wt) : Prop := {
  wi_n : tn w = n; wi_h : th w = h; wi_b : binv (tB w) (tbits h);
  wi_rk : forall i, trk w i = Some (cnt true (firstn i (tbits h)));
  wi_sel : forall B k, tsel w B k = Some (kth B k (tbits h)) }.
Lemma build_wt c : 0 < n -> 0 < h -> Forall (fun x => 0 <= x)%Z xs0 -> clz (fold_left Z.max xs0 0%Z) = Some c -> h = 64 - Z.to_nat c -> exists w, wt_build xs0 = Some w /\ wti w.
Proof.
  intros Hn Hh F0 Ec Eh. unfold wt_build. destruct (Nat.ltb_spec 0 n); [|lia]. cbn [guard obind].
  assert (Fb : forallb (fun x => 0 <=? x)%Z xs0 = true) by (apply forallb_forall; intros x Hx; rewrite Forall_forall in F0; specialize (F0 x Hx); lia). rewrite Fb, Ec. cbn [guard obind]. rewrite <- Eh.
  destruct (new_ok (h * n) false) as (I0 & C0). destruct (@down_levels (bm_new (h * n) false, it_begin, xs0, [0; n]) Hh) as ((((m & it) & xs) & D) & -> & (-> & C & (rest & I & L) & -> & ->)).
  { split; [rewrite Nat.mul_0_r; reflexivity|]. split; auto. split; [exists (repeat false (h * n)); cbn [tbits app]; split; [exact I0|rewrite repeat_length; lia]|]. split; [unfold tlay; cbn; now rewrite app_nil_r|]. unfold bnd. cbn. now rewrite app_nil_r. }
  cbn [obind]. destruct (@write_level (h - 1) m rest ltac:(lia) C I L) as (m' & rest' & E & C' & I' & L'). replace (h - 1 - (h - 1)) with 0 in E by lia. rewrite E. cbn [obind]. replace (S (h - 1)) with h in * by lia.
  assert (rest' = []) by (destruct rest'; [auto|cbn in L'; lia]). subst rest'. rewrite app_nil_r in I'. pose proof (bitmap_rep I' C') as R. assert (HW : 1 <= 64 <= 64) by lia. destruct (BvProof.build_ok HW R) as (d & -> & Dd). cbn [obind].
  eexists. split; [reflexivity|]. constructor; cbn [tn th tB trs]; auto.
  - intros i. exact (rank1_ok HW R Dd i).
  - intros B k. exact (select_ok HW R Dd B k).
Qed.
End Layers.
