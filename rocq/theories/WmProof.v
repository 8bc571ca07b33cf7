(** Proofs for WmModel.v: the layers of the matrix, construction, children and parents *)
From Coq Require Import Permutation.
From Verif Require Import Base BaseLemmas ListExtra NthExtra BitModel BitProof BmapModel BmapProof BvModel BvSel BvProof BvOps BvProp WmModel.
Set Implicit Arguments.

Lemma usub_ok a b : b <= a -> usub a b = Some (a - b).
Proof. intros L. unfold usub. destruct (Nat.leb_spec b a); [reflexivity|lia]. Qed.

(** filters and prefixes *)
Section Filter.
Variable A : Type.
Variable f : A -> bool.
Lemma filter_firstn_le l i : length (filter f (firstn i l)) <= length (filter f l).
Proof. rewrite <- (firstn_skipn i l) at 2. rewrite filter_app, app_length. lia. Qed.
Lemma filter_slice l r (xs : list A) : l <= r -> slice (length (filter f (firstn l xs))) (length (filter f (firstn r xs))) (filter f xs) = filter f (slice l r xs).
Proof.
  intros L. unfold slice. replace (filter f xs) with (filter f (firstn l xs) ++ filter f (skipn l xs)) by (rewrite <- filter_app, firstn_skipn; reflexivity). rewrite skipn_app, Nat.sub_diag. rewrite skipn_all2 by lia. cbn [app skipn].
  set (ys := skipn l xs). assert (E : firstn r xs = firstn l xs ++ firstn (r - l) ys).
  { unfold ys. rewrite <- (firstn_skipn l xs) at 1. rewrite firstn_app, firstn_firstn. replace (min r l) with l by lia. f_equal. rewrite firstn_length. destruct (Nat.le_gt_cases l (length xs)); [now replace (min l (length xs)) with l by lia|]. rewrite (skipn_all2 xs) by lia. now rewrite !firstn_nil. }
  rewrite E, filter_app, app_length. replace (_ + _ - _) with (length (filter f (firstn (r - l) ys))) by lia.
  replace (filter f ys) with (filter f (firstn (r - l) ys) ++ filter f (skipn (r - l) ys)) by (rewrite <- filter_app, firstn_skipn; reflexivity). rewrite firstn_app, Nat.sub_diag, firstn_O, app_nil_r. now rewrite firstn_all2 by lia.
Qed.
Lemma filter_two l : length (filter f l) + length (filter (fun x => negb (f x)) l) = length l.
Proof. induction l as [|x l IH]; auto. cbn [filter]. destruct (f x); cbn [negb length]; lia. Qed.
End Filter.
Lemma filter_filter A (f g : A -> bool) l : filter f (filter g l) = filter (fun x => g x && f x) l.
Proof. induction l as [|x l IH]; auto. cbn [filter]. destruct (g x); cbn [filter andb]; [destruct (f x)|]; now rewrite ?IH. Qed.
Lemma slice_app_l A l r (xs ys : list A) : r <= length xs -> slice l r (xs ++ ys) = slice l r xs.
Proof. intros L. unfold slice. rewrite skipn_app, firstn_app, skipn_length. destruct (Nat.le_gt_cases l (length xs)). - replace (r - l - (length xs - l)) with 0 by lia. now rewrite firstn_O, app_nil_r. - replace (r - l) with 0 by lia. reflexivity. Qed.
Lemma slice_app_r A l r (xs ys : list A) : slice (length xs + l) (length xs + r) (xs ++ ys) = slice l r ys.
Proof. unfold slice. rewrite skipn_app, skipn_all2 by lia. cbn [app]. replace (length xs + l - length xs) with l by lia. f_equal. lia. Qed.

Lemma it_put_ok m l i b : binv m l -> i < length l -> exists m', it_put m (it_at i) b = Some m' /\ binv m' (lset l i b) /\ (clean m -> clean m').
Proof.
  intros I Hi. destruct (put_ok b I Hi) as (m' & E & I' & C). exists m'. split; [|auto]. unfold it_put, it_at. pose proof (m64 i). destruct (Z.leb_spec 0 (Z.of_nat (i / 64))); [|lia]. destruct (Z.ltb_spec (Z.of_nat (i mod 64)) 64); [|lia]. cbn [andb guard obind]. rewrite !Nat2Z.id. exact E.
Qed.

Lemma empty_ok : forall o j xs, length o <= j -> j <= length xs -> wm_empty o j xs = Some (j - length o, firstn (j - length o) xs ++ rev o ++ skipn j xs).
Proof.
  unfold wm_empty. induction o as [|x o IH]; intros j xs L Lx; cbn [length rev app for_each] in *; [now rewrite Nat.sub_0_r, firstn_skipn|].
  rewrite usub_ok by lia. cbn [obind]. rewrite set_some by lia. cbn [obind]. rewrite IH by (rewrite ?lset_length; lia). do 2 f_equal; [lia|].
  replace (j - S (length o)) with (j - 1 - length o) by lia. rewrite <- app_assoc. f_equal; [|f_equal].
  - apply get_ext. intros i. destruct (Nat.lt_ge_cases i (j - 1 - length o)).
    + rewrite !get_firstn by auto. apply get_lset_neq. lia.
    + rewrite !get_none by (rewrite firstn_length, ?lset_length; lia). auto.
  - cbn [app]. rewrite (@skipn_get_cons _ (lset xs (j - 1) x) (j - 1) x) by (apply get_lset_eq; lia). f_equal. replace (S (j - 1)) with j by lia. apply get_ext. intros i. rewrite !get_skipn. apply get_lset_neq. lia.
Qed.

Section Layers.
Variable h : nat.
Variable xs0 : list Z.
Notation n := (length xs0).
Hypothesis Hn : 0 < n.
Hypothesis Hh : 0 < h.
Definition part (k : nat) (xs : list Z) : list Z := filter (fun x => negb (vbit x k)) xs ++ filter (fun x => vbit x k) xs.
Fixpoint lay (t : nat) : list Z := match t with O => xs0 | S t => part (h - 1 - t) (lay t) end.
Lemma lay_length t : length (lay t) = n.
Proof. induction t as [|t IH]; auto. cbn [lay]. unfold part. rewrite app_length. pose proof (filter_two (fun x => vbit x (h - 1 - t)) (lay t)). lia. Qed.
Lemma part_perm k xs : Permutation (part k xs) xs.
Proof.
  unfold part. induction xs as [|x xs IH]; [apply Permutation_refl|]. cbn [filter]. destruct (vbit x k); cbn [negb app]; [|now constructor]. rewrite <- Permutation_middle. now constructor.
Qed.
Lemma lay_perm t : Permutation (lay t) xs0.
Proof. induction t as [|t IH]; [apply Permutation_refl|]. cbn [lay]. now rewrite part_perm. Qed.
Definition lbit (j : nat) : bool := vbit (nth (j mod n) (lay (j / n)) 0%Z) (h - 1 - j / n).
Definition allb : list bool := map lbit (seq 0 (n * h)).
Lemma allb_length : length allb = n * h. Proof. unfold allb. now rewrite map_length, seq_length. Qed.
Lemma allb_nth j : j < n * h -> nth j allb false = lbit j.
Proof. intros Hj. unfold allb. rewrite (nth_indep _ false (lbit 0)) by (rewrite map_length, seq_length; auto). now rewrite map_nth, seq_nth by auto. Qed.
Lemma pos_eq t p : p < n -> (n * t + p) / n = t /\ (n * t + p) mod n = p.
Proof. intros Hp. split; [symmetry; apply Nat.div_unique with p; auto|symmetry; apply Nat.mod_unique with t; auto]. Qed.
Lemma lbit_at t p : p < n -> lbit (n * t + p) = vbit (nth p (lay t) 0%Z) (h - 1 - t).
Proof. intros Hp. unfold lbit. destruct (pos_eq t Hp) as (-> & ->). reflexivity. Qed.

(** construction *)
Definition linv (t i : nat) (st : bmap * biter * list Z * list Z) : Prop := let '(m, it, z, o) := st in
  it = it_at (n * t + i) /\ clean m /\ (exists L, binv m L /\ length L = n * h /\ forall j, j < n * t + i -> nth j L false = lbit j) /\
  z = rev (filter (fun x => negb (vbit x (h - 1 - t))) (firstn i (lay t))) /\ o = rev (filter (fun x => vbit x (h - 1 - t)) (firstn i (lay t))).
Definition ginv (t : nat) (st : bmap * biter * list Z * list nat) : Prop := let '(m, it, xs, Zs) := st in
  it = it_at (n * t) /\ clean m /\ (exists L, binv m L /\ length L = n * h /\ forall j, j < n * t -> nth j L false = lbit j) /\ xs = lay t /\
  length Zs = h /\ forall u, u < t -> get Zs (h - 1 - u) = Some (n * (u + 1) + howmany (fun x => negb (vbit x (h - 1 - u))) (lay u)).
Lemma firstn_S_nth A (l : list A) i x : get l i = Some x -> firstn (S i) l = firstn i l ++ [x].
Proof.
  intros G. apply get_ext. intros j. assert (Hi := get_some_lt _ _ G). destruct (Nat.lt_trichotomy j i) as [|[->|]].
  - rewrite get_firstn by lia. rewrite get_app_l by (rewrite firstn_length; lia). now rewrite get_firstn.
  - rewrite get_firstn by lia. rewrite get_app_r by (rewrite firstn_length; lia). rewrite firstn_length. replace (i - min i (length l)) with 0 by lia. exact G.
  - rewrite !get_none; auto; rewrite ?app_length, ?firstn_length; cbn [length]; lia.
Qed.
Lemma level_ok t st : t < h -> ginv t st -> exists st', wm_level n h (h - 1 - t) st = Some st' /\ ginv (S t) st'.
Proof.
  intros Ht. destruct st as (((m & it) & xs) & Zs). intros (-> & C & (L & I & LL & Hj) & -> & LZ & HZ). unfold wm_level.
  match goal with |- context [for_up _ _ ?bd _] => set (body := bd) end.
  destruct (@for_up_rule _ (linv t) body n 0 (m, it_at (n * t), [], [])) as ((((m1 & it1) & z) & o) & E & J).
  - cbn. rewrite Nat.add_0_r. repeat split; auto. exists L. auto.
  - intros i (((m1 & it1) & z) & o) Hi (-> & C1 & (L1 & I1 & LL1 & Hj1) & -> & ->). unfold body. cbv beta iota.
    destruct (@get_lt _ (lay t) i ltac:(rewrite lay_length; lia)) as (x & Gx). rewrite Gx. cbn [obind].
    assert (Hp : n * t + i < length L1) by (rewrite LL1; nia). destruct (it_put_ok (vbit x (h - 1 - t)) I1 Hp) as (m2 & -> & I2 & C2). cbn [obind]. rewrite incr_ok.
    replace (n * t + i + 1) with (n * t + S i) by lia.
    assert (Q : exists L2, binv m2 L2 /\ length L2 = n * h /\ forall j, j < n * t + S i -> nth j L2 false = lbit j).
    { exists (lset L1 (n * t + i) (vbit x (h - 1 - t))). split; auto. split; [now rewrite lset_length|]. intros j Hjj. destruct (Nat.eq_dec j (n * t + i)) as [->|Nj].
      - rewrite nth_lset_eq by auto. rewrite lbit_at by lia. now rewrite (@nth_get _ _ _ _ 0%Z Gx).
      - rewrite nth_lset_neq by auto. apply Hj1. lia. }
    destruct (vbit x (h - 1 - t)) eqn:Eb; cbn [negb]; (eexists; split; [reflexivity|]); (repeat split; auto); rewrite (firstn_S_nth _ _ Gx), filter_app; cbn [filter]; rewrite Eb; cbn [negb]; rewrite ?app_nil_r, ?rev_app_distr; reflexivity.
  - rewrite E. cbn [obind]. cbn [Nat.add] in J. destruct J as (-> & C1 & (L1 & I1 & LL1 & Hj1) & -> & ->).
    rewrite firstn_all2 by (rewrite lay_length; lia). rewrite set_some by lia. cbn [obind]. set (f := fun x => vbit x (h - 1 - t)). set (g := fun x => negb (vbit x (h - 1 - t))).
    pose proof (filter_two f (lay t)) as F2. rewrite lay_length in F2. change (length (filter (fun x => negb (f x)) (lay t))) with (length (filter g (lay t))) in F2.
    rewrite empty_ok by (rewrite ?rev_length, ?lay_length; lia). cbn [obind]. rewrite rev_length, rev_involutive.
    rewrite empty_ok by (rewrite ?app_length, ?firstn_length, ?rev_length, ?lay_length; lia). cbn [obind]. rewrite rev_length, rev_involutive.
    replace (n - length (filter f (lay t)) - length (filter g (lay t))) with 0 by lia. cbn [Nat.eqb guard obind]. eexists; split; [reflexivity|].
    cbn [firstn app]. split; [f_equal; lia|]. split; auto. split; [exists L1; split; [auto|]; split; [auto|]; intros; apply Hj1; lia|]. split; [|split; [now rewrite lset_length|]].
    + cbn [lay]. unfold part. fold f g. f_equal. rewrite skipn_app, skipn_all2 by (rewrite firstn_length; lia). cbn [app]. rewrite firstn_length, lay_length.
      replace (n - length (filter f (lay t)) - min (n - length (filter f (lay t))) n) with 0 by lia. cbn [skipn]. rewrite skipn_all2 by (rewrite lay_length; lia). apply app_nil_r.
    + intros u Hu. destruct (Nat.eq_dec u t) as [->|Nu]; [|rewrite get_lset_neq by lia; apply HZ; lia]. rewrite get_lset_eq by lia. unfold howmany. fold g. do 3 f_equal; lia.
Qed.

(** what the matrix holds *)
Definition ro (t : nat) : nat := cnt true (firstn (n * t) allb).
Record wmi (m : wm) : Prop := {
  w_n : wn m = n; w_h : wh m = h; w_b : binv (wB m) allb;
  w_rk : forall i, rk m i = Some (cnt true (firstn i allb));
  w_sel : forall B k, select 64 (bm_vec (wB m)) (wrs m) B k = Some (kth B k allb);
  w_ro : forall t, t <= h -> get (wRO m) t = Some (ro t);
  w_z : forall t, t < h -> get (wZ m) (h - 1 - t) = Some (n * (t + 1) + howmany (fun x => negb (vbit x (h - 1 - t))) (lay t)) }.
Lemma down_levels st : ginv 0 st -> exists st', for_down h 0 (wm_level n h) st = Some st' /\ ginv h st'.
Proof.
  intros G0. destruct (@for_down_rule _ (fun k st => ginv (h - k) st) (wm_level n h) 0 h st) as (st' & E & G); [cbn [Nat.add]; now rewrite Nat.sub_diag| |exists st'; split; auto; now rewrite Nat.sub_0_r in G].
  intros k s Hk Gk. destruct (@level_ok (h - S k) s ltac:(lia) Gk) as (s' & E & G'). replace (h - 1 - (h - S k)) with k in E by lia. exists s'. split; auto. now replace (h - k) with (S (h - S k)) by lia.
Qed.
Lemma build_wm H : wm_height H xs0 = Some h -> Forall (fun x => 0 <= x)%Z xs0 -> exists m, wm_build H xs0 = Some m /\ wmi m.
Proof.
  intros EH F0. unfold wm_build. rewrite EH. cbn [obind]. destruct (Nat.eqb_spec n 0) as [|Nz]; [lia|].
  assert (Fb : forallb (fun x => 0 <=? x)%Z xs0 = true) by (apply forallb_forall; intros x Hx; rewrite Forall_forall in F0; specialize (F0 x Hx); lia). rewrite Fb. cbn [guard obind].
  destruct (new_ok (n * h) false) as (I0 & C0). destruct (@down_levels (bm_new (n * h) false, it_begin, xs0, repeat 0 h)) as ((((m & it) & xs) & Zs) & -> & (-> & C & (L & I & LL & Hj) & -> & LZ & HZ)).
  { split; [rewrite Nat.mul_0_r; reflexivity|]. split; auto. split; [exists (repeat false (n * h)); rewrite repeat_length; repeat split; auto; try apply I0; intros; lia|]. split; auto. split; [apply repeat_length|intros; lia]. }
  cbn [obind]. assert (EL : L = allb) by (apply nth_ext with false false; [now rewrite allb_length|intros j Hjj; rewrite LL in Hjj; now rewrite Hj, allb_nth by lia]). subst L.
  pose proof (bitmap_rep I (C)) as R. assert (HW : 1 <= 64 <= 64) by lia. destruct (BvProof.build_ok HW R) as (d & -> & D). cbn [obind].
  match goal with |- context [for_up _ _ ?bd _] => set (body := bd) end.
  destruct (@for_up_rule _ (fun i RO => length RO = h + 1 /\ forall t, t < i -> get RO t = Some (ro t)) body (h + 1) 0 (repeat 0 (h + 1))) as (RO & -> & LR & HR).
  - split; [apply repeat_length|intros; lia].
  - intros i RO Hi (LR & HR). unfold body. rewrite (rank1_ok HW R D). cbn [obind]. rewrite set_some by lia. eexists; split; [reflexivity|]. split; [now rewrite lset_length|]. intros t Ht. destruct (Nat.eq_dec t i) as [->|]; [now rewrite get_lset_eq by lia|]. rewrite get_lset_neq by auto. apply HR. lia.
  - cbn [obind]. eexists; split; [reflexivity|]. constructor; cbn [wn wh wB wrs wRO wZ]; auto.
    + intros i. exact (rank1_ok HW R D i).
    + intros B k. exact (select_ok HW R D B k).
    + intros t Ht. apply HR. lia.
Qed.

(** counts inside a level *)
Definition f1 (t : nat) : Z -> bool := fun x => vbit x (h - 1 - t).
Definition f0 (t : nat) : Z -> bool := fun x => negb (vbit x (h - 1 - t)).
Lemma level_bits t p : t < h -> p <= n -> slice (n * t) (n * t + p) allb = map (f1 t) (firstn p (lay t)).
Proof.
  intros Ht Hp. assert (n * t + p <= n * h) by nia. apply nth_ext with false false.
  - rewrite slice_length by (rewrite ?allb_length; lia). rewrite map_length, firstn_length, lay_length. lia.
  - intros i. rewrite slice_length by (rewrite ?allb_length; lia). intros Hi. unfold slice. rewrite nth_firstn_lt by lia. rewrite nth_skipn, allb_nth by lia. rewrite lbit_at by lia.
    rewrite (nth_indep _ false (f1 t 0%Z)) by (rewrite map_length, firstn_length, lay_length; lia). rewrite map_nth, nth_firstn_lt by lia. reflexivity.
Qed.
Lemma cnt_filter (f : Z -> bool) l : cnt true (map f l) = length (filter f l).
Proof. induction l as [|x l IH]; auto. cbn [map cnt filter]. destruct (f x); cbn [Bool.eqb length]; auto. Qed.
Lemma firstn_slice A a b (l : list A) : firstn (a + b) l = firstn a l ++ slice a (a + b) l.
Proof. unfold slice. replace (a + b - a) with b by lia. rewrite <- (firstn_skipn a l) at 1. rewrite firstn_app, firstn_firstn, firstn_length. replace (min (a + b) a) with a by lia. f_equal. destruct (Nat.le_gt_cases a (length l)); [f_equal; lia|]. rewrite (skipn_all2 l) by lia. now rewrite !firstn_nil. Qed.
Lemma rank_at t p : t < h -> p <= n -> cnt true (firstn (n * t + p) allb) = ro t + length (filter (f1 t) (firstn p (lay t))).
Proof. intros Ht Hp. rewrite firstn_slice, cnt_app. unfold ro. f_equal. rewrite level_bits by auto. apply cnt_filter. Qed.
Lemma ro_S t : t < h -> ro (S t) = ro t + length (filter (f1 t) (lay t)).
Proof. intros Ht. unfold ro at 1. replace (n * S t) with (n * t + n) by lia. rewrite rank_at by lia. now rewrite firstn_all2 by (rewrite lay_length; lia). Qed.
Lemma ro_le t : ro t <= n * t. Proof. unfold ro. pose proof (cnt_two (firstn (n * t) allb)) as K. rewrite firstn_length in K. lia. Qed.
Lemma f_sum t l : length (filter (f1 t) l) + length (filter (f0 t) l) = length l. Proof. apply filter_two. Qed.

Variable m : wm.
Hypothesis M : wmi m.
Definition fb (t : nat) (b : bool) : Z -> bool := fun x => Bool.eqb (vbit x (h - 1 - t)) b.
Lemma fb_1 t l : filter (fb t true) l = filter (f1 t) l. Proof. apply filter_ext. intros x. unfold fb, f1. now destruct (vbit x (h - 1 - t)). Qed.
Lemma fb_0 t l : filter (fb t false) l = filter (f0 t) l. Proof. apply filter_ext. intros x. unfold fb, f0. now destruct (vbit x (h - 1 - t)). Qed.
(** where the child of position [p] of level [t] is in the next layer *)
Definition cpos (t p : nat) (b : bool) : nat := (if b then length (filter (f0 t) (lay t)) else 0) + length (filter (fb t b) (firstn p (lay t))).
Lemma child_ok t p b : t < h -> p <= n -> child m t (n * t + p) b = Some (n * (t + 1) + cpos t p b).
Proof.
  intros Ht Hp. unfold child, cpos. pose proof (f_sum t (firstn p (lay t))) as S1. rewrite firstn_length, lay_length in S1. pose proof (f_sum t (lay t)) as S2. rewrite lay_length in S2. pose proof (ro_le t).
  destruct b.
  - rewrite fb_1. unfold child1. rewrite (w_rk M), rank_at by auto. cbn [obind]. rewrite (w_ro M) by lia. cbn [obind]. rewrite (w_n M). replace (t + 1) with (S t) by lia. rewrite ro_S by auto. rewrite usub_ok by nia. f_equal. nia.
  - rewrite fb_0. unfold child0. rewrite (w_ro M) by lia. cbn [obind]. rewrite (w_rk M), rank_at by auto. cbn [obind]. rewrite (w_n M). rewrite usub_ok by nia. f_equal. nia.
Qed.
Lemma cpos_le t p b : p <= n -> cpos t p b <= n.
Proof.
  intros Hp. unfold cpos. pose proof (f_sum t (lay t)) as S2. rewrite lay_length in S2. pose proof (filter_firstn_le (fb t b) (lay t) p). destruct b; rewrite ?fb_1, ?fb_0 in *; lia.
Qed.
Lemma cpos_slice t l r b : l <= r -> r <= n -> cpos t l b <= cpos t r b /\ slice (cpos t l b) (cpos t r b) (lay (S t)) = filter (fb t b) (slice l r (lay t)).
Proof.
  intros Hl Hr. split.
  - unfold cpos. replace r with (l + (r - l)) by lia. rewrite firstn_slice, filter_app, app_length. lia.
  - cbn [lay]. unfold part, cpos. fold (f1 t) (f0 t). destruct b.
    + rewrite slice_app_r. rewrite !fb_1. now apply filter_slice.
    + cbn [Nat.add]. rewrite !fb_0. rewrite slice_app_l by apply filter_firstn_le. now apply filter_slice.
Qed.
(** a range [l, r) of level [t] that holds [ys] *)
Definition node (t l r : nat) (ys : list Z) : Prop := t <= h /\ n * t <= l /\ l <= r /\ r <= n * t + n /\ slice (l - n * t) (r - n * t) (lay t) = ys.
Lemma node_length t l r ys : node t l r ys -> length ys = r - l.
Proof. intros (_ & A & B & C & <-). rewrite slice_length; rewrite ?lay_length; lia. Qed.
Lemma node_level t l r ys : node t l r ys -> ys <> [] -> l / n = t.
Proof. intros N Hy. pose proof (node_length N) as L. destruct N as (_ & A & B & C & _). assert (length ys <> 0) by (destruct ys; [congruence|discriminate]). symmetry. apply Nat.div_unique with (l - n * t); lia. Qed.
Lemma node_0 l r : l <= r <= n -> node 0 l r (slice l r xs0).
Proof. intros Hr. repeat split; try lia. now rewrite Nat.mul_0_r, !Nat.sub_0_r. Qed.
Lemma child_tie_ok t l r ys b : t < h -> node t l r ys -> exists l' r', child_tie m t l r b = Some (l', r') /\ node (S t) l' r' (filter (fb t b) ys).
Proof.
  intros Ht (_ & A & B & C & <-). unfold child_tie. assert (K : forall i, n * t <= i <= n * t + n -> child m t i b = Some (n * (t + 1) + cpos t (i - n * t) b)) by (intros i Hi; rewrite <- child_ok by lia; f_equal; lia).
  rewrite K by lia. cbn [obind]. rewrite K by lia. cbn [obind].
  do 2 eexists; split; [reflexivity|]. destruct (@cpos_slice t (l - n * t) (r - n * t) b ltac:(lia) ltac:(lia)) as (L & E). pose proof (@cpos_le t (r - n * t) b ltac:(lia)).
  repeat split; try lia. rewrite <- E. f_equal; lia.
Qed.
Lemma get_at t p : t < h -> p < n -> bm_get (wB m) (n * t + p) = Some (vbit (nth p (lay t) 0%Z) (h - 1 - t)).
Proof.
  intros Ht Hp. assert (n * t + p < n * h) by nia. rewrite (bm_get_ok (w_b M)) by (rewrite allb_length; auto). now rewrite allb_nth, lbit_at by auto.
Qed.
End Layers.
