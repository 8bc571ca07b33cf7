(** Proofs for BsetModel.v *)
From Coq Require Import Permutation Sorted.
From Verif Require Import Base BaseLemmas ListExtra NthExtra StdAlgo BitModel BmapModel BmapProof BmapProp BvModel BvSel BvBlock BvProof BvOps BvProp BsetModel.
Set Implicit Arguments.

(** ** Counting in a list of bits *)
Lemma firstn_snoc (B : list bool) x : x < length B -> firstn (S x) B = firstn x B ++ [nth x B false].
Proof. revert x. induction B as [|b B IH]; intros [|x] H; cbn in *; try lia; auto. now rewrite <- IH by lia. Qed.
Lemma cnt_step (B : list bool) x : cnt true (firstn (S x) B) = cnt true (firstn x B) + if nth x B false then 1 else 0.
Proof.
  destruct (Nat.lt_ge_cases x (length B)).
  - rewrite firstn_snoc by auto. rewrite cnt_app. cbn. now destruct (nth x B false).
  - rewrite !firstn_all2 by lia. rewrite nth_overflow by lia. lia.
Qed.
Lemma cnt_mono B a b : a <= b -> cnt true (firstn a B) <= cnt true (firstn b B).
Proof. intros H. induction H; auto. rewrite cnt_step. lia. Qed.
Lemma cnt_strict B a y b : a <= y < b -> nth y B false = true -> cnt true (firstn a B) < cnt true (firstn b B).
Proof. intros H N. pose proof (@cnt_mono B a y ltac:(lia)). pose proof (@cnt_mono B (S y) b ltac:(lia)). rewrite cnt_step, N in *. lia. Qed.
Lemma cnt_below B x : cnt true (firstn x B) = length (filter (fun y => nth y B false) (seq 0 x)).
Proof.
  induction x; auto. rewrite cnt_step, IHx, seq_S, filter_app, app_length. cbn [Nat.add filter]. now destruct (nth x B false).
Qed.

(** ** The bitmap after insertions *)
Definition bits_of (l : list nat) (B : list bool) : Prop := length B = limit l /\ forall i, nth i B false = mem i l.
Definition bs_ok (s : bset) (l : list nat) : Prop := exists B, bits_of l B /\ binv (bs_bm s) B /\ clean (bs_bm s).

Lemma mem_In x l : mem x l = true <-> In x l.
Proof. unfold mem. rewrite existsb_exists. split; [intros (y & H & E); apply Nat.eqb_eq in E; now subst|intros; exists x; split; auto; apply Nat.eqb_refl]. Qed.
Lemma limit_lt l y : In y l -> y < limit l.
Proof. induction l as [|z l IH]; cbn [limit fold_right In]; [tauto|]. fold (limit l). intros [->|H]; [lia|specialize (IH H); lia]. Qed.
Lemma limit_app l x : limit (l ++ [x]) = Nat.max (limit l) (S x).
Proof. induction l as [|z l IH]; cbn [limit fold_right app]; [lia|]. fold (limit l) (limit (l ++ [x])). rewrite IH. lia. Qed.
Lemma limit_in l : l <> [] -> In (limit l - 1) l.
Proof.
  induction l as [|z l IH]; [congruence|]. intros _. destruct l as [|w l]; [cbn; left; lia|]. specialize (IH ltac:(discriminate)).
  set (r := w :: l) in *. cbn [limit fold_right]. fold (limit r). destruct (Nat.max_spec (S z) (limit r)) as [(_ & ->)|(_ & ->)]; [now right|left; lia].
Qed.
Lemma mem_app x l l' : mem x (l ++ l') = mem x l || mem x l'.
Proof. apply existsb_app. Qed.

Lemma set_bits m B x : binv m B -> clean m ->
  exists m' B', bm_set m x true = Some m' /\ binv m' B' /\ clean m' /\ length B' = Nat.max (length B) (S x) /\ (forall i, nth i B' false = nth i B false || (i =? x)) /\
  (length B <= x -> B' = B ++ repeat false (x - length B) ++ [true]).
Proof.
  intros I C. destruct (Nat.lt_ge_cases x (length B)) as [L|L].
  - destruct (set_ok I (@bs_set B x true L)) as (m' & E & I' & C'). exists m', (lset B x true). repeat split; auto; try apply I'.
    + rewrite lset_length. lia.
    + intros i. destruct (Nat.eqb_spec i x) as [->|Ne]; [rewrite nth_lset_eq by auto; now rewrite orb_true_r|rewrite nth_lset_neq by auto; now rewrite orb_false_r].
    + lia.
  - destruct (set_ok I (@bs_set_new B x true L)) as (m' & E & I' & C'). exists m', (B ++ repeat false (x - length B) ++ [true]). repeat split; auto; try apply I'.
    + rewrite !app_length, repeat_length. cbn. lia.
    + intros i. destruct (Nat.lt_ge_cases i (length B)).
      * rewrite app_nth1 by auto. destruct (Nat.eqb_spec i x); [lia|now rewrite orb_false_r].
      * rewrite app_nth2 by auto. rewrite (nth_overflow B) by auto. cbn [orb]. destruct (Nat.lt_ge_cases i x).
        -- rewrite app_nth1 by (rewrite repeat_length; lia). rewrite nth_repeat. destruct (Nat.eqb_spec i x); lia || auto.
        -- rewrite app_nth2 by (rewrite repeat_length; lia). rewrite repeat_length. destruct (Nat.eqb_spec i x) as [->|Ne].
           ++ replace (x - length B - (x - length B)) with 0 by lia. reflexivity.
           ++ destruct (i - length B - (x - length B)) as [|[|k]] eqn:Ek; [lia|reflexivity|reflexivity].
Qed.
Lemma new_bits : binv (Bm [] 0) [] /\ clean (Bm [] 0).
Proof. split; [repeat split; cbn; auto; intros; lia|]. intros i _. apply bitf_out. cbn. lia. Qed.

Lemma insert_ok s l x : bs_ok s l -> exists s', bs_insert s x = Some s' /\ bs_ok s' (l ++ [x]).
Proof.
  intros (B & (Lb & Nb) & I & C). unfold bs_insert. destruct (set_bits x I C) as (m' & B' & E & I' & C' & L' & N' & _). rewrite E. cbn [obind].
  eexists; split; [reflexivity|]. exists B'. repeat split; auto; try apply I'; cbn [bs_bm].
  - rewrite L', Lb, limit_app. lia.
  - intros i. rewrite N', Nb, mem_app. cbn. now rewrite orb_false_r.
Qed.
(** After [build]. *)
Definition bs_built (s : bset) (l : list nat) : Prop := exists B d, bits_of l B /\ binv (bs_bm s) B /\ clean (bs_bm s) /\ bs_rs s = Some (d, cnt true B) /\
  (forall i, rank1 64 (bm_vec (bs_bm s)) d i = Some (cnt true (firstn i B))) /\
  (forall b k, select 64 (bm_vec (bs_bm s)) d b k = Some (kth b k B)).
Lemma bv_ok m B : binv m B -> clean m -> exists d, bv_build 64 (bm_vec m) = Some d /\
  (forall i, rank1 64 (bm_vec m) d i = Some (cnt true (firstn i B))) /\
  (forall b k, select 64 (bm_vec m) d b k = Some (kth b k B)).
Proof.
  intros I C. pose proof (bitmap_rep I C) as R. assert (HW : 1 <= 64 <= 64) by lia. destruct (build_ok HW R) as (d & Ed & D). exists d. split; [exact Ed|]. split.
  - intros i. exact (rank1_ok HW R D i).
  - intros b k. exact (select_ok HW R D b k).
Qed.
Lemma bsbuild_ok s l : bs_ok s l -> exists s', bs_build s = Some s' /\ bs_built s' l.
Proof.
  intros (B & Hb & I & C). unfold bs_build. destruct (bv_ok I C) as (d & -> & Hr & Hs). cbn [obind]. rewrite Hr. cbn [obind].
  eexists; split; [reflexivity|]. exists B, d. cbn [bs_bm bs_rs]. repeat split; auto; try apply I; try apply Hb. cbn [bm_vec vsize].
  replace (bsz (bs_bm s)) with (length B) by (symmetry; apply I). now rewrite firstn_all.
Qed.
Lemma built_ok s l : bs_built s l -> bs_ok s l.
Proof. intros (B & d & Hb & I & C & _). exists B. auto. Qed.
Lemma run_ok cs : forall s l, bs_ok s l -> exists s', bs_run cs s = Some s' /\ bs_ok s' (l ++ inserted cs).
Proof.
  induction cs as [|[x|] cs IH]; intros s l O; cbn [inserted flat_map].
  - exists s. rewrite app_nil_r. auto.
  - unfold bs_run in *. cbn [for_each bs_do]. destruct (insert_ok x O) as (s1 & -> & O1). cbn [obind]. fold (inserted cs). rewrite app_assoc. apply IH. auto.
  - unfold bs_run in *. cbn [for_each bs_do]. destruct (bsbuild_ok O) as (s1 & -> & O1). cbn [obind]. apply IH. now apply built_ok.
Qed.
Lemma run_app cs cs' s : bs_run (cs ++ cs') s = let* s := bs_run cs s in bs_run cs' s.
Proof. unfold bs_run. revert s. induction cs as [|c cs IH]; intros s; cbn [app for_each]; auto. destruct (bs_do s c); cbn [obind]; auto. Qed.
Lemma reach_ok cs : exists s, bs_run (cs ++ [SBuild]) bs_new = Some s /\ bs_built s (inserted cs).
Proof.
  rewrite run_app. assert (O : bs_ok bs_new []). { exists []. destruct new_bits. repeat split; auto; try apply H. intros [|i]; reflexivity. }
  destruct (run_ok cs O) as (s1 & -> & O1). cbn [obind app] in *. unfold bs_run. cbn [for_each bs_do]. destruct (bsbuild_ok O1) as (s2 & -> & H). cbn [obind]. eauto.
Qed.

Lemma w32_small n : (Z.of_nat n < 2 ^ 32)%Z -> w32 (Z.of_nat n) = n.
Proof. intros. unfold w32. rewrite Z.mod_small by lia. apply Nat2Z.id. Qed.

(** ** Queries of the set *)
Section Q.
Variables (s : bset) (l : list nat).
Hypothesis H : bs_built s l.
Lemma below_eq B x : bits_of l B -> cnt true (firstn x B) = below l x.
Proof. intros (_ & N). rewrite cnt_below. unfold below. f_equal. apply filter_ext. intros. apply N. Qed.
Lemma q_size : bs_size s = Some (below l (limit l)).
Proof. destruct H as (B & d & Hb & I & C & E & _). unfold bs_size. rewrite E. cbn [obind]. rewrite <- (below_eq _ Hb). destruct Hb as (<- & _). now rewrite firstn_all. Qed.
Lemma q_contains x : bs_contains s x = if (x / 64 <? (limit l + 63) / 64) then Some (mem x l) else None.
Proof.
  destruct H as (B & d & (Lb & Nb) & I & C & _). pose proof I as (La & F & Sz & Bt). unfold bs_contains, bm_get. destruct (Nat.ltb_spec (x / 64) ((limit l + 63) / 64)) as [L|L].
  - destruct (@get_lt _ (arr (bs_bm s)) (x / 64)) as (w & G); [rewrite La, Sz, Lb; exact L|]. rewrite G. cbn [obind]. rewrite land_one by apply m64. f_equal. rewrite <- (bitf_get _ _ G).
    destruct (Nat.lt_ge_cases x (length B)); [rewrite Bt by auto; apply Nb|]. rewrite C by lia. rewrite <- Nb. symmetry. now apply nth_overflow.
  - assert (G : get (arr (bs_bm s)) (x / 64) = None) by (apply nth_error_None; rewrite La, Sz, Lb; exact L). now rewrite G.
Qed.
Lemma q_rank x : bs_rank s x = Some (below l x).
Proof.
  destruct H as (B & d & Hb & I & C & E & Hr & _). unfold bs_rank. rewrite E. cbn [obind]. replace (bsz (bs_bm s)) with (length B) by (symmetry; apply I). rewrite Hr, <- (below_eq x Hb).
  destruct (Nat.ltb_spec x (length B)); auto. now rewrite firstn_all2.
Qed.
Lemma q_get i : (Z.of_nat (limit l) < 2 ^ 32)%Z -> exists r, bs_get s i = Some r /\ ((In r l /\ below l r = i) \/ (below l (limit l) <= i /\ r = limit l)).
Proof.
  intros L32. destruct H as (B & d & Hb & I & C & E & _ & Hs). unfold bs_get. rewrite E. cbn [obind]. replace (bsz (bs_bm s)) with (length B) by (symmetry; apply I). rewrite Hs.
  assert (Ec : cnt true B = below l (limit l)) by (rewrite <- (below_eq _ Hb); destruct Hb as (<- & _); now rewrite firstn_all).
  destruct (Nat.ltb_spec i (cnt true B)) as [Hi|Hi]; cbn [obind].
  - destruct (kth_inv true B Hi) as (K1 & K2 & K3). exists (kth true i B). split; [f_equal; apply w32_small; destruct Hb as (Lb & _); lia|]. left. rewrite <- (below_eq _ Hb). split; auto. apply mem_In. destruct Hb as (_ & Nb). now rewrite <- Nb.
  - exists (limit l). destruct Hb as (Lb & _). split; [f_equal; rewrite Lb; now apply w32_small|]. right. lia.
Qed.
Lemma q_lower x : (Z.of_nat (limit l) < 2 ^ 32)%Z -> x / 64 < (limit l + 63) / 64 -> exists r, bs_lower s x = Some r /\ nearest l x (limit l) r.
Proof.
  intros L32 Lx. unfold bs_lower. rewrite q_contains. destruct (Nat.ltb_spec (x / 64) ((limit l + 63) / 64)); [|lia]. cbn [obind]. destruct (mem x l) eqn:Em.
  - exists x. split; auto. left. apply mem_In in Em. repeat split; auto.
  - rewrite q_rank. cbn [obind]. destruct (q_get (below l x) L32) as (r & -> & Hr). exists r. split; auto. destruct H as (B & d & Hb & _). destruct Hb as (Lb & Nb). pose proof (conj Lb Nb : bits_of l B) as Hb.
    rewrite <- !(below_eq _ Hb) in Hr. destruct Hr as [(Ir & Er)|(Er & ->)].
    + left. split; auto. assert (Nr : nth r B false = true) by (rewrite Nb; now apply mem_In). split.
      * destruct (Nat.lt_ge_cases r x); [|auto]. pose proof (@cnt_strict B r r x ltac:(lia) Nr). lia.
      * intros y Iy Hy. destruct (Nat.lt_ge_cases y r); [|auto]. assert (Ny : nth y B false = true) by (rewrite Nb; now apply mem_In). pose proof (@cnt_strict B x y r ltac:(lia) Ny). lia.
    + right. split; auto. intros y Iy. destruct (Nat.lt_ge_cases y x); auto. exfalso. assert (Ny : nth y B false = true) by (rewrite Nb; now apply mem_In). pose proof (limit_lt _ _ Iy).
      pose proof (@cnt_strict B x y (limit l) ltac:(lia) Ny). lia.
Qed.
End Q.

(** ** The multiset: unary codes *)
Fixpoint code (a : nat) (vs : list nat) : list bool :=
  match vs with [] => [] | v :: r => repeat false (v - a) ++ true :: code v r end.
Definition sorted_from (a : nat) (vs : list nat) : Prop := Sorted Peano.le vs /\ Forall (Peano.le a) vs.
Lemma sorted_from_cons a v vs : sorted_from a (v :: vs) -> a <= v /\ sorted_from v vs.
Proof.
  intros (S & F). apply Forall_cons_iff in F. destruct F as (L & F). split; auto. split; [now inversion S|]. apply Sorted_StronglySorted in S; [now inversion S|]. intros x y z. lia.
Qed.
Definition upto (vs : list nat) (x : nat) : nat := length (filter (fun v => v <=? x) vs).
Definition top (a : nat) (vs : list nat) : nat := last vs a.
Lemma top_cons a v vs : top a (v :: vs) = top v vs.
Proof. unfold top. revert a v. induction vs as [|w vs IH]; intros a v; auto. change (last (v :: w :: vs) a) with (last (w :: vs) a). rewrite IH. symmetry. apply (IH v w). Qed.
Lemma top_ge vs : forall a, sorted_from a vs -> a <= top a vs.
Proof. induction vs as [|v vs IH]; intros a S; [cbn; lia|]. rewrite top_cons. apply sorted_from_cons in S. destruct S as (L & S). specialize (IH _ S). lia. Qed.
Lemma code_len vs : forall a, sorted_from a vs -> length (code a vs) = top a vs - a + length vs.
Proof.
  induction vs as [|v vs IH]; intros a S; [cbn; lia|]. rewrite top_cons. apply sorted_from_cons in S. destruct S as (L & S). cbn [code length]. rewrite app_length, repeat_length. cbn [length]. rewrite IH by auto. pose proof (top_ge S). lia.
Qed.
Lemma cnt_rep_tf B b k : cnt B (repeat b k) = if Bool.eqb b B then k else 0.
Proof. induction k; cbn [repeat cnt]; destruct (Bool.eqb b B); auto. Qed.
Lemma code_cnt B vs : forall a, sorted_from a vs -> cnt B (code a vs) = if B then length vs else top a vs - a.
Proof.
  induction vs as [|v vs IH]; intros a S; [cbn; destruct B; lia|]. rewrite top_cons. apply sorted_from_cons in S. destruct S as (L & S). cbn [code]. rewrite cnt_app, cnt_rep_tf. cbn [cnt length]. rewrite IH by auto. pose proof (top_ge S). destruct B; cbn [Bool.eqb]; lia.
Qed.
Lemma kth_rep B b k j l : kth B j (repeat b k ++ l) = if Bool.eqb b B then (if j <? k then j else k + kth B (j - k) l) else k + kth B j l.
Proof.
  revert j. induction k as [|k IH]; intros j; cbn [repeat app kth].
  - destruct (Bool.eqb b B); [|auto]. now rewrite Nat.sub_0_r.
  - destruct (Bool.eqb b B) eqn:E.
    + destruct j as [|j]; auto. rewrite IH. change (S j <? S k) with (j <? k). destruct (j <? k); auto.
    + rewrite IH. auto.
Qed.
Lemma code_one vs : forall a k, sorted_from a vs -> k < length vs -> kth true k (code a vs) = nth k vs 0 - a + k.
Proof.
  induction vs as [|v vs IH]; intros a k S Hk; [cbn in Hk; lia|]. apply sorted_from_cons in S. destruct S as (L & S). cbn [code]. rewrite kth_rep. cbn [Bool.eqb kth]. destruct k as [|k]; [cbn; lia|].
  cbn [nth length] in *. rewrite IH by (auto; lia). assert (v <= nth k vs 0) by (destruct S as (_ & F); rewrite Forall_forall in F; apply F; apply nth_In; lia). lia.
Qed.
Lemma code_zero vs : forall a x, sorted_from a vs -> a + x < top a vs -> kth false x (code a vs) = x + upto vs (a + x).
Proof.
  induction vs as [|v vs IH]; intros a x S Hx; [cbn in Hx; lia|]. rewrite top_cons in Hx. apply sorted_from_cons in S. destruct S as (L & S). cbn [code]. rewrite kth_rep. cbn [Bool.eqb]. unfold upto. cbn [filter].
  destruct (Nat.ltb_spec x (v - a)) as [Lx|Lx].
  - destruct (Nat.leb_spec v (a + x)); [lia|]. assert (E : filter (fun v => v <=? a + x) vs = []).
    { destruct S as (_ & F). clear - F Lx. induction vs as [|w vs IH]; auto. apply Forall_cons_iff in F. destruct F as (L & F). cbn [filter]. destruct (Nat.leb_spec w (a + x)); [lia|]. auto. }
    rewrite E. cbn. lia.
  - destruct (Nat.leb_spec v (a + x)); [|lia]. cbn [kth Bool.eqb length]. rewrite IH by (auto; lia). unfold upto. replace (v + (x - (v - a))) with (a + x) by lia. lia.
Qed.

(** ** Building the multiset *)
Lemma std_sorted l : sorted_from 0 (std_sort Nat.ltb l) /\ Permutation l (std_sort Nat.ltb l).
Proof.
  assert (SO : strict_order Nat.ltb).
  { split; [apply Nat.ltb_irrefl|intros x y z H1 H2; apply Nat.ltb_lt in H1, H2; apply Nat.ltb_lt; lia|intros x y H1 H2; apply Nat.ltb_ge in H1, H2; lia]. }
  split; [|apply std_sort_perm]. split; [|apply Forall_forall; intros; lia].
  apply StronglySorted_Sorted. pose proof (std_sort_sorted SO l) as K. induction K as [|x r K IH F]; constructor; auto.
  eapply Forall_impl; [|exact F]. intros y Hy. unfold le in Hy. now apply Nat.ltb_ge in Hy.
Qed.
Lemma sets_ok vs : forall m B a i, binv m B -> clean m -> length B = a + i -> sorted_from a vs ->
  exists m', for_each vs (fun v '(m, i) => let* m := bm_set m (v + i) true in Some (m, i + 1)) (m, i) = Some (m', i + length vs) /\
    binv m' (B ++ code a vs) /\ clean m'.
Proof.
  induction vs as [|v vs IH]; intros m B a i I C Lb S.
  - exists m. cbn. rewrite app_nil_r, Nat.add_0_r. auto.
  - apply sorted_from_cons in S. destruct S as (L & S). cbn [for_each]. destruct (set_bits (v + i) I C) as (m' & B' & E & I' & C' & L' & _ & App). rewrite E. cbn [obind].
    assert (EB : B' = B ++ repeat false (v - a) ++ [true]) by (rewrite App by lia; do 3 f_equal; lia). clear App.
    destruct (IH m' B' v (i + 1) I' C') as (m2 & E2 & I2 & C2); [lia|auto|]. exists m2. cbn [length]. replace (i + Datatypes.S (length vs)) with (i + 1 + length vs) by lia. split; auto. split; auto.
    rewrite EB in I2. cbn [code]. rewrite <- !app_assoc in I2. exact I2.
Qed.
Definition ms_built (s : mset) (l : list nat) : Prop := exists vs d, Permutation l vs /\ sorted_from 0 vs /\ binv (ms_bm s) (code 0 vs) /\
  ms_rs s = Some (d, length l) /\ (forall b k, ms_sel s b k = Some (kth b k (code 0 vs))).
Lemma ms_inserts l : forall s, fold_left ms_insert l s = Ms (ms_bm s) (ms_rs s) (ms_vals s ++ l).
Proof. induction l as [|x l IH]; intros s; cbn [fold_left]; [rewrite app_nil_r; now destruct s|]. rewrite IH. cbn [ms_bm ms_rs ms_vals ms_insert]. now rewrite <- app_assoc. Qed.
Lemma msbuild_ok l : exists s, ms_build (fold_left ms_insert l ms_new) = Some s /\ ms_built s l.
Proof.
  rewrite ms_inserts. unfold ms_build. cbn [ms_bm ms_rs ms_vals ms_new app]. destruct (std_sorted l) as (S & P). set (vs := std_sort Nat.ltb l) in *.
  destruct new_bits as (I & C). destruct (@sets_ok vs _ _ 0 0 I C eq_refl S) as (m & E & I' & C'). rewrite E. cbn [obind app] in *. destruct (bv_ok I' C') as (d & -> & _ & Hs). cbn [obind].
  eexists; split; [reflexivity|]. exists vs, d. cbn [ms_bm ms_rs]. repeat split; auto; try apply S; try apply I'.
  - now rewrite (Permutation_length P).
Qed.
