(** Proofs for WmModel.v: queries that walk several nodes of the matrix *)
From Coq Require Import Permutation Sorted.
From Verif Require Import Base BaseLemmas ListExtra NthExtra BitModel BitProof BmapModel BmapProof BvModel BvSel BvProof BvOps BvProp WmModel WmProof WmPath.
Set Implicit Arguments.

Notation tot f l := (list_sum (map f l)).
Lemma tot_app A (f : A -> nat) l k : tot f (l ++ k) = tot f l + tot f k. Proof. now rewrite map_app, list_sum_app. Qed.
Lemma tot_perm A (f : A -> nat) l k : Permutation l k -> tot f l = tot f k.
Proof. induction 1; cbn [map list_sum fold_right] in *; unfold list_sum in *; lia. Qed.
Lemma tot_cons A (f : A -> nat) x l : tot f (x :: l) = f x + tot f l. Proof. reflexivity. Qed.
Lemma tot_pos A (f : A -> nat) l : 0 < tot f l -> exists x, In x l /\ 0 < f x.
Proof. induction l as [|x l IH]; cbn [map list_sum fold_right]; intros H; [cbn in H; lia|]. destruct (f x) eqn:E; [destruct IH as (y & I & P); [unfold list_sum; lia|]; exists y; split; auto; now right|exists x; split; [now left|lia]]. Qed.
Lemma tot_in A (f : A -> nat) l x : In x l -> f x <= tot f l.
Proof. induction l as [|y l IH]; intros H; [destruct H|]. rewrite tot_cons. destruct H as [->|H]; [lia|]. specialize (IH H). lia. Qed.

(** the greatest tuple *)
Lemma pq_pop_perm : forall q a t q', pq_pop a q = (t, q') -> Permutation (t :: q') (a :: q).
Proof.
  induction q as [|b q IH]; intros a t q' E; cbn [pq_pop] in E; [injection E as <- <-; auto|].
  destruct (item_lt a b); destruct (pq_pop _ q) as (t1, q1) eqn:E1; injection E as <- <-; specialize (IH _ _ _ E1).
  - transitivity (a :: t1 :: q1); [apply perm_swap|]. now constructor.
  - transitivity (b :: t1 :: q1); [apply perm_swap|]. transitivity (b :: a :: q); [now constructor|apply perm_swap].
Qed.
Definition rng (x : item) : nat := fst (fst x).
Lemma pq_pop_max : forall q a t q', pq_pop a q = (t, q') -> rng a <= rng t /\ forall x, In x q' -> rng x <= rng t.
Proof.
  induction q as [|b q IH]; intros a t q' E; cbn [pq_pop] in E; [injection E as <- <-; split; [auto|intros x []]|].
  destruct (item_lt a b) eqn:L; destruct (pq_pop _ q) as (t1, q1) eqn:E1; injection E as <- <-; destruct (IH _ _ _ E1) as (A & B).
  - assert (rng a <= rng b). { destruct a as ((a1 & a2) & a3), b as ((b1 & b2) & b3). unfold rng; cbn [fst]. unfold item_lt in L. destruct (Nat.ltb_spec a1 b1), (Nat.eqb_spec a1 b1); cbn [orb andb] in L; try discriminate; lia. }
    split; [lia|]. intros x [<-|Hx]; auto. lia.
  - assert (rng b <= rng a). { destruct a as ((a1 & a2) & a3), b as ((b1 & b2) & b3). unfold rng; cbn [fst]. unfold item_lt in L. destruct (Nat.ltb_spec a1 b1), (Nat.eqb_spec a1 b1); cbn [orb andb] in L; try discriminate; lia. }
    split; [lia|]. intros x [<-|Hx]; auto. lia.
Qed.

Section Tree.
Variable h : nat.
Variable xs0 : list Z.
Notation n := (length xs0).
Hypothesis Hn : 0 < n.
Hypothesis Hh : 0 < h.
Hypothesis Hv : forall x, In x xs0 -> (0 <= x < 2 ^ Z.of_nat h)%Z.
Variable m : wm.
Hypothesis M : wmi h xs0 m.
Variable l0 r0 : nat.
Hypothesis Hr : l0 <= r0 <= n.
Notation node := (node h xs0).
Notation ys := (slice l0 r0 xs0).
Notation F := (F h ys).
Notation sh := (sh h).

Let one_ull_ok := @WmPath.one_ull_ok h xs0 Hn Hh m M.
Lemma vals x : In x ys -> (0 <= x < 2 ^ Z.of_nat h)%Z. Proof. apply slice_vals. exact Hv. Qed.
Lemma ys_length : length ys = r0 - l0. Proof. apply slice_length; lia. Qed.
Lemma root : node 0 l0 r0 (F 0 0).
Proof. rewrite (@F_0 h xs0 Hn Hh Hv m M _ vals). now apply (@WmProof.node_0 h xs0 Hn Hh). Qed.
Lemma nlen t a b zs : node t a b zs -> length zs = b - a. Proof. apply (@WmProof.node_length h xs0 Hn Hh). Qed.
Lemma expand t a b P (bb : bool) : t < h -> node t a b (F t P) -> exists a' b', child_tie m t a b bb = Some (a', b') /\ a' <= b' /\ node (S t) a' b' (F (S t) (2 * P + (if bb then 1 else 0))).
Proof.
  intros Ht N. destruct (@WmProof.child_tie_ok h xs0 Hn Hh m M t a b _ bb Ht N) as (a' & b' & E & N'). exists a', b'. split; auto. split; [apply N'|]. rewrite (@F_S h xs0 Hn Hh Hv m M _ vals) by auto. exact N'.
Qed.
Lemma nlev t a b zs : node t a b zs -> a < b -> a / n = t.
Proof. intros N L. eapply (@WmProof.node_level h xs0 Hn Hh); eauto. pose proof (nlen N). destruct zs; [cbn in *; lia|discriminate]. Qed.
Lemma split_F p t P : t < h -> howmany p (F t P) = howmany p (F (S t) (2 * P + 0)) + howmany p (F (S t) (2 * P + 1)).
Proof.
  intros Ht. pose proof (@F_S h xs0 Hn Hh Hv m M _ vals t P false Ht) as E0. pose proof (@F_S h xs0 Hn Hh Hv m M _ vals t P true Ht) as E1. cbv iota in E0, E1. rewrite E0, E1. unfold howmany. rewrite !filter_filter.
  generalize (F t P) as zs. induction zs as [|x zs IH]; [reflexivity|]. cbn [filter]. unfold fb in *. destruct (vbit x (h - 1 - t)); cbn [Bool.eqb andb]; destruct (p x); cbn [length]; lia.
Qed.
Lemma split_len t P : t < h -> length (F t P) = length (F (S t) (2 * P + 0)) + length (F (S t) (2 * P + 1)).
Proof. intros Ht. pose proof (split_F (fun _ => true) P Ht) as K. unfold howmany in K. now rewrite !filter_all in K. Qed.
Lemma F_in t P x : In x (F t P) -> In x ys /\ sh t x = P.
Proof. unfold WmPath.F. rewrite filter_In. intros (A & B). split; auto. now apply Z.eqb_eq. Qed.
Lemma F_bounds t P x : In x (F t P) -> (P * 2 ^ Z.of_nat (h - t) <= x <= P * 2 ^ Z.of_nat (h - t) + (2 ^ Z.of_nat (h - t) - 1))%Z.
Proof.
  intros Hx. destruct (F_in _ _ _ Hx) as (_ & E). unfold WmPath.sh in E. rewrite Z.shiftr_div_pow2 in E by lia. assert (0 < 2 ^ Z.of_nat (h - t))%Z by (apply Z.pow_pos_nonneg; lia). pose proof (Z.div_mod x (2 ^ Z.of_nat (h - t)) ltac:(lia)). pose proof (Z.mod_pos_bound x (2 ^ Z.of_nat (h - t)) ltac:(lia)). nia.
Qed.
Lemma howmany_0 A (p : A -> bool) l : (forall x, In x l -> p x = false) -> howmany p l = 0. Proof. intros H. unfold howmany. now rewrite filter_none. Qed.
Lemma howmany_all A (p : A -> bool) l : (forall x, In x l -> p x = true) -> howmany p l = length l. Proof. intros H. unfold howmany. now rewrite filter_all. Qed.
Lemma pow_shift P d : (0 <= P)%Z -> Z.shiftr (P * 2 ^ Z.of_nat d) (Z.of_nat d) = P.
Proof. intros HP. rewrite Z.shiftr_div_pow2 by lia. apply Z.div_mul. apply Z.pow_nonzero; lia. Qed.

(** items holding the value itself *)
Definition tri := (nat * nat * Z)%type.
Definition pre (a : nat) (c : Z) : Z := Z.shiftr c (Z.of_nat (h - a / n)).
Definition cont (x : tri) : list Z := let '(a, b, c) := x in F (a / n) (pre a c).
Definition okq (x : tri) : Prop := let '(a, b, c) := x in node (a / n) a b (cont x) /\ (0 <= pre a c)%Z /\ c = (pre a c * 2 ^ Z.of_nat (h - a / n))%Z.
Definition wt (x : tri) : nat := let '(a, b, c) := x in (b - a) * (h + 1 - a / n) + 1.
Lemma mk t a b P : node t a b (F t P) -> a / n = t -> (0 <= P)%Z -> let x := (a, b, P * 2 ^ Z.of_nat (h - t))%Z in okq x /\ cont x = F t P /\ wt x = (b - a) * (h + 1 - t) + 1.
Proof.
  intros N E HP x. unfold x, okq, cont, wt, pre. rewrite E, pow_shift by auto. repeat split; auto; apply N.
Qed.
(** pushing a child *)
Definition addq (qs : list tri) (a b : nat) (c : Z) : list tri := if a <? b then qs ++ [(a, b, c)] else qs.
Lemma addq_ok qs t a b P c : node t a b (F t P) -> (0 <= P)%Z -> c = (P * 2 ^ Z.of_nat (h - t))%Z -> Forall okq qs ->
  Forall okq (addq qs a b c) /\ (forall p, tot (fun x => howmany p (cont x)) (addq qs a b c) = tot (fun x => howmany p (cont x)) qs + howmany p (F t P)) /\
  tot wt (addq qs a b c) <= tot wt qs + length (F t P) * (h + 2 - t).
Proof.
  intros N HP -> Q. assert (Ht : t <= h) by apply N. pose proof (nlen N) as NL. unfold addq. destruct (Nat.ltb_spec a b) as [C|C].
  - destruct (@mk t a b P N (nlev N C) HP) as (A & B & W). repeat split.
    + apply Forall_app. split; auto.
    + intros p. rewrite tot_app, tot_cons, B. cbn. lia.
    + rewrite tot_app, tot_cons, W, NL. cbn [map list_sum fold_right]. nia.
  - assert (Z0 : F t P = []) by (destruct (F t P); [auto|cbn in NL; lia]). rewrite Z0. repeat split; auto; intros; unfold howmany; cbn; lia.
Qed.

Lemma lor_ones P d : (0 <= P)%Z -> Z.lor (P * 2 ^ Z.of_nat d) (Z.shiftl 1 (Z.of_nat d) - 1) = (P * 2 ^ Z.of_nat d + (2 ^ Z.of_nat d - 1))%Z.
Proof.
  intros HP. assert (0 < 2 ^ Z.of_nat d)%Z by (apply Z.pow_pos_nonneg; lia). pose proof (@lor_cat (Z.of_nat d) 0 P (2 ^ Z.of_nat d - 1) 0 ltac:(lia) ltac:(lia) ltac:(lia)) as K. rewrite Z.mul_0_r, Z.add_0_r, Z.lor_0_l, Z.lor_0_r in K. rewrite Z.shiftl_1_l. rewrite <- (Z.mul_comm (2 ^ Z.of_nat d)). change (2 ^ Z.of_nat d * P)%Z with (0 + 2 ^ Z.of_nat d * P)%Z at 1. rewrite K. lia.
Qed.

Theorem range_freq_ok x y : h < 64 -> range_freq m l0 r0 x y = Some (howmany (fun v => (x <=? v) && (v <? y))%Z ys).
Proof.
  intros H64. set (p := fun v => ((x <=? v) && (v <? y))%Z). unfold range_freq. rewrite (w_h M), (w_n M). destruct (Nat.eqb_spec l0 r0) as [->|Ne]; [rewrite slice_nil by lia; reflexivity|]. match goal with |- context [loop _ ?bd _] => set (body := bd) end.
  destruct (@loop_rule _ _ (fun s : nat * list tri => let (freq, qs) := s in Forall okq qs /\ Forall (fun z : tri => let '(a, b, _) := z in a < b) qs /\ freq + tot (fun x => howmany p (cont x)) qs = howmany p ys)
    (fun s => tot wt (snd s)) (fun r => r = howmany p ys) body) with (fuel := (r0 - l0) * (h + 1) + 2) (s := (0, [(l0, r0, 0%Z)])) as (r & E & ->); auto.
  - intros (freq & qs) (Q & L & SM). unfold body. destruct qs as [|((a & b) & c) qs].
    + eexists; split; [reflexivity|]. cbn in SM. cbv beta iota. lia.
    + inversion_clear Q as [|? ? Q0 Q1]. inversion_clear L as [|? ? Lab L1]. destruct (Nat.ltb_spec a b); [|lia]. destruct (Nat.ltb_spec 0 n); [|lia]. cbn [andb guard obind]. destruct Q0 as (N & HP & Ec). rewrite tot_cons in SM. assert (Ht : a / n <= h) by apply N.
      change (cont (a, b, c)) with (F (a / n) (pre a c)) in *. set (t := a / n) in *. set (P := pre a c) in *. assert (W : wt (a, b, c) = (b - a) * (h + 1 - t) + 1) by reflexivity. clearbody t P. rewrite usub_ok by auto. cbn [obind]. rewrite one_ull_ok by lia. cbn [obind]. rewrite Ec. rewrite lor_ones by auto. pose proof (nlen N) as NL. subst c.
      pose proof (@F_bounds t P) as FB. set (w := (2 ^ Z.of_nat (h - t))%Z) in *. assert (0 < w)%Z by (apply Z.pow_pos_nonneg; lia).
      destruct (Z.ltb_spec (P * w + (w - 1)) x) as [C1|C1]; cbn [orb]; [|destruct (Z.leb_spec y (P * w)) as [C2|C2]].
      * eexists; split; [reflexivity|]. cbv beta iota. cbn [snd]. rewrite tot_cons, W. repeat split; auto; [|nia]. rewrite (@howmany_0 _ p (F t P)) in SM; [lia|]. intros v Hx. specialize (FB _ Hx). unfold p. destruct (Z.leb_spec x v); [lia|reflexivity].
      * eexists; split; [reflexivity|]. cbv beta iota. cbn [snd]. rewrite tot_cons, W. repeat split; auto; [|nia]. rewrite (@howmany_0 _ p (F t P)) in SM; [lia|]. intros v Hx. specialize (FB _ Hx). unfold p. destruct (Z.leb_spec x v), (Z.ltb_spec v y); auto; lia.
      * destruct ((x <=? P * w) && (P * w + (w - 1) <? y))%Z eqn:C3.
        { apply andb_true_iff in C3. destruct C3 as (C3 & C4). apply Z.leb_le in C3. apply Z.ltb_lt in C4. eexists; split; [reflexivity|]. cbv beta iota. cbn [snd]. rewrite tot_cons, W. repeat split; auto; [|nia]. rewrite (@howmany_all _ p (F t P)) in SM; [lia|]. intros v Hx. specialize (FB _ Hx). unfold p. destruct (Z.leb_spec x v), (Z.ltb_spec v y); auto; lia. }
        assert (Hlt : t < h). { assert (t <> h); [|lia]. intros ->. unfold w in *. rewrite Nat.sub_diag in *. change (2 ^ Z.of_nat 0)%Z with 1%Z in *. destruct (Z.leb_spec x (P * 1)), (Z.ltb_spec (P * 1 + (1 - 1)) y); cbn in C3; try discriminate; lia. }
        destruct (Nat.ltb_spec t h); [|lia]. cbn [guard obind].
        destruct (@expand t a b P false Hlt N) as (a1 & b1 & E1 & L1' & N1). destruct (@expand t a b P true Hlt N) as (a2 & b2 & E2 & L2' & N2). rewrite E1. cbn [obind]. rewrite E2. cbn [obind]. rewrite one_ull_ok by lia. cbn [obind]. cbv iota in N1, N2.
        destruct (@addq_ok qs (S t) a1 b1 (2 * P + 0) (P * w) N1 ltac:(lia)) as (A1 & A2 & A3); [unfold w; replace (h - t) with (S (h - S t)) by lia; rewrite Nat2Z.inj_succ, Z.pow_succ_r by lia; ring|auto|].
        destruct (@addq_ok (addq qs a1 b1 (P * w)) (S t) a2 b2 (2 * P + 1) (Z.lor (P * w) (Z.shiftl 1 (Z.of_nat (h - t - 1)))) N2 ltac:(lia)) as (B1 & B2 & B3); [unfold w; replace (h - t) with (S (h - S t)) by lia; replace (S (h - S t) - 1) with (h - S t) by lia; apply (@lor_pow P (h - S t) true)|auto|].
        exists (inl (freq, addq (addq qs a1 b1 (P * w)) a2 b2 (Z.lor (P * w) (Z.shiftl 1 (Z.of_nat (h - t - 1)))))). split; [reflexivity|]. cbn [snd]. split; [split; [exact B1|split]|].
        -- clear -L1. unfold addq. destruct (Nat.ltb_spec a1 b1), (Nat.ltb_spec a2 b2); repeat (apply Forall_app; split); auto.
        -- rewrite B2, A2. rewrite (@split_F p t P Hlt) in SM. lia.
        -- rewrite tot_cons, W. pose proof (@split_len t P Hlt) as SLN. replace (h + 2 - S t) with (h + 1 - t) in * by lia. nia.
  - split; [|split].
    + constructor; [|constructor]. destruct (@mk 0 l0 r0 0 root) as (A & _); [apply Nat.div_small; lia|lia|exact A].
    + constructor; auto. lia.
    + destruct (@mk 0 l0 r0 0 root) as (_ & A & _); [apply Nat.div_small; lia|lia|]. rewrite tot_cons. rewrite Z.mul_0_l in A. rewrite A, (@F_0 h xs0 Hn Hh Hv m M _ vals). cbn. lia.
  - cbn [snd]. rewrite tot_cons. unfold wt. cbn [map list_sum fold_right]. rewrite (Nat.div_small l0 n) by lia. nia.
Qed.

(** the multiplicity recorded for [x] *)
Definition rec (x : Z) (p : Z * nat) : nat := if (fst p =? x)%Z then snd p else 0.
Definition sound (ret : list (Z * nat)) : Prop := Forall (fun p => snd p = howmany (Z.eqb (fst p)) ys /\ 0 < snd p) ret.
Lemma rec_in ret x : sound ret -> 0 < tot (rec x) ret -> In x (map fst ret).
Proof. intros _ H. destruct (tot_pos _ _ H) as (p & I & P). unfold rec in P. destruct (Z.eqb_spec (fst p) x); [|lia]. subst. apply in_map; auto. Qed.
Lemma rec_count ret x : sound ret -> In x (map fst ret) -> howmany (Z.eqb x) ys <= tot (rec x) ret.
Proof. intros K I. apply in_map_iff in I. destruct I as (p & <- & I). etransitivity; [|apply (@tot_in _ (rec (fst p)) _ p I)]. unfold rec. rewrite Z.eqb_refl. unfold sound in K. rewrite Forall_forall in K. destruct (K p I). lia. Qed.
Lemma rec_nodup ret : sound ret -> (forall x, In x (map fst ret) -> tot (rec x) ret <= howmany (Z.eqb x) ys) -> NoDup (map fst ret).
Proof.
  induction ret as [|p ret IH]; intros K H; [constructor|]. inversion_clear K as [|? ? K0 K1]. cbn [map]. constructor.
  - intros I. specialize (H (fst p) (or_introl eq_refl)). rewrite tot_cons in H. pose proof (@rec_count ret (fst p) K1 I). unfold rec at 1 in H. rewrite Z.eqb_refl in H. lia.
  - apply IH; auto. intros x I. specialize (H x (or_intror I)). rewrite tot_cons in H. lia.
Qed.
Lemma howmany_pos x zs : In x zs -> 0 < howmany (Z.eqb x) zs.
Proof. intros I. unfold howmany. assert (J : In x (filter (Z.eqb x) zs)) by (apply filter_In; split; auto; apply Z.eqb_refl). destruct (filter (Z.eqb x) zs); [destruct J|cbn; lia]. Qed.
Lemma pos_howmany x zs : 0 < howmany (Z.eqb x) zs -> In x zs.
Proof. unfold howmany. intros H. destruct (filter (Z.eqb x) zs) as [|y l] eqn:E; [cbn in H; lia|]. assert (J : In y (filter (Z.eqb x) zs)) by (rewrite E; now left). apply filter_In in J. destruct J as (J & K). apply Z.eqb_eq in K. now subst. Qed.
Lemma sound_in ret x : sound ret -> In x (map fst ret) -> In x ys.
Proof. intros K I. apply in_map_iff in I. destruct I as (p & <- & I). unfold sound in K. rewrite Forall_forall in K. destruct (K p I) as (A & B). apply pos_howmany. lia. Qed.
Lemma leaf_rec c x : howmany (Z.eqb x) (F h c) = rec x (c, length (F h c)).
Proof.
  unfold rec. cbn [fst snd]. rewrite F_h. unfold howmany. destruct (Z.eqb_spec c x) as [->|Nx].
  - rewrite filter_all; auto. intros y Hy. apply filter_In in Hy. tauto.
  - rewrite filter_none; auto. intros y Hy. apply filter_In in Hy. destruct Hy as (_ & Hy). apply Z.eqb_eq in Hy. subst. apply Z.eqb_neq. congruence.
Qed.
Lemma leaf_freq c : length (F h c) = howmany (Z.eqb c) ys. Proof. now rewrite F_h. Qed.

Lemma cover x t P : In x (F t P) -> howmany (Z.eqb x) (F t P) = howmany (Z.eqb x) ys.
Proof. intros Hx. destruct (F_in _ _ _ Hx) as (_ & E). unfold howmany, WmPath.F. rewrite filter_filter. f_equal. apply filter_ext. intros y. destruct (Z.eqb_spec x y) as [<-|]; [|apply andb_false_r]. rewrite E, Z.eqb_refl. reflexivity. Qed.
Lemma howmany_le A (p : A -> bool) l : howmany p l <= length l. Proof. unfold howmany. pose proof (filter_two p l). lia. Qed.

(** top_k *)
Definition turn (x : item) : tri := let '(range, s, c) := x in (s, s + range, c).
Definition okt (x : item) : Prop := okq (turn x) /\ (0 < rng x \/ snd (fst x) / n = 0).
Definition top_spec (k : nat) (R : list (Z * nat)) : Prop :=
  NoDup (map fst R) /\ StronglySorted (fun a b => b <= a) (map snd R) /\ sound R /\
  (forall x, In x ys -> In x (map fst R) \/ (length R = k /\ forall v f, In (v, f) R -> howmany (Z.eqb x) ys <= f)) /\ (k = 0 \/ length R <= k).
Lemma sorted_snoc (l : list nat) x : StronglySorted (fun a b => b <= a) l -> (forall y, In y l -> x <= y) -> StronglySorted (fun a b => b <= a) (l ++ [x]).
Proof.
  induction 1 as [|y l Sl IH Fl]; intros H; cbn [app]; [repeat constructor|]. constructor; [apply IH; intros; apply H; now right|]. apply Forall_app. split; auto. constructor; auto. apply H. now left.
Qed.
Theorem top_k_ok k : l0 < n -> exists R, top_k m l0 r0 k = Some R /\ top_spec k R.
Proof.
  intros Hl. unfold top_k. rewrite (w_h M), (w_n M). rewrite usub_ok by lia. cbn [obind]. match goal with |- context [loop _ ?bd _] => set (body := bd) end.
  apply (@loop_rule _ _ (fun s : list (Z * nat) * list item => let (ret, qs) := s in Forall okt qs /\ sound ret /\ StronglySorted (fun a b => b <= a) (map snd ret) /\
    (forall v f it, In (v, f) ret -> In it qs -> rng it <= f) /\ (forall x, tot (fun it => howmany (Z.eqb x) (cont (turn it))) qs + tot (rec x) ret = howmany (Z.eqb x) ys) /\ (k = 0 \/ length ret < k))
    (fun s => tot (fun it => wt (turn it)) (snd s)) (top_spec k) body).
  - intros (ret & qs) (Q & K & SR & B & C & Lk). unfold body. destruct qs as [|a qs].
    + eexists; split; [reflexivity|]. cbv beta iota. split; [|split; [auto|split; [auto|split]]].
      * apply rec_nodup; auto. intros x _. specialize (C x). cbn in C. lia.
      * intros x Hx. left. apply rec_in; auto. specialize (C x). cbn in C. pose proof (howmany_pos _ _ Hx). lia.
      * lia.
    + destruct (pq_pop a qs) as (((range & s) & c) & qs') eqn:E. pose proof (pq_pop_perm _ _ E) as Pm. destruct (pq_pop_max _ _ E) as (_ & Mx). cbn [rng fst] in Mx.
      assert (Q' : Forall okt ((range, s, c) :: qs')) by (eapply Permutation_Forall; [symmetry; exact Pm|auto]). inversion_clear Q' as [|? ? Q0 Q1].
      assert (B' : forall v f it, In (v, f) ret -> In it ((range, s, c) :: qs') -> rng it <= f) by (intros v f it I1 I2; eapply B; eauto; eapply Permutation_in; eauto).
      assert (C' : forall x, howmany (Z.eqb x) (cont (turn (range, s, c))) + tot (fun it => howmany (Z.eqb x) (cont (turn it))) qs' + tot (rec x) ret = howmany (Z.eqb x) ys).
      { intros x. rewrite <- C. rewrite <- (@tot_perm _ (fun it => howmany (Z.eqb x) (cont (turn it))) _ _ Pm). reflexivity. }
      cbn [snd]. rewrite <- (@tot_perm _ (fun it => wt (turn it)) _ _ Pm), tot_cons. clear E Pm B C Q a qs. destruct (Nat.ltb_spec 0 n); [|lia]. cbn [guard obind]. destruct Q0 as ((N & HP & Ec) & Rp). cbn [turn] in *. cbn [rng fst snd] in Rp.
      assert (Ht : s / n <= h) by apply N. change (cont (s, s + range, c)) with (F (s / n) (pre s c)) in *. assert (W : wt (s, s + range, c) = range * (h + 1 - s / n) + 1) by (unfold wt; f_equal; f_equal; lia). set (t := s / n) in *. set (P := pre s c) in *. clearbody t P. rewrite W. pose proof (nlen N) as NL. replace (s + range - s) with range in NL by lia.
      destruct (Nat.eqb_spec t h) as [->|Nt].
      * rewrite Nat.sub_diag in Ec. change (2 ^ Z.of_nat 0)%Z with 1%Z in Ec. assert (c = P) by lia. subst P. clear Ec.
        assert (HF : range = howmany (Z.eqb c) ys) by (rewrite <- leaf_freq; lia).
        set (ret' := ret ++ [(c, range)]).
        assert (0 < range) by lia.
        assert (K' : sound ret') by (apply Forall_app; split; [auto|constructor; [cbn; auto|constructor]]).
        assert (SR' : StronglySorted (fun a b => b <= a) (map snd ret')). { unfold ret'. rewrite map_app. apply sorted_snoc; auto. intros y Hy. apply in_map_iff in Hy. destruct Hy as ((v & f) & <- & I). apply (B' v f _ I (or_introl eq_refl)). }
        assert (C2 : forall x, tot (fun it => howmany (Z.eqb x) (cont (turn it))) qs' + tot (rec x) ret' = howmany (Z.eqb x) ys). { intros x. rewrite <- C'. unfold ret'. rewrite tot_app, tot_cons, leaf_rec, NL. cbn [map list_sum fold_right]. lia. }
        assert (B2 : forall v f it, In (v, f) ret' -> In it qs' -> rng it <= f). { intros v f it I1 I2. apply in_app_or in I1. destruct I1 as [I1|[I1|[]]]; [eapply B'; eauto; now right|]. injection I1 as <- <-. apply (Mx it I2). }
        assert (Ll : length ret' = S (length ret)) by (unfold ret'; rewrite app_length; cbn; lia).
        destruct (Nat.eqb_spec (length ret') k) as [Ek|Nk].
        -- eexists; split; [reflexivity|]. cbv beta iota. split; [|split; [auto|split; [auto|split; [|lia]]]].
           ++ apply rec_nodup; auto. intros x _. specialize (C2 x). lia.
           ++ intros x Hx. destruct (Nat.eq_dec (tot (rec x) ret') 0) as [Z0|]; [right|left; apply rec_in; auto; lia]. split; auto. intros v f I.
              specialize (C2 x). rewrite Z0, Nat.add_0_r in C2. rewrite <- C2. pose proof (howmany_pos _ _ Hx).
              destruct (@tot_pos _ (fun it => howmany (Z.eqb x) (cont (turn it))) qs' ltac:(lia)) as (it & Ii & Pi). rewrite C2. specialize (B2 v f it I Ii). rewrite Forall_forall in Q1. destruct it as ((range' & s') & c'). destruct (Q1 _ Ii) as ((Ni & _) & _). cbn [turn rng fst] in *. pose proof (nlen Ni) as NLi. cbn [cont] in *. rewrite <- (cover _ _ _ (pos_howmany _ _ Pi)). etransitivity; [apply howmany_le|]. lia.
        -- eexists; split; [reflexivity|]. cbv beta iota. cbn [snd]. split; [|nia]. repeat split; auto. lia.
      * assert (Hlt : t < h) by lia. pose proof (@split_len t P Hlt) as SLN. match goal with |- context [for_each [false; true] ?g qs'] => set (kf := g) end. cbn [for_each].
        assert (kid : forall (bb : bool) qs, Forall okt qs -> (forall it, In it qs -> rng it <= range \/ In it qs') -> exists qs2,
          kf bb qs = Some qs2 /\
          Forall okt qs2 /\ (forall it, In it qs2 -> rng it <= range \/ In it qs') /\ (forall p, tot (fun it => howmany p (cont (turn it))) qs2 = tot (fun it => howmany p (cont (turn it))) qs + howmany p (F (S t) (2 * P + (if bb then 1 else 0)))) /\
          tot (fun it => wt (turn it)) qs2 <= tot (fun it => wt (turn it)) qs + length (F (S t) (2 * P + (if bb then 1 else 0))) * (h + 1 - t)).
        { intros bb qs Q2 R2. unfold kf. destruct (@expand t s (s + range) P bb Hlt N) as (a1 & b1 & -> & L1 & N1). cbn [obind]. pose proof (nlen N1) as NL1. destruct (Nat.eqb_spec a1 b1) as [->|Nab]; cbn [negb].
          - exists qs. assert (Z0 : F (S t) (2 * P + (if bb then 1 else 0)) = []) by (destruct (F (S t) (2 * P + (if bb then 1 else 0))); [auto|cbn in NL1; lia]). rewrite Z0. repeat split; auto; intros; unfold howmany; cbn; lia.
          - rewrite !usub_ok by lia. cbn [obind]. eexists; split; [reflexivity|].
            assert (Ec2 : Z.lor c (Z.shiftl (if bb then 1 else 0) (Z.of_nat (h - (1 + t)))) = ((2 * P + (if bb then 1 else 0)) * 2 ^ Z.of_nat (h - S t))%Z).
            { rewrite Ec. replace (h - t) with (S (h - S t)) by lia. replace (h - (1 + t)) with (h - S t) by lia. apply lor_pow. }
            rewrite Ec2. destruct (@mk (S t) a1 b1 (2 * P + (if bb then 1 else 0)) N1 (nlev N1 ltac:(lia)) ltac:(destruct bb; lia)) as (A & B & D). set (c2 := ((2 * P + (if bb then 1 else 0)) * 2 ^ Z.of_nat (h - S t))%Z) in *.
            assert (T : turn (b1 - a1, a1, c2) = (a1, b1, c2)) by (cbn [turn]; do 2 f_equal; lia). split; [|split; [|split]].
            + apply Forall_app. split; auto. constructor; auto. split; [rewrite T; exact A|left; cbn [rng fst]; lia].
            + intros it I. apply in_app_or in I. destruct I as [I|[<-|[]]]; auto. left. cbn [rng fst]. destruct bb; cbv iota in NL1; lia.
            + intros p. rewrite tot_app, tot_cons, T, B. cbn [map list_sum fold_right]. now rewrite Nat.add_0_r.
            + rewrite tot_app, tot_cons, T, D. cbn [map list_sum fold_right]. apply Nat.add_le_mono_l. rewrite NL1. clear - Nab L1 Hlt. nia. }
        destruct (kid false qs' Q1 (fun it I => or_intror I)) as (q1 & E1 & A1 & A2 & A3 & A4). cbv iota in E1, A3, A4. rewrite E1. cbn [obind]. destruct (kid true q1 A1 A2) as (q2 & E2 & B1 & B2 & B3 & B4). cbv iota in E2, B3, B4. rewrite E2. cbn [obind].
        eexists; split; [reflexivity|]. cbv beta iota. cbn [snd]. split; [split; [auto|split; [auto|split; [auto|split; [|split; auto]]]]|].
        -- intros v f it I1 I2. destruct (B2 it I2) as [L|I3]; [|apply (B' v f it I1 (or_intror I3))]. etransitivity; [exact L|]. apply (B' v f _ I1 (or_introl eq_refl)).
        -- intros x. rewrite B3, A3. rewrite <- C'. rewrite (@split_F (Z.eqb x) t P Hlt). lia.
        -- nia.
  - destruct (@mk 0 l0 r0 0 root) as (A & A2 & _); [apply Nat.div_small; lia|lia|]. rewrite Z.mul_0_l in *. assert (T : turn (r0 - l0, l0, 0%Z) = (l0, r0, 0%Z)) by (cbn [turn]; do 2 f_equal; lia). split; [|split; [constructor|split; [constructor|split; [|split]]]].
    + constructor; [|constructor]. split; [rewrite T; exact A|right; cbn [fst snd]; apply Nat.div_small; lia].
    + intros v f it [].
    + intros x. rewrite tot_cons, T, A2, (@F_0 h xs0 Hn Hh Hv m M _ vals). cbn [map list_sum fold_right]. lia.
    + cbn. lia.
  - cbn [snd]. rewrite tot_cons. cbn [turn wt map list_sum fold_right]. rewrite (Nat.div_small l0 n) by lia. nia.
Qed.

(** sum *)
Definition zsum (l : list Z) : Z := fold_right Z.add 0%Z l.
Lemma once (f : list Z) x : NoDup f -> In x f -> zsum (map (fun v => if (v =? x)%Z then x else 0%Z) f) = x.
Proof.
  assert (K : forall f, ~ In x f -> zsum (map (fun v => if (v =? x)%Z then x else 0%Z) f) = 0%Z). { induction f0 as [|v f0 IH]; intros H; auto. cbn [map zsum fold_right]. fold (zsum (map (fun v => if (v =? x)%Z then x else 0%Z) f0)). rewrite IH by (intros I; apply H; now right). destruct (Z.eqb_spec v x); [destruct H; now left|lia]. }
  induction 1 as [|v f Nv Nf IH]; intros I; [destruct I|]. cbn [map zsum fold_right]. fold (zsum (map (fun v => if (v =? x)%Z then x else 0%Z) f)). destruct (Z.eqb_spec v x) as [->|Ne]; [rewrite K by auto; lia|]. destruct I as [I|I]; [congruence|]. rewrite IH by auto. lia.
Qed.
Lemma weigh (vs : list Z) zs : NoDup vs -> (forall x, In x zs -> In x vs) -> zsum (map (fun v => v * Z.of_nat (howmany (Z.eqb v) zs))%Z vs) = zsum zs.
Proof.
  intros Nd. induction zs as [|x zs IH]; intros I.
  - cbn. clear. induction vs as [|v vs IH]; auto. cbn [map zsum fold_right]. fold (zsum (map (fun v => v * 0)%Z vs)). rewrite IH. lia.
  - cbn [zsum fold_right]. fold (zsum zs). rewrite <- IH by (intros; apply I; now right). match goal with |- _ = (x + ?z)%Z => transitivity (zsum (map (fun v => if (v =? x)%Z then x else 0%Z) vs) + z)%Z; [|rewrite (@once vs x Nd (I x (or_introl eq_refl))); reflexivity] end. clear. induction vs as [|v vs IH]; auto. cbn [map zsum fold_right]. fold (zsum (map (fun v => v * Z.of_nat (howmany (Z.eqb v) (x :: zs)))%Z vs)) (zsum (map (fun v => v * Z.of_nat (howmany (Z.eqb v) zs))%Z vs)) (zsum (map (fun v => if (v =? x)%Z then x else 0%Z) vs)). rewrite IH. unfold howmany at 1. cbn [filter]. fold (howmany (Z.eqb v) zs). destruct (Z.eqb_spec v x) as [->|]; cbn [length]; fold (howmany (Z.eqb x) zs); unfold howmany; lia.
Qed.
Lemma all_in (vs : list Z) : NoDup vs -> (forall x, In x vs -> In x ys) -> length vs = length ys -> forall x, In x ys -> In x vs.
Proof. intros Nd I L x Hx. apply (@NoDup_length_incl _ vs ys Nd); auto; lia. Qed.
Theorem sum_ok : l0 < n -> wm_sum m l0 r0 = Some (zsum ys).
Proof.
  intros Hl. unfold wm_sum. rewrite usub_ok by lia. cbn [obind]. destruct (@top_k_ok (r0 - l0) Hl) as (R & -> & Nd & _ & K & Cv & _). cbn [obind]. f_equal.
  assert (Cv' : forall x, In x ys -> In x (map fst R)). { intros x Hx. destruct (Cv x Hx) as [I|(E & _)]; auto. apply all_in; auto; [intros; eapply sound_in; eauto|]. rewrite map_length, ys_length. auto. }
  rewrite <- (weigh _ Nd Cv'). rewrite map_map.
  assert (G : forall (L : list (Z * nat)) a, sound L -> fold_left (fun s p => s + fst p * Z.of_nat (snd p))%Z L a = (a + zsum (map (fun x => fst x * Z.of_nat (howmany (Z.eqb (fst x)) ys))%Z L))%Z).
  { induction L as [|p L IH]; intros a HL; [cbn; lia|]. inversion_clear HL as [|? ? (H0 & _) H1]. cbn [fold_left map zsum fold_right]. rewrite IH by auto. rewrite H0. fold (zsum (map (fun x => fst x * Z.of_nat (howmany (Z.eqb (fst x)) ys))%Z L)). lia. }
  rewrite G by auto. lia.
Qed.

(** listing in order *)
Section Listing.
Variables asc vr : bool.
Variables X Y : Z.
Hypothesis HXY : vr = true -> (0 <= X /\ 0 < Y)%Z.
Definition ordr (a b : Z) : Prop := if asc then (a < b)%Z else (b < a)%Z.
Definition inr_ (x : Z) : bool := negb vr || ((X <=? x) && (x <? Y))%Z.
Definition val (x : item) : Z := snd x.
Definition lev (x : item) : nat := snd (fst x) / n.
Definition lcont (x : item) : list Z := F (lev x) (val x).
Definition okl (x : item) : Prop := node (lev x) (snd (fst x)) (snd (fst x) + rng x) (lcont x) /\ (0 <= val x)%Z /\
  (lev x = 0 \/ (0 < rng x /\ (vr = true -> sh (lev x) X <= val x <= sh (lev x) (Y - 1))%Z)).
Definition lwt (x : item) : nat := rng x * (h + 1 - lev x) + 1.
Definition lift (x : item) : Z := (2 * val x + (if asc then 0 else 1))%Z.
Definition ordq (qs : list item) (ret : list (Z * nat)) : Prop := exists t front back, t <= h /\ qs = front ++ back /\ Forall (fun x => lev x = t) front /\ Forall (fun x => lev x = S t) back /\
  StronglySorted ordr (map val back ++ map lift front) /\ (t < h -> ret = []) /\ (t = h -> back = [] /\ StronglySorted ordr (map fst ret ++ map val front)).
Lemma lift_sorted l : StronglySorted ordr (map val l) -> StronglySorted ordr (map lift l).
Proof.
  induction l as [|x l IH]; cbn [map]; intros H; [constructor|]. inversion_clear H as [|? ? H0 H1]. constructor; auto. rewrite Forall_map in *. eapply Forall_impl; [|exact H1]. intros y. cbv beta. unfold ordr, lift. destruct asc; lia.
Qed.
Lemma ordq_pop it qs ret : ordq (it :: qs) ret -> exists front back, qs = front ++ back /\ Forall (fun x => lev x = lev it) front /\ Forall (fun x => lev x = S (lev it)) back /\
  StronglySorted ordr (map val back ++ map lift (it :: front)) /\ (lev it < h -> ret = []) /\ (lev it = h -> back = [] /\ StronglySorted ordr (map fst ret ++ map val (it :: front))).
Proof.
  intros (t & front & back & Tl & E & A & B & C & D & G). destruct front as [|x front].
  - cbn [app] in E. subst back. inversion_clear B as [|? ? B0 B1]. exists qs, []. rewrite app_nil_r. cbn [map app] in *. rewrite app_nil_r in C. assert (t <> h) by (intros Et; destruct (G Et); discriminate). split; auto. split; [now rewrite B0|]. split; [constructor|]. split; [|split].
    + apply (@lift_sorted (it :: qs) C).
    + intros L. apply D. lia.
    + intros L. split; auto. rewrite D by lia. exact C.
  - cbn [app] in E. injection E as -> ->. inversion_clear A as [|? ? A0 A1]. exists front, back. subst t. repeat (split; [auto; fail|]). auto.
Qed.
Lemma sorted_app_inv (l k : list Z) : StronglySorted ordr (l ++ k) -> StronglySorted ordr l /\ StronglySorted ordr k /\ forall a b, In a l -> In b k -> ordr a b.
Proof.
  induction l as [|x l IH]; cbn [app]; intros H; [repeat split; auto; [constructor|intros a b []]|]. inversion_clear H as [|? ? H0 H1]. destruct (IH H0) as (A & B & C). apply Forall_app in H1. destruct H1 as (H1 & H2). rewrite Forall_forall in H2. repeat split; auto; [constructor; auto|]. intros a b [<-|Ia] Ib; auto.
Qed.
Lemma sorted_app (l k : list Z) : StronglySorted ordr l -> StronglySorted ordr k -> (forall a b, In a l -> In b k -> ordr a b) -> StronglySorted ordr (l ++ k).
Proof.
  induction 1 as [|x l Sl IH Fl]; intros Sk H; cbn [app]; auto. constructor; [apply IH; auto; intros; apply H; auto; now right|]. apply Forall_app. split; auto. apply Forall_forall. intros b Ib. apply H; auto. now left.
Qed.
Lemma ordr_irrefl (l : list Z) : StronglySorted ordr l -> NoDup l.
Proof. induction 1 as [|x l Sl IH Fl]; constructor; auto. intros I. rewrite Forall_forall in Fl. specialize (Fl x I). unfold ordr in Fl. destruct asc; lia. Qed.

Definition list_spec (k : nat) (R : list (Z * nat)) : Prop :=
  StronglySorted ordr (map fst R) /\ sound R /\ (forall v, In v (map fst R) -> inr_ v = true) /\
  (forall x, In x ys -> inr_ x = true -> In x (map fst R) \/ (length R = k /\ forall v, In v (map fst R) -> ordr v x)) /\ (k = 0 \/ length R <= k).

Lemma sh_mono t a b : (a <= b)%Z -> (sh t a <= sh t b)%Z.
Proof. intros H. unfold WmPath.sh. rewrite !Z.shiftr_div_pow2 by lia. apply Z.div_le_mono; auto. apply Z.pow_pos_nonneg; lia. Qed.

Theorem range_list_k_ok k : l0 < n -> exists R, range_list_k asc vr m l0 r0 k X Y = Some R /\ list_spec k R.
Proof.
  intros Hl. unfold range_list_k. rewrite (w_h M), (w_n M). rewrite usub_ok by lia. cbn [obind]. match goal with |- context [loop _ ?bd _] => set (body := bd) end.
  apply (@loop_rule _ _ (fun s : list (Z * nat) * list item => let (ret, qs) := s in Forall okl qs /\ sound ret /\ ordq qs ret /\ (forall v, In v (map fst ret) -> inr_ v = true) /\
    (forall x, inr_ x = true -> tot (fun it => howmany (Z.eqb x) (lcont it)) qs + tot (rec x) ret = howmany (Z.eqb x) ys) /\ (k = 0 \/ length ret < k))
    (fun s => tot lwt (snd s)) (list_spec k) body).
  - intros (ret & qs) (Q & K & O & Ir & C & Lk). unfold body. destruct qs as [|it qs].
    + eexists; split; [reflexivity|]. cbv beta iota. split; [|split; [auto|split; [auto|split; [|lia]]]].
      * destruct O as (t & front & back & Tl & E & A & B & D & G & I). symmetry in E. apply app_eq_nil in E. destruct E as (-> & ->). destruct (Nat.eq_dec t h) as [->|L]; [|rewrite G by lia; constructor]. destruct (I eq_refl) as (_ & I2). cbn [map] in I2. now rewrite app_nil_r in I2.
      * intros x Hx Hi. left. apply rec_in; auto. specialize (C x Hi). cbn in C. pose proof (howmany_pos _ _ Hx). lia.
    + inversion_clear Q as [|? ? Q0 Q1]. destruct (ordq_pop O) as (front & back & -> & Of & Ob & Os & Ol & Oh). clear O. destruct it as ((range & s) & c). destruct Q0 as (N & HP & Lv). unfold lcont in N. cbn [lev val rng fst snd] in *. change (lev (range, s, c)) with (s / n) in *. change (val (range, s, c)) with c in *. change (rng (range, s, c)) with range in *.
      destruct (Nat.ltb_spec 0 n); [|lia]. cbn [guard obind]. assert (Ht : s / n <= h) by apply N. set (t := s / n) in *. assert (W : lwt (range, s, c) = range * (h + 1 - t) + 1) by reflexivity. cbn [snd]. rewrite tot_cons, W. pose proof (nlen N) as NL. replace (s + range - s) with range in NL by lia.
      assert (C' : forall x, inr_ x = true -> howmany (Z.eqb x) (F t c) + tot (fun it => howmany (Z.eqb x) (lcont it)) (front ++ back) + tot (rec x) ret = howmany (Z.eqb x) ys) by (intros x Hx; apply (C x Hx)). clear C. clearbody t.
      destruct (Nat.eqb_spec t h) as [->|Nt].
      * destruct (Oh eq_refl) as (-> & Os2). clear Oh Ol Os Ob. rewrite app_nil_r in *. assert (Hrange : 0 < range /\ (vr = true -> (X <= c <= Y - 1)%Z)). { destruct Lv as [Lv|(A & B)]; [lia|]. split; auto. rewrite !sh_h in B. auto. } destruct Hrange as (Rp & Rv).
        assert (Ic : inr_ c = true). { unfold inr_. destruct vr; auto. destruct (Rv eq_refl). cbn [negb orb]. destruct (Z.leb_spec X c), (Z.ltb_spec c Y); auto; lia. }
        change (negb vr || ((X <=? c) && (c <? Y)))%Z with (inr_ c). rewrite Ic. cbn [guard obind].
        set (ret' := ret ++ [(c, range)]). assert (Mf : map fst ret' = map fst ret ++ [c]) by (unfold ret'; rewrite map_app; reflexivity).
        assert (K' : sound ret') by (apply Forall_app; split; [auto|constructor; [cbn [fst snd]; rewrite <- leaf_freq; auto|constructor]]).
        assert (C2 : forall x, inr_ x = true -> tot (fun it => howmany (Z.eqb x) (lcont it)) front + tot (rec x) ret' = howmany (Z.eqb x) ys). { intros x Hx. rewrite <- C' by auto. unfold ret'. rewrite tot_app, tot_cons, leaf_rec, NL. cbn [map list_sum fold_right]. lia. }
        assert (Ll : length ret' = S (length ret)) by (unfold ret'; rewrite app_length; cbn; lia).
        assert (Ir' : forall v, In v (map fst ret') -> inr_ v = true). { intros v Iv. rewrite Mf in Iv. apply in_app_or in Iv. destruct Iv as [Iv|[<-|[]]]; auto. }
        assert (Os3 : StronglySorted ordr (map fst ret' ++ map val front)) by (rewrite Mf, <- app_assoc; exact Os2).
        destruct (Nat.eqb_spec (length ret') k) as [Ek|Nk].
        -- eexists; split; [reflexivity|]. cbv beta iota. destruct (sorted_app_inv _ _ Os3) as (S1 & _ & S2). split; [auto|split; [auto|split; [auto|split; [|lia]]]].
           intros x Hx Hi. destruct (Nat.eq_dec (tot (rec x) ret') 0) as [Z0|]; [right|left; apply rec_in; auto; lia]. split; auto. intros v Iv. apply S2; auto.
           specialize (C2 x Hi). rewrite Z0, Nat.add_0_r in C2. pose proof (howmany_pos _ _ Hx). destruct (@tot_pos _ (fun it => howmany (Z.eqb x) (lcont it)) front ltac:(lia)) as (it & Ii & Pi). rewrite Forall_forall in Of. apply pos_howmany in Pi. unfold lcont in Pi. rewrite (Of it Ii) in Pi. destruct (F_in _ _ _ Pi) as (_ & E). rewrite sh_h in E. subst x. now apply in_map.
        -- eexists; split; [reflexivity|]. cbv beta iota. cbn [snd]. split; [|nia]. split; [auto|split; [auto|split; [|split; [auto|split; [auto|lia]]]]].
           exists h, front, []. rewrite app_nil_r. split; [auto|split; [auto|split; [auto|split; [constructor|split; [|split; [lia|auto]]]]]]. cbn [map app]. apply lift_sorted. destruct (sorted_app_inv _ _ Os3) as (_ & S1 & _). exact S1.
      * assert (Hlt : t < h) by lia. pose proof (@split_len t c Hlt) as SLN. rewrite usub_ok by lia. cbn [obind]. rewrite (Ol Hlt) in *. clear Oh Ol.
        match goal with |- context [for_each _ ?g (front ++ back)] => set (kf := g) end.
        assert (kid : forall (bb : bool) qs, exists ks, kf bb qs = Some (qs ++ ks) /\ Forall okl ks /\ Forall (fun x => lev x = S t) ks /\ (ks = [] \/ map val ks = [(2 * c + (if bb then 1 else 0))%Z]) /\
          (forall x, inr_ x = true -> tot (fun it => howmany (Z.eqb x) (lcont it)) ks = howmany (Z.eqb x) (F (S t) (2 * c + (if bb then 1 else 0)))) /\ tot lwt ks <= length (F (S t) (2 * c + (if bb then 1 else 0))) * (h + 1 - t)).
        { intros bb qs. unfold kf. assert (Enc : Z.lor (Z.shiftl c 1) (if bb then 1 else 0) = (2 * c + (if bb then 1 else 0))%Z). { pose proof (@lor_pow c 0 bb) as Lp. change (2 ^ Z.of_nat 1)%Z with 2%Z in Lp. change (Z.of_nat 0) with 0%Z in Lp. rewrite Z.shiftl_0_r, Z.pow_0_r, Z.mul_1_r in Lp. rewrite Z.shiftl_mul_pow2 by lia. exact Lp. }
          rewrite Enc. set (nc := (2 * c + (if bb then 1 else 0))%Z) in *.
          assert (Esh : forall z, Z.shiftr z (Z.of_nat (h - (1 + t))) = sh (S t) z) by (intros z; reflexivity).
          set (skip := if vr then ((nc <? sh (S t) X) || (sh (S t) (Y - 1) <? nc))%Z else false).
          assert (Esk : (if vr then let* _ := guard (0 <? Y)%Z in Some ((nc <? Z.shiftr X (Z.of_nat (h - (1 + t)))) || (Z.shiftr (Y - 1) (Z.of_nat (h - (1 + t))) <? nc))%Z else Some false) = Some skip).
          { unfold skip. destruct vr; auto. destruct (HXY eq_refl). destruct (Z.ltb_spec 0 Y); [|lia]. cbn [guard obind]. rewrite !Esh. reflexivity. }
          rewrite Esk. cbn [obind]. destruct skip eqn:Sk.
          - exists []. rewrite app_nil_r. split; auto. split; [constructor|]. split; [constructor|]. split; [auto|]. split; [|apply Nat.le_0_l]. intros x Hx. cbn [map list_sum fold_right]. symmetry. apply howmany_0. intros y Hy. destruct (Z.eqb_spec x y) as [<-|]; auto. exfalso. destruct (F_in _ _ _ Hy) as (_ & E). unfold skip in Sk. unfold inr_ in Hx. destruct vr; [|discriminate]. cbn [negb orb] in Hx. apply andb_true_iff in Hx. destruct Hx as (H1 & H2). apply Z.leb_le in H1. apply Z.ltb_lt in H2. pose proof (sh_mono (S t) H1). pose proof (@sh_mono (S t) x (Y - 1) ltac:(lia)). destruct (Z.ltb_spec nc (sh (S t) X)), (Z.ltb_spec (sh (S t) (Y - 1)) nc); cbn in Sk; try discriminate; lia.
          - destruct (@expand t s (s + range) c bb Hlt N) as (a1 & b1 & -> & L1 & N1). cbn [obind]. fold nc in N1. pose proof (nlen N1) as NL1. destruct (Nat.eqb_spec a1 b1) as [->|Nab]; cbn [negb].
            + exists []. rewrite app_nil_r. assert (Z0 : F (S t) nc = []) by (destruct (F (S t) nc); [auto|cbn in NL1; lia]). rewrite Z0. split; [reflexivity|]. split; [constructor|]. split; [constructor|]. split; [auto|]. split; [|apply Nat.le_0_l]. intros; reflexivity.
            + rewrite usub_ok by lia. cbn [obind]. exists [(b1 - a1, a1, nc)]. split; auto. assert (Lev : lev (b1 - a1, a1, nc) = S t) by (apply (nlev N1); lia).
              split; [|split; [|split; [right; reflexivity|split]]].
              * constructor; [|constructor]. unfold okl, lcont. rewrite Lev. cbn [fst snd]. change (val (b1 - a1, a1, nc)) with nc. change (rng (b1 - a1, a1, nc)) with (b1 - a1). replace (a1 + (b1 - a1)) with b1 by lia. split; auto. split; [unfold nc; destruct bb; lia|]. right. split; [lia|]. intros Ev. unfold skip in Sk. rewrite Ev in Sk. destruct (Z.ltb_spec nc (sh (S t) X)), (Z.ltb_spec (sh (S t) (Y - 1)) nc); cbn in Sk; try discriminate; lia.
              * constructor; auto.
              * intros x _. rewrite tot_cons. unfold lcont at 1. rewrite Lev. change (val (b1 - a1, a1, nc)) with nc. cbn [map list_sum fold_right]. lia.
              * rewrite tot_cons. unfold lwt at 1. rewrite Lev. change (rng (b1 - a1, a1, nc)) with (b1 - a1). cbn [map list_sum fold_right]. rewrite NL1. clear - Nab L1 Hlt. nia. }
        replace (if asc then [false; true] else [true; false]) with [negb asc; asc] by (destruct asc; reflexivity). pose (b1 := negb asc). pose (b2 := asc). change [negb asc; asc] with [b1; b2]. cbn [for_each].
        destruct (kid b1 (front ++ back)) as (k1 & E1 & A1 & A2 & A3 & A4 & A5). rewrite E1. cbn [obind]. match type of E1 with _ = Some ?q => destruct (kid b2 q) as (k2 & E2 & B1 & B2 & B3 & B4 & B5) end. rewrite E2. cbn [obind].
        eexists; split; [reflexivity|]. cbv beta iota. cbn [snd]. clear E1 E2. clearbody kf. clear kf kid. change (nat * nat * Z)%type with item in *. rewrite <- !app_assoc in *. split; [split; [|split; [auto|split; [|split; [auto|split; [|auto]]]]]|].
        -- apply Forall_app in Q1. destruct Q1. repeat (apply Forall_app; split); auto.
        -- exists t, front, (back ++ k1 ++ k2). split; auto. split; auto. split; auto. split; [repeat (apply Forall_app; split); auto|]. split; [|split; [auto|lia]].
           cbn [map] in Os. destruct (sorted_app_inv _ _ Os) as (S1 & S2 & S3). inversion_clear S2 as [|? ? S4 S5]. rewrite Forall_forall in S5. rewrite !map_app.
           assert (V1 : forall v, In v (map val k1) -> v = (2 * c + (if b1 then 1 else 0))%Z) by (intros v Iv; destruct A3 as [->|A3]; [destruct Iv|]; rewrite A3 in Iv; destruct Iv as [<-|[]]; auto).
           assert (V2 : forall v, In v (map val k2) -> v = (2 * c + (if b2 then 1 else 0))%Z) by (intros v Iv; destruct B3 as [->|B3]; [destruct Iv|]; rewrite B3 in Iv; destruct Iv as [<-|[]]; auto).
           assert (T1 : StronglySorted ordr (map val k1)) by (destruct A3 as [->|A3]; [constructor|rewrite A3; repeat constructor]). assert (T2 : StronglySorted ordr (map val k2)) by (destruct B3 as [->|B3]; [constructor|rewrite B3; repeat constructor]).
           assert (V3 : forall v, In v (map val back) -> ordr v (2 * c + (if asc then 0 else 1))%Z) by (intros v Iv; apply (S3 v _ Iv (or_introl eq_refl))).
           assert (V4 : forall w, In w (map lift front) -> exists z, w = (2 * z + (if asc then 0 else 1))%Z /\ ordr c z). { intros w Iw. pose proof (S5 w Iw) as O1. apply in_map_iff in Iw. destruct Iw as (z & <- & _). exists (val z). split; auto. unfold ordr, lift in *. change (val (range, s, c)) with c in O1. destruct asc; lia. }
           assert (Hb : b1 = negb asc /\ b2 = asc) by (split; reflexivity). clearbody b1 b2. destruct Hb as (-> & ->). unfold ordr in V3, V4.
           repeat apply sorted_app; auto; intros a b Ia Ib; repeat match goal with H : In _ (_ ++ _) |- _ => apply in_app_or in H; destruct H end;
             repeat match goal with H : In _ (map val k1) |- _ => apply V1 in H | H : In _ (map val k2) |- _ => apply V2 in H | H : In _ (map val back) |- _ => apply V3 in H | H : In _ (map lift front) |- _ => apply V4 in H; destruct H as (? & ? & ?) end; unfold ordr; destruct asc; cbn [negb] in *; lia.
        -- intros x Hx. rewrite !tot_app, A4, B4 by auto. rewrite <- (C' x Hx), tot_app. rewrite (@split_F (Z.eqb x) t c Hlt). unfold b1, b2. destruct asc; cbn [negb]; lia.
        -- rewrite !tot_app. unfold b1, b2 in *. destruct asc; cbn [negb] in *; nia.
  - assert (L0 : lev (r0 - l0, l0, 0%Z) = 0) by (apply Nat.div_small; exact Hl). split; [|split; [constructor|split; [|split; [intros v []|split]]]].
    + constructor; [|constructor]. unfold okl, lcont. rewrite L0. cbn [fst snd]. change (rng (r0 - l0, l0, 0%Z)) with (r0 - l0). change (val (r0 - l0, l0, 0%Z)) with 0%Z. replace (l0 + (r0 - l0)) with r0 by lia. split; [exact root|]. split; [lia|auto].
    + exists 0, [(r0 - l0, l0, 0%Z)], []. split; [lia|]. split; auto. split; [constructor; auto|]. split; [constructor|]. split; [cbn; repeat constructor|]. split; auto. lia.
    + intros x Hx. rewrite tot_cons. unfold lcont at 1. rewrite L0. change (val (r0 - l0, l0, 0%Z)) with 0%Z. rewrite (@F_0 h xs0 Hn Hh Hv m M _ vals). cbn [map list_sum fold_right]. lia.
    + cbn. lia.
  - cbn [snd]. rewrite tot_cons. unfold lwt. change (lev (r0 - l0, l0, 0%Z)) with (l0 / n). rewrite Nat.div_small by lia. cbn [map list_sum fold_right rng fst]. nia.
Qed.
End Listing.
End Tree.
