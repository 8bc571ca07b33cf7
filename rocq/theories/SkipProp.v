(** C41: Skiplist and SkiplistSet. *)
From Coq Require Import Sorting.Sorted.
From Verif Require Import SkipModel BaseLemmas ListExtra SkipInv SkipFr SkipOps SkipSet SkipErase.
Set Implicit Arguments.

Section Seq.
Variables (T : Type) (t0 : T).
Implicit Types (s : skl T) (es : list (nat * T)).
(** The states of a Skiplist, with the heights and values in order: a history of insert_at and
    erase_at, at any index; the heights drawn are any numbers up to 32. *)
Inductive sk_reach : skl T -> list (nat * T) -> Prop :=
| q_new : sk_reach (sk_new t0) []
| q_ins s es hw i v s' it : sk_reach s es -> hw <= 32 -> insert_at s hw i v = Some (s', it) -> sk_reach s' (if i <=? length es then put_at es i (hw, v) else es)
| q_era s es i s' it : sk_reach s es -> erase_at s i = Some (s', it) -> sk_reach s' (if i <? length es then del_at es i else es).
Lemma sk_inv s es : sk_reach s es -> exists a, wf s a es.
Proof.
  intros R. induction R as [|s es hw i v s' it R (a & W) Hw E|s es i s' it R (a & W) E].
  - exists [0]. apply new_ok.
  - destruct (Nat.leb_spec i (length es)) as [L|L].
    + destruct (insert_at_ok v W Hw L) as (s1 & w & E1 & W1). assert (s1 = s') by congruence. subst s1. eauto.
    + rewrite (insert_at_out hw v W L) in E. injection E as <- <-. eauto.
  - destruct (Nat.ltb_spec i (length es)) as [L|L].
    + destruct (erase_at_ok W L) as (s1 & it1 & E1 & W1 & _). assert (s1 = s') by congruence. subst s1. eauto.
    + rewrite (erase_at_out W L) in E. injection E as <- <-. eauto.
Qed.
(** from begin() to end() the values are read in order; size() counts them *)
Theorem C41_contents s es : sk_reach s es -> sk_is s (map snd es) /\ sk_size s = length es.
Proof. intros R. destruct (sk_inv R) as (a & W). split; [exact (wf_is W)|exact (w_sz W)]. Qed.
(** get_at(i) is the iterator to the i-th element, end() from the size on *)
Theorem C41_get_at s es i : sk_reach s es -> exists it, get_at s i = Some it /\ reads s it (skipn i (map snd es)).
Proof. intros R. destruct (sk_inv R) as (a & W). exists (get a (S i)). split; [apply (get_at_ok i W)|exact (wf_reads i W)]. Qed.
Lemma vals_put es i e : vals (put_at es i e) = put_at (vals es) i (snd e).
Proof. unfold vals, put_at. rewrite map_app, firstn_map. cbn. rewrite skipn_map. reflexivity. Qed.
Lemma vals_del es i : vals (del_at es i) = del_at (vals es) i.
Proof. unfold vals, del_at. rewrite map_app, firstn_map, skipn_map. reflexivity. Qed.
Lemma skipn_put {X} (l : list X) i v : i <= length l -> skipn i (put_at l i v) = v :: skipn i l.
Proof. intros L. unfold put_at. rewrite skipn_app, skipn_all2, firstn_length by (rewrite firstn_length; lia). replace (i - Nat.min i (length l)) with 0 by lia. reflexivity. Qed.
Lemma skipn_del {X} (l : list X) i : i < length l -> skipn i (del_at l i) = skipn (S i) l.
Proof. intros L. unfold del_at. rewrite skipn_app, skipn_all2, firstn_length by (rewrite firstn_length; lia). replace (i - Nat.min i (length l)) with 0 by lia. reflexivity. Qed.
(** insert_at never fails; it inserts at the index and returns the iterator to the new element. Past the size nothing changes and end() is returned. *)
Theorem C41_insert_at s es hw i v : sk_reach s es -> hw <= 32 -> exists s' it, insert_at s hw i v = Some (s', it) /\ sk_reach s' (if i <=? length es then put_at es i (hw, v) else es) /\
  sk_is s' (if i <=? length es then put_at (map snd es) i v else map snd es) /\ reads s' it (if i <=? length es then v :: skipn i (map snd es) else []).
Proof.
  intros R Hw. destruct (sk_inv R) as (a & W). destruct (Nat.leb_spec i (length es)) as [L|L].
  - destruct (insert_at_ok v W Hw L) as (s1 & w & E1 & W1). exists s1, (Some w). split; [auto|]. split; [pose proof (@q_ins s es hw i v s1 _ R Hw E1) as Q; destruct (Nat.leb_spec i (length es)); [exact Q|lia]|]. pose proof (wf_is W1) as I. rewrite vals_put in I. split; [exact I|].
    pose proof (wf_reads i W1) as Rd. rewrite vals_put, skipn_put in Rd by (unfold vals; rewrite map_length; auto). rewrite get_put in Rd by (rewrite (w_len W); lia). rewrite Nat.ltb_irrefl, Nat.eqb_refl in Rd. exact Rd.
  - exists s, None. split; [exact (insert_at_out hw v W L)|]. split; [|split; [exact (wf_is W)|constructor]]. auto.
Qed.
(** erase_at removes the element and returns the iterator to the one after it *)
Theorem C41_erase_at s es i : sk_reach s es -> exists s' it, erase_at s i = Some (s', it) /\ sk_reach s' (if i <? length es then del_at es i else es) /\
  sk_is s' (if i <? length es then del_at (map snd es) i else map snd es) /\ reads s' it (if i <? length es then skipn (S i) (map snd es) else []).
Proof.
  intros R. destruct (sk_inv R) as (a & W). destruct (Nat.ltb_spec i (length es)) as [L|L].
  - destruct (erase_at_ok W L) as (s1 & it & E1 & W1 & Ei). exists s1, it. split; [auto|]. split; [pose proof (@q_era s es i s1 it R E1) as Q; destruct (Nat.ltb_spec i (length es)); [exact Q|lia]|]. pose proof (wf_is W1) as I. rewrite vals_del in I. split; [exact I|].
    pose proof (wf_reads i W1) as Rd. rewrite vals_del, skipn_del in Rd by (unfold vals; rewrite map_length; auto). rewrite Ei. exact Rd.
  - exists s, None. split; [exact (erase_at_out W L)|]. split; [|split; [exact (wf_is W)|constructor]]. auto.
Qed.
(** the constructor from a range *)
Theorem C41_of (l : list (nat * T)) : (forall e, In e l -> fst e <= 32) -> exists s, sk_of t0 l = Some s /\ sk_reach s l.
Proof.
  intros H. unfold sk_of. assert (G : forall k s es, (forall e, In e k -> fst e <= 32) -> sk_reach s es -> exists s', fold_left (fun (x : option (skl T)) (e : nat * T) => let* s := x in let* (s, _) := insert_at s (fst e) (sk_size s) (snd e) in Some s) k (Some s) = Some s' /\ sk_reach s' (es ++ k)).
  { induction k as [|e k IH]; intros s es Hk R; [exists s; rewrite app_nil_r; auto|]. cbn [fold_left obind]. destruct (C41_contents R) as (_ & Sz). destruct (@C41_insert_at s es (fst e) (sk_size s) (snd e) R (Hk e (or_introl eq_refl))) as (s1 & it & E & R1 & _). rewrite E. cbn [obind]. rewrite Sz, Nat.leb_refl in R1.
    replace (put_at es (length es) (fst e, snd e)) with (es ++ [e]) in R1 by (unfold put_at; rewrite firstn_all, skipn_all; destruct e; reflexivity). destruct (IH s1 _ (fun x I => Hk x (or_intror I)) R1) as (s2 & E2 & R2). exists s2. split; [exact E2|]. rewrite <- app_assoc in R2. exact R2. }
  exact (G l _ _ H q_new).
Qed.
(** pick_height gives 64 on the draw 0 (ctz of 0): the sentinel has no such level *)
Theorem C41_draw_zero_refuted s es i v : sk_reach s es -> i <= length es -> insert_at s 64 i v = None.
Proof.
  intros R L. destruct (sk_inv R) as (a & W). unfold insert_at. rewrite (w_sz W). destruct (Nat.ltb_spec (length es) i); [lia|]. destruct (new_node _ v 64) as (s1, w) eqn:En. pose proof (made_ok _ En) as M. pose proof (w_h W) as Hh. unfold kmax in Hh. assert (E : sk_h s1 = 64) by (rewrite (m_h M); lia). rewrite E.
  assert (N : nxt s1 0 64 = None). { destruct (m_old M (z := 0)) as (_ & Q); [rewrite (m_w M); exact (w_lt W _ (get_In _ _ (w_0 W)))|]. destruct (Q 64) as (-> & _). destruct (nxt s 0 64) eqn:E0; [|auto]. assert (64 <= kmax) by (apply (w_sent W); congruence). unfold kmax in *. lia. }
  cbn [ins_lv]. unfold adv_len. cbn [loop]. rewrite N. reflexivity.
Qed.
End Seq.

Section Set_.
Variables (T : Type) (t0 : T) (ltb eqb leb : T -> T -> bool).
Hypothesis O : sk_order ltb eqb leb.
Implicit Types (s : skl T) (es : list (nat * T)).
Definition set_ins es (hw : nat) (v : T) := filter (fun e => ltb (snd e) v) es ++ (hw, v) :: filter (fun e => ltb v (snd e)) es.
Definition set_del es (v : T) := filter (fun e => negb (eqb (snd e) v)) es.
Definition set_has es (v : T) := existsb (fun e => eqb (snd e) v) es.
(** the element before v, if there is one, is at least as tall as v's; lower *)
Definition before_tall es (v : T) : Prop := forall l e f r, es = l ++ e :: f :: r -> snd f = v -> fst f <= fst e.
Definition before_low es (v : T) : Prop := exists l e f r, es = l ++ e :: f :: r /\ snd f = v /\ fst e < fst f.
(** The states of a SkiplistSet, with heights and values in order: a history of insert and erase;
    erase of a value whose predecessor is lower is left out: see [C41_erase_refuted]. *)
Inductive ss_reach : skl T -> list (nat * T) -> Prop :=
| z_new : ss_reach (sk_new t0) []
| z_ins s es hw v s' r : ss_reach s es -> hw <= 32 -> ss_insert ltb eqb s hw v = Some (s', r) -> ss_reach s' (if set_has es v then es else set_ins es hw v)
| z_era s es v s' it : ss_reach s es -> before_tall es v -> ss_erase ltb eqb s v = Some (s', it) -> ss_reach s' (set_del es v).
Lemma set_has_In es v : set_has es v = true <-> In v (map snd es).
Proof.
  unfold set_has. rewrite existsb_exists, in_map_iff. split; intros (e & H1 & H2); exists e.
  - apply (so_eq O) in H2. auto.
  - split; [auto|]. apply (so_eq O). auto.
Qed.
Notation srt := (srt ltb).
Lemma pre_es es v : srt (vals es) -> pre (fun e : nat * T => ltb (snd e) v) es.
Proof.
  intros H p q x y L Gx Gy Hy. apply (so_trans O _ (snd y)); [|auto]. apply (H p q); [auto| |]; unfold vals; rewrite get_map; [rewrite Gx|rewrite Gy]; reflexivity.
Qed.
Lemma rk_es es v : rk ltb v (vals es) = cnt (fun e : nat * T => ltb (snd e) v) es.
Proof. unfold rk, cnt, vals. induction es as [|e es IH]; [reflexivity|]. cbn. destruct (ltb (snd e) v); cbn; rewrite IH; reflexivity. Qed.
Lemma filter_ext_in' {X} (f g : X -> bool) l : (forall x, In x l -> f x = g x) -> filter f l = filter g l.
Proof. apply filter_ext_in. Qed.
Lemma put_ins es hw v : srt (vals es) -> ~ In v (map snd es) -> put_at es (rk ltb v (vals es)) (hw, v) = set_ins es hw v.
Proof.
  intros H N. unfold put_at, set_ins. rewrite rk_es, <- (pre_first (@pre_es es v H)), <- (pre_skip (@pre_es es v H)). do 2 f_equal. apply filter_ext_in. intros e I. destruct (so_tot O (snd e) v) as [L|[L|L]].
  - rewrite L. destruct (ltb v (snd e)) eqn:E; [|auto]. pose proof (so_trans O _ _ _ L E) as Q. rewrite (so_irr O) in Q. discriminate.
  - exfalso. apply N. rewrite <- L. apply in_map. auto.
  - rewrite L. destruct (ltb (snd e) v) eqn:E; [|auto]. pose proof (so_trans O _ _ _ L E) as Q. rewrite (so_irr O) in Q. discriminate.
Qed.
Lemma del_missing es v : ~ In v (map snd es) -> set_del es v = es.
Proof. intros N. unfold set_del. apply filter_all. intros e I. destruct (eqb (snd e) v) eqn:E; [|auto]. apply (so_eq O) in E. exfalso. apply N. rewrite <- E. apply in_map. auto. Qed.
Lemma del_del es v : srt (vals es) -> In v (map snd es) -> del_at es (rk ltb v (vals es)) = set_del es v.
Proof.
  intros H I. apply (has_In O v es H) in I. unfold has in I. unfold vals in I at 1. rewrite get_map in I. destruct (get es (rk ltb v (vals es))) as [e|] eqn:Ge; [|discriminate]. cbn in I. injection I as Ee. set (i := rk ltb v (vals es)) in *.
  assert (C : forall p f, get es p = Some f -> snd f = v -> p = i). { intros p f G Ef. apply (rk_at O p H). unfold vals. rewrite get_map, G. cbn. congruence. }
  unfold del_at, set_del. rewrite (split_at _ _ Ge) at 3. rewrite filter_app. cbn [filter]. assert (Ev : eqb (snd e) v = true) by (apply (so_eq O); auto). rewrite Ev. cbn [negb]. pose proof (get_some_lt _ _ Ge) as Li. f_equal; symmetry; apply filter_all; intros f If; (destruct (eqb (snd f) v) eqn:Ef; [|auto]); apply (so_eq O) in Ef; exfalso; destruct (In_get _ _ If) as (p & Lp & Gp).
  - rewrite firstn_length in Lp. rewrite get_firstn in Gp by lia. pose proof (C _ _ Gp Ef). lia.
  - rewrite get_skipn in Gp. pose proof (C _ _ Gp Ef). lia.
Qed.
Lemma srt_put xs v : srt xs -> ~ In v xs -> srt (put_at xs (rk ltb v xs) v).
Proof.
  intros H N. assert (Lr : rk ltb v xs <= length xs) by apply cnt_le. assert (Lo : forall p x, get xs p = Some x -> p < rk ltb v xs -> ltb x v = true) by (intros p x G L; apply (pre_cnt (srt_lt O v H) p G); auto).
  assert (Hi : forall p x, get xs p = Some x -> rk ltb v xs <= p -> ltb v x = true). { intros p x G L. destruct (so_tot O x v) as [Q|[Q|Q]]; [|subst x; exfalso; apply N; exact (get_In _ _ G)|auto]. apply (pre_cnt (srt_lt O v H) p G) in Q. fold (rk ltb v xs) in Q. lia. }
  intros p q x y L Gx Gy. rewrite get_put in Gx, Gy by auto. set (r := rk ltb v xs) in *.
  destruct (Nat.ltb_spec p r), (Nat.ltb_spec q r); try lia.
  - exact (H p q x y L Gx Gy).
  - destruct (Nat.eqb_spec q r); [injection Gy as <-; exact (Lo p x Gx H0)|]. apply (H p (q - 1)); [lia|auto|auto].
  - destruct (Nat.eqb_spec p r), (Nat.eqb_spec q r); try lia.
    + injection Gx as <-. apply (Hi (q - 1)); [auto|lia].
    + apply (H (p - 1) (q - 1)); [lia|auto|auto].
Qed.
Lemma srt_del xs i : srt xs -> i < length xs -> srt (del_at xs i).
Proof.
  intros H Li p q x y L Gx Gy. rewrite get_del in Gx, Gy by auto. destruct (Nat.ltb_spec p i), (Nat.ltb_spec q i); try lia; [apply (H p q)|apply (H p (S q))|apply (H (S p) (S q))]; auto; lia.
Qed.
Lemma tall_front es v : srt (vals es) -> before_tall es v -> In v (vals es) -> front_tall ltb es v.
Proof.
  intros H B I e f Hi Ge Gf. apply (has_In O v es H) in I. unfold has in I. unfold vals in I at 1. rewrite get_map, Gf in I. injection I as Ef. apply (B (firstn (rk ltb v (vals es) - 1) es) e f (skipn (S (rk ltb v (vals es))) es)); [|auto].
  rewrite (split_at _ _ Ge) at 1. do 2 f_equal. replace (S (rk ltb v (vals es) - 1)) with (rk ltb v (vals es)) by lia. exact (skipn_get_cons _ _ Gf).
Qed.
Lemma low_front es v : srt (vals es) -> before_low es v -> In v (vals es) /\ front_low ltb es v.
Proof.
  intros H (l & e & f & r & E & Ef & L). assert (Gf : get es (S (length l)) = Some f) by (subst es; rewrite get_app_r by lia; replace (S (length l) - length l) with 1 by lia; reflexivity). assert (Ge : get es (length l) = Some e) by (subst es; rewrite get_app_r, Nat.sub_diag by lia; reflexivity).
  assert (Gv : get (vals es) (S (length l)) = Some v) by (unfold vals; rewrite get_map, Gf; cbn; congruence). split; [exact (get_In _ _ Gv)|]. pose proof (rk_at O (S (length l)) H Gv) as Er. exists e, f. rewrite <- Er. split; [lia|]. split; [replace (S (length l) - 1) with (length l) by lia; auto|]. auto.
Qed.
Lemma ss_inv s es : ss_reach s es -> exists a, wf s a es /\ srt (vals es).
Proof.
  intros R. induction R as [|s es hw v s' r R (a & W & H) Hw E|s es v s' it R (a & W & H) B E].
  - exists [0]. split; [apply new_ok|]. intros p q x y _ G. apply get_In in G. destruct G.
  - destruct (insert_ok O (hw := hw) v W H Hw) as [(Hh & s1 & E1 & W1)|(Hh & s1 & w & E1 & W1)]; rewrite E1 in E; injection E as <- <-; apply (iff_sym (has_In O v es H)) in Hh || rewrite (has_In O v es H) in Hh.
    + destruct (set_has es v) eqn:Hs; [eauto|]. exfalso. apply set_has_In in Hh. congruence.
    + destruct (set_has es v) eqn:Hs; [exfalso; apply Hh, set_has_In; auto|]. rewrite (@put_ins es hw v H Hh) in W1. eexists. split; [exact W1|]. rewrite <- (@put_ins es hw v H Hh), vals_put. apply (@srt_put _ v H Hh).
  - destruct (set_has es v) eqn:Hs.
    + apply set_has_In in Hs. destruct (erase_ok O W H Hs (@tall_front es v H B Hs)) as (s1 & it1 & E1 & W1 & _). assert (s1 = s') by congruence. subst s1. rewrite (@del_del es v H Hs) in W1. eexists. split; [exact W1|]. rewrite <- (@del_del es v H Hs), vals_del. apply (srt_del H). apply (has_In O v es H) in Hs. exact (get_some_lt _ _ Hs).
    + assert (N : ~ In v (map snd es)) by (rewrite <- set_has_In; congruence). destruct (erase_missing O v W H N) as (s1 & E1 & W1). assert (s1 = s') by congruence. subst s1. rewrite (@del_missing es v N). eauto.
Qed.
Lemma srt_sorted xs : srt xs -> StronglySorted (fun x y => ltb x y = true) xs.
Proof.
  induction xs as [|x xs IH]; intros H; [constructor|]. constructor; [apply IH; intros p q y z L Gy Gz; apply (H (S p) (S q)); auto; lia|]. apply Forall_forall. intros y I. destruct (In_get _ _ I) as (q & _ & G). apply (H 0 (S q)); auto. lia.
Qed.
(** from begin() to end() the values are read in increasing order, each once; size() counts them *)
Theorem C41_set_contents s es : ss_reach s es -> sk_is s (map snd es) /\ StronglySorted (fun x y => ltb x y = true) (map snd es) /\ sk_size s = length es.
Proof. intros R. destruct (ss_inv R) as (a & W & H). split; [exact (wf_is W)|]. split; [apply srt_sorted; auto|exact (w_sz W)]. Qed.
Theorem C41_lower_bound s es v : ss_reach s es -> exists it, ss_lower_bound ltb eqb s v = Some it /\ reads s it (filter (fun x => negb (ltb x v)) (map snd es)).
Proof. intros R. destruct (ss_inv R) as (a & W & H). change (map snd es) with (vals es). eexists. split; [exact (lower_bound_ok O v W H)|]. rewrite (pre_skip (srt_lt O v H)). exact (wf_reads _ W). Qed.
Theorem C41_upper_bound s es v : ss_reach s es -> exists it, ss_upper_bound leb s v = Some it /\ ss_successor leb s v = Some it /\ reads s it (filter (fun x => ltb v x) (map snd es)).
Proof.
  intros R. destruct (ss_inv R) as (a & W & H). change (map snd es) with (vals es). eexists. split; [exact (upper_bound_ok O v W H)|]. split; [exact (upper_bound_ok O v W H)|]. replace (filter (fun x => ltb v x) (vals es)) with (filter (fun x => negb (leb x v)) (vals es)); [rewrite (pre_skip (srt_le O v H)); exact (wf_reads _ W)|]. apply filter_ext. intros x. rewrite (so_le O), negb_involutive. reflexivity.
Qed.
(** find gives the iterator to v, end() when v is absent *)
Theorem C41_find s es v : ss_reach s es -> exists it, ss_find ltb eqb s v = Some it /\ reads s it (if set_has es v then filter (fun x => negb (ltb x v)) (map snd es) else []) /\ (it = None <-> ~ In v (map snd es)) /\ ss_count ltb eqb s v = Some (if set_has es v then 1 else 0).
Proof.
  intros R. destruct (ss_inv R) as (a & W & H). change (map snd es) with (vals es). unfold ss_count. destruct (find_ok O v W H) as [(I & E & N)|(I & E)]; rewrite E; cbn [obind]; (eexists; split; [reflexivity|]).
  - apply set_has_In in I as Hs. rewrite Hs. split; [rewrite (pre_skip (srt_lt O v H)); exact (wf_reads _ W)|]. split; [tauto|]. destruct (get a _); [auto|tauto].
  - destruct (set_has es v) eqn:Hs; [apply set_has_In in Hs; tauto|]. split; [constructor|]. split; [tauto|auto].
Qed.
(** predecessor gives the iterator to the largest smaller value, end() when there is none *)
Theorem C41_predecessor s es v : ss_reach s es -> exists it, ss_predecessor ltb s v = Some it /\ reads s it (match filter (fun x => ltb x v) (map snd es) with [] => [] | x :: l => last l x :: filter (fun x => negb (ltb x v)) (map snd es) end).
Proof.
  intros R. destruct (ss_inv R) as (a & W & H). eexists. split; [exact (predecessor_ok O v W H)|]. change (map snd es) with (vals es). rewrite (pre_skip (srt_lt O v H)), (pre_first (srt_lt O v H)). fold (rk ltb v (vals es)). set (i := rk ltb v (vals es)).
  assert (Li : i <= length (vals es)) by apply cnt_le. destruct (Nat.eqb_spec i 0) as [->|N]; [constructor|]. pose proof (wf_reads (i - 1) W) as Rd. replace (S (i - 1)) with i in Rd by lia.
  destruct (@get_lt _ (vals es) (i - 1) ltac:(lia)) as (y & Gy). rewrite (skipn_get_cons _ _ Gy) in Rd. replace (S (i - 1)) with i in Rd by lia.
  assert (Ef : firstn i (vals es) = firstn (i - 1) (vals es) ++ [y]). { rewrite (split_at _ _ Gy) at 1. rewrite firstn_app, firstn_length, firstn_firstn. replace (Nat.min i (i - 1)) with (i - 1) by lia. replace (i - Nat.min (i - 1) (length (vals es))) with 1 by lia. reflexivity. }
  rewrite Ef. destruct (firstn (i - 1) (vals es)) as [|x l]; cbn [app]; [exact Rd|]. rewrite last_last. exact Rd.
Qed.
Lemma tail_gt es v i : srt (vals es) -> get (vals es) i = Some v -> skipn (S i) (vals es) = filter (fun x => ltb v x) (vals es).
Proof.
  intros H G. pose proof (rk_at O i H G) as Ei. replace (filter (fun x => ltb v x) (vals es)) with (filter (fun x => negb (leb x v)) (vals es)) by (apply filter_ext; intros x; rewrite (so_le O), negb_involutive; reflexivity). rewrite (pre_skip (srt_le O v H)). f_equal.
  pose proof (@pre_cnt _ _ _ (srt_le O v H)) as C. assert (Lv : leb v v = true) by (rewrite (so_le O), (so_irr O); auto). apply (C _ _ G) in Lv. destruct (Nat.eq_dec (S i) (cnt (fun x => leb x v) (vals es))) as [|N]; [auto|]. exfalso. destruct (@get_lt _ (vals es) (S i)) as (y & Gy); [pose proof (cnt_le (fun x => leb x v) (vals es)); lia|]. assert (Q : leb y v = true) by (apply (C _ _ Gy); lia). rewrite (so_le O), (H i (S i) v y) in Q; [discriminate|lia|auto|auto].
Qed.
Lemma ge_gt es v : ~ In v (vals es) -> filter (fun x => negb (ltb x v)) (vals es) = filter (fun x => ltb v x) (vals es).
Proof.
  intros Hh. apply filter_ext_in. intros x I. destruct (so_tot O x v) as [L|[L|L]].
  - rewrite L. destruct (ltb v x) eqn:E; [|auto]. pose proof (so_trans O _ _ _ L E) as Q. rewrite (so_irr O) in Q. discriminate.
  - exfalso. apply Hh. rewrite <- L. exact I.
  - rewrite L. destruct (ltb x v) eqn:E; [|auto]. pose proof (so_trans O _ _ _ L E) as Q. rewrite (so_irr O) in Q. discriminate.
Qed.
(** insert never fails; a new value is put in its place, and the iterator returned points at it *)
Theorem C41_insert s es hw v : ss_reach s es -> hw <= 32 -> exists s' it, ss_insert ltb eqb s hw v = Some (s', (it, negb (set_has es v))) /\ ss_reach s' (if set_has es v then es else set_ins es hw v) /\ reads s' it (v :: filter (fun x => ltb v x) (map snd es)).
Proof.
  intros R Hw. destruct (ss_inv R) as (a & W & H). change (map snd es) with (vals es). destruct (insert_ok O (hw := hw) v W H Hw) as [(Hh & s1 & E1 & W1)|(Hh & s1 & w & E1 & W1)].
  - assert (Hs : set_has es v = true) by (apply set_has_In, (has_In O v es H); auto). exists s1. eexists. pose proof (@z_ins s es hw v s1 _ R Hw E1) as R1. rewrite Hs in *. split; [exact E1|]. split; [auto|]. rewrite <- (@tail_gt es v _ H Hh), <- (skipn_get_cons _ _ Hh). exact (wf_reads _ W1).
  - rewrite (has_In O v es H) in Hh. assert (Hs : set_has es v = false) by (destruct (set_has es v) eqn:Q; [exfalso; apply Hh, set_has_In; auto|auto]). exists s1, (Some w). pose proof (@z_ins s es hw v s1 _ R Hw E1) as R1. rewrite Hs in *. split; [exact E1|]. split; [auto|]. pose proof (wf_reads (rk ltb v (vals es)) W1) as Rd.
    assert (Li : rk ltb v (vals es) <= length es) by (pose proof (cnt_le (fun x => ltb x v) (vals es)) as C; unfold vals in C at 2; rewrite map_length in C; exact C). rewrite get_put, Nat.ltb_irrefl, Nat.eqb_refl in Rd by (rewrite (w_len W); lia). rewrite vals_put, skipn_put in Rd by (unfold vals at 2; rewrite map_length; lia). cbn [snd] in Rd. rewrite <- (@ge_gt es v Hh), (pre_skip (srt_lt O v H)). exact Rd.
Qed.
(** erase of a value whose predecessor in the set is not lower, of the smallest value, or of a
    missing value: removes it, and returns the iterator to the next greater value *)
Theorem C41_erase s es v : ss_reach s es -> before_tall es v -> exists s' it, ss_erase ltb eqb s v = Some (s', it) /\ ss_reach s' (set_del es v) /\ reads s' it (filter (fun x => ltb v x) (map snd es)).
Proof.
  intros R B. destruct (ss_inv R) as (a & W & H). change (map snd es) with (vals es). destruct (set_has es v) eqn:Hs.
  - apply set_has_In in Hs. destruct (erase_ok O W H Hs (@tall_front es v H B Hs)) as (s1 & it1 & E1 & W1 & Ei). exists s1, it1. split; [auto|]. split; [eapply z_era; eauto|]. subst it1. pose proof (wf_reads (rk ltb v (vals es)) W1) as Rd. pose proof Hs as Hh. apply (has_In O v es H) in Hh. unfold has in Hh. rewrite vals_del, skipn_del in Rd by (exact (get_some_lt _ _ Hh)). rewrite (@tail_gt es v _ H Hh) in Rd. exact Rd.
  - assert (N : ~ In v (map snd es)) by (rewrite <- set_has_In; congruence). destruct (erase_missing O v W H N) as (s1 & E1 & W1). exists s1. eexists. split; [exact E1|]. split; [eapply z_era; eauto|]. rewrite <- (@ge_gt es v N), (pre_skip (srt_lt O v H)). exact (wf_reads _ W1).
Qed.
(** a missing value never meets the condition's failure: erase leaves the set as it is *)
Theorem C41_erase_missing s es v : ss_reach s es -> ~ In v (map snd es) -> exists s' it, ss_erase ltb eqb s v = Some (s', it) /\ ss_reach s' es.
Proof.
  intros R N. destruct (@C41_erase s es v R) as (s' & it & E & R' & _); [|exists s', it; rewrite (@del_missing es v N) in R'; auto]. intros l e f r -> Ef. exfalso. apply N. rewrite map_app. apply in_or_app. right. right. left. exact Ef.
Qed.
(** Whenever the predecessor is lower, erase leaves the value in: the values read from begin() to
    end() do not change, size() goes down, and the iterator returned is at a smaller value. *)
Theorem C41_erase_refuted s es v : ss_reach s es -> before_low es v -> exists s' it, ss_erase ltb eqb s v = Some (s', it) /\ In v (map snd es) /\ sk_is s' (map snd es) /\ sk_size s' = length es - 1 /\
  exists j x, get (map snd es) j = Some x /\ ltb x v = true /\ reads s' it (skipn j (map snd es)).
Proof. intros R B. destruct (ss_inv R) as (a & W & H). destruct (@low_front es v H B) as (I & F). destruct (erase_bad O W H I F) as (s' & it & E & Is & Sz & Rd). exists s', it. auto. Qed.
End Set_.

(** * Cases *)
(** 5 insertions with heights 0 2 0 1 3, one more in the middle, one erased *)
Lemma ex_seq : (let* s := sk_of 0 [(0, 10); (2, 20); (0, 30); (1, 40); (3, 50)] in let* (s, _) := insert_at s 1 2 25 in let* (s, _) := erase_at s 1 in let* x := get_at s 2 in it_deref s x) = Some 30.
Proof. vm_compute. reflexivity. Qed.
Example C41_seq_ex : exists s s1 i1 s2 i2, sk_of 0 [(0, 10); (2, 20); (0, 30); (1, 40); (3, 50)] = Some s /\ insert_at s 1 2 25 = Some (s1, i1) /\ erase_at s1 1 = Some (s2, i2) /\ sk_reach 0 s2 [(0, 10); (1, 25); (0, 30); (1, 40); (3, 50)] /\ (let* x := get_at s2 2 in it_deref s2 x) = Some 30.
Proof.
  destruct (@C41_of nat 0 [(0, 10); (2, 20); (0, 30); (1, 40); (3, 50)]) as (s & E & R); [intros e I; cbn in I; repeat destruct I as [<-|I]; cbn; try lia; destruct I|].
  destruct (@C41_insert_at nat 0 s _ 1 2 25 R ltac:(lia)) as (s1 & i1 & E1 & R1 & _). destruct (@C41_erase_at nat 0 s1 _ 1 R1) as (s2 & i2 & E2 & R2 & _). exists s, s1, i1, s2, i2. split; [exact E|]. split; [exact E1|]. split; [exact E2|]. split; [exact R2|].
  pose proof ex_seq as V. rewrite E in V. cbn [obind] in V. rewrite E1 in V. cbn [obind] in V. rewrite E2 in V. exact V.
Qed.
Lemma nat_order : sk_order Nat.ltb Nat.eqb Nat.leb.
Proof. split; intros; [apply Nat.ltb_irrefl|rewrite Nat.ltb_lt in *; lia|rewrite !Nat.ltb_lt; lia|apply Nat.eqb_eq|]. destruct (Nat.leb_spec x y), (Nat.ltb_spec y x); auto; lia. Qed.
Lemma ex_set : (let* (s, _) := ss_insert Nat.ltb Nat.eqb (sk_new 0) 0 1 in let* (s, _) := ss_insert Nat.ltb Nat.eqb s 1 2 in let* (s, _) := ss_erase Nat.ltb Nat.eqb s 2 in ss_count Nat.ltb Nat.eqb s 2) = Some 1.
Proof. vm_compute. reflexivity. Qed.
(** {1 of height 0, 2 of height 1}: after erase(2) the set has size 1, and 1 and 2 are both read from it *)
Example C41_erase_ex : exists s s' it, ss_reach 0 Nat.ltb Nat.eqb s [(0, 1); (1, 2)] /\ ss_erase Nat.ltb Nat.eqb s 2 = Some (s', it) /\ sk_size s' = 1 /\ sk_is s' [1; 2] /\ ss_count Nat.ltb Nat.eqb s' 2 = Some 1.
Proof.
  pose proof (z_new 0 Nat.ltb Nat.eqb) as R0. destruct (C41_insert nat_order (hw := 0) 1 R0 ltac:(lia)) as (s1 & i1 & E1 & R1 & _). cbn in R1. destruct (C41_insert nat_order (hw := 1) 2 R1 ltac:(lia)) as (s2 & i2 & E2 & R2 & _). cbn in R2.
  destruct (C41_erase_refuted nat_order R2 (v := 2)) as (s3 & i3 & E3 & _ & I3 & S3 & _); [exists [], (0, 1), (1, 2), []; cbn; split; [reflexivity|]; split; [reflexivity|lia]|].
  exists s2, s3, i3. split; [exact R2|]. split; [exact E3|]. split; [exact S3|]. split; [exact I3|].
  pose proof ex_set as V.
  rewrite E1 in V. cbn [obind] in V. rewrite E2 in V. cbn [obind] in V. rewrite E3 in V. exact V.
Qed.
(** and the same two elements with the heights exchanged: 2 is gone *)
Example C41_erase_ex2 : (let* (s, _) := ss_insert Nat.ltb Nat.eqb (sk_new 0) 1 1 in let* (s, _) := ss_insert Nat.ltb Nat.eqb s 0 2 in let* (s, _) := ss_erase Nat.ltb Nat.eqb s 2 in let* c := ss_count Nat.ltb Nat.eqb s 2 in Some (c, sk_size s)) = Some (0, 1).
Proof. vm_compute. reflexivity. Qed.

Print Assumptions C41_contents.
Print Assumptions C41_get_at.
Print Assumptions C41_insert_at.
Print Assumptions C41_erase_at.
Print Assumptions C41_of.
Print Assumptions C41_draw_zero_refuted.
Print Assumptions C41_set_contents.
Print Assumptions C41_lower_bound.
Print Assumptions C41_upper_bound.
Print Assumptions C41_find.
Print Assumptions C41_predecessor.
Print Assumptions C41_insert.
Print Assumptions C41_erase.
Print Assumptions C41_erase_missing.
Print Assumptions C41_erase_refuted.
Print Assumptions C41_erase_ex.
