(** SkiplistSet: searches, emplace, erase. *)
From Verif Require Import SkipModel BaseLemmas ListExtra SkipInv SkipFr SkipOps.
Set Implicit Arguments.

(** T's comparisons: a strict total order, == and <= that agree with it *)
Record sk_order {T} (ltb eqb leb : T -> T -> bool) : Prop := {
  so_irr : forall x, ltb x x = false;
  so_trans : forall x y z, ltb x y = true -> ltb y z = true -> ltb x z = true;
  so_tot : forall x y, ltb x y = true \/ x = y \/ ltb y x = true;
  so_eq : forall x y, eqb x y = true <-> x = y;
  so_le : forall x y, leb x y = negb (ltb y x) }.

Section Skip.
Variable T : Type.
Implicit Types (s : skl T) (a : list nat) (es : list (nat * T)).
Variables (ltb eqb leb : T -> T -> bool).
Hypothesis O : sk_order ltb eqb leb.
Definition srt (xs : list T) : Prop := forall p q x y, p < q -> get xs p = Some x -> get xs q = Some y -> ltb x y = true.

(** * A predicate that holds on a prefix *)
Definition pre (P : T -> bool) (xs : list T) : Prop := forall p q x y, p < q -> get xs p = Some x -> get xs q = Some y -> P y = true -> P x = true.
Definition cnt (P : T -> bool) (xs : list T) : nat := length (filter P xs).
Lemma pre_tl P x xs : pre P (x :: xs) -> pre P xs.
Proof. intros H p q y z Hp Gy Gz. apply (H (S p) (S q)); auto. lia. Qed.
Lemma pre_false P x xs : pre P (x :: xs) -> P x = false -> forall y, In y xs -> P y = false.
Proof. intros H E y I. destruct (In_get _ _ I) as (q & _ & G). destruct (P y) eqn:Ey; [|auto]. rewrite (H 0 (S q) x y ltac:(lia) eq_refl G Ey) in E. discriminate. Qed.
Lemma filter_none {X} (P : X -> bool) xs : (forall y, In y xs -> P y = false) -> filter P xs = [].
Proof. induction xs as [|x xs IH]; intros H; [reflexivity|]. cbn. rewrite H by (left; auto). apply IH. intros; apply H; right; auto. Qed.
Lemma filter_all {X} (P : X -> bool) xs : (forall y, In y xs -> P y = true) -> filter P xs = xs.
Proof. induction xs as [|x xs IH]; intros H; [reflexivity|]. cbn. rewrite H by (left; auto). f_equal. apply IH. intros; apply H; right; auto. Qed.
Lemma pre_cnt P xs : pre P xs -> forall p x, get xs p = Some x -> (P x = true <-> p < cnt P xs).
Proof.
  induction xs as [|y xs IH]; intros H p x G; [apply get_In in G; destruct G|]. unfold cnt. cbn [filter]. destruct (P y) eqn:Ey.
  - cbn [length]. destruct p as [|p]; [injection G as <-; rewrite Ey; split; [lia|auto]|]. rewrite (IH (pre_tl H) p x G). unfold cnt. lia.
  - rewrite filter_none by (apply (pre_false H Ey)). cbn. split; [|lia]. intros Px. exfalso. destruct p as [|p]; [injection G as <-; congruence|]. rewrite (pre_false H Ey x) in Px; [discriminate|exact (get_In xs p G)].
Qed.
Lemma pre_skip P xs : pre P xs -> filter (fun x => negb (P x)) xs = skipn (cnt P xs) xs.
Proof.
  induction xs as [|y xs IH]; intros H; [reflexivity|]. unfold cnt. cbn [filter]. destruct (P y) eqn:Ey; cbn [negb].
  - cbn [length skipn]. apply IH, (pre_tl H).
  - rewrite (filter_none P) by (apply (pre_false H Ey)). cbn. f_equal. apply filter_all. intros z I. rewrite (pre_false H Ey z I). reflexivity.
Qed.
Lemma pre_first P xs : pre P xs -> filter P xs = firstn (cnt P xs) xs.
Proof.
  induction xs as [|y xs IH]; intros H; [reflexivity|]. unfold cnt. cbn [filter]. destruct (P y) eqn:Ey.
  - cbn [length firstn]. f_equal. apply IH, (pre_tl H).
  - rewrite (filter_none P) by (apply (pre_false H Ey)). reflexivity.
Qed.
Lemma cnt_le P xs : cnt P xs <= length xs.
Proof. unfold cnt. induction xs as [|x xs IH]; cbn; [lia|]. destruct (P x); cbn; lia. Qed.
Lemma srt_lt v xs : srt xs -> pre (fun x => ltb x v) xs.
Proof. intros H p q x y L Gx Gy Hy. exact (so_trans O _ _ _ (H p q x y L Gx Gy) Hy). Qed.
Lemma srt_le v xs : srt xs -> pre (fun x => leb x v) xs.
Proof.
  intros H p q x y L Gx Gy Hy. rewrite (so_le O) in *. destruct (ltb v x) eqn:E; [|auto]. rewrite (so_trans O _ _ _ E (H p q x y L Gx Gy)) in Hy. discriminate.
Qed.
Arguments srt_lt v {xs} _.
Arguments srt_le v {xs} _.
Arguments pre_cnt {P xs} _ {p x} _.
(** the place of a value *)
Definition rk (v : T) (xs : list T) : nat := cnt (fun x => ltb x v) xs.
Lemma rk_at v xs p : srt xs -> get xs p = Some v -> p = rk v xs.
Proof.
  intros H G. pose proof (@pre_cnt _ _ (srt_lt v H)) as C. assert (~ p < rk v xs) by (intros L; apply (C _ _ G) in L; rewrite (so_irr O) in L; discriminate). destruct (Nat.lt_ge_cases (rk v xs) p) as [L|L]; [|lia].
  destruct (@get_lt _ xs (rk v xs)) as (x & Gx); [pose proof (get_some_lt _ _ G); lia|]. pose proof (H _ _ _ _ L Gx G) as Hx. apply (C _ _ Gx) in Hx. unfold rk in Hx. lia.
Qed.

(** * Searches *)
Notation place v es := (S (rk v (vals es))).
Lemma wf_val s a es y z : wf s a es -> 0 < y -> get a y = Some z -> exists x, val s z = Some x /\ get (vals es) (y - 1) = Some x.
Proof.
  intros W Hy G. destruct y as [|y]; [lia|]. pose proof (get_some_lt _ _ G) as L. rewrite (w_len W) in L. destruct (@get_lt _ es y ltac:(lia)) as (e & Ge). destruct (w_el W y G Ge) as (V & _). exists (snd e). split; [auto|]. unfold vals. rewrite get_map. replace (S y - 1) with y by lia. rewrite Ge. reflexivity.
Qed.
Lemma wf_pred s a es (P : T -> bool) : wf s a es -> pre P (vals es) -> forall y z, 0 < y -> get a y = Some z -> exists v, val s z = Some v /\ (P v = true <-> y < S (cnt P (vals es))).
Proof. intros W H y z Hy G. destruct (wf_val W Hy G) as (x & V & Gx). exists x. split; [auto|]. rewrite (pre_cnt H Gx). lia. Qed.
(** at level 0 one stops just before the place *)
Lemma stop_base s a es t u p p' : wf s a es -> t <= length a -> stop s a 0 t u p p' -> S p' = t.
Proof.
  intros W Ht (G & Hp & Hn & Gap). destruct (Nat.eq_dec (S p') t); [auto|]. exfalso. destruct (@get_lt _ a (S p') ltac:(lia)) as (z & Gz). apply (wf_base W Gz). apply (Gap (S p')); [lia|auto].
Qed.
Lemma last_lv_ok s a es (P : T -> bool) : wf s a es -> pre P (vals es) -> forall k u p, get a p = Some u -> p < S (cnt P (vals es)) -> (forall r, r < k -> nxt s u r <> None) ->
  exists u' p', last_lv k s P u = Some u' /\ get a p' = Some u' /\ (0 < k -> p' = cnt P (vals es)).
Proof.
  intros W HP. induction k as [|r IH]; intros u p G Hp Up; [exists u, p; split; [reflexivity|]; split; [auto|lia]|]. cbn [last_lv].
  destruct (adv_val_ok (wf_bound W) (w_lv W r) P (wf_pred W HP) G Hp (Up r ltac:(lia))) as (u1 & p1 & E & St). rewrite E. cbn [obind]. pose proof St as (G1 & Hp1 & Hn1 & _).
  destruct (IH u1 p1 G1 ltac:(lia)) as (u2 & p2 & E2 & G2 & Hk); [intros r' Hr; apply (wf_down W G1 Hn1); lia|]. exists u2, p2. split; [auto|]. split; [auto|]. intros _. destruct r as [|r]; [|apply Hk; lia]. cbn in E2. injection E2 as <-.
  rewrite (get_uniq (w_nd W) G2 G1). pose proof (cnt_le P (vals es)) as C. unfold vals in C at 2. rewrite map_length in C. pose proof (stop_base W (t := S (cnt P (vals es))) ltac:(rewrite (w_len W); lia) St). lia.
Qed.
Lemma wf_up0 s a es : wf s a es -> forall r, r < S (sk_h s) -> nxt s 0 r <> None.
Proof. intros W r L. apply (w_sent W). pose proof (w_h W). lia. Qed.
Theorem upper_bound_ok s a es v : wf s a es -> srt (vals es) -> ss_upper_bound leb s v = Some (get a (S (cnt (fun x => leb x v) (vals es)))).
Proof.
  intros W H. unfold ss_upper_bound. destruct (last_lv_ok W (srt_le v H) (k := S (sk_h s)) (w_0 W) ltac:(lia) (wf_up0 W)) as (u & p & E & G & Hk). rewrite E. cbn [obind]. rewrite (wf_next W G), Hk by lia. reflexivity.
Qed.
Theorem predecessor_ok s a es v : wf s a es -> srt (vals es) -> ss_predecessor ltb s v = Some (if rk v (vals es) =? 0 then None else get a (rk v (vals es))).
Proof.
  intros W H. unfold ss_predecessor. destruct (last_lv_ok W (srt_lt v H) (k := S (sk_h s)) (w_0 W) ltac:(lia) (wf_up0 W)) as (u & p & E & G & Hk). rewrite E. cbn [obind]. fold (rk v (vals es)) in Hk. rewrite <- Hk by lia. f_equal. destruct (Nat.eqb_spec p 0) as [->|N].
  - rewrite (w_0 W) in G. injection G as <-. reflexivity.
  - destruct (Nat.eqb_spec u 0) as [->|]; [|auto]. exfalso. apply N. exact (get_uniq (w_nd W) G (w_0 W)).
Qed.
Lemma place_le s a es v : wf s a es -> place v es <= length a.
Proof. intros W. pose proof (cnt_le (fun x => ltb x v) (vals es)) as C. unfold vals in C at 2. rewrite map_length in C. rewrite (w_len W). unfold rk. lia. Qed.
Lemma place_has s a es v x : wf s a es -> get a (place v es) = Some x -> val s x = Some v <-> get (vals es) (rk v (vals es)) = Some v.
Proof. intros W G. destruct (wf_val W (y := place v es) ltac:(lia) G) as (y & V & Gy). replace (place v es - 1) with (rk v (vals es)) in Gy by lia. rewrite V, Gy. reflexivity. Qed.
(** the test for v after the inner loop *)
Lemma hit_ok s a es r v u p p' : wf s a es -> srt (vals es) -> stop s a r (place v es) u p p' ->
  (exists w, hit eqb s u r v = Some (Some w) /\ get a (place v es) = Some w /\ val s w = Some v /\ nxt s u r = Some (Some w) /\ nxt s w r <> None) \/
  (hit eqb s u r v = Some None /\ forall w, get a (place v es) = Some w -> val s w = Some v -> nxt s w r = None).
Proof.
  intros W H St. pose proof St as (G & Hp & Hn & Gap). destruct (some_of Hn) as (o & Eo). pose proof (stop_next (w_lv W r) St Eo) as Ho. unfold hit. rewrite Eo. cbn [obind]. destruct o as [x|].
  - destruct Ho as (q & H1 & H2 & H3 & H4 & H5). destruct (wf_val W (y := q) ltac:(lia) H2) as (y & Vy & Gy). rewrite Vy. cbn [obind]. destruct (eqb y v) eqn:Ey.
    + left. apply (so_eq O) in Ey. subst y. assert (q = place v es) by (pose proof (rk_at _ H Gy); lia). subst q. exists x. auto.
    + right. split; [reflexivity|]. intros w Gw Vw. destruct H5 as [->|H5]; [|auto]. rewrite H2 in Gw. injection Gw as <-. rewrite Vy in Vw. injection Vw as ->. exfalso. assert (eqb v v = true) by (apply (so_eq O); auto). congruence.
  - right. split; [reflexivity|]. intros w Gw _. apply (Ho (place v es) w); [lia|auto].
Qed.
Lemma find_lv_ok s a es v : wf s a es -> srt (vals es) -> forall k u p, get a p = Some u -> p < place v es -> (forall r, r < k -> nxt s u r <> None) ->
  (exists x, find_lv ltb eqb k s v u = Some (inl x) /\ get a (place v es) = Some x /\ val s x = Some v) \/
  (exists u' p', find_lv ltb eqb k s v u = Some (inr u') /\ get a p' = Some u' /\ (0 < k -> p' = rk v (vals es) /\ forall x, get a (place v es) = Some x -> val s x <> Some v)).
Proof.
  intros W H. induction k as [|r IH]; intros u p G Hp Up; [right; exists u, p; split; [reflexivity|]; split; [auto|lia]|]. cbn [find_lv].
  destruct (adv_val_ok (wf_bound W) (w_lv W r) (fun y => ltb y v) (wf_pred W (srt_lt v H)) G Hp (Up r ltac:(lia))) as (u1 & p1 & E & St). rewrite E. cbn [obind]. pose proof St as (G1 & Hp1 & Hn1 & _). fold (rk v (vals es)) in *.
  destruct (hit_ok v W H St) as [(w & -> & Gw & Vw & _)|(-> & Nw)]; cbn [obind]; [left; eauto|].
  destruct (IH u1 p1 G1 ltac:(lia)) as [F|(u2 & p2 & E2 & G2 & Hk)]; [intros r' Hr; apply (wf_down W G1 Hn1); lia|left; auto|]. right. exists u2, p2. split; [auto|]. split; [auto|]. intros _. destruct r as [|r]; [|apply Hk; lia]. cbn in E2. injection E2 as <-. rewrite (get_uniq (w_nd W) G2 G1). split; [pose proof (stop_base W (place_le v W) St); lia|]. intros x Gx Vx. exact (wf_base W Gx (Nw x Gx Vx)).
Qed.
Definition has (v : T) es : Prop := get (vals es) (rk v (vals es)) = Some v.
Lemma find_cases s a es v : wf s a es -> srt (vals es) ->
  (exists x, find_lv ltb eqb (S (sk_h s)) s v 0 = Some (inl x) /\ get a (place v es) = Some x /\ has v es) \/
  (exists u, find_lv ltb eqb (S (sk_h s)) s v 0 = Some (inr u) /\ get a (rk v (vals es)) = Some u /\ ~ has v es).
Proof.
  intros W H. destruct (find_lv_ok v W H (k := S (sk_h s)) (w_0 W) ltac:(lia) (wf_up0 W)) as [(x & E & G & V)|(u & p & E & G & Hk)].
  - left. exists x. split; [auto|]. split; [auto|]. apply (place_has v W G); auto.
  - right. exists u. destruct (Hk ltac:(lia)) as (-> & N). split; [auto|]. split; [auto|]. intros Hh. unfold has in Hh. pose proof (get_some_lt _ _ Hh) as L. unfold vals in L at 2. rewrite map_length in L. destruct (@get_lt _ a (place v es)) as (x & Gx); [rewrite (w_len W); lia|]. apply (N x Gx), (place_has v W Gx), Hh.
Qed.
Lemma has_In v es : srt (vals es) -> has v es <-> In v (vals es).
Proof. intros H. split; [apply get_In|]. intros I. destruct (In_get _ _ I) as (p & _ & G). unfold has. rewrite <- (rk_at _ H G). auto. Qed.
Theorem find_ok s a es v : wf s a es -> srt (vals es) -> (In v (vals es) /\ ss_find ltb eqb s v = Some (get a (place v es)) /\ get a (place v es) <> None) \/ (~ In v (vals es) /\ ss_find ltb eqb s v = Some None).
Proof.
  intros W H. unfold ss_find. rewrite <- (has_In v _ H). destruct (find_cases v W H) as [(x & -> & G & Hh)|(u & -> & G & Hh)]; cbn [obind]; [left; rewrite G; split; [auto|]; split; [auto|discriminate]|right; auto].
Qed.
Theorem lower_bound_ok s a es v : wf s a es -> srt (vals es) -> ss_lower_bound ltb eqb s v = Some (get a (place v es)).
Proof.
  intros W H. unfold ss_lower_bound. destruct (find_cases v W H) as [(x & -> & G & Hh)|(u & -> & G & Hh)]; cbn [obind]; [now rewrite G|]. apply (wf_next W G).
Qed.

(** * emplace *)
Definition same_n s s' : Prop := sk_n s' = sk_n s /\ sk_h s' = sk_h s /\ sk_size s' = sk_size s /\ length (sk_stack s') = length (sk_stack s) /\ length (sk_idx s') = length (sk_idx s).
Lemma same_n_nxt s s' : same_n s s' -> (forall z r, nxt s' z r = nxt s z r) /\ (forall z r, len s' z r = len s z r) /\ (forall z, val s' z = val s z).
Proof. intros (E & _). unfold nxt, len, val. rewrite E. auto. Qed.
Lemma same_n_refl s : same_n s s. Proof. repeat split. Qed.
Lemma same_n_trans s s' s'' : same_n s s' -> same_n s' s'' -> same_n s s''.
Proof. intros (A1 & A2 & A3 & A4 & A5) (B1 & B2 & B3 & B4 & B5). repeat split; congruence. Qed.
Lemma same_n_wf s s' a es : same_n s s' -> (forall r, sk_h s < r -> get (sk_stack s') r = get (sk_stack s) r /\ get (sk_idx s') r = get (sk_idx s) r) -> wf s a es -> wf s' a es.
Proof.
  intros E St W. pose proof (same_n_nxt E) as (E1 & E2 & E3). destruct E as (En & Eh & Es & El1 & El2). split.
  - exact (w_nd W).
  - exact (w_0 W).
  - rewrite En. exact (w_lt W).
  - exact (w_len W).
  - rewrite Es. exact (w_sz W).
  - rewrite Eh. exact (w_h W).
  - intros r. rewrite E1. apply (w_sent W).
  - intros p u e G Ge. rewrite E3, Eh. destruct (w_el W _ G Ge) as (H1 & H2 & H3). split; [auto|]. split; [|auto]. intros r. rewrite E1. apply H2.
  - intros r. refine (lv_ext _ (w_lv W r)). intros u _. rewrite E1, E2. auto.
  - rewrite El1, El2, Eh. destruct (w_st W) as (H1 & H2 & H3). split; [auto|]. split; [auto|]. intros r Hr. destruct (St r ltac:(lia)) as (-> & ->). apply H3; auto.
Qed.
Lemma stop_same s s' a r t u p p' : same_n s s' -> stop s a r t u p p' <-> stop s' a r t u p p'.
Proof. intros E. destruct (same_n_nxt E) as (E1 & _). unfold stop. rewrite E1. split; intros (H1 & H2 & H3 & H4); (split; [auto|]; split; [auto|]; split; [auto|]); intros y z Hy Gz; specialize (H4 y z Hy Gz); congruence. Qed.
(** the stack after the search *)
Definition marked s s' a (t r : nat) : Prop := exists u p, get (sk_stack s') r = Some u /\ get (sk_idx s') r = Some p /\ stop s a r t u 0 p.
Lemma set_stack_ok s r u : r < length (sk_stack s) -> exists s', set_stack s r u = Some s' /\ same_n s s' /\ sk_stack s' = lset (sk_stack s) r u /\ sk_idx s' = sk_idx s.
Proof. intros L. unfold set_stack. rewrite (set_some _ u L). cbn [obind]. eexists. split; [reflexivity|]. split; [split; [reflexivity|]; split; [reflexivity|]; split; [reflexivity|]; cbn; rewrite lset_length; auto|]. auto. Qed.
Lemma set_idx_ok s r u : r < length (sk_idx s) -> exists s', set_idx s r u = Some s' /\ same_n s s' /\ sk_idx s' = lset (sk_idx s) r u /\ sk_stack s' = sk_stack s.
Proof. intros L. unfold set_idx. rewrite (set_some _ u L). cbn [obind]. eexists. split; [reflexivity|]. split; [split; [reflexivity|]; split; [reflexivity|]; split; [reflexivity|]; cbn; rewrite lset_length; auto|]. auto. Qed.
Lemma emp_search_ok a es v (s0 : skl T) : srt (vals es) -> wf s0 a es -> forall k s u p, same_n s0 s -> k <= S kmax -> get a p = Some u -> p < place v es -> (forall r, r < k -> nxt s0 u r <> None) ->
  exists s', same_n s s' /\ (forall r, k <= r -> get (sk_stack s') r = get (sk_stack s) r /\ get (sk_idx s') r = get (sk_idx s) r) /\
    ((exists x, emp_search ltb eqb k s v u (S p) = Some (s', inl x) /\ get a (place v es) = Some x /\ val s0 x = Some v) \/
     (exists j, emp_search ltb eqb k s v u (S p) = Some (s', inr j) /\ (forall r, r < k -> marked s0 s' a (place v es) r) /\ (0 < k -> j = place v es /\ forall x, get a (place v es) = Some x -> val s0 x <> Some v))).
Proof.
  intros H W. induction k as [|r IH]; intros s u p E Hk G Hp Up; [exists s; split; [apply same_n_refl|]; split; [auto|]; right; exists (S p); split; [reflexivity|]; split; lia|]. cbn [emp_search].
  pose proof (same_n_nxt E) as (E1 & E2 & E3). pose proof E as (En & Eh & Es & El1 & El2). destruct (w_st W) as (Ls1 & Ls2 & _).
  assert (Ha : length a <= length (sk_n s)) by (rewrite En; exact (wf_bound W)). assert (Lr : lvl s r a) by (refine (lv_ext _ (w_lv W r)); intros z _; rewrite E1, E2; auto).
  assert (V : forall y z, 0 < y -> get a y = Some z -> exists w, val s z = Some w /\ (ltb w v = true <-> y < place v es)) by (intros y z Hy Gz; rewrite E3; exact (wf_pred W (srt_lt v H) Hy Gz)).
  destruct (adv_both_ok (r := r) ltb v Ha Lr V G Hp ltac:(rewrite E1; apply Up; lia)) as (u1 & p1 & Ea & St). rewrite Ea. cbn [obind]. apply (stop_same a r _ u1 p p1 E) in St. pose proof St as (G1 & Hp1 & Hn1 & Gap).
  assert (Hh : hit eqb s u1 r v = hit eqb s0 u1 r v) by (unfold hit; rewrite E1; destruct (nxt s0 u1 r) as [[x|]|]; cbn [obind]; rewrite ?E3; reflexivity). rewrite Hh.
  destruct (hit_ok v W H St) as [(w & -> & Gw & Vw & _)|(-> & Nw)]; cbn [obind]; [exists s; split; [apply same_n_refl|]; split; [auto|]; left; eauto|].
  destruct (@set_stack_ok s r u1 ltac:(lia)) as (s1 & Es1 & N1 & S1 & I1). rewrite Es1. cbn [obind]. unfold sub. cbn [Nat.leb guard obind Nat.sub]. rewrite Nat.sub_0_r. pose proof N1 as (_ & _ & _ & Ll1 & Ll2). destruct (@set_idx_ok s1 r p1 ltac:(lia)) as (s2 & Es2 & N2 & I2 & S2). rewrite Es2. cbn [obind].
  assert (N02 : same_n s0 s2) by eauto using same_n_trans. destruct (IH s2 u1 p1 N02 ltac:(lia) G1 ltac:(lia)) as (s' & N' & K' & R); [intros r' Hr; apply (wf_down W G1 Hn1); lia|].
  exists s'. split; [eauto using same_n_trans|]. split.
  { intros r' Hr. destruct (K' r' ltac:(lia)) as (-> & ->). rewrite S2, S1, I2, I1. rewrite !get_lset_neq by lia. auto. }
  destruct R as [(x & Ex & R)|(j & Ej & Mk & Hj)]; [left; eauto|]. right. exists j. split; [auto|]. split.
  - intros r' Hr. destruct (Nat.eq_dec r' r) as [->|Nr]; [|apply Mk; lia]. exists u1, p1. destruct (K' r ltac:(lia)) as (-> & ->). rewrite S2, S1, I2, I1. rewrite !get_lset_eq by lia. split; [auto|]. split; [auto|]. destruct St as (X1 & X2 & X3 & X4). split; [auto|]. split; [lia|]. split; auto.
  - intros _. destruct r as [|r]; [|apply Hj; lia]. cbn in Ej. injection Ej as _ <-. split; [exact (stop_base W (place_le v W) St)|]. intros x Gx Vx. exact (wf_base W Gx (Nw x Gx Vx)).
Qed.
(** linking the new node *)
Section Link.
Variables (a1 a2 : list nat) (w hw : nat).
Notation A := (a1 ++ a2).
Notation B := (a1 ++ w :: a2).
Notation t := (length a1).
Hypothesis ND : NoDup B.
Definition marks s (r : nat) : Prop := exists u p, get (sk_stack s) r = Some u /\ get (sk_idx s) r = Some p /\ stop s A r t u 0 p.
Lemma stop_fr s s' a r q u p p' : fr s s' -> stop s a r q u p p' -> stop s' a r q u p p'.
Proof. intros F (H1 & H2 & H3 & H4). split; [auto|]. split; [auto|]. split; [intros E; apply H3, (f_up F), E|]. intros y z Hy G. apply (f_up F). eauto. Qed.
Lemma emp_link_ok k : forall s, new_up w hw s -> (forall r, r < k -> lvl s r A /\ marks s r) -> (forall r, k <= r -> lvl s r B) -> exists s', emp_link k s w hw t = Some s' /\ fr s s' /\ forall r, lvl s' r B.
Proof.
  induction k as [|r IH]; intros s Nu LA LB; [exists s; split; [reflexivity|]; split; [apply fr_refl|]; intros r; apply LB; lia|]. cbn [emp_link].
  destruct (LA r ltac:(lia)) as (Lr & u & p & Gs & Gi & Gu & Hp & Hn & Gap). rewrite Gs. cbn [obind]. destruct (some_of Hn) as (o & Eo). rewrite Eo. cbn [obind].
  match goal with |- context [obind ?m (fun s => emp_link r s w hw t)] => set (stp := m) end.
  assert (Step : exists s', stp = Some s' /\ fr s s' /\ same_off s s' r /\ lvl s' r B).
  { unfold stp. destruct (@len_u T a1 a2 s r u p o Lr Gu ltac:(lia) Gap Eo) as (l & El & Hl'). destruct (Nat.leb_spec r hw).
    - destruct (proj1 Nu r H) as (N1 & N2). destruct (@link_step T a1 a2 w ND s r u p o Lr Gu ltac:(lia) Gap Eo l _ N1 N2 El eq_refl) as (s' & E' & R). exists s'. split; [|exact R]. rewrite <- E'. rewrite Gi. cbn [obind]. destruct (Nat.ltb_spec p t); [|lia]. cbn [guard obind]. destruct o as [x|]; [|reflexivity]. rewrite El. cbn [obind]. unfold sub. specialize (Hl' ltac:(discriminate)). destruct (Nat.leb_spec (t - p) l); [|lia]. cbn [guard obind]. replace (l - (t - p) + 1) with (l - (t - p - 1)) by lia. reflexivity.
    - apply (@pass_step T a1 a2 w ND s r u p o Lr Gu ltac:(lia) Gap Eo). apply (proj2 Nu). auto. }
  destruct Step as (s' & Es & F & Of & Lr'). rewrite Es. cbn [obind]. destruct (IH s') as (s2 & E2 & F2 & L2).
  - exact (new_up_fr F Nu).
  - intros k Lk. destruct (LA k ltac:(lia)) as (Lk' & u2 & p2 & Q1 & Q2 & Q3). split; [apply (lvl_off Of); [lia|auto]|]. exists u2, p2. rewrite (f_st F), (f_ix F). split; [auto|]. split; [auto|]. exact (stop_fr F Q3).
  - intros k Lk. destruct (Nat.eq_dec k r) as [->|N]; [exact Lr'|]. apply (lvl_off Of); [auto|]. apply LB. lia.
  - exists s2. split; [exact E2|]. split; [eauto using fr_trans|auto].
Qed.
End Link.
Theorem insert_ok s a es hw v : wf s a es -> srt (vals es) -> hw <= kmax ->
  (has v es /\ exists s', ss_insert ltb eqb s hw v = Some (s', (get a (place v es), false)) /\ wf s' a es) \/
  (~ has v es /\ exists s' w, ss_insert ltb eqb s hw v = Some (s', (Some w, true)) /\ wf s' (put_at a (place v es) w) (put_at es (rk v (vals es)) (hw, v))).
Proof.
  intros W H Hw. unfold ss_insert. destruct (emp_search_ok v H W (same_n_refl s) (k := S (sk_h s)) ltac:(pose proof (w_h W); lia) (w_0 W) ltac:(lia) (wf_up0 W)) as (s' & N & K & R).
  assert (W' : wf s' a es) by (apply (same_n_wf N); [intros r Hr; apply K; lia|auto]).
  destruct R as [(x & E & G & V)|(j & E & Mk & Hj)]; rewrite E; cbn [obind].
  { left. split; [apply (place_has v W G); auto|]. exists s'. rewrite G. auto. }
  right. destruct (Hj ltac:(lia)) as (-> & Nv). clear Hj. split. { intros Hh. unfold has in Hh. pose proof (get_some_lt _ _ Hh) as L. unfold vals in L at 2. rewrite map_length in L. destruct (@get_lt _ a (place v es)) as (x & Gx); [rewrite (w_len W); lia|]. apply (Nv x Gx), (place_has v W Gx), Hh. }
  destruct (new_node _ v hw) as (s1, w) eqn:En. pose proof (made_ok _ En) as M. pose proof (place_le v W) as Hpl. set (t := place v es) in *.
  assert (La1 : length (firstn t a) = t) by (rewrite firstn_length; lia). assert (Ea : firstn t a ++ skipn t a = a) by apply firstn_skipn. assert (L1 : forall r, lvl s1 r a) by (intros r; exact (wf_made_lvl r W' M)).
  assert (ND : NoDup (firstn t a ++ w :: skipn t a)) by (apply put_nd; [lia|exact (w_nd W)|exact (wf_w_fresh W' M)]).
  assert (Old : forall z, In z a -> forall r, nxt s1 z r = nxt s z r) by (intros z I r; destruct (m_old M (z := z)) as (_ & Q); [rewrite (m_w M); exact (w_lt W' _ I)|destruct (Q r) as (-> & _); apply (same_n_nxt N)]).
  destruct (@emp_link_ok (firstn t a) (skipn t a) w hw ND (S (sk_h s1)) s1) as (s2 & E2 & F & L).
  - split; intros r Hr; rewrite (m_nx M); [rewrite (m_ln M)|]; destruct (Nat.leb_spec r hw); try lia; [split; discriminate|reflexivity].
  - intros r Hr. unfold marks. rewrite Ea, La1. split; [apply L1|]. rewrite (m_st M), (m_ix M). rewrite (m_h M) in Hr. pose proof N as (_ & Nh & _). destruct (Nat.lt_ge_cases r (S (sk_h s))) as [Lr|Lr].
    + destruct (Mk r Lr) as (u & p & G1 & G2 & X1 & X2 & X3 & X4). exists u, p. split; [auto|]. split; [auto|]. split; [auto|]. split; [auto|]. split; [rewrite Old by (exact (get_In _ _ X1)); auto|]. intros y z Hy Gz. rewrite Old by (exact (get_In _ _ Gz)). eauto.
    + exists 0, 0. destruct (w_st W') as (_ & _ & Q). destruct (Q r) as (Q1 & Q2); [pose proof (w_h W); lia|]. split; [auto|]. split; [auto|]. pose proof (w_0 W) as G0. split; [auto|]. split; [unfold t; lia|]. split; [rewrite Old by (exact (get_In _ _ G0)); apply (w_sent W); pose proof (w_h W); lia|]. intros y z Hy Gz. rewrite Old by (exact (get_In _ _ Gz)). destruct (nxt s z r) eqn:Ez; [|auto]. pose proof (wf_top W Gz (r := r) ltac:(congruence) ltac:(lia)). lia.
  - intros r Hr. rewrite (m_h M) in Hr. apply (lvl_high (r := r) (t := t) W' M); [unfold t in *; lia|lia].
  - rewrite La1 in E2. rewrite E2. cbn [obind]. exists (with_size s2 (S (sk_size s2))), w. split; [reflexivity|]. apply (wf_ins (s := s') (s1 := s1)); auto. pose proof (w_len W). unfold t in Hpl. lia.
Qed.
End Skip.
