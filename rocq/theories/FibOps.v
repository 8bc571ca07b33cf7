(** FibonacciHeap: the invariant and the public operations. *)
From Verif Require Import FibModel FibRing FibLink FibStr FibCut FibHeap BaseLemmas ListExtra.
Set Implicit Arguments.

Lemma fib_table_ok n : exists k, fib_table n = Some k /\ 2 <= k /\ n <= fib k.
Proof.
  unfold fib_table. match goal with |- context [loop _ ?bd _] => set (body := bd) end.
  assert (Lp : forall fuel a b k, 2 <= k -> a = fib (k - 1) -> b = fib k -> n - b < fuel -> exists k', loop fuel body (a, b, k) = Some k' /\ 2 <= k' /\ n <= fib k').
  { induction fuel as [|fuel IH]; intros a b k Hk Ea Eb Hf; [lia|]. cbn [loop]. unfold body at 1. destruct (Nat.ltb_spec b n) as [Lb|Gb]; [|exists k; split; [auto|]; split; [auto|lia]]. apply IH; [lia|subst b; f_equal; lia| |].
    - replace k with (S (k - 1)) at 1 by lia. rewrite fib_SS. replace (S (k - 1)) with k by lia. lia.
    - pose proof (fib_pos (n := k - 1) ltac:(lia)). lia. }
  apply (Lp _ 1 1 2); auto; lia.
Qed.

Section Fib.
Variables (T : Type) (cond : T -> T -> bool) (d0 : T).
Hypothesis WO : weak_order cond.
Notation fh := (fh T).
Notation fn := (fn T).
Notation DN := (DN d0).
Notation same_v := (same_v d0).
Notation shape := (shape cond d0).
Notation str := (str cond d0).
Notation pmap := (pmap T).
Implicit Types (h : fh).
(** ** Counting *)
Lemma count_add (m : pmap) n k v : count_is m n -> m k = None -> count_is (p_set m k (Some v)) (S n).
Proof.
  intros (ks & Nd & L & H) E. exists (k :: ks). split; [constructor; [rewrite H; congruence|auto]|]. split; [cbn; lia|]. intros j. unfold p_set. cbn. destruct (Nat.eqb_spec j k) as [->|Nj]; [split; [discriminate|auto]|]. rewrite H. split; [intros [|]; [congruence|auto]|auto].
Qed.
Lemma count_upd (m : pmap) n k v : count_is m n -> m k <> None -> count_is (p_set m k (Some v)) n.
Proof.
  intros (ks & Nd & L & H) E. exists ks. split; [auto|]. split; [auto|]. intros j. unfold p_set. destruct (Nat.eqb_spec j k) as [->|Nj]; [split; [discriminate|intros _; now apply H]|apply H].
Qed.
Lemma count_del (m : pmap) n k : count_is m n -> m k <> None -> 1 <= n /\ count_is (p_set m k None) (n - 1).
Proof.
  intros (ks & Nd & L & H) E. apply H in E. destruct (in_split _ _ E) as (l1 & l2 & ->). destruct (NoDup_remove _ _ _ Nd) as (Nd' & Nk). rewrite app_length in L. cbn in L. split; [lia|]. exists (l1 ++ l2). split; [auto|]. split; [rewrite app_length; lia|].
  intros j. unfold p_set. specialize (H j). rewrite in_app_iff in H |- *. cbn in H. destruct (Nat.eqb_spec j k) as [->|Nj]; [split; [intros J; destruct Nk; apply in_or_app, J|congruence]|]. rewrite <- H. split; [tauto|]. intros [|[|]]; auto; congruence.
Qed.
Lemma count_ext (m m' : pmap) n : count_is m n -> (forall k, m' k = m k) -> count_is m' n.
Proof. intros (ks & Nd & L & H) E. exists ks. split; [auto|]. split; [auto|]. intros k. now rewrite E. Qed.

(** ** The invariant *)
Definition contents (h : fh) : pmap := fun k => if en (DN h k) then Some (vl (DN h k)) else None.
Record inv (n : nat) (h : fh) (m : pmap) : Prop := {
  i_n : length (nds h) = n;
  i_str : exists L, str h L [] (@no);
  i_kok : kok h;
  i_best : best_rt cond d0 h (fun _ => True);
  i_m : forall k, m k = contents h k;
  i_sz : count_is m (sz h) }.
Lemma dn_repeat n k (h : fh) : nds h = repeat (n0 d0) n -> DN h k = n0 d0.
Proof.
  intros E. unfold FibLink.DN. rewrite E. destruct (nth_in_or_default k (repeat (n0 d0) n) (n0 d0)) as [I|]; [|auto]. exact (repeat_spec _ _ _ I).
Qed.
Lemma new_inv n : exists h, fh_new d0 n = Some h /\ inv n h (fun _ => None).
Proof.
  unfold fh_new. destruct (fib_table_ok n) as (k & E & K1 & K2). rewrite E. cbn [obind]. eexists. split; [reflexivity|]. set (h := FH _ _ _ _). assert (D : forall j, DN h j = n0 d0) by (intros j; apply (@dn_repeat n); reflexivity).
  split.
  - apply repeat_length.
  - exists (fun _ => []). split; split.
    + intros o Ok. destruct o as [d|i]; cbn in *; rewrite repeat_length in Ok; rewrite get_repeat by auto; reflexivity.
    + intros o x [].
    + intros o. exact I.
    + intros o. constructor.
    + intros o o' x [].
    + intros o x [].
    + intros o x [].
    + intros o x [].
    + intros o x [].
    + intros x. rewrite D. discriminate.
    + intros x p. rewrite D. discriminate.
    + intros x [].
    + constructor.
    + intros x. rewrite D. discriminate.
    + intros x p. rewrite D. discriminate.
    + intros p j c G. apply get_In in G. destruct G.
    + exists (fun _ => 0). intros x p. rewrite D. discriminate.
  - unfold kok, h. cbn. rewrite !repeat_length. auto.
  - unfold best_rt, h. cbn [rt]. intros x. fold h. rewrite D. discriminate.
  - intros j. unfold contents. now rewrite D.
  - exists []. split; [constructor|]. split; [reflexivity|]. intros j. split; [intros []|congruence].
Qed.
Lemma inv_en n h m k : inv n h m -> en (DN h k) = true <-> m k <> None.
Proof. intros I. rewrite (i_m I). unfold contents. destruct (en (DN h k)); split; congruence. Qed.
Lemma inv_vl n h m k v : inv n h m -> m k = Some v -> en (DN h k) = true /\ vl (DN h k) = v.
Proof. intros I. rewrite (i_m I). unfold contents. destruct (en (DN h k)); [|discriminate]. intros E. injection E as E. auto. Qed.
Lemma no_ex h L X ex : str h L X ex -> (forall x, ~ ex x) -> str h L X (@no).
Proof. intros (R & [S2 S3 S4 S5 S6 S7 S8 S9 S10 S11 S12]) H. split; [auto|]. split; auto. Qed.

Lemma push_new_inv n h m k v : inv n h m -> k < n -> m k = None -> exists h', push_new cond h k v = Some h' /\ inv n h' (p_set m k (Some v)).
Proof.
  intros I Lk Em. destruct (i_str I) as (L & St). assert (Ek : en (DN h k) = false) by (destruct (en (DN h k)) eqn:E; [apply (inv_en k I) in E; congruence|auto]). pose proof (i_n I) as Ln. unfold push_new.
  assert (Lk2 : k < length (nds h)) by lia. destruct (init_ok v St Lk2 Ek) as (h1 & E1 & S1 & Ln1 & Lt1 & Rt1 & Sz1 & D1). rewrite E1. cbn [obind]. assert (K1 : kok h1) by (unfold kok; rewrite Ln1, Lt1; exact (i_kok I)). assert (Dk : DN h1 k = w_init k v (DN h k)) by (now rewrite D1, Nat.eqb_refl). assert (Do : forall j, j <> k -> DN h1 j = DN h j) by (intros j J; apply Nat.eqb_neq in J; now rewrite D1, J).
  destruct (push_root S1 K1) as (h2 & E2 & F2 & S2). rewrite Dk in E2. cbn [w_init dg] in E2. rewrite E2. cbn [obind]. rewrite (sf_rt F2), Rt1.
  assert (En2 : forall j, en (DN h2 j) = if j =? k then true else en (DN h j)) by (intros j; rewrite (sf_en F2), D1; destruct (j =? k); auto). assert (Vl2 : forall j, vl (DN h2 j) = if j =? k then v else vl (DN h j)) by (intros j; rewrite (sf_vl F2), D1; destruct (j =? k); auto). assert (Pk : par (DN h2 k) = None) by (rewrite (sf_par F2), Dk; reflexivity).
  assert (Hb : exists b, (match rt h with None => Some true | Some r => cmp cond h2 r k end) = Some b /\ best_rt cond d0 (if b : bool then with_rt h2 (Some k) else h2) (fun _ => True)).
  { pose proof (i_best I) as B. unfold best_rt in B. destruct (rt h) as [r|] eqn:Er.
    - destruct B as (_ & Ern & Pr & B). assert (Nr : r <> k) by congruence. assert (Nr' := Nr). apply Nat.eqb_neq in Nr'. rewrite (cmp_ok cond d0) by (rewrite (sf_n F2), Ln1; first [exact (en_lt Ern)|lia]). eexists. split; [reflexivity|]. rewrite !Vl2, Nat.eqb_refl, Nr'. destruct (cond (vl (DN h r)) v) eqn:Ec; unfold best_rt; cbn [rt with_rt].
      + change (DN (with_rt h2 (Some k))) with (DN h2). split; [auto|]. split; [now rewrite En2, Nat.eqb_refl|]. split; [auto|]. intros x Ex _. rewrite !Vl2, Nat.eqb_refl. rewrite En2 in Ex. destruct (x =? k); [apply (wo_irr WO)|]. apply (cond_refl_false WO (a := vl (DN h r))); auto.
      + rewrite (sf_rt F2), Rt1. split; [auto|]. split; [now rewrite En2, Nr'|]. split; [rewrite (sf_par F2), Do; auto|]. intros x Ex _. rewrite !Vl2, Nr'. rewrite En2 in Ex. destruct (x =? k); auto.
    - exists true. split; [auto|]. unfold best_rt; cbn [rt with_rt]. change (DN (with_rt h2 (Some k))) with (DN h2). split; [auto|]. split; [now rewrite En2, Nat.eqb_refl|]. split; [auto|]. intros x Ex _. rewrite En2 in Ex. rewrite !Vl2, Nat.eqb_refl. destruct (x =? k); [apply (wo_irr WO)|]. destruct (B x Ex Logic.I). }
  destruct Hb as (b & Eb & Bb). rewrite Eb. cbn [obind]. eexists. split; [reflexivity|]. set (h3 := if b then with_rt h2 (Some k) else h2) in *. assert (D3 : DN h3 = DN h2) by (unfold h3; destruct b; reflexivity). assert (Hn3 : nds h3 = nds h2 /\ tab h3 = tab h2 /\ sz h3 = sz h2) by (unfold h3; destruct b; auto). destruct Hn3 as (N3 & T3 & Z3).
  split.
  - cbn [with_sz nds]. rewrite N3, (sf_n F2). lia.
  - eexists. apply (str_rt (rt h3) (S (sz h3))) in S2. assert (Eh : with_sz (with_rt h2 (rt h3)) (S (sz h3)) = with_sz h3 (S (sz h3))) by (unfold with_sz, with_rt; cbn; now rewrite N3, T3). rewrite Eh in S2. exact S2.
  - unfold kok. cbn [with_sz nds tab]. rewrite N3, T3, (sf_n F2), (sf_t F2). exact K1.
  - exact Bb.
  - intros j. unfold contents. change (DN (with_sz h3 (S (sz h3)))) with (DN h3). rewrite D3, En2, Vl2. unfold p_set. destruct (j =? k); [auto|]. apply (i_m I).
  - cbn [with_sz sz]. rewrite Z3, (sf_sz F2), Sz1. apply count_add; [exact (i_sz I)|auto].
Qed.
Lemma update_live_inv n h m k v w : inv n h m -> m k = Some w -> exists h', update_live cond h k v = Some h' /\ inv n h' (p_set m k (Some (if cond w v then v else w))).
Proof.
  intros I Em. destruct (i_str I) as (L & St). destruct (inv_vl k I Em) as (Ek & Vk). unfold update_live. rewrite (dn_get d0) by exact (en_lt Ek). cbn [obind]. rewrite Vk. destruct (cond w v) eqn:Ec; cbn [negb].
  2: { exists h. split; [auto|]. destruct I as [I1 I2 I3 I4 I5 I6]. split; auto; [|apply count_upd; [auto|congruence]]. intros j. unfold p_set. destruct (Nat.eqb_spec j k) as [->|]; [|apply I5]. rewrite <- I5. auto. }
  rewrite <- Vk in Ec. destruct (value_ok WO St Ek Ec) as (h1 & E1 & S1 & Ln1 & Lt1 & Rt1 & Sz1 & En1 & Vl1 & Pa1). rewrite E1. cbn [obind]. assert (K1 : kok h1) by (unfold kok; rewrite Ln1, Lt1; exact (i_kok I)). assert (Lk := en_lt Ek).
  pose proof (i_best I) as B. unfold best_rt in B. destruct (rt h) as [r|] eqn:Er; [|destruct (B k Ek Logic.I)]. destruct B as (_ & Ern & Pr & B). assert (Vk1 : vl (DN h1 k) = v) by (now rewrite Vl1, Nat.eqb_refl).
  assert (Hc : exists h2 L2, (match par (DN h k) with Some p => let* c := cmp cond h1 p k in if c : bool then consolidate (cfuel h1) h1 k else Some h1 | None => Some h1 end) = Some h2 /\ same_v h1 h2 /\ str h2 L2 [] (@no) /\ (par (DN h2 k) = None \/ exists p, en (DN h1 p) = true /\ p <> k /\ cond (vl (DN h1 p)) v = false) /\ (forall j, par (DN h2 j) = par (DN h1 j) \/ par (DN h2 j) = None)).
  { destruct (par (DN h k)) as [p|] eqn:Ep.
    - assert (Pk1 : par (DN h1 k) = Some p) by (rewrite Pa1; auto). assert (Ek1 : en (DN h1 k) = true) by (rewrite En1; auto). pose proof (s_par (proj2 S1) k Ek1 Pk1) as Ip. destruct (s_chd (proj2 S1) _ _ Ip) as (_ & Epn). assert (Npk : p <> k) by (intros ->; exact (not_self (proj2 S1) Ek1 Pk1)). rewrite (cmp_ok cond d0) by (pose proof (en_lt Epn); lia). cbn [obind]. rewrite Vk1. destruct (cond (vl (DN h1 p)) v) eqn:Ecp.
      + destruct (s_ht (proj2 S1)) as (ht & Ht). destruct (@consolidate_ok _ cond d0 ht (cfuel h1) h1 L (eq k) k [] S1 K1 Ht) as (h2 & L2 & E2 & V2 & S2 & P2 & Pj & _); [rewrite En1; auto|congruence|constructor|intros x []|unfold cfuel; cbn; lia|]. exists h2, L2. split; [auto|]. split; [auto|]. split; [|auto]. apply (no_ex S2). intros x (<- & N). auto.
      + exists h1, L. split; [auto|]. split; [apply same_v_refl|]. split; [|split; [right; exists p; auto|auto]]. destruct S1 as (R & [S2 S3 S4 S5 S6 S7 S8 S9 S10 S11 S12]). split; [auto|]. split; auto. intros x q Ex Px _. destruct (Nat.eq_dec x k) as [->|Nx]; [|apply S10; auto]. rewrite Pk1 in Px. injection Px as <-. now rewrite Vk1.
    - exists h1, L. split; [auto|]. split; [apply same_v_refl|]. split; [|split; [left; rewrite Pa1; auto|auto]]. destruct S1 as (R & [S2 S3 S4 S5 S6 S7 S8 S9 S10 S11 S12]). split; [auto|]. split; auto. intros x q Ex Px _. apply S10; auto. intros <-. rewrite Pa1 in Px. congruence. }
  destruct Hc as (h2 & L2 & E2 & V2 & S2 & P2 & Pj). rewrite E2. cbn [obind]. rewrite (sv_rt V2), Rt1. cbn [obind]. rewrite (cmp_ok cond d0) by (rewrite (sv_n V2), Ln1; first [exact (en_lt Ern)|auto]). cbn [obind]. rewrite !(sv_vl V2), Vk1. eexists. split; [reflexivity|].
  assert (En2 : forall j, en (DN h2 j) = en (DN h j)) by (intros j; rewrite (sv_en V2); auto). assert (Vl2 : forall j, vl (DN h2 j) = if j =? k then v else vl (DN h j)) by (intros j; rewrite (sv_vl V2); auto).
  assert (Br : forall x, en (DN h x) = true -> cond (vl (DN h1 r)) (vl (DN h x)) = false). { intros x Ex. rewrite Vl1. destruct (Nat.eqb_spec r k) as [->|]; [|auto]. apply (cond_refl_false WO (a := vl (DN h k))); auto. }
  set (c := cond (vl (DN h1 r)) v) in *. set (h3 := if c then with_rt h2 (Some k) else h2). assert (D3 : DN h3 = DN h2) by (unfold h3; destruct c; reflexivity). assert (Hn3 : nds h3 = nds h2 /\ tab h3 = tab h2 /\ sz h3 = sz h2) by (unfold h3; destruct c; auto). destruct Hn3 as (N3 & T3 & Z3).
  split.
  - rewrite N3, (sv_n V2), Ln1. exact (i_n I).
  - exists L2. unfold h3. destruct c; [apply (str_rt (Some k) (sz h2)) in S2|]; exact S2.
  - unfold kok. rewrite N3, T3, (sv_n V2), (sv_t V2), Ln1, Lt1. exact (i_kok I).
  - unfold best_rt. rewrite D3. unfold h3, c. destruct (cond (vl (DN h1 r)) v) eqn:Ecr; cbn [rt with_rt].
    + split; [auto|]. split; [now rewrite En2|]. split.
      * destruct P2 as [|(p & Ep & Np & Cp)]; [auto|]. exfalso. rewrite En1 in Ep. specialize (Br p Ep). rewrite Vl1 in Cp. apply Nat.eqb_neq in Np. rewrite Np in Cp. rewrite (wo_neg WO _ _ _ Br Cp) in Ecr. discriminate.
      * intros x Ex _. rewrite En2 in Ex. rewrite !Vl2, Nat.eqb_refl. destruct (x =? k); [apply (wo_irr WO)|]. apply (cond_refl_false WO (a := vl (DN h1 r))); auto.
    + rewrite (sv_rt V2), Rt1. split; [auto|]. split; [now rewrite En2|]. split; [destruct (Pj r) as [E|]; [rewrite E, Pa1; auto|auto]|]. intros x Ex _. rewrite En2 in Ex. rewrite (sv_vl V2 r), Vl2. destruct (x =? k); auto.
  - intros j. unfold contents. rewrite D3, En2, Vl2. unfold p_set. destruct (Nat.eqb_spec j k) as [->|]; [now rewrite Ek|]. apply (i_m I).
  - rewrite Z3, (sv_sz V2), Sz1. apply count_upd; [exact (i_sz I)|congruence].
Qed.
Lemma push_inv n h m k v : inv n h m -> k < n -> exists h', fh_push cond h k v = Some h' /\ inv n h' (p_push cond m k v).
Proof.
  intros I Lk. unfold fh_push. rewrite (dn_get d0) by (rewrite (i_n I); auto). cbn [obind]. unfold p_push. pose proof (i_m I k) as Em. unfold contents in Em. destruct (en (DN h k)); rewrite Em; [apply update_live_inv|apply push_new_inv]; auto.
Qed.
Lemma update_inv n h m k v : inv n h m -> k < n -> exists h', fh_update cond h k v = Some h' /\ inv n h' (p_push cond m k v).
Proof.
  intros I Lk. unfold fh_update. rewrite (dn_get d0) by (rewrite (i_n I); auto). cbn [obind]. unfold p_push. pose proof (i_m I k) as Em. unfold contents in Em. destruct (en (DN h k)); cbn [negb]; rewrite Em; [apply update_live_inv|apply push_new_inv]; auto.
Qed.
(** the common end of pop and erase *)
Lemma finish n h h1 L1 m r : inv n h m -> en (DN h r) = true -> same_w d0 h h1 -> str h1 L1 [r] (@no) -> kok h1 -> L1 (Chd r) = [] -> best_rt cond d0 h1 (fun x => x <> r) ->
  exists h', (let* h := upd_n h1 r (w_en false) in let* _ := guard (1 <=? sz h) in Some (with_sz h (sz h - 1))) = Some h' /\ inv n h' (p_set m r None).
Proof.
  intros I Er W S1 K1 C1 B1. destruct (free_ok S1 C1) as (h2 & E2 & S2 & Ln2 & Lt2 & Rt2 & Sz2 & En2 & Vl2 & Pa2). rewrite E2. cbn [obind]. apply (inv_en r I) in Er. destruct (count_del r (i_sz I) Er) as (H1 & Hc). rewrite Sz2, (sw_sz W). replace (1 <=? sz h) with true by (symmetry; apply Nat.leb_le; auto). cbn [guard obind]. eexists. split; [reflexivity|].
  split.
  - cbn [with_sz nds]. rewrite Ln2, (sw_n W). exact (i_n I).
  - exists L1. apply (str_rt (rt h2) (sz h - 1)) in S2. destruct h2. exact S2.
  - unfold kok. cbn [with_sz nds tab]. rewrite Ln2, Lt2. exact K1.
  - unfold best_rt in *. cbn [with_sz rt]. change (DN (with_sz h2 (sz h - 1))) with (DN h2). rewrite Rt2. destruct (rt h1) as [w|].
    + destruct B1 as (Nw & Ew & Pw & B1). split; [auto|]. rewrite En2. apply Nat.eqb_neq in Nw. rewrite Nw. split; [auto|]. split; [now rewrite Pa2|]. intros x Ex _. rewrite En2 in Ex. rewrite !Vl2. destruct (Nat.eqb_spec x r); [discriminate|auto].
    + intros x Ex _. rewrite En2 in Ex. destruct (Nat.eqb_spec x r); [discriminate|]. exact (B1 x Ex n0).
  - intros j. unfold contents. change (DN (with_sz h2 (sz h - 1))) with (DN h2). rewrite En2, Vl2. unfold p_set. destruct (j =? r); [auto|]. rewrite (i_m I). unfold contents. now rewrite (sw_en W), (sw_vl W).
  - cbn [with_sz sz]. exact Hc.
Qed.
Lemma pop_inv n h m r : inv n h m -> rt h = Some r -> exists h', fh_pop cond h = Some h' /\ inv n h' (p_set m r None).
Proof.
  intros I Er. destruct (i_str I) as (L & St). pose proof (i_best I) as B. unfold best_rt in B. rewrite Er in B. destruct B as (_ & Ern & Pr & B). unfold fh_pop. rewrite Er. cbn [obind]. set (h1 := with_rt h None). assert (S1 : str h1 L [] (@no)) by (apply (str_rt None (sz h)) in St; exact St). change (get (nds h1) r) with (get (nds h) r). rewrite (dn_get d0) by exact (en_lt Ern). cbn [obind].
  destruct (par_none S1 Ern Pr) as (Ir & _). destruct (in_split _ _ Ir) as (l1 & l2 & El). destruct (pop_root S1 El) as (h2 & E2 & F2 & S2). change (dg (DN h1 r)) with (dg (DN h r)) in E2. rewrite E2. cbn [obind]. assert (K2 : kok h2) by (exact (kok_same (same_fv F2) (i_kok I))).
  destruct (expand_ok S2 K2) as (h3 & L3 & E3 & V3 & S3 & C3 & _). rewrite E3. cbn [obind]. assert (K3 := kok_same V3 K2). destruct (extract_loop_ok WO S3 K3) as (h4 & L4 & E4 & W4 & S4 & C4 & B4); [rewrite (sv_rt V3), (sf_rt F2); reflexivity|]. rewrite E4. cbn [obind].
  assert (C4' : L4 (Chd r) = []) by (rewrite C4; [auto|now left]). assert (K4 := kok_w W4 K3). apply (@finish n h h4 L4 m r); auto.
  - apply (same_w_trans (h2 := h3)); [|auto]. apply (same_w_trans (h2 := h1)); [split; auto|]. apply same_vw. exact (same_v_trans (same_fv F2) V3).
  - exact (best_all WO S4 K4 C4' B4).
Qed.
Lemma erase_inv n h m k : inv n h m -> m k <> None -> rt h <> Some k -> exists h', fh_erase cond h k = Some h' /\ inv n h' (p_set m k None).
Proof.
  intros I Em Hr. destruct (i_str I) as (L & St). assert (Ek := proj2 (inv_en k I) Em). assert (Lk := en_lt Ek). unfold fh_erase. rewrite (dn_get d0) by auto. cbn [obind]. rewrite Ek. cbn [guard obind].
  replace (match rt h with Some r => r =? k | None => false end) with false by (destruct (rt h) as [r|]; [symmetry; apply Nat.eqb_neq; congruence|auto]).
  assert (Hc : exists h1 L1, (match par (DN h k) with Some _ => consolidate (cfuel h) h k | None => Some h end) = Some h1 /\ same_v h h1 /\ str h1 L1 [] (@no) /\ par (DN h1 k) = None /\ (forall j, par (DN h1 j) = par (DN h j) \/ par (DN h1 j) = None)).
  { destruct (par (DN h k)) as [p|] eqn:Ep; [|exists h, L; split; [auto|]; split; [apply same_v_refl|auto]]. destruct (s_ht (proj2 St)) as (ht & Ht). destruct (@consolidate_ok _ cond d0 ht (cfuel h) h L (@no) k [] St (i_kok I) Ht) as (h2 & L2 & E2 & V2 & S2 & P2 & Pj & _); [auto|congruence|constructor|intros x []|unfold cfuel; cbn; lia|].
    exists h2, L2. split; [auto|]. split; [auto|]. split; [|auto]. apply (no_ex S2). intros x ([] & _). }
  destruct Hc as (h1 & L1 & E1 & V1 & S1 & P1 & Pj). rewrite E1. cbn [obind]. rewrite (dn_get d0) by (rewrite (sv_n V1); auto). cbn [obind]. rewrite P1. cbn [guard obind]. assert (Ek1 : en (DN h1 k) = true) by (rewrite (sv_en V1); auto). assert (K1 := kok_same V1 (i_kok I)).
  destruct (par_none S1 Ek1 P1) as (Ir & _). destruct (in_split _ _ Ir) as (l1 & l2 & El). destruct (pop_root S1 El) as (h2 & E2 & F2 & S2). rewrite E2. cbn [obind]. assert (K2 : kok h2) by (exact (kok_same (same_fv F2) K1)).
  destruct (expand_ok S2 K2) as (h3 & L3 & E3 & V3 & S3 & C3 & P3). rewrite E3. cbn [obind]. assert (K3 := kok_same V3 K2). assert (V := same_v_trans (same_v_trans V1 (same_fv F2)) V3). apply (@finish n h h3 L3 m k); auto.
  - apply same_vw, V.
  - pose proof (i_best I) as B. unfold best_rt in *. rewrite (sv_rt V). destruct (rt h) as [r|]; [|destruct (B k Ek Logic.I)]. destruct B as (_ & Er & Pr & B). split; [congruence|]. split; [now rewrite (sv_en V)|]. split; [|intros x Ex _; rewrite (sv_en V) in Ex; rewrite !(sv_vl V); auto].
    destruct (P3 r) as [E|]; [|auto]. rewrite E, (sf_par F2). destruct (Pj r) as [E'|]; [rewrite E'|]; auto.
Qed.
Lemma inv_top n h m : inv n h m -> match fh_top h with Some (k, v) => rt h = Some k /\ is_best cond m k v | None => forall k, m k = None end.
Proof.
  intros I. pose proof (i_best I) as B. unfold best_rt in B. unfold fh_top. destruct (rt h) as [r|]; cbn [obind].
  - destruct B as (_ & Er & Pr & B). rewrite (dn_get d0) by exact (en_lt Er). cbn [obind]. rewrite Er. cbn [guard obind]. split; [auto|]. split; [rewrite (i_m I); unfold contents; now rewrite Er|]. intros j w Ej. destruct (inv_vl j I Ej) as (Ejn & <-). auto.
  - intros k. rewrite (i_m I). unfold contents. destruct (en (DN h k)) eqn:E; [destruct (B k E Logic.I)|auto].
Qed.
Lemma inv_get n h m k : inv n h m -> k < n -> fh_get h k = option_map (pair k) (m k).
Proof. intros I Lk. unfold fh_get. rewrite (dn_get d0) by (rewrite (i_n I); auto). cbn [obind]. rewrite (i_m I). unfold contents. destruct (en (DN h k)); reflexivity. Qed.
End Fib.
