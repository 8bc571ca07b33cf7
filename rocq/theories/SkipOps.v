(** Skiplist: get_at, insert_at, erase_at. *)
From Verif Require Import SkipModel BaseLemmas ListExtra SkipInv SkipFr.
Set Implicit Arguments.

Lemma get_put {X} (l : list X) i v p : i <= length l -> get (put_at l i v) p = if p <? i then get l p else if p =? i then Some v else get l (p - 1).
Proof.
  intros L. unfold put_at. assert (Lf : length (firstn i l) = i) by (rewrite firstn_length; lia). destruct (Nat.ltb_spec p i).
  - rewrite get_app_l by lia. apply get_firstn. auto.
  - rewrite get_app_r by lia. rewrite Lf. destruct (Nat.eqb_spec p i) as [->|N]; [now rewrite Nat.sub_diag|]. destruct (p - i) as [|k] eqn:E; [lia|]. cbn. rewrite get_skipn. f_equal. lia.
Qed.
Lemma get_del {X} (l : list X) i p : i < length l -> get (del_at l i) p = if p <? i then get l p else get l (S p).
Proof.
  intros L. unfold del_at. assert (Lf : length (firstn i l) = i) by (rewrite firstn_length; lia). destruct (Nat.ltb_spec p i).
  - rewrite get_app_l by lia. apply get_firstn. auto.
  - rewrite get_app_r by lia. rewrite Lf, get_skipn. f_equal. lia.
Qed.
Lemma put_length {X} (l : list X) i v : i <= length l -> length (put_at l i v) = S (length l).
Proof. intros. unfold put_at. rewrite app_length, firstn_length. cbn. rewrite skipn_length. lia. Qed.
Lemma del_length {X} (l : list X) i : i < length l -> length (del_at l i) = length l - 1.
Proof. intros. unfold del_at. rewrite app_length, firstn_length, skipn_length. lia. Qed.

Section Skip.
Variable T : Type.
Implicit Types (s : skl T) (a : list nat).

(** * get_at *)
Lemma get_lv_ok s a es t r : wf s a es -> 0 < t <= length es -> forall u p, get a p = Some u -> p < t -> nxt s u r <> None -> get_lv (S r) s u (t - p) = Some (get a t).
Proof.
  intros W Ht. destruct (@get_lt _ a t ltac:(rewrite (w_len W); lia)) as (z & Gz). induction r as [|r IH]; intros u p G Hp Hn.
  - cbn [get_lv]. destruct (adv_len_ok (wf_bound W) (w_lv W 0) G Hp Hn) as (u' & p' & E & St). rewrite E. cbn [obind]. pose proof St as (G' & Hp' & Hn' & _). destruct (some_of Hn') as (o & Eo). rewrite Eo. cbn [obind]. pose proof (stop_next (w_lv W 0) St Eo) as H. destruct o as [x|].
    + destruct H as (q & H1 & H2 & H3 & H4 & [->|H5]); [|exfalso; exact (wf_base W Gz (H5 z Gz))]. rewrite H3. cbn [obind]. rewrite Nat.eqb_refl. congruence.
    + exfalso. exact (wf_base W Gz (H t z (le_n _) Gz)).
  - remember (S r) as R. cbn [get_lv]. destruct (adv_len_ok (wf_bound W) (w_lv W R) G Hp Hn) as (u' & p' & E & St). rewrite E. cbn [obind]. pose proof St as (G' & Hp' & Hn' & _). destruct (some_of Hn') as (o & Eo). rewrite Eo. cbn [obind]. pose proof (stop_next (w_lv W R) St Eo) as H. subst R.
    assert (Next : get_lv (S r) s u' (t - p') = Some (get a t)) by (apply IH; [auto|lia|apply (wf_down W G' Hn'); lia]).
    destruct o as [x|]; [|exact Next]. destruct H as (q & H1 & H2 & H3 & H4 & H5). rewrite H3. cbn [obind]. destruct (Nat.eqb_spec (q - p') (t - p')); [|exact Next]. assert (q = t) by lia. subst q. congruence.
Qed.
Theorem get_at_ok s a es i : wf s a es -> get_at s i = Some (get a (S i)).
Proof.
  intros W. unfold get_at. rewrite (w_sz W). destruct (Nat.leb_spec (length es) i).
  - rewrite (get_none a); [reflexivity|rewrite (w_len W); lia].
  - replace (S i) with (S i - 0) at 1 by lia. apply get_lv_ok with (es := es); [auto|lia|exact (w_0 W)|lia|]. apply (w_sent W). pose proof (w_h W). lia.
Qed.

(** * insert_at *)
Definition same_off s s' (r : nat) : Prop := forall z k, k <> r -> nxt s' z k = nxt s z k /\ len s' z k = len s z k.
Lemma lvl_off s s' r k a : same_off s s' r -> k <> r -> lvl s k a -> lvl s' k a.
Proof. intros O N. apply lv_ext. intros u _. apply O. auto. Qed.
Section Ins.
Variables (a1 a2 : list nat) (w : nat).
Notation A := (a1 ++ a2).
Notation B := (a1 ++ w :: a2).
Notation t := (length a1).
Hypothesis ND : NoDup B.
Section Step.
Variables (s : skl T) (r u p : nat) (o : option nat).
Hypothesis L : lvl s r A.
Hypothesis Gu : get A p = Some u.
Hypothesis Hp : p < t.
Hypothesis Gap : forall y z, p < y < t -> get A y = Some z -> nxt s z r = None.
Hypothesis Eo : nxt s u r = Some o.
Lemma len_u : exists l, len s u r = Some l /\ (o <> None -> t - p <= l).
Proof.
  pose proof (@L _ _ _ Gu Eo) as H. cbn beta in H. destruct o as [x|]; [|exists 0; split; [tauto|congruence]]. destruct H as (q & H1 & H2 & H3 & H4 & H5). exists (q - p). split; [auto|]. intros _. destruct (Nat.lt_ge_cases q t); [|lia]. exfalso. apply H3, (Gap (y := q)); [lia|auto].
Qed.
Lemma link_step l lw : nxt s w r <> None -> len s w r <> None -> len s u r = Some l -> lw = match o with Some _ => l - (t - p - 1) | None => 0 end ->
  exists s', (let* s := set_len s w r lw in let* s := set_len s u r (t - p) in let* s := set_nxt s w r o in set_nxt s u r (Some w)) = Some s' /\ fr s s' /\ same_off s s' r /\ lvl s' r B.
Proof.
  intros Nw Lw El Elw. assert (Huw : u <> w) by (eapply u_w; [exact ND|exact Gu]).
  destruct (set_len_ok s w r lw Lw) as (s1 & E1 & F1 & N1 & K1 & V1). rewrite E1. cbn [obind].
  destruct (@set_len_ok T s1 u r (t - p)) as (s2 & E2 & F2 & N2 & K2 & V2); [rewrite K1 by auto; congruence|]. rewrite E2. cbn [obind].
  destruct (@set_nxt_ok T s2 w r o) as (s3 & E3 & F3 & N3 & K3 & V3); [rewrite N2, N1; auto|]. rewrite E3. cbn [obind].
  destruct (@set_nxt_ok T s3 u r (Some w)) as (s4 & E4 & F4 & N4 & K4 & V4); [rewrite K3, N2, N1 by auto; congruence|]. rewrite E4.
  exists s4. split; [reflexivity|]. split; [eauto using fr_trans|]. split.
  - intros z k Nk. rewrite K4, K3, N2, N1, N4, N3, K2, K1 by auto. auto.
  - apply (@lv_link a1 a2 w ND (fun z => nxt s z r) (fun z => nxt s4 z r) (fun z => len s z r) (fun z => len s4 z r) u p Gu Hp Gap o L Eo).
    + intros z N N'. rewrite K4, K3, N2, N1, N4, N3, K2, K1 by auto. auto.
    + rewrite K4 by auto. exact V3.
    + exact V4.
    + rewrite N4, N3. exact V2.
    + rewrite N4, N3, K2, V1, El by auto. subst lw. destruct o; reflexivity.
Qed.
Lemma pass_step : nxt s w r = None -> exists s', (match o with Some _ => let* l := len s u r in set_len s u r (S l) | None => Some s end) = Some s' /\ fr s s' /\ same_off s s' r /\ lvl s' r B.
Proof.
  intros Nw. destruct len_u as (l & El & _). destruct o as [x|].
  - rewrite El. cbn [obind]. destruct (@set_len_ok T s u r (S l)) as (s1 & E1 & F1 & N1 & K1 & V1); [congruence|]. exists s1. split; [auto|]. split; [auto|]. split; [intros z k Nk; rewrite N1, K1 by auto; auto|].
    apply (@lv_pass a1 a2 w ND (fun z => nxt s z r) (fun z => nxt s1 z r) (fun z => len s z r) (fun z => len s1 z r) u p Gu Hp Gap (Some x) L Eo); [intros; apply N1|auto|intros; apply K1; auto|rewrite El; auto].
  - exists s. split; [auto|]. split; [apply fr_refl|]. split; [split; auto|].
    apply (@lv_pass a1 a2 w ND (fun z => nxt s z r) (fun z => nxt s z r) (fun z => len s z r) (fun z => len s z r) u p Gu Hp Gap None L Eo); auto.
Qed.
End Step.
Variable hw : nat.
Definition downc s : Prop := forall z r r', In z A -> nxt s z r <> None -> r' <= r -> nxt s z r' <> None.
Lemma downc_fr s s' : fr s s' -> downc s -> downc s'.
Proof. intros F D z r r' I H L E. apply (f_up F) in E. revert E. apply (D z r r' I); [|auto]. intros E. apply H, (f_up F), E. Qed.
Definition new_up s : Prop := (forall r, r <= hw -> nxt s w r <> None /\ len s w r <> None) /\ (forall r, hw < r -> nxt s w r = None).
Lemma new_up_fr s s' : fr s s' -> new_up s -> new_up s'.
Proof.
  intros F (H1 & H2). split.
  - intros r L. destruct (H1 r L) as (N1 & N2). split; intros E; [apply N1, (f_up F), E|apply N2, (f_ln F), E].
  - intros r L. apply (f_up F). auto.
Qed.
Lemma ins_lv_ok k : forall s u p, length A <= length (sk_n s) -> downc s -> new_up s -> (forall r, r < k -> lvl s r A) -> (forall r, k <= r -> lvl s r B) -> get A p = Some u -> p < t -> (forall r, r < k -> nxt s u r <> None) ->
  exists s', ins_lv k s u (t - p) w hw = Some s' /\ fr s s' /\ forall r, lvl s' r B.
Proof.
  induction k as [|r IH]; intros s u p Hl Dc Nu LA LB Gu Hp Up; [exists s; split; [reflexivity|]; split; [apply fr_refl|]; intros r; apply LB; lia|].
  cbn [ins_lv]. destruct (adv_len_ok Hl (LA r ltac:(lia)) Gu Hp (Up r ltac:(lia))) as (u' & p' & E & G' & Hp' & Hn' & Gap). rewrite E. cbn [obind]. destruct (some_of Hn') as (o & Eo). rewrite Eo. cbn [obind].
  assert (Step : exists s', (if r <=? hw then let* lw := match o with Some _ => let* l := len s u' r in sub l (t - p' - 1) | None => Some 0 end in let* s0 := set_len s w r lw in let* s1 := set_len s0 u' r (t - p') in let* s2 := set_nxt s1 w r o in set_nxt s2 u' r (Some w) else match o with Some _ => let* l := len s u' r in set_len s u' r (S l) | None => Some s end) = Some s' /\ fr s s' /\ same_off s s' r /\ lvl s' r B).
  { destruct (@len_u s r u' p' o (LA r ltac:(lia)) G' ltac:(lia) Gap Eo) as (l & El & Hl'). destruct (Nat.leb_spec r hw).
    - destruct (proj1 Nu r H) as (N1 & N2). destruct (@link_step s r u' p' o (LA r ltac:(lia)) G' ltac:(lia) Gap Eo l _ N1 N2 El eq_refl) as (s' & E' & R). exists s'. split; [|exact R]. rewrite <- E'. destruct o as [x|]; [|reflexivity]. rewrite El. cbn [obind]. unfold sub. specialize (Hl' ltac:(discriminate)). destruct (Nat.leb_spec (t - p' - 1) l); [reflexivity|lia].
    - apply (@pass_step s r u' p' o (LA r ltac:(lia)) G' ltac:(lia) Gap Eo). apply (proj2 Nu). auto. }
  destruct Step as (s' & Es & F & O & Lr). rewrite Es. cbn [obind]. destruct (IH s' u' p') as (s2 & E2 & F2 & L2).
  - rewrite (f_n F). auto.
  - exact (downc_fr F Dc).
  - exact (new_up_fr F Nu).
  - intros k Lk. apply (lvl_off O); [lia|]. apply LA. lia.
  - intros k Lk. destruct (Nat.eq_dec k r) as [->|N]; [exact Lr|]. apply (lvl_off O); [auto|]. apply LB. lia.
  - auto.
  - lia.
  - intros k Lk Ek. apply (f_up F) in Ek. revert Ek. apply (Dc u' r k (get_In _ _ G') Hn'). lia.
  - exists s2. split; [exact E2|]. split; [eauto using fr_trans|auto].
Qed.
End Ins.

(** the state after the new node is made *)
Record made s s1 (w : nat) (v : T) (hw : nat) : Prop := {
  m_w : w = length (sk_n s); m_h : sk_h s1 = Nat.max (sk_h s) hw; m_sz : sk_size s1 = sk_size s; m_st : sk_stack s1 = sk_stack s; m_ix : sk_idx s1 = sk_idx s; m_n : length (sk_n s1) = S w; m_v : val s1 w = Some v;
  m_nx : forall r, nxt s1 w r = if r <=? hw then Some None else None; m_ln : forall r, len s1 w r = if r <=? hw then Some 0 else None;
  m_old : forall z, z < w -> val s1 z = val s z /\ forall r, nxt s1 z r = nxt s z r /\ len s1 z r = len s z r }.
Lemma made_ok s v hw s1 w : new_node (if sk_h s <? hw then with_h s hw else s) v hw = (s1, w) -> made s s1 w v hw.
Proof.
  intros E. apply new_node_ok in E. destruct (Nat.ltb_spec (sk_h s) hw); destruct E as (H1 & H2 & H3 & H4 & H5 & H6 & H7 & H8 & H9 & H10); split; auto; rewrite H2; cbn; lia.
Qed.
Lemma wf_made_lvl s a es s1 w v hw r : wf s a es -> made s s1 w v hw -> lvl s1 r a.
Proof. intros W M. refine (lv_ext _ (w_lv W r)). intros u I. apply (m_old M). rewrite (m_w M). exact (w_lt W u I). Qed.
Lemma wf_w_fresh s a es s1 w v hw : wf s a es -> made s s1 w v hw -> ~ In w a.
Proof. intros W M I. pose proof (w_lt W _ I). rewrite (m_w M) in *. lia. Qed.
Lemma put_nd a i w : i <= length a -> NoDup a -> ~ In w a -> NoDup (put_at a i w).
Proof. intros L N I. unfold put_at. apply nd_ins; rewrite firstn_skipn; auto. Qed.
Lemma In_put {X} (l : list X) i v x : In x (put_at l i v) -> x = v \/ In x l.
Proof. unfold put_at. intros I. rewrite <- (firstn_skipn i l). rewrite !in_app_iff in *. cbn in I. intuition. Qed.
(** above the top level only the sentinel is left *)
Lemma lvl_high s a es s1 w v hw r t : wf s a es -> made s s1 w v hw -> 0 < t <= length a -> Nat.max (sk_h s) hw < r -> lvl s1 r (put_at a t w).
Proof.
  intros W M Ht Hr. assert (Hz : forall y z, 0 < y -> get (put_at a t w) y = Some z -> nxt s1 z r = None).
  { intros y z Hy G. rewrite get_put in G by lia. assert (C : forall q, 0 < q -> get a q = Some z -> nxt s1 z r = None). { intros q Hq Gq. destruct (m_old M (z := z)) as (_ & E); [rewrite (m_w M); exact (w_lt W _ (get_In _ _ Gq))|]. destruct (E r) as (-> & _). destruct (nxt s z r) eqn:Ez; [|auto]. pose proof (wf_top W Gq (r := r) ltac:(congruence) Hq). lia. }
    destruct (Nat.ltb_spec y t); [eauto|]. destruct (Nat.eqb_spec y t); [|apply (C (y - 1)); [lia|auto]]. injection G as <-. rewrite (m_nx M). destruct (Nat.leb_spec r hw); [lia|auto]. }
  intros p u o G Eo. destruct p as [|p]; [|rewrite (Hz (S p) u) in Eo; [discriminate|lia|auto]].
  rewrite get_put in G by lia. destruct (Nat.ltb_spec 0 t); [|lia]. assert (Lu : u < w) by (rewrite (m_w M); exact (w_lt W _ (get_In _ _ G))). destruct (m_old M Lu) as (_ & E). destruct (E r) as (E1 & E2). rewrite E1 in Eo. pose proof (w_lv W r _ G Eo) as H0. cbn beta in H0. destruct o as [x|].
  - exfalso. destruct H0 as (q & H1 & H2 & H3 & _). pose proof (wf_top W H2 H3 ltac:(lia)). lia.
  - destruct H0 as (H0 & _). rewrite E2. split; [auto|]. eauto.
Qed.
Lemma wf_ins s a es s1 w v hw s2 i : wf s a es -> hw <= kmax -> i <= length es -> made s s1 w v hw -> fr s1 s2 -> (forall r, lvl s2 r (put_at a (S i) w)) -> wf (with_size s2 (S (sk_size s2))) (put_at a (S i) w) (put_at es i (hw, v)).
Proof.
  intros W Hw Hi M F L. assert (La := w_len W). split; cbn [with_size sk_n sk_h sk_size sk_stack sk_idx].
  - apply put_nd; [lia|exact (w_nd W)|exact (wf_w_fresh W M)].
  - rewrite get_put by lia. exact (w_0 W).
  - intros x I. rewrite (f_n F), (m_n M). apply In_put in I as [->|I]; [lia|]. pose proof (w_lt W _ I). rewrite (m_w M). lia.
  - rewrite !put_length by lia. lia.
  - rewrite put_length, (f_sz F), (m_sz M), (w_sz W) by lia. reflexivity.
  - rewrite (f_h F), (m_h M). pose proof (w_h W). lia.
  - intros r. change (nxt _ 0 r) with (nxt s2 0 r). rewrite (f_up F). destruct (m_old M (z := 0)) as (_ & E); [rewrite (m_w M); exact (w_lt W _ (get_In _ _ (w_0 W)))|]. destruct (E r) as (-> & _). apply (w_sent W).
  - intros p u e G Ge. change (val _ u) with (val s2 u). rewrite (f_val F), (f_h F), (m_h M).
    assert (C : forall p, get a (S p) = Some u -> get es p = Some e -> val s1 u = Some (snd e) /\ (forall r, nxt (with_size s2 (S (sk_size s2))) u r <> None <-> r <= fst e) /\ fst e <= Nat.max (sk_h s) hw).
    { intros p' G' Ge'. destruct (w_el W _ G' Ge') as (H1 & H2 & H3). destruct (m_old M (z := u)) as (E0 & E); [rewrite (m_w M); exact (w_lt W _ (get_In _ _ G'))|]. rewrite E0. split; [auto|]. split; [|lia]. intros r. change (nxt _ u r) with (nxt s2 u r). rewrite (f_up F). destruct (E r) as (-> & _). apply H2. }
    rewrite get_put in G by lia. rewrite get_put in Ge by lia. change (S p <? S i) with (p <? i) in G. change (S p =? S i) with (p =? i) in G. destruct (Nat.ltb_spec p i); [exact (C p G Ge)|]. destruct (Nat.eqb_spec p i).
    + injection G as <-. injection Ge as <-. split; [exact (m_v M)|]. cbn [fst snd]. split; [|lia]. intros r. change (nxt _ w r) with (nxt s2 w r). rewrite (f_up F), (m_nx M). destruct (Nat.leb_spec r hw); split; intros; try lia; congruence.
    + apply (C (p - 1)); [|exact Ge]. replace (S (p - 1)) with (S p - 1) by lia. exact G.
  - intros r. exact (L r).
  - rewrite (f_st F), (f_ix F), (m_st M), (m_ix M), (f_h F), (m_h M). destruct (w_st W) as (H1 & H2 & H3). split; [auto|]. split; [auto|]. intros r Hr. apply H3. lia.
Qed.
Theorem insert_at_ok s a es hw i v : wf s a es -> hw <= kmax -> i <= length es -> exists s' w, insert_at s hw i v = Some (s', Some w) /\ wf s' (put_at a (S i) w) (put_at es i (hw, v)).
Proof.
  intros W Hw Hi. assert (La := w_len W). unfold insert_at. rewrite (w_sz W). destruct (Nat.ltb_spec (length es) i); [lia|]. destruct (new_node _ v hw) as (s1, w) eqn:En. pose proof (made_ok _ En) as M.
  assert (La1 : length (firstn (S i) a) = S i) by (rewrite firstn_length; lia). assert (Ea : firstn (S i) a ++ skipn (S i) a = a) by apply firstn_skipn. assert (L1 : forall r, lvl s1 r a) by (intros r; exact (wf_made_lvl r W M)).
  assert (ND : NoDup (firstn (S i) a ++ w :: skipn (S i) a)) by (apply put_nd; [lia|exact (w_nd W)|exact (wf_w_fresh W M)]).
  assert (L0 : 0 < w) by (rewrite (m_w M); exact (w_lt W _ (get_In _ _ (w_0 W)))).
  assert (Up0 : forall r, r <= kmax -> nxt s1 0 r <> None) by (intros r Hr; destruct (m_old M L0) as (_ & E); destruct (E r) as (-> & _); apply (w_sent W); auto).
  destruct (@ins_lv_ok _ _ w ND hw (S (sk_h s1)) s1 0 0) as (s2 & E2 & F & L).
  - rewrite Ea, (m_n M). pose proof (wf_bound W). rewrite (m_w M). lia.
  - unfold downc. rewrite Ea. intros z r r' I H0 Lr. assert (Lz : z < w) by (rewrite (m_w M); exact (w_lt W _ I)). destruct (m_old M Lz) as (_ & E). destruct (E r) as (E1 & _). rewrite E1 in H0. destruct (E r') as (-> & _). destruct (In_get _ _ I) as (q & _ & Gq). exact (wf_down W Gq H0 Lr).
  - split; intros r Hr; rewrite (m_nx M); [rewrite (m_ln M)|]; destruct (Nat.leb_spec r hw); try lia; [split; discriminate|reflexivity].
  - rewrite Ea. intros r _. apply L1.
  - intros r Hr. rewrite (m_h M) in Hr. apply (lvl_high (r := r) (t := S i) W M); lia.
  - rewrite Ea. exact (w_0 W).
  - lia.
  - intros r Hr. apply Up0. pose proof (w_h W). rewrite (m_h M) in Hr. lia.
  - rewrite La1, Nat.sub_0_r in E2. rewrite E2. cbn [obind]. eexists _, w. split; [reflexivity|]. apply (wf_ins (s := s) (s1 := s1)); auto.
Qed.
Lemma insert_at_out s a es hw i v : wf s a es -> length es < i -> insert_at s hw i v = Some (s, None).
Proof. intros W L. unfold insert_at. rewrite (w_sz W). destruct (Nat.ltb_spec (length es) i); [reflexivity|lia]. Qed.

(** * erase_at *)
Section Era.
Variables (a1 a2 : list nat) (w : nat).
Notation A := (a1 ++ a2).
Notation B := (a1 ++ w :: a2).
Notation t := (length a1).
Hypothesis ND : NoDup B.
Lemma AB p z : p < t -> get A p = Some z <-> get B p = Some z.
Proof. intros L. rewrite !get_app_l by auto. reflexivity. Qed.
Section Step.
Variables (s : skl T) (r u p : nat) (o : option nat).
Hypothesis L : lvl s r B.
Hypothesis Gu : get B p = Some u.
Hypothesis Hp : p < t.
Hypothesis Gap : forall y z, p < y < t -> get B y = Some z -> nxt s z r = None.
Hypothesis Eo : nxt s u r = Some o.
Let GuA : get A p = Some u. Proof. apply AB; auto. Qed.
Let GapA : forall y z, p < y < t -> get A y = Some z -> nxt s z r = None. Proof. intros y z Hy G. apply (Gap Hy). apply AB; [lia|auto]. Qed.
Lemma unlink_step n y lw : o = Some w -> nxt s w r = Some y -> len s w r = Some lw -> n = match y with Some _ => t - p + lw - 1 | None => 0 end ->
  exists s', (let* s := set_len s u r n in set_nxt s u r y) = Some s' /\ fr s s' /\ same_off s s' r /\ lvl s' r A.
Proof.
  intros Ew Ey Elw En. assert (Huw : u <> w) by (eapply u_w; [exact ND|exact GuA]). assert (Lu : len s u r <> None) by (pose proof (@L _ _ _ Gu Eo) as H; cbn beta in H; rewrite Ew in H; destruct H as (q & _ & _ & _ & H & _); congruence).
  destruct (set_len_ok s u r n Lu) as (s1 & E1 & F1 & N1 & K1 & V1). rewrite E1. cbn [obind].
  destruct (@set_nxt_ok T s1 u r y) as (s2 & E2 & F2 & N2 & K2 & V2); [rewrite N1; congruence|]. rewrite E2. exists s2. split; [reflexivity|]. split; [eauto using fr_trans|]. split.
  - intros z k Nk. rewrite K2, N1, N2, K1 by auto. auto.
  - apply (@lv_unlink a1 a2 w ND (fun z => nxt s z r) (fun z => nxt s2 z r) (fun z => len s z r) (fun z => len s2 z r) u p GuA Hp GapA y lw L); [congruence|auto|auto| |exact V2|].
    + intros z N. rewrite K2, N1, N2, K1 by auto. auto.
    + rewrite N2, V1. subst n. destruct y; reflexivity.
Qed.
Lemma skip_step : nxt s w r = None -> exists s', (match o with Some _ => let* l := len s u r in let* n := sub l 1 in set_len s u r n | None => Some s end) = Some s' /\ fr s s' /\ same_off s s' r /\ lvl s' r A.
Proof.
  intros Nw. pose proof (@L _ _ _ Gu Eo) as H. cbn beta in H. destruct o as [x|].
  - destruct H as (q & H1 & H2 & H3 & H4 & H5). rewrite H4. cbn [obind]. unfold sub. destruct (Nat.leb_spec 1 (q - p)); [|lia]. cbn [guard obind]. destruct (@set_len_ok T s u r (q - p - 1)) as (s1 & E1 & F1 & N1 & K1 & V1); [congruence|]. exists s1. split; [auto|]. split; [auto|]. split; [intros z k Nk; rewrite N1, K1 by auto; auto|].
    apply (@lv_skip a1 a2 w ND (fun z => nxt s z r) (fun z => nxt s1 z r) (fun z => len s z r) (fun z => len s1 z r) u p GuA Hp GapA (Some x) L Eo); [auto|intros; apply N1|intros; apply K1; auto|rewrite H4; auto].
  - exists s. split; [auto|]. split; [apply fr_refl|]. split; [split; auto|].
    apply (@lv_skip a1 a2 w ND (fun z => nxt s z r) (fun z => nxt s z r) (fun z => len s z r) (fun z => len s z r) u p GuA Hp GapA None L Eo); auto.
Qed.
End Step.
Definition dn s : Prop := forall z r r', In z B -> nxt s z r <> None -> r' <= r -> nxt s z r' <> None.
Lemma dn_fr s s' : fr s s' -> dn s -> dn s'.
Proof. intros F D z r r' I H L E. apply (f_up F) in E. revert E. apply (D z r r' I); [|auto]. intros E. apply H, (f_up F), E. Qed.
Lemma wB : get B t = Some w. Proof. apply ins_at. Qed.
Lemma era_lv_ok k : forall s u p, length B <= length (sk_n s) -> dn s -> (forall z, In z B -> nxt s z 0 <> None) -> (forall r, r < k -> lvl s r B) -> (forall r, k <= r -> lvl s r A) -> get B p = Some u -> p < t -> (forall r, r < k -> nxt s u r <> None) ->
  exists s' u' p', era_lv k s u (t - p) = Some (s', u') /\ fr s s' /\ (forall r, lvl s' r A) /\ get A p' = Some u' /\ p' < t /\ (0 < k -> S p' = t).
Proof.
  induction k as [|r IH]; intros s u p Hl Dc Hb LB LA Gu Hp Up.
  { exists s, u, p. split; [reflexivity|]. split; [apply fr_refl|]. split; [intros r; apply LA; lia|]. split; [apply AB; auto|]. split; [auto|lia]. }
  cbn [era_lv]. destruct (adv_len_ok Hl (LB r ltac:(lia)) Gu Hp (Up r ltac:(lia))) as (u' & p' & E & St). rewrite E. cbn [obind]. pose proof St as (G' & Hp' & Hn' & Gap). destruct (some_of Hn') as (o & Eo). rewrite Eo. cbn [obind].
  match goal with |- context [obind ?m (fun s => era_lv r s u' _)] => set (stp := m) end.
  assert (Step : exists s', stp = Some s' /\ fr s s' /\ same_off s s' r /\ lvl s' r A).
  { pose proof (stop_next (LB r ltac:(lia)) St Eo) as H. unfold stp. destruct (nxt s w r) as [y|] eqn:Ew.
    - destruct o as [x|]; [|rewrite (H t w (le_n _) wB) in Ew; discriminate]. destruct H as (q & H1 & H2 & H3 & H4 & [->|H5]); [|rewrite (H5 w wB) in Ew; discriminate]. assert (x = w) by (pose proof wB; congruence). subst x. rewrite H3. cbn [obind]. rewrite Nat.eqb_refl.
      pose proof (LB r ltac:(lia) _ _ _ wB Ew) as Hw. cbn beta in Hw. assert (El : exists lw, len s w r = Some lw /\ (lw = 0 <-> y = None)). { destruct y as [x|]; [|exists 0; tauto]. destruct Hw as (q & Q1 & _ & _ & Q4 & _). exists (q - t). split; [auto|]. split; [lia|discriminate]. }
      destruct El as (lw & El & Z). rewrite El. cbn [obind]. destruct (@unlink_step s r u' p' (Some w) (LB r ltac:(lia)) G' ltac:(lia) Gap Eo (match y with Some _ => t - p' + lw - 1 | None => 0 end) y lw eq_refl Ew El eq_refl) as (s' & E' & R). exists s'. split; [|exact R].
      assert (En : (if negb (lw =? 0) then sub (t - p' + lw) 1 else Some 0) = Some (match y with Some _ => t - p' + lw - 1 | None => 0 end)). { destruct (Nat.eqb_spec lw 0) as [Zl|Zl]; cbn [negb]; [apply Z in Zl; subst y; reflexivity|]. destruct y; [|tauto]. unfold sub. destruct (Nat.leb_spec 1 (t - p' + lw)); [reflexivity|lia]. }
      rewrite En. cbn [obind]. destruct (set_len s u' r _) as [s0|] eqn:E0; [|exact E']. cbn [obind] in *. replace (nxt s0 w r) with (Some y); [exact E'|]. destruct (@set_len_ok T s u' r (match y with Some _ => t - p' + lw - 1 | None => 0 end)) as (s1 & Q1 & _ & Q2 & _); [congruence|]. rewrite E0 in Q1. injection Q1 as <-. rewrite Q2. auto.
    - destruct (@skip_step s r u' p' o (LB r ltac:(lia)) G' ltac:(lia) Gap Eo Ew) as (s' & E' & R). exists s'. split; [|exact R]. rewrite <- E'. destruct o as [x|]; [|reflexivity]. destruct H as (q & H1 & H2 & H3 & H4 & H5). rewrite H3. cbn [obind]. destruct (Nat.eqb_spec (q - p') (t - p')); [|reflexivity]. assert (q = t) by lia. subst q. pose proof wB. congruence. }
  destruct Step as (s' & Es & F & O & Lr). rewrite Es. cbn [obind]. destruct (IH s' u' p') as (s2 & u2 & p2 & E2 & F2 & L2 & G2 & Hp2 & Hk).
  - rewrite (f_n F). auto.
  - exact (dn_fr F Dc).
  - intros z I Ez. apply (f_up F) in Ez. exact (Hb z I Ez).
  - intros k Lk. apply (lvl_off O); [lia|]. apply LB. lia.
  - intros k Lk. destruct (Nat.eq_dec k r) as [->|N]; [exact Lr|]. apply (lvl_off O); [auto|]. apply LA. lia.
  - auto.
  - lia.
  - intros k Lk Ek. apply (f_up F) in Ek. revert Ek. apply (Dc u' r k (get_In _ _ G') Hn'). lia.
  - exists s2, u2, p2. split; [exact E2|]. split; [eauto using fr_trans|]. do 3 (split; [auto|]). intros _. destruct r as [|r]; [|apply Hk; lia]. cbn in E2. injection E2 as <- <-.
    assert (p2 = p'). { apply (get_uniq (ndA _ _ _ ND) G2). apply AB; [lia|auto]. } subst p2. destruct (Nat.eq_dec (S p') t); [auto|]. exfalso. destruct (@get_lt _ B (S p')) as (z & Gz); [rewrite app_length; cbn; lia|]. apply (Hb z (get_In _ _ Gz)). apply (Gap (S p')); [lia|auto].
Qed.
End Era.
Lemma In_del {X} (l : list X) i x : In x (del_at l i) -> In x l.
Proof. unfold del_at. rewrite in_app_iff. intros [I|I]; [rewrite <- (firstn_skipn i l); apply in_or_app; auto|rewrite <- (firstn_skipn (S i) l); apply in_or_app; auto]. Qed.
Lemma split_at {X} (l : list X) i x : get l i = Some x -> l = firstn i l ++ x :: skipn (S i) l.
Proof. intros G. rewrite <- (skipn_get_cons _ _ G). symmetry. apply firstn_skipn. Qed.
Lemma wf_del s a es s2 i : wf s a es -> i < length es -> fr s s2 -> (forall r, lvl s2 r (del_at a (S i))) -> wf (with_size s2 (sk_size s2 - 1)) (del_at a (S i)) (del_at es i).
Proof.
  intros W Hi F L. assert (La := w_len W). destruct (@get_lt _ a (S i) ltac:(lia)) as (w & Gw). split; cbn [with_size sk_n sk_h sk_size sk_stack sk_idx].
  - pose proof (w_nd W) as N. rewrite (split_at _ _ Gw) in N. exact (NoDup_remove_1 _ _ _ N).
  - rewrite get_del by lia. exact (w_0 W).
  - intros x I. rewrite (f_n F). exact (w_lt W _ (In_del _ _ _ I)).
  - rewrite !del_length by lia. lia.
  - rewrite del_length, (f_sz F), (w_sz W) by lia. reflexivity.
  - rewrite (f_h F). exact (w_h W).
  - intros r. change (nxt _ 0 r) with (nxt s2 0 r). rewrite (f_up F). apply (w_sent W).
  - intros p u e G Ge. rewrite get_del in G by lia. rewrite get_del in Ge by lia. change (S p <? S i) with (p <? i) in G. assert (C : forall p, get a (S p) = Some u -> get es p = Some e -> val s2 u = Some (snd e) /\ (forall r, nxt (with_size s2 (sk_size s2 - 1)) u r <> None <-> r <= fst e) /\ fst e <= sk_h s2).
    { intros p' G' Ge'. destruct (w_el W _ G' Ge') as (H1 & H2 & H3). rewrite (f_val F), (f_h F). split; [auto|]. split; [|auto]. intros r. change (nxt _ u r) with (nxt s2 u r). rewrite (f_up F). apply H2. }
    destruct (p <? i); eauto.
  - intros r. exact (L r).
  - rewrite (f_st F), (f_ix F), (f_h F). exact (w_st W).
Qed.
(** above the top level, the sentinel alone *)
Lemma lvl_high_del s a es r i w : wf s a es -> get a (S i) = Some w -> sk_h s < r -> lvl s r (del_at a (S i)).
Proof.
  intros W Gw Hr. pose proof (get_some_lt _ _ Gw) as Li. assert (Hz : forall y z, 0 < y -> get a y = Some z -> nxt s z r = None).
  { intros y z Hy G. destruct (nxt s z r) eqn:Ez; [|auto]. pose proof (wf_top W G (r := r) ltac:(congruence) Hy). lia. }
  assert (Hd : forall y z, 0 < y -> get (del_at a (S i)) y = Some z -> nxt s z r = None). { intros y z Hy G. rewrite get_del in G by auto. destruct (y <? S i); [eauto|apply (Hz (S y)); [lia|auto]]. }
  intros p u o G Eo. destruct p as [|p]; [|rewrite (Hd (S p) u) in Eo; [discriminate|lia|auto]].
  rewrite get_del in G by auto. cbn [Nat.ltb Nat.leb] in G. pose proof (w_lv W r _ G Eo) as H0. cbn beta in H0. destruct o as [x|].
  - exfalso. destruct H0 as (q & H1 & H2 & H3 & _). apply H3, (Hz q); auto.
  - destruct H0 as (H0 & _). split; [auto|]. eauto.
Qed.
Theorem erase_at_ok s a es i : wf s a es -> i < length es -> exists s' it, erase_at s i = Some (s', it) /\ wf s' (del_at a (S i)) (del_at es i) /\ it = get (del_at a (S i)) (S i).
Proof.
  intros W Hi. assert (La := w_len W). unfold erase_at. rewrite (w_sz W). destruct (Nat.leb_spec (length es) i); [lia|]. destruct (@get_lt _ a (S i) ltac:(lia)) as (w & Gw). pose proof (split_at _ _ Gw) as Ea. assert (La1 : length (firstn (S i) a) = S i) by (rewrite firstn_length; lia).
  assert (ND : NoDup (firstn (S i) a ++ w :: skipn (S (S i)) a)) by (rewrite <- Ea; exact (w_nd W)).
  destruct (@era_lv_ok _ _ w ND (S (sk_h s)) s 0 0) as (s2 & u & p & E2 & F & L & Gp & Hp & Hk).
  - rewrite <- Ea. exact (wf_bound W).
  - unfold dn. rewrite <- Ea. intros z r r' I H0 Lr. destruct (In_get _ _ I) as (q & _ & Gq). exact (wf_down W Gq H0 Lr).
  - rewrite <- Ea. intros z I. destruct (In_get _ _ I) as (q & _ & Gq). exact (wf_base W Gq).
  - rewrite <- Ea. intros r _. exact (w_lv W r).
  - intros r Hr. exact (lvl_high_del _ W Gw Hr).
  - rewrite <- Ea. exact (w_0 W).
  - lia.
  - intros r Hr. apply (w_sent W). pose proof (w_h W). lia.
  - rewrite La1, Nat.sub_0_r in E2. rewrite E2. cbn [obind]. assert (Sz : sk_size s2 = length es) by (rewrite (f_sz F); exact (w_sz W)). unfold sub. destruct (Nat.leb_spec 1 (sk_size s2)); [|lia]. cbn [guard obind]. specialize (Hk ltac:(lia)). rewrite La1 in Hk. injection Hk as ->. pose proof (wf_del W Hi F L) as W'.
    rewrite (wf_next W' Gp). cbn [obind]. eexists _, _. split; [reflexivity|]. split; [exact W'|reflexivity].
Qed.
Lemma erase_at_out s a es i : wf s a es -> length es <= i -> erase_at s i = Some (s, None).
Proof. intros W L. unfold erase_at. rewrite (w_sz W). destruct (Nat.leb_spec (length es) i); [reflexivity|lia]. Qed.

(** * The empty list *)
Lemma new_ok t0 : wf (sk_new (T:=T) t0) [0] [].
Proof.
  assert (N : forall r, nxt (sk_new t0) 0 r = if r <=? kmax then Some None else None). { intros r. unfold sk_new, nxt. cbn [sk_n get nth_error obind s_next]. destruct (Nat.leb_spec r kmax); [apply get_repeat; lia|apply get_none; rewrite repeat_length; lia]. }
  assert (Ln : forall r, r <= kmax -> len (sk_new t0) 0 r = Some 0). { intros r L. unfold sk_new, len. cbn [sk_n get nth_error obind s_len]. apply get_repeat; lia. }
  split.
  - repeat constructor. intros [].
  - reflexivity.
  - intros x [<-|[]]. cbn. lia.
  - reflexivity.
  - reflexivity.
  - cbn. lia.
  - intros r. rewrite N. destruct (Nat.leb_spec r kmax); split; intros; try lia; congruence.
  - intros p u e G Ge. apply get_In in Ge. destruct Ge.
  - intros r p u o G Eo. destruct p as [|p]; [|apply get_some_lt in G; cbn in G; lia]. injection G as <-. rewrite N in Eo. destruct (Nat.leb_spec r kmax); [|discriminate]. injection Eo as <-. split; [auto|]. intros y z Hy G. apply get_some_lt in G. cbn in G. lia.
  - split; [reflexivity|]. split; [reflexivity|]. intros r Hr. split; apply get_repeat; lia.
Qed.
End Skip.
