(** Skiplist: what a write leaves alone, the invariant, the inner loops. *)
From Verif Require Import SkipModel BaseLemmas ListExtra SkipInv.
Set Implicit Arguments.

Section Skip.
Variable T : Type.
Implicit Types (s : skl T) (a : list nat).

(** * Frames *)
Record fr s s' : Prop := {
  f_n : length (sk_n s') = length (sk_n s); f_h : sk_h s' = sk_h s; f_sz : sk_size s' = sk_size s; f_st : sk_stack s' = sk_stack s; f_ix : sk_idx s' = sk_idx s;
  f_val : forall z, val s' z = val s z;
  f_up : forall z r, nxt s' z r = None <-> nxt s z r = None;
  f_ln : forall z r, len s' z r = None <-> len s z r = None }.
Lemma fr_refl s : fr s s. Proof. split; tauto. Qed.
Lemma fr_trans s s' s'' : fr s s' -> fr s' s'' -> fr s s''.
Proof. intros [A1 A2 A3 A4 A5 A6 A7 A8] [B1 B2 B3 B4 B5 B6 B7 B8]. split; try congruence; intros; [rewrite B7; auto|rewrite B8; auto]. Qed.
Lemma some_of {X} (x : option X) : x <> None -> exists y, x = Some y. Proof. destruct x; [eauto|easy]. Qed.
Lemma lset_get_none {X} (l : list X) i j x : get (lset l i x) j = None <-> get l j = None.
Proof. unfold get. rewrite !nth_error_None, lset_length. reflexivity. Qed.
Lemma set_nxt_ok s u r x : nxt s u r <> None -> exists s', set_nxt s u r x = Some s' /\ fr s s' /\ (forall z k, len s' z k = len s z k) /\ (forall z k, z <> u \/ k <> r -> nxt s' z k = nxt s z k) /\ nxt s' u r = Some x.
Proof.
  intros H. unfold nxt in H. destruct (get (sk_n s) u) as [d|] eqn:Ed; [|now cbn in H]. cbn [obind] in H. destruct (some_of H) as (y & Ey). pose proof (get_some_lt _ _ Ed) as Lu. pose proof (get_some_lt _ _ Ey) as Lr.
  unfold set_nxt. rewrite Ed. cbn [obind]. rewrite (set_some _ x Lr). cbn [obind]. rewrite (set_some _ _ Lu). cbn [obind]. eexists. split; [reflexivity|].
  assert (G : forall z, get (lset (sk_n s) u (SN (s_v d) (lset (s_next d) r x) (s_len d))) z = if z =? u then Some (SN (s_v d) (lset (s_next d) r x) (s_len d)) else get (sk_n s) z). { intros z. destruct (Nat.eqb_spec z u) as [->|N]; [apply get_lset_eq; auto|apply get_lset_neq; auto]. }
  split; [|split; [|split]].
  - split; cbn; try reflexivity; [apply lset_length| | |]; unfold val, nxt, len; cbn; intros z; rewrite G; destruct (Nat.eqb_spec z u) as [->|N]; rewrite ?Ed; cbn; try reflexivity; try tauto. intros k. apply lset_get_none.
  - intros z k. unfold len; cbn. rewrite G. destruct (Nat.eqb_spec z u) as [->|N]; [rewrite Ed|]; reflexivity.
  - intros z k N. unfold nxt; cbn. rewrite G. destruct (Nat.eqb_spec z u) as [->|N']; [rewrite Ed|]; cbn; [|reflexivity]. apply get_lset_neq. destruct N; congruence.
  - unfold nxt; cbn. rewrite G, Nat.eqb_refl. cbn. apply get_lset_eq; auto.
Qed.
Lemma set_len_ok s u r x : len s u r <> None -> exists s', set_len s u r x = Some s' /\ fr s s' /\ (forall z k, nxt s' z k = nxt s z k) /\ (forall z k, z <> u \/ k <> r -> len s' z k = len s z k) /\ len s' u r = Some x.
Proof.
  intros H. unfold len in H. destruct (get (sk_n s) u) as [d|] eqn:Ed; [|now cbn in H]. cbn [obind] in H. destruct (some_of H) as (y & Ey). pose proof (get_some_lt _ _ Ed) as Lu. pose proof (get_some_lt _ _ Ey) as Lr.
  unfold set_len. rewrite Ed. cbn [obind]. rewrite (set_some _ x Lr). cbn [obind]. rewrite (set_some _ _ Lu). cbn [obind]. eexists. split; [reflexivity|].
  assert (G : forall z, get (lset (sk_n s) u (SN (s_v d) (s_next d) (lset (s_len d) r x))) z = if z =? u then Some (SN (s_v d) (s_next d) (lset (s_len d) r x)) else get (sk_n s) z). { intros z. destruct (Nat.eqb_spec z u) as [->|N]; [apply get_lset_eq; auto|apply get_lset_neq; auto]. }
  split; [|split; [|split]].
  - split; cbn; try reflexivity; [apply lset_length| | |]; unfold val, nxt, len; cbn; intros z; rewrite G; destruct (Nat.eqb_spec z u) as [->|N]; rewrite ?Ed; cbn; try reflexivity; try tauto. intros k. apply lset_get_none.
  - intros z k. unfold nxt; cbn. rewrite G. destruct (Nat.eqb_spec z u) as [->|N]; [rewrite Ed|]; reflexivity.
  - intros z k N. unfold len; cbn. rewrite G. destruct (Nat.eqb_spec z u) as [->|N']; [rewrite Ed|]; cbn; [|reflexivity]. apply get_lset_neq. destruct N; congruence.
  - unfold len; cbn. rewrite G, Nat.eqb_refl. cbn. apply get_lset_eq; auto.
Qed.
Lemma new_node_ok s v h s' w : new_node s v h = (s', w) -> w = length (sk_n s) /\ sk_h s' = sk_h s /\ sk_size s' = sk_size s /\ sk_stack s' = sk_stack s /\ sk_idx s' = sk_idx s /\ length (sk_n s') = S w /\ val s' w = Some v /\
  (forall r, nxt s' w r = if r <=? h then Some None else None) /\ (forall r, len s' w r = if r <=? h then Some 0 else None) /\ (forall z, z < w -> val s' z = val s z /\ forall r, nxt s' z r = nxt s z r /\ len s' z r = len s z r).
Proof.
  intros E. pose proof (f_equal fst E) as E1. pose proof (f_equal snd E) as E2. unfold new_node in E1, E2. cbn [fst snd] in E1, E2. subst s' w. clear E. do 5 (split; [reflexivity|]). split; [cbn; rewrite app_length; cbn; lia|].
  assert (G : get (sk_n s ++ [SN v (repeat None (S h)) (repeat 0 (S h))]) (length (sk_n s)) = Some (SN v (repeat None (S h)) (repeat 0 (S h)))) by (rewrite get_app_r, Nat.sub_diag by lia; reflexivity).
  unfold val, nxt, len, with_n. cbn [sk_n]. rewrite G. cbn [obind s_v s_next s_len]. split; [reflexivity|]. split; [|split].
  1, 2: intros r; destruct (Nat.leb_spec r h); [apply get_repeat; lia|apply get_none; rewrite repeat_length; lia].
  intros z L. rewrite get_app_l by auto. split; [reflexivity|]. intros r. split; reflexivity.
Qed.

(** * The invariant *)
Definition lvl s (r : nat) a : Prop := lv (fun z => nxt s z r) (fun z => len s z r) a.
(** [a]: the nodes in order, the sentinel first; [es]: heights and values *)
Record wf s a (es : list (nat * T)) : Prop := {
  w_nd : NoDup a;
  w_0 : get a 0 = Some 0;
  w_lt : forall x, In x a -> x < length (sk_n s);
  w_len : length a = S (length es);
  w_sz : sk_size s = length es;
  w_h : sk_h s <= kmax;
  w_sent : forall r, nxt s 0 r <> None <-> r <= kmax;
  w_el : forall p u e, get a (S p) = Some u -> get es p = Some e -> val s u = Some (snd e) /\ (forall r, nxt s u r <> None <-> r <= fst e) /\ fst e <= sk_h s;
  w_lv : forall r, lvl s r a;
  w_st : length (sk_stack s) = S kmax /\ length (sk_idx s) = S kmax /\ (forall r, sk_h s < r <= kmax -> get (sk_stack s) r = Some 0 /\ get (sk_idx s) r = Some 0) }.
Lemma wf_down s a es p u r r' : wf s a es -> get a p = Some u -> nxt s u r <> None -> r' <= r -> nxt s u r' <> None.
Proof.
  intros W G H L. destruct p as [|p].
  - rewrite (w_0 W) in G. injection G as <-. apply (w_sent W). apply (w_sent W) in H. lia.
  - pose proof (get_some_lt _ _ G) as Lp. rewrite (w_len W) in Lp. destruct (@get_lt _ es p ltac:(lia)) as (e & Ge). destruct (w_el W p G Ge) as (_ & E & _). apply E. apply E in H. lia.
Qed.
Lemma wf_base s a es p u : wf s a es -> get a p = Some u -> nxt s u 0 <> None.
Proof.
  intros W G. destruct p as [|p].
  - rewrite (w_0 W) in G. injection G as <-. apply (w_sent W). unfold kmax. lia.
  - pose proof (get_some_lt _ _ G) as Lp. rewrite (w_len W) in Lp. destruct (@get_lt _ es p ltac:(lia)) as (e & Ge). destruct (w_el W p G Ge) as (_ & E & _). apply E. lia.
Qed.
Lemma wf_top s a es p u r : wf s a es -> get a p = Some u -> nxt s u r <> None -> 0 < p -> r <= sk_h s.
Proof.
  intros W G H L. destruct p as [|p]; [lia|]. pose proof (get_some_lt _ _ G) as Lp. rewrite (w_len W) in Lp. destruct (@get_lt _ es p ltac:(lia)) as (e & Ge). destruct (w_el W p G Ge) as (_ & E & E2). apply E in H. lia.
Qed.
Lemma wf_bound s a es : wf s a es -> length a <= length (sk_n s).
Proof. intros W. apply NoDup_bound; [exact (w_nd W)|exact (w_lt W)]. Qed.
(** the next node at level 0 *)
Lemma wf_next s a es p u : wf s a es -> get a p = Some u -> nxt s u 0 = Some (get a (S p)).
Proof.
  intros W G. destruct (some_of (wf_base _ W G)) as (o & Eo). rewrite Eo. f_equal. pose proof (w_lv W 0 _ G Eo) as H. cbn beta in H. destruct o as [x|].
  - destruct H as (q & H1 & H2 & H3 & H4 & H5). destruct (Nat.eq_dec q (S p)) as [->|N]; [auto|]. destruct (@get_lt _ a (S p) ltac:(pose proof (get_some_lt _ _ H2); lia)) as (z & Gz). exfalso. apply (wf_base _ W Gz). apply (H5 (S p)); [lia|auto].
  - destruct H as (_ & H). destruct (get a (S p)) as [z|] eqn:Gz; [|auto]. exfalso. apply (wf_base _ W Gz). apply (H (S p)); [lia|auto].
Qed.
Definition vals (es : list (nat * T)) := map snd es.
Lemma reads_eq s a es k : forall p, wf s a es -> length es - p = k -> reads s (get a (S p)) (skipn p (vals es)).
Proof.
  induction k as [|k IH]; intros p W E.
  - rewrite (get_none a) by (rewrite (w_len W); lia). rewrite skipn_all2 by (unfold vals; rewrite map_length; lia). constructor.
  - destruct (@get_lt _ es p ltac:(lia)) as (e & Ge). destruct (@get_lt _ a (S p) ltac:(rewrite (w_len W); lia)) as (u & Gu). rewrite Gu. destruct (w_el W p Gu Ge) as (V & _). rewrite (@skipn_get_cons _ (vals es) p (snd e)) by (unfold vals; rewrite get_map, Ge; reflexivity).
    apply rd_step with (it' := get a (S (S p))); [exact V|exact (wf_next _ W Gu)|]. apply IH; [auto|lia].
Qed.
Lemma wf_reads s a es p : wf s a es -> reads s (get a (S p)) (skipn p (vals es)).
Proof. intros W. apply (reads_eq (k := length es - p)); auto. Qed.
Lemma wf_is s a es : wf s a es -> sk_is s (vals es).
Proof. intros W. exists (get a 1). split; [exact (wf_next _ W (w_0 W))|]. exact (wf_reads 0 W). Qed.

(** * The inner loops *)
Section Adv.
Variables (s : skl T) (a : list nat) (r t : nat).
Hypothesis Ha : length a <= length (sk_n s).
Hypothesis L : lvl s r a.
Definition stop (u' p p' : nat) : Prop := get a p' = Some u' /\ p <= p' < t /\ nxt s u' r <> None /\ (forall y z, p' < y < t -> get a y = Some z -> nxt s z r = None).
Lemma adv_len_ok u p : get a p = Some u -> p < t -> nxt s u r <> None -> exists u' p', adv_len s r u (t - p) = Some (u', t - p') /\ stop u' p p'.
Proof.
  intros G Hp Hn. unfold adv_len. match goal with |- context [loop _ ?bd _] => set (body := bd) end.
  assert (Lp : forall fuel u p, length a - p < fuel -> get a p = Some u -> p < t -> nxt s u r <> None -> exists u' p', loop fuel body (u, t - p) = Some (u', t - p') /\ stop u' p p').
  { clear u p G Hp Hn. induction fuel as [|fuel IH]; intros u p F G Hp Hn; [lia|]. cbn [loop]. unfold body at 1. destruct (some_of Hn) as (o & Eo). rewrite Eo. cbn [obind]. pose proof (@L _ _ _ G Eo) as H. cbn beta in H. destruct o as [x|].
    - destruct H as (q & H1 & H2 & H3 & H4 & H5). rewrite H4. cbn [obind]. pose proof (get_some_lt _ _ H2). destruct (Nat.ltb_spec (q - p) (t - p)).
      + replace (t - p - (q - p)) with (t - q) by lia. destruct (IH x q ltac:(lia) H2 ltac:(lia) H3) as (u' & p' & E & St & Sr & St3). rewrite E. exists u', p'. split; [reflexivity|]. split; [auto|]. split; [lia|auto].
      + exists u, p. split; [reflexivity|]. split; [auto|]. split; [lia|]. split; [auto|]. intros y z Hy. apply H5. lia.
    - exists u, p. split; [reflexivity|]. split; [auto|]. split; [lia|]. split; [auto|]. destruct H as (_ & H). intros y z Hy. apply H. lia. }
  apply Lp; auto. lia.
Qed.
Variable P : T -> bool.
Hypothesis V : forall y z, 0 < y -> get a y = Some z -> exists v, val s z = Some v /\ (P v = true <-> y < t).
Lemma adv_val_ok u p : get a p = Some u -> p < t -> nxt s u r <> None -> exists u' p', adv_val s P r u = Some u' /\ stop u' p p'.
Proof.
  intros G Hp Hn. unfold adv_val. match goal with |- context [loop _ ?bd _] => set (body := bd) end.
  assert (Lp : forall fuel u p, length a - p < fuel -> get a p = Some u -> p < t -> nxt s u r <> None -> exists u' p', loop fuel body u = Some u' /\ stop u' p p').
  { clear u p G Hp Hn. induction fuel as [|fuel IH]; intros u p F G Hp Hn; [lia|]. cbn [loop]. unfold body at 1. destruct (some_of Hn) as (o & Eo). rewrite Eo. cbn [obind]. pose proof (@L _ _ _ G Eo) as H. cbn beta in H. destruct o as [x|].
    - destruct H as (q & H1 & H2 & H3 & H4 & H5). destruct (@V q x ltac:(lia) H2) as (v & Ev & Pv). rewrite Ev. cbn [obind]. pose proof (get_some_lt _ _ H2). destruct (P v).
      + assert (q < t) by tauto. destruct (IH x q ltac:(lia) H2 ltac:(lia) H3) as (u' & p' & E & St & Sr & St3). rewrite E. exists u', p'. split; [reflexivity|]. split; [auto|]. split; [lia|auto].
      + assert (~ q < t) by (intros X; apply Pv in X; discriminate). exists u, p. split; [reflexivity|]. split; [auto|]. split; [lia|]. split; [auto|]. intros y z Hy. apply H5. lia.
    - exists u, p. split; [reflexivity|]. split; [auto|]. split; [lia|]. split; [auto|]. destruct H as (_ & H). intros y z Hy. apply H. lia. }
  apply Lp; auto. lia.
Qed.
End Adv.
Lemma adv_both_ok ltb s a r t (v : T) : length a <= length (sk_n s) -> lvl s r a -> (forall y z, 0 < y -> get a y = Some z -> exists w, val s z = Some w /\ (ltb w v = true <-> y < t)) ->
  forall u p, get a p = Some u -> p < t -> nxt s u r <> None -> exists u' p', adv_both ltb s v r u (S p) = Some (u', S p') /\ stop s a r t u' p p'.
Proof.
  intros Ha L V u p G Hp Hn. unfold adv_both. match goal with |- context [loop _ ?bd _] => set (body := bd) end.
  assert (Lp : forall fuel u p, length a - p < fuel -> get a p = Some u -> p < t -> nxt s u r <> None -> exists u' p', loop fuel body (u, S p) = Some (u', S p') /\ stop s a r t u' p p').
  { clear u p G Hp Hn. induction fuel as [|fuel IH]; intros u p F G Hp Hn; [lia|]. cbn [loop]. unfold body at 1. destruct (some_of Hn) as (o & Eo). rewrite Eo. cbn [obind]. pose proof (@L _ _ _ G Eo) as H. cbn beta in H. destruct o as [x|].
    - destruct H as (q & H1 & H2 & H3 & H4 & H5). destruct (V q x ltac:(lia) H2) as (w & Ev & Pv). rewrite Ev. cbn [obind]. pose proof (get_some_lt _ _ H2). destruct (ltb w v).
      + rewrite H4. cbn [obind]. assert (q < t) by tauto. replace (S p + (q - p)) with (S q) by lia. destruct (IH x q ltac:(lia) H2 ltac:(lia) H3) as (u' & p' & E & St & Sr & St3). rewrite E. exists u', p'. split; [reflexivity|]. split; [auto|]. split; [lia|auto].
      + assert (~ q < t) by (intros X; apply Pv in X; discriminate). exists u, p. split; [reflexivity|]. split; [auto|]. split; [lia|]. split; [auto|]. intros y z Hy. apply H5. lia.
    - exists u, p. split; [reflexivity|]. split; [auto|]. split; [lia|]. split; [auto|]. destruct H as (_ & H). intros y z Hy. apply H. lia. }
  apply Lp; auto. lia.
Qed.
(** at a level where the node at [t] is met, it is the next one *)
Lemma stop_next s a r t u p p' o : lvl s r a -> stop s a r t u p p' -> nxt s u r = Some o ->
  match o with
  | Some x => exists q, t <= q /\ get a q = Some x /\ len s u r = Some (q - p') /\ nxt s x r <> None /\ (q = t \/ forall z, get a t = Some z -> nxt s z r = None)
  | None => forall y z, t <= y -> get a y = Some z -> nxt s z r = None
  end.
Proof.
  intros L (G & Hp & Hn & Gap) Eo. pose proof (@L _ _ _ G Eo) as H. cbn beta in H. destruct o as [x|].
  - destruct H as (q & H1 & H2 & H3 & H4 & H5). exists q. assert (t <= q) by (destruct (Nat.lt_ge_cases q t); [exfalso; apply H3, (Gap q); [lia|auto]|auto]). do 4 (split; [auto|]). destruct (Nat.eq_dec q t); [auto|right]. intros z. apply H5. lia.
  - destruct H as (_ & H). intros y z Hy. apply H. lia.
Qed.
End Skip.
Arguments wf_down {T s a es p u r r'} _ _ _ _.
Arguments wf_base {T s a es p u} _ _.
Arguments wf_top {T s a es p u r} _ _ _ _.
Arguments wf_next {T s a es p u} _ _.
Arguments wf_bound {T s a es} _.
Arguments stop_next {T s a r t u p p' o} _ _ _.
