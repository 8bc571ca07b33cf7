(** SkiplistSet: erase. *)
From Verif Require Import SkipModel BaseLemmas ListExtra SkipInv SkipFr SkipOps SkipSet.
Set Implicit Arguments.

Section Skip.
Variable T : Type.
Implicit Types (s : skl T) (a : list nat) (es : list (nat * T)).
Variables (ltb eqb leb : T -> T -> bool).
Hypothesis O : sk_order ltb eqb leb.
Notation place v es := (S (rk ltb v (vals es))).
Notation srt := (srt ltb).

Definition mark1 s s' a (t r : nat) : Prop := exists u p, get (sk_stack s') r = Some u /\ stop s a r t u 0 p.
Lemma hit_same s s' u r v : (forall z, val s' z = val s z) -> nxt s' u r = nxt s u r -> hit eqb s' u r v = hit eqb s u r v.
Proof. intros E3 E1. unfold hit. rewrite E1. destruct (nxt s u r) as [[x|]|]; cbn [obind]; rewrite ?E3; reflexivity. Qed.
Lemma ers_search_ok a es v (s0 : skl T) : srt (vals es) -> wf s0 a es -> forall k s u p, same_n s0 s -> k <= S kmax -> get a p = Some u -> p < place v es -> (forall r, r < k -> nxt s0 u r <> None) ->
  exists s' u' p', same_n s s' /\ (forall r, k <= r -> get (sk_stack s') r = get (sk_stack s) r) /\ sk_idx s' = sk_idx s /\
    ((exists r w, ers_search ltb eqb k s v u = Some (s', u', Some r) /\ r < k /\ get a (place v es) = Some w /\ val s0 w = Some v /\ nxt s0 w r <> None /\ stop s0 a r (place v es) u' 0 p' /\ (forall i, r < i < k -> mark1 s0 s' a (place v es) i /\ nxt s0 w i = None)) \/
     (ers_search ltb eqb k s v u = Some (s', u', None) /\ get a p' = Some u' /\ (0 < k -> S p' = place v es /\ forall x, get a (place v es) = Some x -> val s0 x <> Some v))).
Proof.
  intros H W. induction k as [|r IH]; intros s u p E Hk G Hp Up; [exists s, u, p; split; [apply same_n_refl|]; split; [auto|]; split; [auto|]; right; split; [reflexivity|]; split; [auto|]; lia|]. cbn [ers_search].
  pose proof (same_n_nxt E) as (E1 & E2 & E3). pose proof E as (En & Eh & Es & El1 & El2). destruct (w_st W) as (Ls1 & Ls2 & _).
  assert (Ha : length a <= length (sk_n s)) by (rewrite En; exact (wf_bound W)). assert (Lr : lvl s r a) by (refine (lv_ext _ (w_lv W r)); intros z _; rewrite E1, E2; auto).
  assert (V : forall y z, 0 < y -> get a y = Some z -> exists w, val s z = Some w /\ ((fun x => ltb x v) w = true <-> y < place v es)) by (intros y z Hy Gz; rewrite E3; exact (wf_pred W (srt_lt O v H) Hy Gz)).
  destruct (adv_val_ok Ha Lr (fun x => ltb x v) V G Hp ltac:(rewrite E1; apply Up; lia)) as (u1 & p1 & Ea & St). rewrite Ea. cbn [obind]. apply (stop_same a r _ u1 p p1 E) in St. pose proof St as (G1 & Hp1 & Hn1 & Gap).
  assert (St0 : stop s0 a r (place v es) u1 0 p1) by (split; [auto|]; split; [lia|]; split; auto).
  rewrite (@hit_same s0 s u1 r v E3 (E1 u1 r)).
  destruct (hit_ok O v W H St) as [(w & -> & Gw & Vw & _ & Nw)|(-> & Nw)]; cbn [obind].
  { exists s, u1, p1. split; [apply same_n_refl|]. split; [auto|]. split; [auto|]. left. exists r, w. do 6 (split; [auto|]). intros; lia. }
  destruct (@set_stack_ok T s r u1 ltac:(lia)) as (s1 & Es1 & N1 & S1 & I1). rewrite Es1. cbn [obind]. assert (N02 : same_n s0 s1) by eauto using same_n_trans. destruct (IH s1 u1 p1 N02 ltac:(lia) G1 ltac:(lia)) as (s' & u' & p' & N' & K' & I' & R); [intros r' Hr; apply (wf_down W G1 Hn1); lia|].
  exists s', u', p'. split; [eauto using same_n_trans|]. split. { intros r' Hr. rewrite (K' r' ltac:(lia)), S1. apply get_lset_neq. lia. } split; [congruence|].
  destruct R as [(i & w & Ex & Hi & Gw & Vw & Nw' & Sw & Mk)|(Ex & Gx & Hx)].
  - left. exists i, w. split; [auto|]. split; [lia|]. do 4 (split; [auto|]). intros j Hj. destruct (Nat.eq_dec j r) as [->|Nr]; [|apply Mk; lia]. split; [|apply Nw; auto]. exists u1, p1. rewrite (K' r ltac:(lia)), S1. rewrite get_lset_eq by lia. auto.
  - right. split; [auto|]. split; [auto|]. intros _. destruct r as [|r]; [|apply Hx; lia]. cbn in Ex. injection Ex as _ <-. rewrite (get_uniq (w_nd W) Gx G1). split; [exact (stop_base W (place_le ltb v W) St)|]. intros x Gx' Vx. exact (wf_base W Gx' (Nw x Gx' Vx)).
Qed.

Section Lists.
Variables (a1 a2 : list nat) (w : nat) (v : T).
Notation A := (a1 ++ a2).
Notation B := (a1 ++ w :: a2).
Notation t := (length a1).
Hypothesis ND : NoDup B.
Lemma ers_above_ok r n : forall s, (forall i, r < i < S r + n -> lvl s i B /\ mark1 s s B t i /\ nxt s w i = None) -> (forall i, S r + n <= i -> lvl s i A) ->
  exists s', ers_above n (S r) s = Some s' /\ fr s s' /\ (forall i, r < i -> lvl s' i A) /\ (forall i z, i <= r -> nxt s' z i = nxt s z i /\ len s' z i = len s z i).
Proof.
  unfold ers_above. induction n as [|n IH]; intros s HB HA; [exists s; split; [reflexivity|]; split; [apply fr_refl|]; split; [intros i Hi; apply HA; lia|auto]|]. cbn [for_down]. set (i := S r + n).
  destruct (HB i ltac:(lia)) as (Li & (u & p & Gs & Gu & Hp & Hn & Gap) & Nw). rewrite Gs. cbn [obind]. destruct (some_of Hn) as (o & Eo). rewrite Eo. cbn [obind].
  destruct (@skip_step T a1 a2 w ND s i u p o Li Gu ltac:(lia) Gap Eo Nw) as (s1 & E1 & F1 & O1 & L1). rewrite E1. cbn [obind]. destruct (IH s1) as (s2 & E2 & F2 & L2 & K2).
  - intros j Hj. destruct (HB j ltac:(lia)) as (Lj & (u' & p' & Gs' & St') & Nj). split; [apply (lvl_off O1); [lia|auto]|]. split; [|apply (f_up F1); auto]. exists u', p'. rewrite (f_st F1). split; [auto|]. exact (stop_fr F1 St').
  - intros j Hj. destruct (Nat.eq_dec j i) as [->|N]; [exact L1|]. apply (lvl_off O1); [auto|]. apply HA. lia.
  - exists s2. split; [exact E2|]. split; [eauto using fr_trans|]. split; [auto|]. intros j z Hj. destruct (K2 j z Hj) as (-> & ->). apply O1. lia.
Qed.
Variables (u p : nat).
Hypothesis Gu : get B p = Some u.
Lemma ers_below_ok k : forall s, S p = t -> val s w = Some v -> (forall i, i < k -> lvl s i B /\ nxt s u i <> None /\ nxt s w i <> None) -> (forall i, k <= i -> lvl s i A) ->
  exists s', ers_below eqb k s v u = Some s' /\ fr s s' /\ forall i, lvl s' i A.
Proof.
  induction k as [|r IH]; intros s Hp Vw HB HA; [exists s; split; [reflexivity|]; split; [apply fr_refl|]; intros; apply HA; lia|]. cbn [ers_below]. destruct (HB r ltac:(lia)) as (Lr & Hn & Nw). destruct (some_of Hn) as (o & Eo). pose proof (Lr _ _ _ Gu Eo) as Ho. cbn beta in Ho. pose proof (wB a1 a2 w) as Gw.
  assert (o = Some w /\ len s u r = Some (t - p)). { destruct o as [x|]; [|destruct Ho as (_ & Ho); exfalso; apply Nw, (Ho t w); [lia|auto]]. destruct Ho as (q & H1 & H2 & H3 & H4 & H5). destruct (Nat.eq_dec q t) as [->|N]; [split; [congruence|auto]|]. exfalso. apply Nw, (H5 t w); [lia|auto]. }
  destruct H as (-> & El). unfold hit. rewrite Eo. cbn [obind]. rewrite Vw. cbn [obind]. assert (Ev : eqb v v = true) by (apply (so_eq O); auto). rewrite Ev. destruct (some_of Nw) as (y & Ey). rewrite Ey. cbn [obind]. pose proof (Lr _ _ _ Gw Ey) as Hw. cbn beta in Hw.
  assert (Hlw : exists lw, len s w r = Some lw) by (destruct y as [x|]; [destruct Hw as (q & _ & _ & _ & Q & _); eauto|exists 0; tauto]). destruct Hlw as (lw & Elw).
  destruct (@unlink_step T a1 a2 w ND s r u p (Some w) Lr Gu ltac:(lia) ltac:(intros; lia) Eo (match y with Some _ => t - p + lw - 1 | None => 0 end) y lw eq_refl Ey Elw eq_refl) as (s1 & E1 & F1 & O1 & L1).
  match goal with |- context [obind ?m (fun n => let* s := set_len s u r n in _)] => assert (En : m = Some (match y with Some _ => t - p + lw - 1 | None => 0 end)) end. { destruct y; [|reflexivity]. rewrite El, Elw. cbn [obind]. unfold sub. destruct (Nat.leb_spec 1 (t - p + lw)); [reflexivity|lia]. }
  rewrite En. cbn [obind]. rewrite E1. cbn [obind]. destruct (IH s1) as (s2 & E2 & F2 & L2).
  - auto.
  - rewrite (f_val F1). auto.
  - intros i Hi. destruct (HB i ltac:(lia)) as (Li & N1 & N2). split; [apply (lvl_off O1); [lia|auto]|]. destruct (O1 u i ltac:(lia)) as (-> & _). destruct (O1 w i ltac:(lia)) as (-> & _). auto.
  - intros i Hi. destruct (Nat.eq_dec i r) as [->|N]; [exact L1|]. apply (lvl_off O1); [auto|]. apply HA. lia.
  - exists s2. split; [exact E2|]. split; [eauto using fr_trans|auto].
Qed.
(** the other case: the node stays in the bottom list *)
Lemma ers_below_bad k : forall s, (forall i, i < k -> lvl s i B /\ nxt s u i <> None) -> (0 < k -> exists x y, nxt s u 0 = Some (Some x) /\ val s x = Some y /\ eqb y v = false) ->
  exists s', ers_below eqb k s v u = Some s' /\ fr s s' /\ forall z, nxt s' z 0 = nxt s z 0.
Proof.
  induction k as [|r IH]; intros s HB H0; [exists s; split; [reflexivity|]; split; [apply fr_refl|]; auto|]. cbn [ers_below]. destruct (HB r ltac:(lia)) as (Lr & Hn). destruct (H0 ltac:(lia)) as (x0 & y0 & Ex0 & Ey0 & Ne).
  assert (Step : exists s1, (let* x := hit eqb s u r v in match x with None => Some s | Some w => let* y := nxt s w r in let* n := (match y with Some _ => let* l := len s u r in let* lw := len s w r in sub (l + lw) 1 | None => Some 0 end) in let* s := set_len s u r n in set_nxt s u r y end) = Some s1 /\ fr s s1 /\ same_off s s1 r /\ (r = 0 -> s1 = s)).
  { destruct (some_of Hn) as (o & Eo). unfold hit. rewrite Eo. cbn [obind]. destruct o as [x|]; [|exists s; split; [reflexivity|]; split; [apply fr_refl|]; split; [split; auto|auto]]. pose proof (Lr _ _ _ Gu Eo) as Ho. cbn beta in Ho. destruct Ho as (q & H1 & H2 & H3 & H4 & H5).
    destruct (Nat.eq_dec r 0) as [->|Nr].
    - rewrite Ex0 in Eo. injection Eo as <-. rewrite Ey0. cbn [obind]. rewrite Ne. exists s. split; [reflexivity|]. split; [apply fr_refl|]. split; [split; auto|auto].
    - assert (Vx : exists y, val s x = Some y). { unfold val. unfold nxt in H3. destruct (get (sk_n s) x) as [d|]; [cbn; eauto|now cbn in H3]. } destruct Vx as (y & Vy). rewrite Vy. cbn [obind]. destruct (eqb y v); cbn [obind]; [|exists s; split; [reflexivity|]; split; [apply fr_refl|]; split; [split; auto|auto]].
      destruct (some_of H3) as (o & Eo'). rewrite Eo'. cbn [obind]. pose proof (Lr _ _ _ H2 Eo') as Hw. cbn beta in Hw.
      match goal with |- context [obind ?m (fun n => let* s := set_len s u r n in _)] => assert (En : exists n, m = Some n) end. { destruct o as [z|]; [|eauto]. destruct Hw as (q' & Q1 & _ & _ & Q4 & _). rewrite H4, Q4. cbn [obind]. unfold sub. destruct (Nat.leb_spec 1 (q - p + (q' - q))); [cbn; eauto|lia]. }
      destruct En as (n & ->). cbn [obind]. destruct (@set_len_ok T s u r n) as (s1 & E1 & F1 & N1 & K1 & V1); [congruence|]. rewrite E1. cbn [obind]. destruct (@set_nxt_ok T s1 u r o) as (s2 & E2 & F2 & N2 & K2 & V2); [rewrite N1; congruence|]. rewrite E2. exists s2. split; [reflexivity|]. split; [eauto using fr_trans|]. split; [|intros; lia]. intros z k Nk. rewrite K2, N1, N2, K1 by auto. auto. }
  destruct Step as (s1 & E1 & F1 & O1 & Z1). match goal with |- exists _, ?l = _ /\ _ => assert (El : l = ers_below eqb r s1 v u) end. { revert E1. destruct (hit eqb s u r v) as [[x|]|]; cbn [obind]; [|now intros [= ->]|easy]. intros E1. rewrite E1. reflexivity. }
  rewrite El. assert (Z : forall z, nxt s1 z 0 = nxt s z 0) by (intros z; destruct (Nat.eq_dec r 0) as [->|N]; [rewrite Z1; auto|apply O1; auto]).
  destruct (IH s1) as (s2 & E2 & F2 & L2).
  - intros i Hi. destruct (HB i ltac:(lia)) as (Li & N1). split; [apply (lvl_off O1); [lia|auto]|]. destruct (O1 u i ltac:(lia)) as (-> & _). auto.
  - intros _. exists x0, y0. rewrite Z, (f_val F1). auto.
  - exists s2. split; [exact E2|]. split; [eauto using fr_trans|]. intros z. rewrite L2. auto.
Qed.
End Lists.

(** the node in front of v is at least as tall *)
Definition front_tall es (v : T) : Prop := forall e f, 0 < rk ltb v (vals es) -> get es (rk ltb v (vals es) - 1) = Some e -> get es (rk ltb v (vals es)) = Some f -> fst f <= fst e.
Definition front_low es (v : T) : Prop := exists e f, 0 < rk ltb v (vals es) /\ get es (rk ltb v (vals es) - 1) = Some e /\ get es (rk ltb v (vals es)) = Some f /\ fst e < fst f.
Lemma reads_same s s' it l : (forall z, val s' z = val s z) -> (forall z, nxt s' z 0 = nxt s z 0) -> reads s it l -> reads s' it l.
Proof. intros V N R. induction R as [|it v it' l H1 H2 R IH]; [constructor|]. apply rd_step with (it' := it'); [|destruct it; cbn in *; [rewrite N; auto|discriminate]|auto]. destruct it; cbn in *; [rewrite V; auto|discriminate]. Qed.
Lemma erase_missing s a es v : wf s a es -> srt (vals es) -> ~ In v (vals es) -> exists s', ss_erase ltb eqb s v = Some (s', get a (place v es)) /\ wf s' a es.
Proof.
  intros W H Nv. unfold ss_erase. destruct (ers_search_ok v H W (same_n_refl s) (k := S (sk_h s)) ltac:(pose proof (w_h W); lia) (w_0 W) ltac:(lia) (wf_up0 W)) as (s' & u & p & N & K & I & R).
  assert (W' : wf s' a es) by (apply (same_n_wf N); [intros r Hr; split; [apply K; lia|congruence]|auto]).
  destruct R as [(r & w & _ & _ & Gw & Vw & _)|(E & G & Hk)].
  - exfalso. apply Nv. apply (place_has ltb v W Gw) in Vw. exact (get_In _ _ Vw).
  - rewrite E. cbn [obind]. destruct (Hk ltac:(lia)) as (Hp & _). rewrite (wf_next W' G), Hp. cbn [obind]. eauto.
Qed.
(** what the first two loops leave *)
Lemma erase_front s a es v : wf s a es -> srt (vals es) -> In v (vals es) ->
  let t := place v es in let i := rk ltb v (vals es) in
  exists s1 s2 u p r w, ers_search ltb eqb (S (sk_h s)) s v 0 = Some (s1, u, Some r) /\ ers_above (sk_h s1 - r) (S r) (with_size s1 (length es - 1)) = Some s2 /\ sk_size s1 = length es /\ sk_h s1 = sk_h s /\
    get a t = Some w /\ val s w = Some v /\ (exists f, get es i = Some f /\ fst f = r) /\ stop s a r t u 0 p /\ wf s1 a es /\
    fr (with_size s1 (length es - 1)) s2 /\ (forall j, r < j -> lvl s2 j (del_at a t)) /\ (forall j z, j <= r -> nxt s2 z j = nxt s z j /\ len s2 z j = len s z j).
Proof.
  intros W H Iv t i. destruct (ers_search_ok v H W (same_n_refl s) (k := S (sk_h s)) ltac:(pose proof (w_h W); lia) (w_0 W) ltac:(lia) (wf_up0 W)) as (s1 & u & p & N & K & I & R).
  assert (W' : wf s1 a es) by (apply (same_n_wf N); [intros r Hr; split; [apply K; lia|congruence]|auto]). pose proof (same_n_nxt N) as (N1 & N2 & N3). pose proof N as (Nn & Nh & _).
  assert (Hv : has ltb v es) by (apply (has_In O v es H); auto).
  destruct R as [(r & w & E & Hr & Gw & Vw & Nw & St & Mk)|(_ & _ & Hk)].
  2: { exfalso. destruct (Hk ltac:(lia)) as (_ & Hx). pose proof (get_some_lt _ _ Hv) as L. unfold vals in L at 2. rewrite map_length in L. destruct (@get_lt _ a (place v es)) as (x & Gx); [rewrite (w_len W); lia|]. apply (Hx x Gx), (place_has ltb v W Gx), Hv. }
  fold t in Gw, St, Mk. destruct (@get_lt _ es i) as (f & Gf). { pose proof (get_some_lt _ _ Gw) as L. rewrite (w_len W) in L. unfold t in L. fold i in L. lia. }
  destruct (w_el W i Gw Gf) as (Vf & Hf & Hh). assert (Rf : fst f = r). { apply Hf in Nw. destruct (Nat.lt_ge_cases r (fst f)) as [L|L]; [|lia]. exfalso. destruct (Mk (fst f) ltac:(lia)) as (_ & Q). revert Q. apply Hf. lia. }
  pose proof (split_at _ _ Gw) as Ea. assert (Lt : length (firstn t a) = t) by (rewrite firstn_length; pose proof (get_some_lt _ _ Gw); lia). assert (ND : NoDup (firstn t a ++ w :: skipn (S t) a)) by (rewrite <- Ea; exact (w_nd W)).
  destruct (@ers_above_ok (firstn t a) (skipn (S t) a) w ND r (sk_h s1 - r) (with_size s1 (length es - 1))) as (s2 & E2 & F2 & L2 & K2).
  - intros j Hj. unfold mark1. rewrite <- Ea, Lt. split; [exact (w_lv W' j)|]. destruct (Mk j ltac:(lia)) as ((uj & pj & Gs & Sj) & Nj). split; [|change (nxt s1 w j = None); rewrite N1; auto]. exists uj, pj. split; [exact Gs|]. apply (stop_same a j t uj 0 pj N) in Sj. exact Sj.
  - intros j Hj. apply (@lvl_high_del T s1 a es j i w W' Gw); lia.
  - exists s1, s2, u, p, r, w. split; [exact E|]. split; [exact E2|]. split; [exact (w_sz W')|]. split; [auto|]. split; [auto|]. split; [auto|]. split; [exists f; auto|]. split; [auto|]. split; [auto|]. split; [auto|]. split; [auto|]. intros j z Hj. destruct (K2 j z Hj) as (-> & ->). change (nxt s1 z j = nxt s z j /\ len s1 z j = len s z j). auto.
Qed.
Theorem erase_ok s a es v : wf s a es -> srt (vals es) -> In v (vals es) -> front_tall es v -> exists s' it, ss_erase ltb eqb s v = Some (s', it) /\ wf s' (del_at a (place v es)) (del_at es (rk ltb v (vals es))) /\ it = get (del_at a (place v es)) (place v es).
Proof.
  intros W H Iv Ft. destruct (erase_front v W H Iv) as (s1 & s2 & u & p & r & w & E1 & E2 & Sz & Hh & Gw & Vw & (f & Gf & Rf) & St & W1 & F2 & L2 & K2). set (t := place v es) in *. set (i := rk ltb v (vals es)) in *. pose proof (get_some_lt _ _ Gf) as Li. pose proof (w_len W) as La.
  unfold ss_erase. rewrite E1. cbn [obind]. rewrite Sz. unfold sub. destruct (Nat.leb_spec 1 (length es)); [|lia]. cbn [guard obind]. change (sk_h (with_size s1 (length es - 1))) with (sk_h s1). rewrite E2. cbn [obind].
  pose proof (split_at _ _ Gw) as Ea. assert (Lt : length (firstn t a) = t) by (rewrite firstn_length; pose proof (get_some_lt _ _ Gw); lia). assert (ND : NoDup (firstn t a ++ w :: skipn (S t) a)) by (rewrite <- Ea; exact (w_nd W)).
  pose proof St as (Gu & Hp & Hn & Gap). assert (Pt : S p = t). { destruct (Nat.eq_dec (S p) t); [auto|]. exfalso. assert (0 < i) by (unfold t in *; lia). destruct (@get_lt _ es (i - 1) ltac:(lia)) as (e & Ge). assert (Gz := Ge). pose proof (Ft e f H1 Ge Gf) as Le. destruct (@get_lt _ a i ltac:(lia)) as (z & Gz'). destruct (w_el W (i - 1) (u := z) (e := e)) as (_ & Hz & _); [replace (S (i - 1)) with i by lia; auto|auto|]. assert (Nz : nxt s z r <> None) by (apply Hz; lia). apply Nz, (Gap i); [unfold t in *; lia|auto]. }
  destruct (@ers_below_ok (firstn t a) (skipn (S t) a) w v ND u p ltac:(rewrite <- Ea; auto) (S r) s2) as (s3 & E3 & F3 & L3).
  - rewrite Lt. auto.
  - rewrite (f_val F2). rewrite <- Vw. destruct (w_el W i Gw Gf) as (V1 & _). destruct (w_el W1 i Gw Gf) as (V2 & _). change (val s1 w = val s w). congruence.
  - intros j Hj. rewrite <- Ea. split; [refine (lv_ext _ (w_lv W j)); intros z _; apply K2; lia|]. destruct (K2 j u ltac:(lia)) as (-> & _). destruct (K2 j w ltac:(lia)) as (-> & _). split; [apply (wf_down W Gu Hn); lia|]. destruct (w_el W i Gw Gf) as (_ & Q & _). apply Q. lia.
  - intros j Hj. exact (L2 j Hj).
  - rewrite E3. cbn [obind]. assert (F : fr s1 (with_size s3 (sk_size s1))). { destruct F2 as [A1 A2 A3 A4 A5 A6 A7 A8]. destruct F3 as [B1 B2 B3 B4 B5 B6 B7 B8]. split; [exact (eq_trans B1 A1)|exact (eq_trans B2 A2)|reflexivity|exact (eq_trans B4 A4)|exact (eq_trans B5 A5)|intros z; exact (eq_trans (B6 z) (A6 z))|intros z k; exact (iff_trans (B7 z k) (A7 z k))|intros z k; exact (iff_trans (B8 z k) (A8 z k))]. }
    assert (W3 : wf s3 (del_at a t) (del_at es i)). { pose proof (wf_del (i := i) W1 Li F L3) as Q. cbn in Q. replace (with_size (with_size s3 (sk_size s1)) (sk_size s1 - 1)) with s3 in Q; [exact Q|]. destruct s3 as [n3 h3 z3 st3 ix3]. unfold with_size. cbn. f_equal. pose proof (f_sz F3) as Z3. cbn in Z3. rewrite Z3, (f_sz F2). cbn. lia. }
    assert (Gp : get (del_at a t) p = Some u) by (rewrite get_del by (pose proof (get_some_lt _ _ Gw); lia); destruct (Nat.ltb_spec p t); [auto|lia]). rewrite (wf_next W3 Gp). cbn [obind]. eexists _, _. split; [reflexivity|]. split; [exact W3|]. congruence.
Qed.
(** the node in front of v is lower: v stays *)
Theorem erase_bad s a es v : wf s a es -> srt (vals es) -> In v (vals es) -> front_low es v -> exists s' it, ss_erase ltb eqb s v = Some (s', it) /\ sk_is s' (vals es) /\ sk_size s' = length es - 1 /\ exists j x, get (vals es) j = Some x /\ ltb x v = true /\ reads s' it (skipn j (vals es)).
Proof.
  intros W H Iv (e & f' & Hi & Ge & Gf' & Lef). destruct (erase_front v W H Iv) as (s1 & s2 & u & p & r & w & E1 & E2 & Sz & Hh & Gw & Vw & (f & Gf & Rf) & St & W1 & F2 & L2 & K2). set (t := place v es) in *. set (i := rk ltb v (vals es)) in *. assert (f' = f) by congruence. subst f'. pose proof (get_some_lt _ _ Gf) as Li. pose proof (w_len W) as La.
  unfold ss_erase. rewrite E1. cbn [obind]. rewrite Sz. unfold sub. destruct (Nat.leb_spec 1 (length es)); [|lia]. cbn [guard obind]. change (sk_h (with_size s1 (length es - 1))) with (sk_h s1). rewrite E2. cbn [obind].
  pose proof (split_at _ _ Gw) as Ea. pose proof St as (Gu & Hp & Hn & Gap). assert (Pt : S p < t). { destruct (Nat.eq_dec (S p) t); [|lia]. exfalso. assert (p = i) by (unfold t in *; lia). subst p. destruct (w_el W (i - 1) (u := u) (e := e)) as (_ & Hz & _); [replace (S (i - 1)) with i by lia; auto|auto|]. apply Hz in Hn. lia. }
  destruct (@get_lt _ a (S p) ltac:(pose proof (get_some_lt _ _ Gw); lia)) as (z & Gz). destruct (wf_pred W (srt_lt O v H) (y := S p) (z := z) ltac:(lia) Gz) as (x & Vx & Px). fold (rk ltb v (vals es)) in Px. fold i in Px. assert (Hx : ltb x v = true) by (apply Px; unfold t in Pt; lia).
  assert (Vals : forall y, val s2 y = val s y). { intros y. rewrite (f_val F2). change (val s1 y = val s y). destruct (ers_search_ok v H W (same_n_refl s) (k := S (sk_h s)) ltac:(pose proof (w_h W); lia) (w_0 W) ltac:(lia) (wf_up0 W)) as (s1' & u' & p' & N & _ & _ & [(r' & w' & E & _)|(E & _)]); rewrite E1 in E; [|discriminate]. injection E as <- _ _. apply (same_n_nxt N). }
  assert (Nx : nxt s2 u 0 = Some (Some z)) by (destruct (K2 0 u ltac:(lia)) as (-> & _); rewrite (wf_next W Gu), Gz; reflexivity).
  destruct (@ers_below_bad (firstn t a) (skipn (S t) a) w v u p ltac:(rewrite <- Ea; auto) (S r) s2) as (s3 & E3 & F3 & L3).
  - intros j Hj. rewrite <- Ea. split; [refine (lv_ext _ (w_lv W j)); intros y _; apply K2; lia|]. destruct (K2 j u ltac:(lia)) as (-> & _). apply (wf_down W Gu Hn); lia.
  - intros _. exists z, x. split; [auto|]. split; [rewrite Vals; auto|]. destruct (eqb x v) eqn:Ex; [|auto]. apply (so_eq O) in Ex. subst x. rewrite (so_irr O) in Hx. discriminate.
  - rewrite E3. cbn [obind]. rewrite L3, Nx. cbn [obind]. eexists _, _. split; [reflexivity|].
    assert (RV : forall y, val s3 y = val s y) by (intros y; rewrite (f_val F3); apply Vals). assert (RN : forall y, nxt s3 y 0 = nxt s y 0) by (intros y; rewrite L3; apply K2; lia). split.
    + destruct (wf_is W) as (it & Hb & Hr). exists it. split; [unfold sk_begin in *; rewrite RN; auto|]. exact (reads_same s3 RV RN Hr).
    + split; [rewrite (f_sz F3), (f_sz F2); reflexivity|]. destruct (wf_val W (y := S p) ltac:(lia) Gz) as (x' & Vx' & Gx'). assert (x' = x) by congruence. subst x'. cbn in Gx'. rewrite Nat.sub_0_r in Gx'. exists p, x. split; [auto|]. split; [auto|]. apply (reads_same s3 RV RN). rewrite <- Gz. exact (wf_reads p W).
Qed.
End Skip.
