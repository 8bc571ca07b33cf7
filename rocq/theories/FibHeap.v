(** FibonacciHeap: _ExtractTop, the operations and the invariant. *)
From Verif Require Import FibModel FibRing FibLink FibStr FibCut BaseLemmas ListExtra.
Set Implicit Arguments.

Section Fib.
Variables (T : Type) (cond : T -> T -> bool) (d0 : T).
Hypothesis WO : weak_order cond.
Notation fh := (fh T).
Notation fn := (fn T).
Notation DN := (DN d0).
Notation rings := (rings d0).
Notation same_f := (same_f d0).
Notation same_v := (same_v d0).
Notation shape := (shape cond d0).
Notation str := (str cond d0).
Notation pmap := (pmap T).
Implicit Types (h : fh).
Definition no : nat -> Prop := fun _ => False.
(** same sizes, live nodes and values *)
Record same_w (h h' : fh) : Prop := { sw_n : length (nds h') = length (nds h); sw_t : length (tab h') = length (tab h); sw_sz : sz h' = sz h;
  sw_en : forall j, en (DN h' j) = en (DN h j); sw_vl : forall j, vl (DN h' j) = vl (DN h j) }.
Lemma same_vw h h' : same_v h h' -> same_w h h'. Proof. intros []. split; auto. Qed.
Lemma same_w_refl h : same_w h h. Proof. split; auto. Qed.
Lemma same_w_trans h1 h2 h3 : same_w h1 h2 -> same_w h2 h3 -> same_w h1 h3.
Proof. intros [] []. split; intros; etransitivity; eauto. Qed.
Arguments same_w_trans {h1 h2 h3} _ _.
Lemma kok_w h h' : same_w h h' -> kok h -> kok h'. Proof. intros V. unfold kok. now rewrite (sw_n V), (sw_t V). Qed.
Arguments kok_w {h h'} _ _.
Lemma rings_rt h L r n : rings h L -> rings (with_sz (with_rt h r) n) L.
Proof. intros [R1 R2 R3 R4 R5 R6]. split; auto. Qed.
Lemma str_rt h L X ex r n : str h L X ex -> str (with_sz (with_rt h r) n) L X ex.
Proof. intros (R & [S2 S3 S4 S5 S6 S7 S8 S9 S10 S11 S12]). split; [apply rings_rt, R|]. split; auto. Qed.
Lemma str_rt1 h L X ex r : str h L X ex -> str (with_rt h r) L X ex.
Proof. exact (@str_rt h L X ex r (sz h)). Qed.
Lemma cond_refl_false a b c : cond a b = false -> cond a c = true -> cond c b = false.
Proof. intros E1 E2. apply (wo_neg WO c a b); [|auto]. apply (cond_asym WO), E2. Qed.

Lemma skip_ok h L k : rings h L -> k <= length (tab h) -> exists k', skip_empty h k = Some k' /\ k <= k' <= length (tab h) /\ (k' < length (tab h) -> L (Tab k') <> []) /\ (forall e, k <= e < k' -> L (Tab e) = []).
Proof.
  intros R Hk. unfold skip_empty. match goal with |- context [loop _ ?bd _] => set (body := bd) end.
  assert (Lp : forall fuel k, k <= length (tab h) -> length (tab h) < k + fuel -> exists k', loop fuel body k = Some k' /\ k <= k' <= length (tab h) /\ (k' < length (tab h) -> L (Tab k') <> []) /\ (forall e, k <= e < k' -> L (Tab e) = [])).
  { clear k Hk. induction fuel as [|fuel IH]; intros k Hk Hf; [lia|]. cbn [loop]. unfold body at 1. destruct (Nat.ltb_spec k (length (tab h))) as [Lk|Gk]; [|exists k; split; [auto|]; split; [lia|]; split; [lia|]; intros; lia].
    pose proof (rg_head R (Tab k) Lk) as Hh. cbn [head] in Hh. rewrite Hh. cbn [obind]. destruct (L (Tab k)) as [|u l] eqn:El; cbn [hd_error].
    - destruct (IH (S k)) as (k' & E & B & N & Z); [lia|lia|]. exists k'. split; [auto|]. split; [lia|]. split; [auto|]. intros e He. destruct (Nat.eq_dec e k) as [->|]; [auto|]. apply Z. lia.
    - exists k. split; [auto|]. split; [lia|]. split; [intros _; congruence|]. intros; lia. }
  apply Lp; lia.
Qed.
Lemma meld_up_ok h L X x : str h L (x :: X) no -> kok h -> exists h' w L', meld_up cond h x = Some (h', w) /\ same_v h h' /\ str h' L' (w :: X) no /\ dg (DN h x) <= dg (DN h' w) /\ (forall e, e < dg (DN h x) -> L' (Tab e) = L (Tab e)) /\ (forall i, In i X -> L' (Chd i) = L (Chd i)) /\ rc d0 h' <= rc d0 h /\ (L (Tab (dg (DN h x))) <> [] -> rc d0 h' < rc d0 h).
Proof.
  intros St K. unfold meld_up. match goal with |- context [loop _ ?bd _] => set (body := bd) end.
  assert (Lp : forall fuel h L x, str h L (x :: X) no -> kok h -> length (tab h) < fuel + dg (DN h x) -> exists h' w L', loop fuel body (h, x) = Some (h', w) /\ same_v h h' /\ str h' L' (w :: X) no /\ dg (DN h x) <= dg (DN h' w) /\ (forall e, e < dg (DN h x) -> L' (Tab e) = L (Tab e)) /\ (forall i, In i X -> L' (Chd i) = L (Chd i)) /\ rc d0 h' <= rc d0 h /\ (L (Tab (dg (DN h x))) <> [] -> rc d0 h' < rc d0 h)).
  { clear h L x St K. induction fuel as [|fuel IH]; intros h L x St K Hf; destruct (s_X (proj2 St) x (or_introl eq_refl)) as (Ex & Px & Mx & Nx); pose proof (dg_bound St K Ex) as Bd; [lia|].
    cbn [loop]. unfold body at 1. rewrite (dn_get d0) by exact (en_lt Ex). cbn [obind]. pose proof (rg_head (proj1 St) (Tab (dg (DN h x))) Bd) as Hh. cbn [head] in Hh. rewrite Hh. cbn [obind]. set (d := dg (DN h x)) in *. destruct (L (Tab d)) as [|u l] eqn:El; cbn [hd_error].
    - exists h, x, L. split; [auto|]. split; [apply same_v_refl|]. split; [auto|]. split; [auto|]. split; [auto|]. split; [auto|]. split; [auto|]. congruence.
    - destruct (pop_root (l1 := []) St El) as (h1 & E1 & F1 & S1). rewrite E1. cbn [obind app] in *. assert (Iu : In u (L (Tab d))) by (rewrite El; now left). destruct (s_tab (proj2 St) _ _ Iu) as (_ & Du & _).
      assert (S1' : str h1 (lupd L (Tab d) l) (x :: u :: X) no). { split; [apply S1|]. apply (shape_perm (x :: u :: X) (proj2 S1)); [cbn; tauto|]. pose proof (s_Xnd (proj2 S1)) as N. apply NoDup_cons_iff in N as (N1 & N). apply NoDup_cons_iff in N as (N2 & N). constructor; [|constructor; [intros J; apply N1; now right|auto]]. intros [->|J]; [apply N1; now left|auto]. }
      destruct (meld_ok WO S1') as (h2 & w & L2 & E2 & V2 & S2 & Hw & Dw & LT2 & LC2 & Rc2); [rewrite !(sf_dg F1); fold d; lia|]. rewrite E2. cbn [obind]. destruct (s_X (proj2 S2) w (or_introl eq_refl)) as (Ew & _). rewrite (dn_get d0) by exact (en_lt Ew). cbn [obind]. rewrite (sf_dg F1) in Dw. fold d in Dw. rewrite Dw, Nat.eqb_refl. cbn [guard obind].
      assert (V := same_v_trans (same_fv F1) V2). destruct (IH h2 L2 w S2 (kok_same V K)) as (h' & w' & L' & E' & V' & S' & D' & LT' & LC' & Rc' & _); [rewrite (sv_t V); lia|]. exists h', w', L'. split; [auto|]. split; [exact (same_v_trans V V')|]. split; [auto|]. split; [lia|]. rewrite (rc_same F1) in Rc2.
      split; [intros e He; rewrite LT', LT2 by lia; apply lupd_neq; intros J; injection J; lia|]. split; [|split; [lia|intros _; lia]].
      intros i Hi. pose proof (s_Xnd (proj2 S1')) as N. apply NoDup_cons_iff in N as (N1 & N). apply NoDup_cons_iff in N as (N2 & N). rewrite LC' by auto. rewrite LC2; [apply lupd_neq; discriminate|intros Ei; apply N1; right; congruence|intros Ei; apply N2; congruence]. }
  apply Lp; auto. destruct (s_X (proj2 St) x (or_introl eq_refl)) as (Ex & _). lia.
Qed.
Lemma ring_single h L d u l : rings h L -> L (Tab d) = u :: l -> NX d0 h u = Some u -> l = [].
Proof.
  intros R El E. destruct l as [|v l]; [auto|]. pose proof (rg_ring R (Tab d)) as Rg. rewrite El in Rg. unfold ring in Rg. cbn [app links] in Rg. destruct Rg as (Rg & _). pose proof (rg_nd R (Tab d)) as N. rewrite El in N. apply NoDup_cons_iff in N as (N & _). exfalso. apply N. left. congruence.
Qed.
(** the best of the roots of degree less than [k] *)
Definition best_below (h : fh) (L : slot -> list nat) (k : nat) : Prop :=
  match rt h with
  | None => forall e, e < k -> L (Tab e) = []
  | Some w => (exists e, e < k /\ In w (L (Tab e))) /\ forall e x, e < k -> In x (L (Tab e)) -> cond (vl (DN h w)) (vl (DN h x)) = false
  end.
Lemma extract_loop_ok h L X : str h L X no -> kok h -> rt h = None -> exists h' L', extract_top cond h = Some h' /\ same_w h h' /\ str h' L' X no /\ (forall i, In i X -> L' (Chd i) = L (Chd i)) /\ best_below h' L' (length (tab h')).
Proof.
  intros St K Hr. unfold extract_top. match goal with |- context [loop _ ?bd _] => set (body := bd) end.
  assert (Lp : forall fuel h L k, str h L X no -> kok h -> k <= length (tab h) -> best_below h L k -> length (tab h) - k + rc d0 h < fuel -> exists h' L', loop fuel body (h, k) = Some h' /\ same_w h h' /\ str h' L' X no /\ (forall i, In i X -> L' (Chd i) = L (Chd i)) /\ best_below h' L' (length (tab h'))).
  { clear h L St K Hr. induction fuel as [|fuel IH]; intros h L k St K Hk B Hf; [lia|]. cbn [loop]. unfold body at 1. destruct (Nat.ltb_spec k (length (tab h))) as [Lk|Gk]; [|assert (k = length (tab h)) by lia; subst k; exists h, L; split; [auto|]; split; [apply same_w_refl|auto]].
    destruct (skip_ok (proj1 St) Hk) as (k' & Es & Bk & Nk & Zk). rewrite Es. cbn [obind].
    assert (B' : best_below h L k'). { unfold best_below in *. destruct (rt h) as [w|]; [|intros e He; destruct (Nat.lt_ge_cases e k); auto; apply Zk; lia]. destruct B as ((e & He & Hw) & B). split; [exists e; split; [lia|auto]|]. intros e' x He' Hx. destruct (Nat.lt_ge_cases e' k) as [|G]; [eauto|]. rewrite Zk in Hx by lia. destruct Hx. }
    destruct (Nat.eqb_spec k' (length (tab h))) as [->|Nk']; [exists h, L; split; [auto|]; split; [apply same_w_refl|auto]|]. assert (Lk' : k' < length (tab h)) by lia. specialize (Nk Lk'). pose proof (rg_head (proj1 St) (Tab k') Lk') as Hh. cbn [head] in Hh. rewrite Hh. cbn [obind]. destruct (L (Tab k')) as [|u l] eqn:El; [congruence|]. cbn [hd_error obind].
    assert (Iu : In u (L (Tab k'))) by (rewrite El; now left). assert (Eu := s_mem (proj2 St) _ _ Iu). assert (Lu := en_lt Eu). destruct (s_tab (proj2 St) _ _ Iu) as (Pu & Du & Mu). rewrite (dn_get d0) by exact Lu. cbn [obind].
    assert (Hn : exists n, nx (DN h u) = Some n). { pose proof (rg_ring (proj1 St) (Tab k')) as Rg. rewrite El in Rg. unfold ring in Rg. destruct l; cbn [app links] in Rg; destruct Rg as (Rg & _); eexists; exact Rg. } destruct Hn as (n & Hn). rewrite Hn. cbn [obind]. destruct (Nat.eqb_spec n u) as [->|Nu].
    - assert (l = []) by (exact (@ring_single h L k' u l (proj1 St) El Hn)). subst l.
      assert (Hb : exists b, (match rt h with None => Some true | Some r => cmp cond h r u end) = Some b /\ best_below (if b : bool then with_rt h (Some u) else h) L (S k')).
      { unfold best_below in B'. destruct (rt h) as [w|] eqn:Er.
        - destruct B' as ((e & He & Hw) & B'). rewrite (cmp_ok cond d0) by (auto; exact (en_lt (s_mem (proj2 St) _ _ Hw))). eexists. split; [reflexivity|]. destruct (cond (vl (DN h w)) (vl (DN h u))) eqn:Ec; unfold best_below; cbn [with_rt rt]; [|rewrite Er].
          + split; [exists k'; split; [lia|auto]|]. intros e' x He' Hx. change (cond (vl (DN h u)) (vl (DN h x)) = false). destruct (Nat.eq_dec e' k') as [->|Ne]; [rewrite El in Hx; destruct Hx as [<-|[]]; apply (wo_irr WO)|]. apply (cond_refl_false (a := vl (DN h w))); [|auto]. apply (B' e'); [lia|auto].
          + split; [exists e; split; [lia|auto]|]. intros e' x He' Hx. destruct (Nat.eq_dec e' k') as [->|Ne]; [rewrite El in Hx; destruct Hx as [<-|[]]; auto|]. apply (B' e'); [lia|auto].
        - exists true. split; [auto|]. unfold best_below; cbn [with_rt rt]. split; [exists k'; split; [lia|auto]|]. intros e' x He' Hx. change (cond (vl (DN h u)) (vl (DN h x)) = false). destruct (Nat.eq_dec e' k') as [->|Ne]; [rewrite El in Hx; destruct Hx as [<-|[]]; apply (wo_irr WO)|]. rewrite B' in Hx by lia. destruct Hx. }
      destruct Hb as (b & Eb & Bb). rewrite Eb. cbn [obind]. set (h1 := if b then with_rt h (Some u) else h) in *. assert (S1 : str h1 L X no) by (unfold h1; destruct b; [apply str_rt1|]; auto). assert (W1 : same_w h h1) by (unfold h1; destruct b; split; auto). assert (R1 : rc d0 h1 = rc d0 h) by (unfold h1; destruct b; auto).
      destruct (IH h1 L (S k') S1 (kok_w W1 K)) as (h' & L' & E' & W' & S' & C' & B2); [rewrite (sw_t W1); lia|exact Bb|rewrite (sw_t W1), R1; lia|]. exists h', L'. split; [auto|]. split; [exact (same_w_trans W1 W')|auto].
    - assert (Nl : l <> []). { intros ->. pose proof (rg_ring (proj1 St) (Tab k')) as Rg. rewrite El in Rg. unfold ring in Rg. cbn [app links] in Rg. destruct Rg as (Rg & _). unfold NX in Rg. congruence. }
      destruct (pop_root (l1 := []) St El) as (h1 & E1 & F1 & S1). rewrite E1. cbn [obind app] in *. rewrite (dn_get d0) by (rewrite (sf_n F1); auto). cbn [obind]. rewrite (sf_dg F1), Du, Nat.eqb_refl. cbn [guard obind]. assert (K1 := kok_same (same_fv F1) K).
      destruct (meld_up_ok S1 K1) as (h2 & w & L2 & E2 & V2 & S2 & D2 & LT2 & LC2 & Rc2 & Rc2'). rewrite E2. cbn [obind]. rewrite (sf_dg F1), Du in D2, LT2, Rc2'. rewrite lupd_eq in Rc2'. specialize (Rc2' Nl). rewrite (rc_same F1) in Rc2'. destruct (s_X (proj2 S2) w (or_introl eq_refl)) as (Ew & _). rewrite (dn_get d0) by exact (en_lt Ew). cbn [obind].
      destruct (push_root S2 (kok_same V2 K1)) as (h3 & E3 & F3 & S3). rewrite E3. cbn [obind]. assert (V := same_v_trans (same_v_trans (same_fv F1) V2) (same_fv F3)). set (L3 := lupd L2 _ _) in *.
      assert (LT3 : forall e, e < k' -> L3 (Tab e) = L (Tab e)) by (intros e He; unfold L3; rewrite lupd_neq by (intros J; injection J; lia); rewrite LT2 by auto; apply lupd_neq; intros J; injection J; lia).
      destruct (IH h3 L3 k' S3 (kok_same V K)) as (h' & L' & E' & W' & S' & C' & B2).
      + rewrite (sv_t V). lia.
      + unfold best_below in *. rewrite (sv_rt V). destruct (rt h) as [r|]; [|intros e He; rewrite LT3; auto]. destruct B' as ((e & He & Hw) & B'). split; [exists e; split; [auto|now rewrite LT3]|]. intros e' x He'. rewrite LT3, !(sv_vl V) by auto. eauto.
      + rewrite (sv_t V), (rc_same F3). lia.
      + exists h', L'. split; [auto|]. split; [exact (same_w_trans (same_vw V) W')|]. split; [auto|]. split; [|auto]. intros i Hi. rewrite C' by auto. unfold L3. rewrite lupd_neq by discriminate. rewrite LC2 by auto. apply lupd_neq. discriminate. }
  apply Lp; auto; [lia|unfold best_below; rewrite Hr; intros; lia|]. assert (rc d0 h <= length (nds h)) by (eapply rc_le; eauto). lia.
Qed.
(** the best of the roots is the best of all *)
Definition best_rt (h : fh) (P : nat -> Prop) : Prop :=
  match rt h with
  | None => forall x, en (DN h x) = true -> ~ P x
  | Some w => P w /\ en (DN h w) = true /\ par (DN h w) = None /\ forall x, en (DN h x) = true -> P x -> cond (vl (DN h w)) (vl (DN h x)) = false
  end.
Lemma best_all h L r : str h L [r] no -> kok h -> L (Chd r) = [] -> best_below h L (length (tab h)) -> best_rt h (fun x => x <> r).
Proof.
  intros (R & Sh) K Lr B. destruct (s_ht Sh) as (ht & Ht).
  assert (Rt : forall x, en (DN h x) = true -> x <> r -> par (DN h x) = None -> exists e, e < length (tab h) /\ In x (L (Tab e))). { intros x E N P. destruct (s_root Sh _ E P) as [I|[I|[]]]; [|congruence]. exists (dg (DN h x)). split; [exact (dg_bound (conj R Sh) K E)|auto]. }
  assert (Up : forall x p, en (DN h x) = true -> par (DN h x) = Some p -> en (DN h p) = true /\ p <> r). { intros x p E P. pose proof (s_par Sh _ E P) as I. split; [apply (s_chd Sh _ _ I)|]. intros ->. rewrite Lr in I. destruct I. }
  assert (Bd : forall x, en (DN h x) = true -> exists k, ht x <= k /\ forall y, en (DN h y) = true -> ht y <= k).
  { intros x E. assert (M : exists k, forall y, y < length (nds h) -> ht y <= k). { induction (length (nds h)) as [|n IH]; [exists 0; lia|]. destruct IH as (k & IH). exists (Nat.max k (ht n)). intros y Hy. destruct (Nat.eq_dec y n) as [->|]; [lia|]. specialize (IH y ltac:(lia)). lia. } destruct M as (k & M). exists k. split; [|intros y Ey]; apply M, (@en_lt _ d0); auto. }
  unfold best_rt. unfold best_below in B. destruct (rt h) as [w|].
  - destruct B as ((e & He & Hw) & B). assert (Ew := s_mem Sh _ _ Hw). split; [intros ->; destruct (s_X Sh r (or_introl eq_refl)) as (_ & _ & _ & N); exact (N _ Hw)|]. split; [auto|]. split; [apply (s_tab Sh _ _ Hw)|].
    intros x E N. destruct (Bd x E) as (k & Hk & Hk'). remember (k - ht x) as m eqn:Em. revert x E N Hk Em. induction m as [m IH] using lt_wf_ind. intros x E N Hk Em. destruct (par (DN h x)) as [p|] eqn:P.
    + destruct (Up x p E P) as (Ep & Np). pose proof (Ht _ _ E P) as Hh. specialize (Hk' p Ep) as Hkp. apply (wo_neg WO _ (vl (DN h p)) _); [apply (IH (k - ht p)); auto; lia|]. apply (s_ord Sh); auto.
    + destruct (Rt x E N P) as (e' & He' & I). eauto.
  - intros x E N. destruct (Bd x E) as (k & Hk & Hk'). remember (k - ht x) as m eqn:Em. revert x E N Hk Em. induction m as [m IH] using lt_wf_ind. intros x E N Hk Em. destruct (par (DN h x)) as [p|] eqn:P.
    + destruct (Up x p E P) as (Ep & Np). pose proof (Ht _ _ E P) as Hh. specialize (Hk' p Ep) as Hkp. apply (IH (k - ht p)) with (x := p); auto; lia.
    + destruct (Rt x E N P) as (e' & He' & I). rewrite B in I by auto. destruct I.
Qed.
(** a loose tree of one node is freed *)
Lemma free_ok h L r : str h L [r] no -> L (Chd r) = [] -> exists h', upd_n h r (w_en false) = Some h' /\ str h' L [] no /\ length (nds h') = length (nds h) /\ length (tab h') = length (tab h) /\ rt h' = rt h /\ sz h' = sz h /\ (forall j, en (DN h' j) = if j =? r then false else en (DN h j)) /\ (forall j, vl (DN h' j) = vl (DN h j)) /\ (forall j, par (DN h' j) = par (DN h j)).
Proof.
  intros (R & Sh) Lr. destruct (s_X Sh r (or_introl eq_refl)) as (Er & Pr & Mr & Nr). destruct (@fld_ok _ d0 h L r (w_en false) R (en_lt Er)) as (h' & E & R' & D & Ln & Lt & Rt & Sz); [repeat split|]. exists h'. split; [auto|].
  assert (Q : forall B (g : fn -> B) j, (forall d x, g (w_en x d) = g d) -> g (DN h' j) = g (DN h j)) by (intros B g j G; rewrite D; destruct (j =? r); auto).
  assert (He : forall j, en (DN h' j) = if j =? r then false else en (DN h j)) by (intros j; rewrite D; destruct (j =? r); auto). assert (Hv : forall j, vl (DN h' j) = vl (DN h j)) by (intros j; apply Q; auto). assert (Hp : forall j, par (DN h' j) = par (DN h j)) by (intros j; apply Q; auto). assert (Hm : forall j, mk (DN h' j) = mk (DN h j)) by (intros j; apply Q; auto). assert (Hd : forall j, dg (DN h' j) = dg (DN h j)) by (intros j; apply Q; auto).
  assert (He' : forall j, en (DN h' j) = true -> j <> r /\ en (DN h j) = true) by (intros j; rewrite He; destruct (Nat.eqb_spec j r); [discriminate|auto]). assert (He2 : forall j, j <> r -> en (DN h j) = true -> en (DN h' j) = true) by (intros j Nj Ej; apply Nat.eqb_neq in Nj; now rewrite He, Nj).
  split; [|auto 10]. split; [auto|]. split.
  - intros o x I. apply He2; [intros ->; exact (Nr _ I)|exact (s_mem Sh _ _ I)].
  - intros d x I. rewrite Hp, Hd, Hm. exact (s_tab Sh _ _ I).
  - intros i x I. destruct (s_chd Sh _ _ I) as (A & B). rewrite Hp. split; [auto|]. apply He2; auto. intros ->. rewrite Lr in I. destruct I.
  - intros x E1. apply He' in E1 as (Nx & E1). rewrite Hp, Hd. intros P. destruct (s_root Sh _ E1 P) as [I|[I|[]]]; [auto|congruence].
  - intros x p E1. apply He' in E1 as (Nx & E1). rewrite Hp. apply (s_par Sh), E1.
  - intros x [].
  - constructor.
  - intros i E1. apply He' in E1 as (Nx & E1). rewrite Hd. apply (s_dg Sh), E1.
  - intros x p E1. apply He' in E1 as (Nx & E1). rewrite Hp, !Hv. apply (s_ord Sh), E1.
  - intros p j c G. rewrite Hd, Hm. exact (s_fib Sh _ _ G).
  - destruct (s_ht Sh) as (ht & Ht). exists ht. intros x p E1. apply He' in E1 as (Nx & E1). rewrite Hp. auto.
Qed.
(** a dead node becomes a tree of one node *)
Lemma init_ok h L k v : str h L [] no -> k < length (nds h) -> en (DN h k) = false -> exists h', upd_n h k (w_init k v) = Some h' /\ str h' L [k] no /\ length (nds h') = length (nds h) /\ length (tab h') = length (tab h) /\ rt h' = rt h /\ sz h' = sz h /\ (forall j, DN h' j = if j =? k then w_init k v (DN h j) else DN h j).
Proof.
  intros (R & Sh) Lk Ek. destruct (upd_n_ok d0 h (w_init k v) Lk) as (h' & E & D & O & Ln & Lt & Rt & Sz). exists h'. split; [auto|].
  assert (Nk : forall o, ~ In k (L o)) by (intros o I; pose proof (s_mem Sh _ _ I); congruence). assert (Ck : L (Chd k) = []). { destruct (L (Chd k)) as [|c l] eqn:El; [auto|]. assert (I : In c (L (Chd k))) by (rewrite El; now left). destruct (s_chd Sh _ _ I). congruence. }
  assert (Ok : forall o, okslot h' o <-> okslot h o) by (intros []; cbn; rewrite ?Ln, ?Lt; tauto). assert (Nin : forall o x, In x (L o) -> x <> k) by (intros o x I ->; exact (Nk _ I)).
  assert (He' : forall j, en (DN h' j) = true -> j = k \/ j <> k /\ en (DN h j) = true) by (intros j; destruct (Nat.eq_dec j k) as [->|Nj]; [auto|rewrite O; auto]).
  split; [split|split; [auto|split; [now rewrite Lt|split; [auto|split; [auto|intros j; destruct (Nat.eqb_spec j k) as [->|]; auto]]]]].
  - destruct R as [R1 R2 R3 R4 R5 R6]. split; auto.
    + intros o Oo. apply Ok in Oo. rewrite <- (R1 o Oo). destruct o as [d|i]; cbn; [now rewrite Lt|]. cbn in Oo. rewrite !(dn_get d0) by lia. cbn [obind]. f_equal. destruct (Nat.eq_dec i k) as [->|Ni]; [|now rewrite O]. rewrite D. cbn [w_init chd]. pose proof (R1 (Chd k) Oo) as H. cbn [head] in H. rewrite (dn_get d0), Ck in H by auto. cbn in H. congruence.
    + intros o x I. apply Ok. eauto.
    + intros o. apply (ring_ext (N := NX d0 h) (P := PV d0 h)); auto. intros j J. unfold NX, PV. rewrite O; eauto.
    + intros o x I. rewrite Ln. eauto.
  - split.
    + intros o x I. rewrite O by eauto. exact (s_mem Sh _ _ I).
    + intros d x I. rewrite O by eauto. exact (s_tab Sh _ _ I).
    + intros i x I. destruct (s_chd Sh _ _ I) as (A & B). rewrite O by eauto. split; [auto|]. rewrite O; [auto|]. intros ->. congruence.
    + intros x E1. apply He' in E1 as [->|(Nx & E1)]; [right; now left|]. rewrite O by auto. intros P. destruct (s_root Sh _ E1 P) as [I|[]]. auto.
    + intros x p E1. apply He' in E1 as [->|(Nx & E1)]; [rewrite D; discriminate|]. rewrite O by auto. apply (s_par Sh), E1.
    + intros x [<-|[]]. rewrite D. cbn. auto.
    + constructor; [auto|constructor].
    + intros i E1. apply He' in E1 as [->|(Nx & E1)]; [rewrite D, Ck; auto|]. rewrite O by auto. apply (s_dg Sh), E1.
    + intros x p E1. apply He' in E1 as [->|(Nx & E1)]; [rewrite D; discriminate|]. rewrite (O x) by auto. intros P Ne. pose proof (s_par Sh _ E1 P) as I. destruct (s_chd Sh _ _ I) as (_ & Ep). rewrite O by (intros ->; congruence). apply (s_ord Sh); auto.
    + intros p j c G. pose proof (get_In _ _ G) as I. rewrite O by eauto. exact (s_fib Sh _ _ G).
    + destruct (s_ht Sh) as (ht & Ht). exists ht. intros x p E1. apply He' in E1 as [->|(Nx & E1)]; [rewrite D; discriminate|]. rewrite O by auto. auto.
Qed.
(** a live node gets a better value *)
Lemma value_ok h L k v : str h L [] no -> en (DN h k) = true -> cond (vl (DN h k)) v = true -> exists h', upd_n h k (w_vl v) = Some h' /\ str h' L [] (eq k) /\ length (nds h') = length (nds h) /\ length (tab h') = length (tab h) /\ rt h' = rt h /\ sz h' = sz h /\ (forall j, en (DN h' j) = en (DN h j)) /\ (forall j, vl (DN h' j) = if j =? k then v else vl (DN h j)) /\ (forall j, par (DN h' j) = par (DN h j)).
Proof.
  intros (R & Sh) Ek Hc. destruct (@fld_ok _ d0 h L k (w_vl v) R (en_lt Ek)) as (h' & E & R' & D & Ln & Lt & Rt & Sz); [repeat split|]. exists h'. split; [auto|].
  assert (Q : forall B (g : fn -> B) j, (forall d x, g (w_vl x d) = g d) -> g (DN h' j) = g (DN h j)) by (intros B g j G; rewrite D; destruct (j =? k); auto).
  assert (Hv : forall j, vl (DN h' j) = if j =? k then v else vl (DN h j)) by (intros j; rewrite D; destruct (j =? k); auto). assert (He : forall j, en (DN h' j) = en (DN h j)) by (intros j; apply Q; auto). assert (Hp : forall j, par (DN h' j) = par (DN h j)) by (intros j; apply Q; auto). assert (Hm : forall j, mk (DN h' j) = mk (DN h j)) by (intros j; apply Q; auto). assert (Hd : forall j, dg (DN h' j) = dg (DN h j)) by (intros j; apply Q; auto).
  split; [|auto 10]. split; [auto|]. destruct Sh as [S2 S3 S4 S5 S6 S7 S8 S9 S10 S11 S12]. split; auto; intros *; rewrite ?Hp, ?Hd, ?Hm, ?He; eauto.
  - intros E1 P Ne. rewrite !Hv. assert (Nx : x <> k) by congruence. apply Nat.eqb_neq in Nx. rewrite Nx. specialize (S10 x p E1 P). destruct (Nat.eqb_spec p k) as [->|]; [|apply S10; intros []]. apply (cond_refl_false (a := vl (DN h k))); [apply S10; intros []|auto].
  - destruct S12 as (ht & Ht). exists ht. intros x p. rewrite He, Hp. auto.
Qed.
End Fib.
Arguments extract_loop_ok {T cond d0} _ {h L X} _ _ _.
Arguments best_all {T cond d0} _ {h L r} _ _ _ _.
Arguments free_ok {T cond d0 h L r} _ _.
Arguments init_ok {T cond d0 h L k} v _ _ _.
Arguments value_ok {T cond d0} _ {h L k v} _ _ _.
Arguments same_w_trans {T d0 h1 h2 h3} _ _.
Arguments kok_w {T d0 h h'} _ _.
Arguments str_rt {T cond d0 h L X ex} r n _.
Arguments cond_refl_false {T cond} _ {a b c} _ _.
