(** FibonacciHeap: _Consolidate and _ExpandChildren. *)
From Verif Require Import FibModel FibRing FibLink FibStr BaseLemmas ListExtra.
Set Implicit Arguments.

Section Fib.
Variables (T : Type) (cond : T -> T -> bool) (d0 : T).
Notation fh := (fh T).
Notation fn := (fn T).
Notation DN := (DN d0).
Notation rings := (rings d0).
Notation same_f := (same_f d0).
Notation same_v := (same_v d0).
Notation shape := (shape cond d0).
Notation str := (str cond d0).
Implicit Types (h : fh).
Lemma get_mid {A} (l1 l2 : list A) c j x : get (l1 ++ l2) j = Some x -> exists j', j <= j' /\ get (l1 ++ c :: l2) j' = Some x.
Proof.
  intros G. destruct (Nat.lt_ge_cases j (length l1)) as [Lj|Lj].
  - exists j. split; [auto|]. rewrite get_app_l in * by auto. auto.
  - exists (S j). split; [lia|]. rewrite get_app_r in * by lia. replace (S j - length l1) with (S (j - length l1)) by lia. exact G.
Qed.
Lemma get_mid_of {A} (l1 l2 : list A) c : get (l1 ++ c :: l2) (length l1) = Some c.
Proof. rewrite get_app_r by lia. now rewrite Nat.sub_diag. Qed.
(** the child [c] of [p] is cut; [p] loses a degree (and moves in the table) or its mark *)
Lemma cut_shape h h' L L' X ex ex' p c c1 c2 mp : shape h L X ex -> L (Chd p) = c1 ++ c :: c2 -> NoDup (L (Chd p)) ->
  (forall j, par (DN h' j) = if j =? c then None else par (DN h j)) -> (forall j, dg (DN h' j) = if j =? p then dg (DN h j) - 1 else dg (DN h j)) ->
  (forall j, mk (DN h' j) = if j =? c then false else if j =? p then mp else mk (DN h j)) -> (forall j, en (DN h' j) = en (DN h j)) -> (forall j, vl (DN h' j) = vl (DN h j)) ->
  mk (DN h p) = false -> (par (DN h p) = None -> mp = false) -> (par (DN h p) <> None -> mp = true) ->
  L' (Chd p) = c1 ++ c2 -> (forall i, i <> p -> L' (Chd i) = L (Chd i)) -> (forall e x, x <> p -> (In x (L' (Tab e)) <-> In x (L (Tab e)))) -> (forall e, In p (L' (Tab e)) <-> In p (L (Tab (S e)))) ->
  (forall x, x <> c -> ~ ex' x -> ~ ex x) -> shape h' L' (c :: X) ex'.
Proof.
  intros Sh Ec Nd Hp Hd Hm He Hv Mp M0 M1 Lp LC LT LTp Hex. rewrite Ec in Nd. destruct (NoDup_remove _ _ _ Nd) as (Nd' & Nc). assert (Ic : In c (L (Chd p))) by (rewrite Ec; apply in_or_app; right; now left).
  destruct (s_chd Sh _ _ Ic) as (Pc & Ep). assert (Enc := s_mem Sh _ _ Ic). assert (Ncp : c <> p) by (intros E; rewrite E in *; exact (not_self Sh Ep Pc)).
  assert (Hp' : forall j, j <> c -> par (DN h' j) = par (DN h j)) by (intros j J; apply Nat.eqb_neq in J; now rewrite Hp, J).
  assert (Hd' : forall j, j <> p -> dg (DN h' j) = dg (DN h j)) by (intros j J; apply Nat.eqb_neq in J; now rewrite Hd, J).
  assert (Hm' : forall j, j <> p -> j <> c -> mk (DN h' j) = mk (DN h j)) by (intros j J K; apply Nat.eqb_neq in J, K; now rewrite Hm, J, K).
  assert (Hmp : mk (DN h' p) = mp) by (rewrite Hm; apply Nat.neq_sym, Nat.eqb_neq in Ncp; now rewrite Ncp, Nat.eqb_refl).
  assert (Dp : dg (DN h p) = S (length (c1 ++ c2))) by (rewrite (s_dg Sh _ Ep), Ec, !app_length; cbn; lia).
  assert (MemC : forall i x, In x (L' (Chd i)) -> In x (L (Chd i)) /\ x <> c). { intros i x. destruct (Nat.eq_dec i p) as [->|Ni]; [rewrite Lp, Ec; intros I; split; [apply in_app_or in I; apply in_or_app; cbn; tauto|intros ->; auto]|]. rewrite LC by auto. intros I. split; [auto|]. intros ->. destruct (s_chd Sh _ _ I). congruence. }
  assert (MemT : forall e x, In x (L' (Tab e)) -> x <> c /\ exists e', In x (L (Tab e')) /\ (x <> p -> e' = e) /\ (x = p -> e' = S e)).
  { intros e x I. assert (H : exists e', In x (L (Tab e')) /\ (x <> p -> e' = e) /\ (x = p -> e' = S e)). { destruct (Nat.eq_dec x p) as [->|Nx]; [apply LTp in I; exists (S e)|apply LT in I; auto; exists e]; repeat split; auto; congruence. } split; [|auto]. intros ->. destruct H as (e' & J & _). destruct (s_tab Sh _ _ J). congruence. }
  split.
  - intros [e|i] x I; rewrite He; [apply MemT in I as (_ & e' & I & _)|apply MemC in I as (I & _)]; eapply (s_mem Sh); eauto.
  - intros e x I. apply MemT in I as (Nx & e' & I & E1 & E2). destruct (s_tab Sh _ _ I) as (A1 & A2 & A3). rewrite Hp' by auto. split; [auto|]. destruct (Nat.eq_dec x p) as [->|Nxp]; [rewrite Hd, Nat.eqb_refl, Hmp, (M0 A1), A2, E2 by auto; split; [lia|auto]|rewrite Hd', Hm', A2, E1 by auto; auto].
  - intros i x I. apply MemC in I as (I & Nx). rewrite Hp', He by auto. exact (s_chd Sh _ _ I).
  - intros x. rewrite He. intros E P. destruct (Nat.eq_dec x c) as [->|Nx]; [right; now left|]. rewrite Hp' in P by auto. destruct (s_root Sh _ E P) as [I|I]; [left|right; now right]. destruct (Nat.eq_dec x p) as [->|Nxp]; [|rewrite Hd' by auto; apply LT; auto]. apply LTp. rewrite Hd, Nat.eqb_refl, Dp. rewrite Dp in I. replace (S (S (length (c1 ++ c2)) - 1)) with (S (length (c1 ++ c2))) by lia. exact I.
  - intros x q. rewrite He. intros E P. assert (Nx : x <> c) by (intros ->; rewrite Hp, Nat.eqb_refl in P; discriminate). rewrite Hp' in P by auto. pose proof (s_par Sh _ E P) as I. destruct (Nat.eq_dec q p) as [->|Nq]; [|rewrite LC; auto]. rewrite Lp. rewrite Ec in I. apply in_app_or in I as [I|[I|I]]; [apply in_or_app; auto|congruence|apply in_or_app; auto].
  - intros x [<-|I].
    + rewrite He, Hp, Hm, Nat.eqb_refl. repeat split; auto. intros [e|i] I; [apply MemT in I|apply MemC in I]; tauto.
    + destruct (s_X Sh _ I) as (A1 & A2 & A3 & A4). assert (Nx : x <> c) by (intros ->; congruence). rewrite He, Hp' by auto. repeat split; auto.
      * destruct (Nat.eq_dec x p) as [->|Nxp]; [rewrite Hmp; auto|rewrite Hm'; auto].
      * intros [e|i] J; [apply MemT in J as (_ & e' & J & _)|apply MemC in J as (J & _)]; exact (A4 _ J).
  - constructor; [|apply (s_Xnd Sh)]. intros I. destruct (s_X Sh _ I) as (_ & _ & _ & A). exact (A _ Ic).
  - intros i. rewrite He. intros E. destruct (Nat.eq_dec i p) as [->|Ni]; [rewrite Hd, Nat.eqb_refl, Dp, Lp; lia|rewrite Hd', LC by auto; apply (s_dg Sh), E].
  - intros x q. rewrite He, !Hv. intros E P Nex. assert (Nx : x <> c) by (intros ->; rewrite Hp, Nat.eqb_refl in P; discriminate). rewrite Hp' in P by auto. apply (s_ord Sh); auto.
  - intros q j x G. assert (Nx : x <> c) by (pose proof (get_In _ _ G) as I; apply MemC in I; tauto). destruct (Nat.eq_dec q p) as [->|Nq].
    + rewrite Lp in G. destruct (@get_mid _ c1 c2 c j x G) as (j' & Hj & G'). rewrite <- Ec in G'. assert (Nxp : x <> p). { intros ->. pose proof (get_In _ _ G') as I. destruct (s_chd Sh _ _ I) as (P & _). exact (not_self Sh Ep P). } rewrite Hd', Hm' by auto. pose proof (s_fib Sh _ _ G'). lia.
    + rewrite LC in G by auto. pose proof (s_fib Sh _ _ G) as B. destruct (Nat.eq_dec x p) as [->|Nxp]; [|rewrite Hd', Hm' by auto; auto]. pose proof (get_In _ _ G) as I. destruct (s_chd Sh _ _ I) as (P & _). rewrite Hmp, M1 by congruence. rewrite Hd, Nat.eqb_refl. rewrite Mp in B. cbn [b2n] in *. lia.
  - destruct (s_ht Sh) as (ht & Ht). exists ht. intros x q. rewrite He. intros E P. assert (Nx : x <> c) by (intros ->; rewrite Hp, Nat.eqb_refl in P; discriminate). rewrite Hp' in P by auto. auto.
Qed.
(** the last five steps of both: the child is taken out of the list of [p] and put into the table *)
Definition cut_tail (h : fh) (p c : nat) : option fh :=
  let* h := pop_link h c (Chd p) in
  let* dp := get (nds h) p in
  let* _ := guard (1 <=? dg dp) in
  let* h := upd_n h p (fun d => w_dg (dg d - 1) d) in
  let* h := upd_n h c (w_par None) in
  let* h := upd_n h c (w_mk false) in
  let* d := get (nds h) c in
  push_link h c (Tab (dg d)).
(** [h0]: the heap at the start of the turn; [h]: the table entry of [p] or its mark has been changed *)
Lemma cut_tail_ok h0 h L0 L X ex ex' p c mp : str h0 L0 X ex -> kok h0 -> In c (L0 (Chd p)) -> rings h L ->
  length (nds h) = length (nds h0) -> length (tab h) = length (tab h0) -> rt h = rt h0 -> sz h = sz h0 ->
  (forall j, par (DN h j) = par (DN h0 j)) -> (forall j, dg (DN h j) = dg (DN h0 j)) -> (forall j, mk (DN h j) = if j =? p then mp else mk (DN h0 j)) -> (forall j, en (DN h j) = en (DN h0 j)) -> (forall j, vl (DN h j) = vl (DN h0 j)) ->
  mk (DN h0 p) = false -> (par (DN h0 p) = None -> mp = false) -> (par (DN h0 p) <> None -> mp = true) ->
  (forall i, L (Chd i) = L0 (Chd i)) -> (forall e x, x <> p -> (In x (L (Tab e)) <-> In x (L0 (Tab e)))) -> (forall e, In p (L (Tab e)) <-> In p (L0 (Tab (S e)))) ->
  (forall x, x <> c -> ~ ex' x -> ~ ex x) ->
  exists h' L', cut_tail h p c = Some h' /\ same_v h0 h' /\ str h' L' X ex' /\ (forall j, par (DN h' j) = if j =? c then None else par (DN h0 j)) /\
    (forall i, i <> p -> L' (Chd i) = L0 (Chd i)) /\ S (length (L' (Chd p))) = length (L0 (Chd p)).
Proof.
  intros (R0 & Sh) K Ic R Ln Lt Er Es Hp Hd Hm He Hv Mp M0 M1 LC LT LTp Hex. unfold cut_tail. destruct (in_split _ _ Ic) as (c1 & c2 & Ec). destruct (s_chd Sh _ _ Ic) as (Pc & Ep). assert (Enc := s_mem Sh _ _ Ic). assert (Lp := en_lt Ep). assert (Lc := en_lt Enc).
  assert (Ncp : c <> p) by (intros E; rewrite E in *; exact (not_self Sh Ep Pc)).
  assert (EcL : L (Chd p) = c1 ++ c :: c2) by (now rewrite LC). destruct (pop_link_ok R EcL) as (h1 & E1 & R1 & F1). rewrite E1. cbn [obind]. rewrite (dn_get d0) by (rewrite (sf_n F1); lia). cbn [obind].
  assert (Dp : dg (DN h0 p) = S (length (c1 ++ c2))) by (rewrite (s_dg Sh _ Ep), Ec, !app_length; cbn; lia). rewrite (sf_dg F1), Hd. replace (1 <=? dg (DN h0 p)) with true by (symmetry; apply Nat.leb_le; lia). cbn [guard obind].
  destruct (@fld_ok _ d0 h1 _ p (fun d => w_dg (dg d - 1) d) R1) as (h2 & E2 & R2 & D2 & Ln2 & Lt2 & Rt2 & Sz2); [rewrite (sf_n F1); lia|repeat split|]. rewrite E2. cbn [obind].
  destruct (@fld_ok _ d0 h2 _ c (w_par None) R2) as (h3 & E3 & R3 & D3 & Ln3 & Lt3 & Rt3 & Sz3); [rewrite Ln2, (sf_n F1); lia|repeat split|]. rewrite E3. cbn [obind].
  destruct (@fld_ok _ d0 h3 _ c (w_mk false) R3) as (h4 & E4 & R4 & D4 & Ln4 & Lt4 & Rt4 & Sz4); [rewrite Ln3, Ln2, (sf_n F1); lia|repeat split|]. rewrite E4. cbn [obind]. rewrite (dn_get d0) by (rewrite Ln4, Ln3, Ln2, (sf_n F1); lia). cbn [obind].
  assert (Q : forall B (g : fn -> B) j, (forall d x, g (w_par x d) = g d) -> (forall d x, g (w_dg x d) = g d) -> (forall d x, g (w_mk x d) = g d) -> g (DN h4 j) = g (DN h1 j)) by (intros B g j G1 G2 G3; rewrite D4, D3, D2; destruct (j =? c), (j =? p); rewrite ?G3, ?G1, ?G2; auto).
  assert (Hp4 : forall j, par (DN h4 j) = if j =? c then None else par (DN h0 j)). { intros j. rewrite D4, D3, D2. destruct (j =? c), (j =? p); cbn; rewrite ?(sf_par F1); auto. }
  assert (Hd4 : forall j, dg (DN h4 j) = if j =? p then dg (DN h0 j) - 1 else dg (DN h0 j)). { intros j. rewrite D4, D3, D2. destruct (j =? c), (j =? p); cbn; rewrite ?(sf_dg F1), ?Hd; auto. }
  assert (Hm4 : forall j, mk (DN h4 j) = if j =? c then false else if j =? p then mp else mk (DN h0 j)). { intros j. rewrite D4, D3, D2. destruct (j =? c) eqn:Ej, (j =? p) eqn:Ejp; cbn; rewrite ?(sf_mk F1), ?Hm, ?Ejp; auto. }
  assert (He4 : forall j, en (DN h4 j) = en (DN h0 j)) by (intros j; rewrite Q, (sf_en F1); auto). assert (Hv4 : forall j, vl (DN h4 j) = vl (DN h0 j)) by (intros j; rewrite Q, (sf_vl F1); auto).
  assert (S4 : str h4 (lupd L (Chd p) (c1 ++ c2)) (c :: X) ex').
  { split; [exact R4|]. refine (@cut_shape h0 h4 L0 _ X ex ex' p c c1 c2 mp Sh Ec (rg_nd R0 _) Hp4 Hd4 Hm4 He4 Hv4 Mp M0 M1 _ _ _ _ Hex); [now rewrite lupd_eq|intros i Hi; rewrite lupd_neq by congruence; auto| |]; intros; rewrite lupd_neq by discriminate; auto. }
  assert (V4 : same_v h0 h4) by (split; auto; [rewrite Ln4, Ln3, Ln2, (sf_n F1); lia|rewrite Lt4, Lt3, Lt2, (sf_t F1); lia|rewrite Rt4, Rt3, Rt2, (sf_rt F1); auto|rewrite Sz4, Sz3, Sz2, (sf_sz F1); auto]).
  destruct (push_root S4 (kok_same V4 K)) as (h5 & E5 & F5 & S5). rewrite E5. exists h5. eexists. split; [reflexivity|]. split; [exact (same_v_trans V4 (same_fv F5))|]. split; [exact S5|]. split; [intros j; rewrite (sf_par F5); auto|]. split.
  - intros i Hi. rewrite lupd_neq by discriminate. rewrite lupd_neq by congruence. auto.
  - rewrite lupd_neq by discriminate. rewrite lupd_eq, Ec, !app_length. cbn. lia.
Qed.
Lemma expand_ok h L X r ex : str h L (r :: X) ex -> kok h -> exists h' L', expand h r = Some h' /\ same_v h h' /\ str h' L' (r :: X) ex /\ L' (Chd r) = [] /\ (forall j, par (DN h' j) = par (DN h j) \/ par (DN h' j) = None).
Proof.
  intros St K. unfold expand. match goal with |- context [loop _ ?bd _] => set (body := bd) end.
  assert (Lp : forall fuel h L, str h L (r :: X) ex -> kok h -> length (L (Chd r)) < fuel -> exists h' L', loop fuel body h = Some h' /\ same_v h h' /\ str h' L' (r :: X) ex /\ L' (Chd r) = [] /\ (forall j, par (DN h' j) = par (DN h j) \/ par (DN h' j) = None)).
  { clear h L St K. induction fuel as [|fuel IH]; intros h L St K Hf; [lia|]. cbn [loop]. unfold body at 1. destruct (s_X (proj2 St) r (or_introl eq_refl)) as (Er & Pr & Mr & Nr). assert (Lr := en_lt Er). destruct St as (R & Sh). pose proof (rg_head R (Chd r) Lr) as Hh. cbn [head] in Hh. rewrite (dn_get d0) in * by auto. cbn [obind] in *. injection Hh as Hh. rewrite Hh. destruct (L (Chd r)) as [|c l] eqn:El; cbn [hd_error].
    - exists h, L. split; [auto|]. split; [apply same_v_refl|]. split; [split; auto|]. auto.
    - assert (Hm : forall j, mk (DN h j) = if j =? r then false else mk (DN h j)) by (intros j; destruct (Nat.eqb_spec j r) as [->|]; auto).
      assert (Hn : forall e, In r (L (Tab e)) <-> In r (L (Tab (S e)))) by (intros e; split; intros J; destruct (Nr _ J)). assert (Ic : In c (L (Chd r))) by (rewrite El; now left).
      destruct (@cut_tail_ok h h L L (r :: X) ex ex r c false (conj R Sh) K Ic R eq_refl eq_refl eq_refl eq_refl (fun _ => eq_refl) (fun _ => eq_refl) Hm (fun _ => eq_refl) (fun _ => eq_refl) Mr (fun _ => eq_refl) (fun N => match N Pr with end) (fun _ => eq_refl) (fun _ _ _ => iff_refl _) Hn (fun _ _ N => N)) as (h1 & L1 & E1 & V1 & S1 & P1 & LC1 & Ln1).
      unfold cut_tail in E1. destruct (pop_link h c (Chd r)) as [h2|]; [|discriminate]. cbn [obind] in *. destruct (get (nds h2) r) as [dr|]; [|discriminate]. cbn [obind] in *. destruct (guard (1 <=? dg dr)); [|discriminate]. cbn [obind] in *. destruct (upd_n h2 r _) as [h3|]; [|discriminate]. cbn [obind] in *. destruct (upd_n h3 c _) as [h4|]; [|discriminate]. cbn [obind] in *. destruct (upd_n h4 c _) as [h5|]; [|discriminate]. cbn [obind] in *. destruct (get (nds h5) c) as [dc|]; [|discriminate]. cbn [obind] in *. rewrite E1. cbn [obind].
      destruct (IH h1 L1 S1 (kok_same V1 K)) as (h' & L' & E' & V' & S' & C' & P'); [rewrite El in Ln1; cbn [length] in *; lia|]. exists h', L'. split; [auto|]. split; [exact (same_v_trans V1 V')|]. split; [auto|]. split; [auto|]. intros j. destruct (P' j) as [->|]; [|auto]. rewrite P1. destruct (j =? c); auto. }
  destruct (Lp (S (length (nds h))) h L St K) as (h' & L' & E & V & S' & C & P).
  { enough (length (L (Chd r)) <= length (nds h)) by lia. apply NoDup_bound; [apply (rg_nd (proj1 St))|]. intros x Hx. exact (rg_lt (proj1 St) _ _ Hx). }
  rewrite E. cbn [obind]. destruct (s_X (proj2 S') r (or_introl eq_refl)) as (Er & _). rewrite (dn_get d0) by exact (en_lt Er). cbn [obind]. rewrite (s_dg (proj2 S') _ Er), C. cbn [length Nat.eqb guard obind]. exists h', L'. auto.
Qed.
Lemma par_none h L ex x : str h L [] ex -> en (DN h x) = true -> par (DN h x) = None -> In x (L (Tab (dg (DN h x)))) /\ mk (DN h x) = false.
Proof. intros (R & Sh) E P. destruct (s_root Sh _ E P) as [I|[]]. destruct (s_tab Sh _ _ I). tauto. Qed.
Lemma consolidate_ok ht : forall fuel h L ex node vis, str h L [] ex -> kok h -> (forall x p, en (DN h x) = true -> par (DN h x) = Some p -> ht x < ht p) -> en (DN h node) = true -> par (DN h node) <> None ->
  NoDup vis -> (forall v, In v vis -> v < length (nds h) /\ ht v < ht node) -> S (length (nds h)) <= length vis + fuel ->
  exists h' L', consolidate fuel h node = Some h' /\ same_v h h' /\ str h' L' [] (fun x => ex x /\ x <> node) /\ par (DN h' node) = None /\ (forall j, par (DN h' j) = par (DN h j) \/ par (DN h' j) = None) /\ (forall j, ht j < ht node -> par (DN h' j) = par (DN h j)).
Proof.
  induction fuel as [|fuel IH]; intros h L ex node vis St K Ht En Pn Nv Hv Hf.
  { assert (length vis <= length (nds h)) by (apply NoDup_bound; [auto|intros v I; apply (Hv v I)]). lia. }
  cbn [consolidate]. rewrite (dn_get d0) by exact (en_lt En). cbn [obind]. destruct (par (DN h node)) as [p|] eqn:Ep; [|congruence]. cbn [obind]. pose proof (s_par (proj2 St) _ En Ep) as Ip. destruct (s_chd (proj2 St) _ _ Ip) as (_ & Epn). assert (Lp := en_lt Epn). rewrite (dn_get d0) by exact Lp. cbn [obind]. pose proof (Ht _ _ En Ep) as Hnp.
  (* the recursive call *)
  assert (Rec : exists h1 L1, (if mk (DN h p) then let* _ := par (DN h p) in consolidate fuel h p else Some h) = Some h1 /\ same_v h h1 /\ str h1 L1 [] ex /\ mk (DN h1 p) = false /\ (forall j, par (DN h1 j) = par (DN h j) \/ par (DN h1 j) = None) /\ (forall j, ht j < ht p -> par (DN h1 j) = par (DN h j))).
  { destruct (mk (DN h p)) eqn:Em; [|exists h, L; split; [auto|split; [apply same_v_refl|auto]]]. destruct (par (DN h p)) as [q|] eqn:Eq; [|destruct (par_none _ St Epn Eq); congruence]. cbn [obind].
    destruct (IH h L ex p (node :: vis)) as (h1 & L1 & E1 & V1 & S1 & P1 & Pa & Pb); auto.
    - congruence.
    - constructor; [|auto]. intros J. destruct (Hv _ J). lia.
    - intros v [<-|J]; [split; [exact (en_lt En)|auto]|]. destruct (Hv _ J). split; [auto|lia].
    - cbn [length]. lia.
    - exists h1, L1. split; [auto|]. split; [auto|]. assert (S1' : str h1 L1 [] ex). { destruct S1 as (R1 & [A2 A3 A4 A5 A6 A7 A8 A9 A10 A11 A12]). split; [auto|]. split; auto. intros x q' E' P' N'. apply A10; auto. tauto. } split; [exact S1'|]. split; [|auto]. apply (par_none _ S1'); [rewrite (sv_en V1); auto|auto]. }
  destruct Rec as (h1 & L1 & E1 & V1 & S1 & M1 & Pa & Pb). rewrite E1. cbn [obind]. assert (K1 := kok_same V1 K). assert (Ep1 : en (DN h1 p) = true) by (rewrite (sv_en V1); auto). assert (Lp1 := en_lt Ep1). rewrite (dn_get d0) by exact Lp1. cbn [obind]. rewrite M1. cbn [negb guard obind].
  assert (En1 : en (DN h1 node) = true) by (rewrite (sv_en V1); auto). assert (Pn1 : par (DN h1 node) = Some p) by (rewrite Pb; auto). pose proof (s_par (proj2 S1) _ En1 Pn1) as In1.
  (* the mark or the place of p *)
  assert (Mid : exists h2 L2 mp, (match par (DN h1 p) with Some _ => upd_n h1 p (w_mk true) | None => let* h := pop_link h1 p (Tab (dg (DN h1 p))) in let* _ := guard (1 <=? dg (DN h1 p)) in push_link h p (Tab (dg (DN h1 p) - 1)) end) = Some h2 /\ rings h2 L2 /\
    length (nds h2) = length (nds h1) /\ length (tab h2) = length (tab h1) /\ rt h2 = rt h1 /\ sz h2 = sz h1 /\ (forall j, par (DN h2 j) = par (DN h1 j)) /\ (forall j, dg (DN h2 j) = dg (DN h1 j)) /\ (forall j, mk (DN h2 j) = if j =? p then mp else mk (DN h1 j)) /\ (forall j, en (DN h2 j) = en (DN h1 j)) /\ (forall j, vl (DN h2 j) = vl (DN h1 j)) /\
    (par (DN h1 p) = None -> mp = false) /\ (par (DN h1 p) <> None -> mp = true) /\ (forall i, L2 (Chd i) = L1 (Chd i)) /\ (forall e x, x <> p -> (In x (L2 (Tab e)) <-> In x (L1 (Tab e)))) /\ (forall e, In p (L2 (Tab e)) <-> In p (L1 (Tab (S e))))).
  { destruct S1 as (R1 & Sh1). destruct (par (DN h1 p)) as [q|] eqn:Eq.
    - destruct (@fld_ok _ d0 h1 _ p (w_mk true) R1 Lp1) as (h2 & E2 & R2 & D2 & Ln2 & Lt2 & Rt2 & Sz2); [repeat split|]. exists h2, L1, true.
      split; [auto|]. split; [auto|]. do 9 (split; [first [assumption|intros j; rewrite D2; destruct (j =? p); reflexivity]|]). split; [discriminate|]. split; [auto|]. split; [auto|]. split; [intros; tauto|].
      intros e. split; intros J; destruct (s_tab Sh1 _ _ J); congruence.
    - destruct (par_none _ (conj R1 Sh1) Ep1 Eq) as (I1 & _). set (d := dg (DN h1 p)) in *. destruct (in_split _ _ I1) as (l1 & l2 & El). destruct (pop_link_ok R1 El) as (h2 & E2 & R2 & F2). rewrite E2. cbn [obind].
      assert (Hd1 : 1 <= d) by (unfold d; rewrite (s_dg Sh1 _ Ep1); destruct (L1 (Chd p)); [destruct In1|cbn; lia]). replace (1 <=? d) with true by (symmetry; apply Nat.leb_le; auto). cbn [guard obind]. pose proof (dg_bound (conj R1 Sh1) K1 Ep1) as Bd. fold d in Bd.
      pose proof (rg_nd R1 (Tab d)) as Nd. rewrite El in Nd. destruct (NoDup_remove _ _ _ Nd) as (Nd' & Np). assert (Ipd : forall o, In p (L1 o) -> o = Tab d) by (intros o J; exact (rg_disj R1 _ _ _ J I1)).
      assert (Nin : forall o, ~ In p (lupd L1 (Tab d) (l1 ++ l2) o)). { intros o J. destruct (slot_eq_dec (Tab d) o) as [<-|No]; [rewrite lupd_eq in J; auto|rewrite lupd_neq in J by auto; apply Ipd in J; congruence]. }
      destruct (@push_link_ok _ d0 h2 _ (Tab (d - 1)) p R2) as (h3 & E3 & R3 & F3); [cbn; rewrite (sf_t F2); lia|rewrite (sf_n F2); auto|exact Nin|]. assert (F := same_trans F2 F3). eexists h3, _, false. split; [exact E3|]. split; [exact R3|].
      split; [apply (sf_n F)|]. split; [apply (sf_t F)|]. split; [apply (sf_rt F)|]. split; [apply (sf_sz F)|]. split; [apply (sf_par F)|]. split; [apply (sf_dg F)|]. split; [intros j; rewrite (sf_mk F); destruct (Nat.eqb_spec j p) as [->|]; auto|]. split; [apply (sf_en F)|]. split; [apply (sf_vl F)|]. split; [auto|]. split; [congruence|]. split; [intros i; rewrite !lupd_neq by discriminate; auto|].
      split.
      + intros e x Nx. destruct (Nat.eq_dec e (d - 1)) as [->|Ne]; [rewrite lupd_eq, in_app_iff; rewrite lupd_neq by (injection; lia); cbn; intuition congruence|]. rewrite lupd_neq by congruence. destruct (Nat.eq_dec e d) as [->|Ne']; [rewrite lupd_eq, El, !in_app_iff; cbn; intuition congruence|rewrite lupd_neq by congruence; tauto].
      + intros e. split; intros J.
        * destruct (Nat.eq_dec e (d - 1)) as [->|Ne]; [replace (S (d - 1)) with d by lia; auto|]. rewrite lupd_neq in J by congruence. destruct (Nin _ J).
        * apply Ipd in J. injection J as J. replace (d - 1) with e by lia. rewrite lupd_eq. apply in_or_app. right. now left. }
  destruct Mid as (h2 & L2 & mp & E2 & R2 & Ln2 & Lt2 & Rt2 & Sz2 & Hp2 & Hd2 & Hm2 & He2 & Hv2 & M2 & M3 & LC2 & LT2 & LTp2). rewrite E2. cbn [obind].
  destruct (@cut_tail_ok h1 h2 L1 L2 [] ex (fun x => ex x /\ x <> node) p node mp) as (h3 & L3 & E3 & V3 & S3 & P3 & _); auto.
  unfold cut_tail in E3. rewrite E3. exists h3, L3. split; [auto|]. split; [exact (same_v_trans V1 V3)|]. split; [auto|]. split; [now rewrite P3, Nat.eqb_refl|]. split.
  - intros j. rewrite P3. destruct (j =? node); [auto|]. apply Pa.
  - intros j Hj. rewrite P3. destruct (Nat.eqb_spec j node) as [->|]; [lia|]. apply Pb. lia.
Qed.
End Fib.
Arguments expand_ok {T cond d0 h L X r ex} _ _.
Arguments par_none {T cond d0 h L ex x} _ _ _.
