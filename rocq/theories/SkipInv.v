(** Skiplist: one level of the links, and the steps on it. *)
From Verif Require Import SkipModel BaseLemmas ListExtra.
Set Implicit Arguments.

(** * One level *)
Section Level.
Definition lv (nx : nat -> option (option nat)) (ln : nat -> option nat) (a : list nat) : Prop :=
  forall p u o, get a p = Some u -> nx u = Some o ->
    match o with
    | Some x => exists q, p < q /\ get a q = Some x /\ nx x <> None /\ ln u = Some (q - p) /\ (forall y z, p < y < q -> get a y = Some z -> nx z = None)
    | None => ln u = Some 0 /\ (forall y z, p < y -> get a y = Some z -> nx z = None)
    end.
Lemma lv_ext nx ln nx' ln' a : (forall u, In u a -> nx' u = nx u /\ ln' u = ln u) -> lv nx ln a -> lv nx' ln' a.
Proof.
  intros E H p u o G Eo. destruct (E u (get_In _ _ G)) as (E1 & E2). rewrite E1 in Eo. specialize (H p u o G Eo). rewrite E2. destruct o as [x|].
  - destruct H as (q & H1 & H2 & H3 & H4 & H5). exists q. split; [auto|]. split; [auto|]. split; [destruct (E x (get_In _ _ H2)) as (-> & _); auto|]. split; [auto|]. intros y z Hy Gz. destruct (E z (get_In _ _ Gz)) as (-> & _). eauto.
  - destruct H as (H1 & H2). split; [auto|]. intros y z Hy Gz. destruct (E z (get_In _ _ Gz)) as (-> & _). eauto.
Qed.
Lemma get_uniq (a : list nat) p q x : NoDup a -> get a p = Some x -> get a q = Some x -> p = q.
Proof. intros N G1 G2. apply (proj1 (NoDup_nth_error _) N); [exact (get_some_lt _ _ G1)|unfold get in *; congruence]. Qed.
Arguments get_uniq {a p q x} _ _ _.
Lemma get_ins (a1 a2 : list nat) w p z : get (a1 ++ w :: a2) p = Some z -> p < length a1 /\ get (a1 ++ a2) p = Some z \/ p = length a1 /\ z = w \/ length a1 < p /\ get (a1 ++ a2) (p - 1) = Some z.
Proof.
  intros G. destruct (Nat.lt_trichotomy p (length a1)) as [L|[L|L]].
  - left. split; [auto|]. rewrite get_app_l in * by auto. auto.
  - right; left. split; [auto|]. rewrite get_app_r in G by lia. rewrite L, Nat.sub_diag in G. cbn in G. congruence.
  - right; right. split; [auto|]. rewrite get_app_r in G by lia. rewrite get_app_r by lia. replace (p - length a1) with (S (p - 1 - length a1)) in G by lia. exact G.
Qed.
Lemma ins_lo (a1 a2 : list nat) w p z : get (a1 ++ a2) p = Some z -> p < length a1 -> get (a1 ++ w :: a2) p = Some z.
Proof. intros G L. rewrite get_app_l in * by auto. auto. Qed.
Lemma ins_hi (a1 a2 : list nat) w p z : get (a1 ++ a2) p = Some z -> length a1 <= p -> get (a1 ++ w :: a2) (S p) = Some z.
Proof. intros G L. rewrite get_app_r in * by lia. replace (S p - length a1) with (S (p - length a1)) by lia. exact G. Qed.
Lemma ins_at (a1 a2 : list nat) w : get (a1 ++ w :: a2) (length a1) = Some w.
Proof. rewrite get_app_r by lia. now rewrite Nat.sub_diag. Qed.
Lemma nd_ins (a1 a2 : list nat) w : NoDup (a1 ++ a2) -> ~ In w (a1 ++ a2) -> NoDup (a1 ++ w :: a2).
Proof. intros N I. apply NoDup_Add with (a := w) (l := a1 ++ a2); [apply Add_app|auto]. Qed.

Variables (a1 a2 : list nat) (w : nat).
Notation A := (a1 ++ a2).
Notation B := (a1 ++ w :: a2).
Notation t := (length a1).
Hypothesis ND : NoDup B.
Lemma ndA : NoDup A. Proof. exact (NoDup_remove_1 _ _ _ ND). Qed.
Lemma wA : ~ In w A. Proof. exact (NoDup_remove_2 _ _ _ ND). Qed.
Lemma A_neq p z : get A p = Some z -> z <> w. Proof. intros G ->. exact (wA (get_In _ _ G)). Qed.

Variables (nx nx' : nat -> option (option nat)) (ln ln' : nat -> option nat) (u p : nat).
Hypothesis Gu : get A p = Some u.
Hypothesis Hp : p < t.
Hypothesis Gap : forall y z, p < y < t -> get A y = Some z -> nx z = None.
Lemma u_w : u <> w. Proof. exact (A_neq _ Gu). Qed.
(** the new node is put behind [u] *)
Lemma lv_link o : lv nx ln A -> nx u = Some o -> (forall z, z <> w -> z <> u -> nx' z = nx z /\ ln' z = ln z) -> nx' w = Some o -> nx' u = Some (Some w) -> ln' u = Some (t - p) ->
  ln' w = match o with Some _ => match ln u with Some l => Some (l - (t - p - 1)) | None => None end | None => Some 0 end -> lv nx' ln' B.
Proof.
  intros H Eo Hz Hw Hu Lu Lw. assert (Huw := u_w). pose proof (H p u o Gu Eo) as Ho.
  assert (Nz : forall y z, p < y -> get A y = Some z -> nx' z = nx z /\ ln' z = ln z) by (intros y z Hy G; apply Hz; [exact (A_neq _ G)|intros ->; pose proof (get_uniq ndA Gu G); lia]).
  intros P U O G EO. apply get_ins in G as [(L & G)|[(-> & ->)|(L & G)]].
  - destruct (Nat.eq_dec U u) as [->|NU].
    + assert (P = p) by (exact (get_uniq ndA G Gu)). subst P. rewrite Hu in EO. injection EO as <-. exists t. split; [auto|]. split; [apply ins_at|]. split; [congruence|]. split; [auto|]. intros y z Hy Gz. apply get_ins in Gz as [(_ & Gz)|[(-> & _)|(Ly & _)]]; [|lia|lia]. destruct (Nz y z ltac:(lia) Gz) as (-> & _). apply (Gap Hy Gz).
    + assert (NP : P <> p) by congruence. destruct (Hz U (A_neq _ G) NU) as (E1 & E2). rewrite E1 in EO. specialize (H P U O G EO). rewrite E2.
      assert (PP : P < p). { destruct (Nat.lt_ge_cases P p); [auto|]. rewrite (Gap (y := P) ltac:(lia) G) in EO. discriminate. }
      destruct O as [x|]; [|exfalso; destruct H as (_ & H); rewrite (H p u PP Gu) in Eo; discriminate]. destruct H as (q & H1 & H2 & H3 & H4 & H5).
      assert (q <= p) by (destruct (Nat.lt_ge_cases p q); [rewrite (H5 p u ltac:(lia) Gu) in Eo; discriminate|auto]). exists q. split; [auto|]. split; [apply ins_lo; [auto|lia]|]. split; [destruct (Nat.eq_dec x u) as [->|Nx]; [congruence|destruct (Hz x (A_neq _ H2) Nx) as (-> & _); auto]|]. split; [auto|].
      intros y z Hy Gz. apply get_ins in Gz as [(_ & Gz)|[(-> & _)|(Ly & _)]]; [|lia|lia]. assert (z <> u) by (intros ->; pose proof (get_uniq ndA Gu Gz); lia). destruct (Hz z (A_neq _ Gz) H0) as (-> & _). eauto.
  - rewrite Hw in EO. injection EO as <-. rewrite Lw. destruct o as [x|].
    + destruct Ho as (q & H1 & H2 & H3 & H4 & H5). rewrite H4. assert (t <= q) by (destruct (Nat.lt_ge_cases q t); [exfalso; apply H3, (Gap (y := q)); [lia|auto]|auto]). exists (S q). split; [lia|]. split; [apply ins_hi; auto|]. split; [destruct (Nz q x H1 H2) as (-> & _); auto|]. split; [f_equal; lia|].
      intros y z Hy Gz. apply get_ins in Gz as [(Ly & _)|[(Ly & _)|(Ly & Gz)]]; [lia|lia|]. destruct (Nz (y - 1) z ltac:(lia) Gz) as (-> & _). apply (H5 (y - 1)); [lia|auto].
    + split; [auto|]. destruct Ho as (_ & Ho). intros y z Hy Gz. apply get_ins in Gz as [(Ly & _)|[(Ly & _)|(Ly & Gz)]]; [lia|lia|]. destruct (Nz (y - 1) z ltac:(lia) Gz) as (-> & _). apply (Ho (y - 1)); [lia|auto].
  - destruct (Nz (P - 1) U ltac:(lia) G) as (E1 & E2). rewrite E1 in EO. specialize (H (P - 1) U O G EO). rewrite E2. destruct O as [x|].
    + destruct H as (q & H1 & H2 & H3 & H4 & H5). exists (S q). split; [lia|]. split; [apply ins_hi; [auto|lia]|]. split; [destruct (Nz q x ltac:(lia) H2) as (-> & _); auto|]. split; [rewrite H4; f_equal; lia|]. intros y z Hy Gz. apply get_ins in Gz as [(Ly & _)|[(Ly & _)|(Ly & Gz)]]; [lia|lia|]. destruct (Nz (y - 1) z ltac:(lia) Gz) as (-> & _). apply (H5 (y - 1)); [lia|auto].
    + destruct H as (H1 & H2). split; [auto|]. intros y z Hy Gz. apply get_ins in Gz as [(Ly & _)|[(Ly & _)|(Ly & Gz)]]; [lia|lia|]. destruct (Nz (y - 1) z ltac:(lia) Gz) as (-> & _). apply (H2 (y - 1)); [lia|auto].
Qed.
(** the new node does not reach this level *)
Lemma lv_pass o : lv nx ln A -> nx u = Some o -> (forall z, nx' z = nx z) -> nx w = None -> (forall z, z <> u -> ln' z = ln z) ->
  ln' u = match o with Some _ => match ln u with Some l => Some (S l) | None => None end | None => ln u end -> lv nx' ln' B.
Proof.
  intros H Eo Hn Nw Hl Lu. pose proof (H p u o Gu Eo) as Ho. intros P U O G EO. rewrite Hn in EO. apply get_ins in G as [(L & G)|[(-> & ->)|(L & G)]]; [|congruence|].
  - destruct (Nat.eq_dec U u) as [->|NU].
    + assert (P = p) by (exact (get_uniq ndA G Gu)). subst P. rewrite Eo in EO. injection EO as <-. rewrite Lu. destruct o as [x|].
      * destruct Ho as (q & H1 & H2 & H3 & H4 & H5). rewrite H4. assert (t <= q) by (destruct (Nat.lt_ge_cases q t); [exfalso; apply H3, (Gap (y := q)); [lia|auto]|auto]). exists (S q). split; [lia|]. split; [apply ins_hi; auto|]. split; [rewrite Hn; auto|]. split; [f_equal; lia|].
        intros y z Hy Gz. rewrite Hn. apply get_ins in Gz as [(Ly & Gz)|[(Ly & ->)|(Ly & Gz)]]; [apply (H5 y); [lia|auto]|auto|apply (H5 (y - 1)); [lia|auto]].
      * destruct Ho as (H1 & H2). split; [auto|]. intros y z Hy Gz. rewrite Hn. apply get_ins in Gz as [(Ly & Gz)|[(Ly & ->)|(Ly & Gz)]]; [apply (H2 y); [lia|auto]|auto|apply (H2 (y - 1)); [lia|auto]].
    + assert (NP : P <> p) by congruence. specialize (H P U O G EO). rewrite (Hl U NU).
      assert (PP : P < p). { destruct (Nat.lt_ge_cases P p); [auto|]. rewrite (Gap (y := P) ltac:(lia) G) in EO. discriminate. }
      destruct O as [x|]; [|exfalso; destruct H as (_ & H); rewrite (H p u PP Gu) in Eo; discriminate]. destruct H as (q & H1 & H2 & H3 & H4 & H5).
      assert (q <= p) by (destruct (Nat.lt_ge_cases p q); [rewrite (H5 p u ltac:(lia) Gu) in Eo; discriminate|auto]). exists q. split; [auto|]. split; [apply ins_lo; [auto|lia]|]. split; [rewrite Hn; auto|]. split; [auto|].
      intros y z Hy Gz. rewrite Hn. apply get_ins in Gz as [(_ & Gz)|[(-> & _)|(Ly & _)]]; [eauto|lia|lia].
  - assert (NU : U <> u) by (intros ->; pose proof (get_uniq ndA Gu G); lia). specialize (H (P - 1) U O G EO). rewrite (Hl U NU). destruct O as [x|].
    + destruct H as (q & H1 & H2 & H3 & H4 & H5). exists (S q). split; [lia|]. split; [apply ins_hi; [auto|lia]|]. split; [rewrite Hn; auto|]. split; [rewrite H4; f_equal; lia|]. intros y z Hy Gz. rewrite Hn. apply get_ins in Gz as [(Ly & _)|[(Ly & _)|(Ly & Gz)]]; [lia|lia|]. apply (H5 (y - 1)); [lia|auto].
    + destruct H as (H1 & H2). split; [auto|]. intros y z Hy Gz. rewrite Hn. apply get_ins in Gz as [(Ly & _)|[(Ly & _)|(Ly & Gz)]]; [lia|lia|]. apply (H2 (y - 1)); [lia|auto].
Qed.
(** the node [w] behind [u] is taken out *)
Lemma lv_unlink o lw : lv nx ln B -> nx u = Some (Some w) -> nx w = Some o -> ln w = Some lw -> (forall z, z <> u -> nx' z = nx z /\ ln' z = ln z) -> nx' u = Some o ->
  ln' u = match o with Some _ => Some (t - p + lw - 1) | None => Some 0 end -> lv nx' ln' A.
Proof.
  intros H Eu Ew Lw Hz Hu Lu. assert (Huw := u_w). pose proof (H t w o (ins_at _ _ _) Ew) as Ho. assert (GuB : get B p = Some u) by (rewrite get_app_l in Gu |- * by auto; auto).
  assert (NB : forall y z, get B y = Some z -> y <> p -> nx' z = nx z /\ ln' z = ln z) by (intros y z G Ny; apply Hz; intros ->; apply Ny; exact (get_uniq ND G GuB)).
  assert (Side : forall P U O, get A P = Some U -> P <> p -> nx' U = Some O -> P < p \/ t <= P). { intros P U O G NP EO. destruct (Nat.lt_ge_cases P p) as [|L1]; [auto|]. destruct (Nat.lt_ge_cases P t) as [L2|]; [|auto]. exfalso. assert (NU : U <> u) by (intros ->; apply NP; exact (get_uniq ndA G Gu)). destruct (Hz U NU) as (E & _). rewrite E, (Gap (y := P)) in EO; [discriminate|lia|auto]. }
  intros P U O G EO. destruct (Nat.eq_dec P p) as [->|NP].
  - assert (U = u) by congruence. subst U. rewrite Hu in EO. injection EO as <-. rewrite Lu. destruct o as [x|].
    + destruct Ho as (q & H1 & H2 & H3 & H4 & H5). assert (lw = q - t) by congruence. subst lw. exists (q - 1). split; [lia|]. split; [apply get_ins in H2 as [(Ly & _)|[(Ly & _)|(Ly & H2)]]; [lia|lia|auto]|]. split; [destruct (NB q x H2 ltac:(lia)) as (-> & _); auto|]. split; [f_equal; lia|].
      intros y z Hy Gz. destruct (Nat.lt_ge_cases y t) as [L|L].
      * destruct (NB y z (ins_lo _ _ _ Gz L) ltac:(lia)) as (-> & _). apply (Gap (y := y)); [lia|auto].
      * pose proof (ins_hi _ _ w Gz L) as Gz'. destruct (NB (S y) z Gz' ltac:(lia)) as (-> & _). apply (H5 (S y)); [lia|auto].
    + split; [auto|]. destruct Ho as (_ & Ho). intros y z Hy Gz. destruct (Nat.lt_ge_cases y t) as [L|L].
      * destruct (NB y z (ins_lo _ _ _ Gz L) ltac:(lia)) as (-> & _). apply (Gap (y := y)); [lia|auto].
      * pose proof (ins_hi _ _ w Gz L) as Gz'. destruct (NB (S y) z Gz' ltac:(lia)) as (-> & _). apply (Ho (S y)); [lia|auto].
  - assert (NU : U <> u) by (intros ->; apply NP; exact (get_uniq ndA G Gu)). destruct (Side P U O G NP EO) as [S1|S1]; destruct (Hz U NU) as (E1 & E2); rewrite E1 in EO; rewrite E2.
    + pose proof (ins_lo _ _ w G ltac:(lia)) as GB. specialize (H P U O GB EO). destruct O as [x|]; [|exfalso; destruct H as (_ & H); rewrite (H p u S1 GuB) in Eu; discriminate]. destruct H as (q & H1 & H2 & H3 & H4 & H5).
      assert (q <= p) by (destruct (Nat.lt_ge_cases p q); [rewrite (H5 p u ltac:(lia) GuB) in Eu; discriminate|auto]). exists q. split; [auto|]. split; [apply get_ins in H2 as [(Ly & H2)|[(Ly & _)|(Ly & H2)]]; [auto|lia|lia]|]. split; [destruct (Nat.eq_dec x u) as [->|Nx]; [congruence|destruct (Hz x Nx) as (-> & _); auto]|]. split; [auto|].
      intros y z Hy Gz. pose proof (ins_lo _ _ w Gz ltac:(lia)) as Gz'. destruct (NB y z Gz' ltac:(lia)) as (-> & _). eauto.
    + pose proof (ins_hi _ _ w G S1) as GB. specialize (H (S P) U O GB EO). destruct O as [x|].
      * destruct H as (q & H1 & H2 & H3 & H4 & H5). exists (q - 1). split; [lia|]. split; [apply get_ins in H2 as [(Ly & _)|[(Ly & _)|(Ly & H2)]]; [lia|lia|auto]|]. split; [destruct (NB q x H2 ltac:(lia)) as (-> & _); auto|]. split; [rewrite H4; f_equal; lia|]. intros y z Hy Gz. pose proof (ins_hi _ _ w Gz ltac:(lia)) as Gz'. destruct (NB (S y) z Gz' ltac:(lia)) as (-> & _). apply (H5 (S y)); [lia|auto].
      * destruct H as (H1 & H2). split; [auto|]. intros y z Hy Gz. pose proof (ins_hi _ _ w Gz ltac:(lia)) as Gz'. destruct (NB (S y) z Gz' ltac:(lia)) as (-> & _). apply (H2 (S y)); [lia|auto].
Qed.
(** the node taken out does not reach this level *)
Lemma lv_skip o : lv nx ln B -> nx u = Some o -> nx w = None -> (forall z, nx' z = nx z) -> (forall z, z <> u -> ln' z = ln z) ->
  ln' u = match o with Some _ => match ln u with Some l => Some (l - 1) | None => None end | None => ln u end -> lv nx' ln' A.
Proof.
  intros H Eo Nw Hn Hl Lu. assert (GuB : get B p = Some u) by (rewrite get_app_l in Gu |- * by auto; auto). pose proof (H p u o GuB Eo) as Ho.
  assert (Side : forall P U O, get A P = Some U -> P <> p -> nx' U = Some O -> P < p \/ t <= P). { intros P U O G NP EO. destruct (Nat.lt_ge_cases P p) as [|L1]; [auto|]. destruct (Nat.lt_ge_cases P t) as [L2|]; [|auto]. exfalso. rewrite Hn, (Gap (y := P)) in EO; [discriminate|lia|auto]. }
  intros P U O G EO. destruct (Nat.eq_dec P p) as [->|NP].
  - assert (U = u) by congruence. subst U. rewrite Hn, Eo in EO. injection EO as <-. rewrite Lu. destruct o as [x|].
    + destruct Ho as (q & H1 & H2 & H3 & H4 & H5). rewrite H4. assert (t < q). { apply get_ins in H2 as [(Ly & H2)|[(Ly & ->)|(Ly & H2)]]; [exfalso; apply H3, (Gap (y := q)); [lia|auto]|congruence|auto]. } exists (q - 1). split; [lia|]. split; [apply get_ins in H2 as [(Ly & _)|[(Ly & _)|(Ly & H2)]]; [lia|lia|auto]|]. split; [rewrite Hn; auto|]. split; [f_equal; lia|].
      intros y z Hy Gz. rewrite Hn. destruct (Nat.lt_ge_cases y t) as [L|L]; [apply (Gap (y := y)); [lia|auto]|]. apply (H5 (S y)); [lia|apply ins_hi; auto].
    + destruct Ho as (H1 & H2). split; [auto|]. intros y z Hy Gz. rewrite Hn. destruct (Nat.lt_ge_cases y t) as [L|L]; [apply (Gap (y := y)); [lia|auto]|]. apply (H2 (S y)); [lia|apply ins_hi; auto].
  - assert (NU : U <> u) by (intros ->; apply NP; exact (get_uniq ndA G Gu)). rewrite (Hl U NU). destruct (Side P U O G NP EO) as [S1|S1]; rewrite Hn in EO.
    + pose proof (ins_lo _ _ w G ltac:(lia)) as GB. specialize (H P U O GB EO). destruct O as [x|]; [|exfalso; destruct H as (_ & H); rewrite (H p u S1 GuB) in Eo; discriminate]. destruct H as (q & H1 & H2 & H3 & H4 & H5).
      assert (q <= p) by (destruct (Nat.lt_ge_cases p q); [rewrite (H5 p u ltac:(lia) GuB) in Eo; discriminate|auto]). exists q. split; [auto|]. split; [apply get_ins in H2 as [(Ly & H2)|[(Ly & _)|(Ly & H2)]]; [auto|lia|lia]|]. split; [rewrite Hn; auto|]. split; [auto|].
      intros y z Hy Gz. rewrite Hn. apply (H5 y); [lia|apply ins_lo; [auto|lia]].
    + pose proof (ins_hi _ _ w G S1) as GB. specialize (H (S P) U O GB EO). destruct O as [x|].
      * destruct H as (q & H1 & H2 & H3 & H4 & H5). exists (q - 1). split; [lia|]. split; [apply get_ins in H2 as [(Ly & _)|[(Ly & _)|(Ly & H2)]]; [lia|lia|auto]|]. split; [rewrite Hn; auto|]. split; [rewrite H4; f_equal; lia|]. intros y z Hy Gz. rewrite Hn. apply (H5 (S y)); [lia|apply ins_hi; [auto|lia]].
      * destruct H as (H1 & H2). split; [auto|]. intros y z Hy Gz. rewrite Hn. apply (H2 (S y)); [lia|apply ins_hi; [auto|lia]].
Qed.
End Level.
Arguments lv_ext {nx ln nx' ln' a} _ _.
Arguments get_uniq {a p q x} _ _ _.
