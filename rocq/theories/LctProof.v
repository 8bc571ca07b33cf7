(** Link-cut trees: splay trees for the paths of a rooted forest, expose, evert and the
    operations. *)
From Coq Require Import Permutation.
From Verif Require Import LctModel LctForest LctLinks LctPath SplayRot SplayTree SplaySplay SplayList BaseLemmas ListExtra LazySegProp.
Set Implicit Arguments.

Section Lct.
Variables (M A : Type) (op : M -> M -> M) (e : M) (comp : A -> A -> A) (aid : A) (act : A -> M -> M).
Hypothesis Mon : monoid_laws op e.
Hypothesis Act : action_laws op comp aid act.
Notation nd := (nd M A).
Notation sh := (sh M A).
Notation den := (den act).
Notation clean := (clean act).
Notation Dh := (Dh e aid).
Notation forest := (forest op e aid act).
Notation lct_agg := (@lct_agg M A op).
Notation lct_splay := (lct_splay op comp aid act).
Notation expose := (expose op comp aid act).
Notation evert := (evert op comp aid act).
Implicit Types (h : sh) (t l r : bt) (V : nat -> M).

(** the nodes of a tree in order, as a path of the forest with the values of its nodes *)
Definition pok (par : nat -> option nat) V (rp : option nat) (s : list (nat * M)) : Prop := chain par rp (map fst s) /\ forall i x, In (i, x) s -> x = V i.
Record state h (n : nat) (ts : list (bt * option nat)) (par : nat -> option nat) V : Prop := {
  s_forest : forest h n ts;
  s_paths : forall t rp, In (t, rp) ts -> pok par V rp (den (Dh h) t);
  s_rp : forall t w, In (t, Some w) ts -> w < n;
  s_rooted : rooted par;
  s_par : forall i j, par i = Some j -> i < n /\ j < n }.

Definition pids h t : list nat := map fst (den (Dh h) t).
Lemma pids_in h t i : In i (pids h t) <-> In i (ids t).
Proof. pose proof (den_ids act (Dh h) t) as P. split; apply Permutation_in; [exact P|now apply Permutation_sym]. Qed.
Lemma state_perm h n a b par V : Permutation a b -> state h n a par V -> state h n b par V.
Proof.
  intros P [F1 F2 F3 F4 F5]. pose proof (Permutation_sym P) as P'. split; auto; [exact (forest_perm P F1)|intros t rp I; exact (F2 t rp (Permutation_in _ P' I))|intros t w I; exact (F3 t w (Permutation_in _ P' I))].
Qed.
Lemma state_w h n t rp ts par V : state h n ts par V -> In (t, rp) ts -> forall w, rp = Some w -> w < n /\ ~ In w (ids t).
Proof.
  intros S I w ->. split; [exact (s_rp S _ _ I)|]. destruct (s_paths S _ _ I) as [C _]. rewrite <- (pids_in h t w). exact (chain_notin _ _ (s_rooted S) C).
Qed.
Arguments state_w {h n t rp ts par V} _ _ [w] _.
Lemma state_wt h n t w ts par V : state h n ((t, Some w) :: ts) par V -> In w (tids ts).
Proof.
  intros S. destruct (state_w S (or_introl eq_refl) eq_refl) as [L N]. apply (fo_all (s_forest S)) in L. cbn in L. apply in_app_or in L as [L|L]; [contradiction|auto].
Qed.
Lemma line_lt h n ts par V i L : state h n ts par V -> line par i L -> i < n -> forall j, In j L -> j < n.
Proof.
  intros S H. induction H as [i E|i j L E H IH]; intros Li k I; [now destruct I as [<-|[]]|]. apply in_app_or in I as [I|[<-|[]]]; [|auto]. apply IH; [apply (s_par S _ E)|auto].
Qed.
Lemma line_bound h n ts par V i L : state h n ts par V -> line par i L -> i < n -> length L <= n.
Proof. intros S H Li. apply NoDup_bound; [exact (line_nodup H)|exact (line_lt S H Li)]. Qed.
(** the data are as before *)
Lemma state_same h n ts h' ts' par V : state h n ts par V -> forest h' n ts' -> (forall t rp, In (t, rp) ts' -> (exists t0, In (t0, rp) ts /\ den (Dh h') t = den (Dh h) t0)) -> state h' n ts' par V.
Proof.
  intros S F H. split; auto; [| |exact (s_rooted S)|exact (s_par S)].
  - intros t rp I. destruct (H t rp I) as (t0 & I0 & ->). exact (s_paths S _ _ I0).
  - intros t w I. destruct (H t _ I) as (t0 & I0 & _). exact (s_rp S _ _ I0).
Qed.

Lemma state_splay h n ts par V u : state h n ts par V -> u < n -> exists h' l r rp ts' t, Permutation ts ((t, rp) :: ts') /\ In u (ids t) /\ lct_splay h u = Some h' /\
  state h' n ((Nd l u r, rp) :: ts') par V /\ clean (Dh h') u /\ den (Dh h') (Nd l u r) = den (Dh h) t /\ (forall t2 rp2, In (t2, rp2) ts' -> den (Dh h') t2 = den (Dh h) t2).
Proof.
  intros S L. destruct (forest_find (s_forest S) L) as (t & rp & ts' & P & I). pose proof (state_perm P S) as S1. destruct (forest_splay Mon Act u (s_forest S1) (state_w S1 (or_introl eq_refl)) I) as (h' & l & r & E & F & Cl & De & Ot).
  exists h', l, r, rp, ts', t. split; [auto|]. split; [auto|]. split; [auto|]. split; [|auto]. apply (state_same S1 F). intros t2 rp2 [[= <- <-]|I2]; [exists t; split; [now left|auto]|exists t2; split; [now right|]]. now apply Ot with rp2.
Qed.
Lemma state_lf h n ts par V p : state h n ts par V -> p < n -> state h n ((Lf, Some p) :: ts) par V.
Proof.
  intros S L. split; [apply forest_lf, (s_forest S)| | |exact (s_rooted S)|exact (s_par S)].
  - intros t rp [[= <- <-]|I]; [split; [exact Logic.I|intros i x []]|exact (s_paths S _ _ I)].
  - intros t w [[= <- <-]|I]; [auto|exact (s_rp S _ _ I)].
Qed.
Lemma chain_mid par rp (s1 s2 : list (nat * M)) p m : chain par rp (map fst (s1 ++ (p, m) :: s2)) -> chain par rp (map fst s1 ++ [p]) /\ chain par (Some p) (map fst s2).
Proof.
  rewrite map_app. cbn. rewrite (app_assoc (map fst s1) [p] (map fst s2) : map fst s1 ++ p :: map fst s2 = (map fst s1 ++ [p]) ++ map fst s2). intros C. apply chain_app in C. rewrite lst_snoc in C. exact C.
Qed.
Lemma chain_mid' par rp (s1 s2 : list (nat * M)) p m : chain par rp (map fst s1 ++ [p]) -> chain par (Some p) (map fst s2) -> chain par rp (map fst (s1 ++ (p, m) :: s2)).
Proof.
  intros C1 C2. rewrite map_app. cbn. rewrite (app_assoc (map fst s1) [p] (map fst s2) : map fst s1 ++ p :: map fst s2 = (map fst s1 ++ [p]) ++ map fst s2). apply chain_app. now rewrite lst_snoc.
Qed.
(** changing the preferred child *)
Lemma state_attach h n l p r rp t0 ts par V : state h n ((Nd l p r, rp) :: (t0, Some p) :: ts) par V -> clean (Dh h) p ->
  exists k h', set_pr (sk h) p (bptr t0) = Some k /\ lct_agg (with_sk h k) p = Some h' /\ state h' n ((Nd l p t0, rp) :: (r, Some p) :: ts) par V /\
    pids h' (Nd l p t0) = pids h l ++ p :: pids h t0 /\ get (pp (sk h')) p = Some rp.
Proof.
  intros S Cl. assert (W : forall w, rp = Some w -> In w (tids ts)).
  { intros w ->. pose proof (state_wt S) as I. cbn in I. apply in_app_or in I as [I|I]; [exfalso|auto]. destruct (s_paths S _ _ (or_intror (or_introl eq_refl))) as [C0 _]. destruct (s_paths S _ _ (or_introl eq_refl)) as [Cp _].
    destruct (s_rooted S w) as (Lw & Hw). destruct (s_rooted S p) as (Lp & Hp). assert (Q1 : length Lw < length Lp). { eapply (chain_len (i := p) _ Cp); eauto. apply pids_in. cbn. apply in_or_app. right. now left. }
    assert (Q2 : length Lp < length Lw). { eapply (chain_len (i := w) _ C0); eauto. now apply pids_in. } lia. }
  destruct (forest_attach Mon (s_forest S) Cl W) as (k & h' & E1 & E2 & F & Cl' & D1 & D2 & D3 & E3). exists k, h'. split; [auto|]. split; [auto|].
  destruct (s_paths S _ _ (or_introl eq_refl)) as [Cp Vp]. rewrite (den_clean l r Cl) in Cp, Vp. apply chain_mid in Cp as [Cp Cr]. destruct (s_paths S _ _ (or_intror (or_introl eq_refl))) as [C0 V0].
  split; [split; [exact F| | |exact (s_rooted S)|exact (s_par S)]|split; [|exact E3]].
  - intros t rp2 [[= <- <-]|[[= <- <-]|I]].
    + rewrite D1. split; [now apply chain_mid'|]. intros i x I. apply in_app_or in I as [I|[I|I]]; [apply Vp, in_or_app; auto|apply Vp, in_or_app; right; now left|apply V0, I].
    + rewrite D2. split; [auto|]. intros i x I. apply Vp, in_or_app. right. now right.
    + rewrite (D3 t rp2 I). apply (s_paths S _ _ (or_intror (or_intror I))).
  - intros t w [[= <- ->]|[[= <- <-]|I]]; [exact (s_rp S _ _ (or_introl eq_refl))|exact (s_rp S _ _ (or_intror (or_introl eq_refl)))|exact (s_rp S _ _ (or_intror (or_intror I)))].
  - unfold pids. rewrite D1, map_app. reflexivity.
Qed.

Lemma sfuel_state h n ts par V : state h n ts par V -> sfuel h = S (S n).
Proof. intros S. unfold sfuel. now rewrite (fo_len (s_forest S)). Qed.

Lemma state_uniq h n t0 rp0 t rp ts par V u : state h n ((t, rp) :: ts) par V -> In u (ids t) -> In (t0, rp0) ((t, rp) :: ts) -> In u (ids t0) -> t0 = t /\ rp0 = rp.
Proof.
  intros St I [[= -> ->]|J] I0; [auto|]. exfalso. pose proof (fo_nodup (s_forest St)) as N. cbn in N. apply NoDup_app_iff in N as (_ & _ & N). apply (N u); [auto|]. apply tids_in. eauto.
Qed.
Arguments state_uniq {h n t0 rp0 t rp ts par V u} _ _ _ _.
(** expose: the path from the root to [x] becomes a tree with [x] on top *)
Lemma expose_ok h n ts par V x L : state h n ts par V -> x < n -> line par x L ->
  exists h' l ts', expose h x = Some h' /\ state h' n ((Nd l x Lf, None) :: ts') par V /\ clean (Dh h') x /\ pids h' (Nd l x Lf) = L /\
    (forall tr, In tr ts -> (forall i, In i (ids (fst tr)) -> ~ In i L) -> In tr ts').
Proof.
  intros S0 Lx Hx. unfold LctModel.expose. match goal with |- context [loop _ ?bd _] => set (body := bd) end.
  assert (Lp : forall f h ts1 (p r : option nat), state h n ts1 par V -> (forall tr, In tr ts -> (forall i, In i (ids (fst tr)) -> ~ In i L) -> In tr ts1) ->
    (match p with None => 1 <= f | Some p => p < n /\ exists Lp, line par p Lp /\ S (length Lp) < f end) ->
    (r = None /\ p = Some x \/ exists t0 K, r = bptr t0 /\ In (t0, p) ts1 /\ pids h t0 = K ++ [x]) ->
    exists h' t0 ts' K, loop f body (h, p, r) = Some h' /\ state h' n ((t0, None) :: ts') par V /\ pids h' t0 = K ++ [x] /\ (forall tr, In tr ts -> (forall i, In i (ids (fst tr)) -> ~ In i L) -> In tr ts')).
  { induction f as [|f IH]; intros h1 ts1 p r St Pr Hp Hr; [destruct p as [p|]; [destruct Hp as (_ & Lp & _ & Q)|]; lia|]. cbn [loop]. unfold body at 1. destruct p as [p|].
    - destruct Hp as (Ln & Lp & Hp & Lf1). destruct (state_splay St Ln) as (h2 & l & r1 & rp & ts2 & t & P & It & E & S2 & Cl & De & Ot). rewrite E. cbn [obind].
      assert (Q : exists t0 ts3, r = bptr t0 /\ state h2 n ((Nd l p r1, rp) :: (t0, Some p) :: ts3) par V /\ (t0 = Lf /\ p = x \/ exists K, pids h2 t0 = K ++ [x]) /\ (forall tr, In tr ts -> (forall i, In i (ids (fst tr)) -> ~ In i L) -> In tr ts3)).
      { assert (Pt : In p L). { destruct Hr as [[_ [= ->]]|(t0 & K & _ & I0 & EK)]; [exact (line_self Hx)|]. destruct (s_paths St _ _ I0) as [C _]. fold (pids h1 t0) in C. rewrite EK in C. pose proof (line_fun (@chain_line par (Some p) Lp Hp K x C) Hx) as <-. apply in_or_app. left. exact (line_self Hp). }
        assert (Pr2 : forall tr, In tr ts -> (forall i, In i (ids (fst tr)) -> ~ In i L) -> In tr ts2). { intros tr I N. pose proof (Permutation_in _ P (Pr tr I N)) as J. destruct J as [<-|J]; [|auto]. destruct (N p It Pt). }
        destruct Hr as [[-> [= ->]]|(t0 & K & -> & I0 & EK)].
        - exists Lf, ts2. split; [reflexivity|]. split; [|split; [auto|exact Pr2]]. apply state_perm with ((Lf, Some x) :: (Nd l x r1, rp) :: ts2); [apply perm_swap|]. now apply state_lf.
        - assert (I2 : In (t0, Some p) ts2). { pose proof (Permutation_in _ P I0) as J. destruct J as [[= -> ->]|J]; [|auto]. destruct (state_w St I0 eq_refl) as [_ N]. contradiction. }
          assert (EK2 : pids h2 t0 = K ++ [x]). { unfold pids. now rewrite (Ot _ _ I2). }
          apply in_split in I2 as (a & b & Eab). exists t0, (a ++ b). split; [reflexivity|]. split; [|split; [eauto|]].
          + apply (state_perm (a := (Nd l p r1, rp) :: ts2)); [|auto]. rewrite Eab. constructor. apply Permutation_sym, Permutation_middle.
          + intros tr I N. pose proof (Pr2 tr I N) as J. rewrite Eab in J. apply in_app_or in J as [J|[<-|J]]; [apply in_or_app; auto| |apply in_or_app; auto]. exfalso. apply (N x); [cbn; apply (pids_in h2 t0); rewrite EK2; apply in_or_app; right; now left|exact (line_self Hx)]. }
      destruct Q as (t0 & ts3 & -> & S3 & Hk & Pr3). destruct (state_attach S3 Cl) as (k & h4 & E1 & E2 & S4 & Ep & E3). rewrite E1. cbn [obind]. rewrite E2. cbn [obind]. rewrite E3. cbn [obind].
      destruct (s_paths S4 _ _ (or_introl eq_refl)) as [C4 _].
      eapply (IH h4 _ rp (Some p) S4).
      + intros tr I N. right. right. auto.
      + destruct rp as [w|]; [|lia]. destruct (state_w S4 (or_introl eq_refl) eq_refl) as [Lw Nw]. destruct (s_rooted S4 w) as (Lw' & Hw). split; [auto|]. exists Lw'. split; [auto|].
        enough (length Lw' < length Lp) by lia. eapply chain_len; [exact C4| |exact Hw|exact Hp]. apply pids_in. cbn. apply in_or_app. right. now left.
      + right. exists (Nd l p t0). destruct Hk as [[-> ->]|(K & EK)]; eexists; (split; [reflexivity|]; split; [now left|]); rewrite Ep; [cbn; reflexivity|]. rewrite EK. rewrite app_comm_cons, app_assoc. reflexivity.
    - destruct Hr as [[_ [=]]|(t0 & K & -> & I0 & EK)]. apply in_split in I0 as (a & b & Eab). exists h1, t0, (a ++ b), K. split; [reflexivity|]. split; [|split; [auto|]].
      + apply (state_perm (a := ts1)); [|auto]. rewrite Eab. apply Permutation_sym, Permutation_middle.
      + intros tr I N. pose proof (Pr tr I N) as J. rewrite Eab in J. apply in_app_or in J as [J|[<-|J]]; [apply in_or_app; auto| |apply in_or_app; auto]. exfalso. apply (N x); [cbn; apply (pids_in h1 t0); rewrite EK; apply in_or_app; right; now left|exact (line_self Hx)]. }
  destruct (Lp (sfuel h) h ts (Some x) None S0) as (h1 & t0 & ts1 & K & E1 & S1 & EK & Pr1); [auto| |auto|].
  { split; [auto|]. exists L. split; [auto|]. rewrite (sfuel_state S0). pose proof (line_bound S0 Hx Lx). lia. }
  match goal with |- context [loop ?a ?b ?c] => replace (loop a b c) with (Some h1) by (symmetry; exact E1) end. cbn [obind]. assert (I0 : In x (ids t0)). { apply (pids_in h1). rewrite EK. apply in_or_app. right. now left. }
  destruct (state_splay S1 Lx) as (h2 & l & r & rp & ts2 & t & P & It & E & S2 & Cl & De & Ot). pose proof (state_perm P S1) as S1'.
  destruct (state_uniq S1' It (Permutation_in _ P (or_introl eq_refl)) I0) as [<- <-].
  destruct (s_paths S1 _ _ (or_introl eq_refl)) as [C1 _]. fold (pids h1 t0) in C1. rewrite EK in C1. pose proof (line_fun (@chain_none_line _ _ _ C1) Hx) as EL.
  assert (EL2 : pids h2 (Nd l x r) = L). { unfold pids. rewrite De. fold (pids h1 t0). now rewrite EK. }
  assert (r = Lf) as ->.
  { pose proof EL2 as Q. unfold pids in Q. rewrite (den_clean l r Cl), map_app in Q. cbn in Q. pose proof (line_nodup Hx) as N. rewrite <- EL in Q, N. fold (pids h2 l) in Q. fold (pids h2 r) in Q.
    destruct (pids h2 r) as [|y s _] eqn:Er using rev_ind.
    - destruct r as [|rl rx rr]; [auto|]. assert (In rx []) as []. rewrite <- Er. apply pids_in. cbn. apply in_or_app. right. now left.
    - exfalso. change (pids h2 l ++ x :: s ++ [y]) with (pids h2 l ++ (x :: s) ++ [y]) in Q. rewrite app_assoc in Q. apply app_inj_tail in Q as [Q ->]. rewrite <- Q in N. apply NoDup_app_iff in N as (_ & _ & N). apply (N x); [apply in_or_app; right; now left|now left]. }
  exists h2, l, ts2. split; [exact E|]. split; [exact S2|]. split; [auto|]. split; [auto|].
  intros tr I N. pose proof (Permutation_in _ P (or_intror (Pr1 tr I N))) as J. destruct J as [<-|J]; [|auto]. destruct (N x It (line_self Hx)).
Qed.
End Lct.
