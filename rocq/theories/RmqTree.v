(** The construction of the Cartesian tree: [DecaltTree]. *)
From Verif Require Import Base BaseLemmas ListExtra NthExtra Order RmqModel.
Set Implicit Arguments.

Fixpoint plug (t : tree) (sp : list (nat * tree)) : tree :=
  match sp with [] => t | (u, l) :: rest => plug (Nd l u t) rest end.
Fixpoint pre (sp : list (nat * tree)) : list nat :=
  match sp with [] => [] | (u, l) :: rest => pre rest ++ inord l ++ [u] end.
Definition top (sp : list (nat * tree)) : option nat := option_map fst (hd_error sp).
(** the right spine from the bottom; [child] is the right child of the first node *)
Fixpoint srep (nodes : list node) (child : option nat) (sp : list (nat * tree)) : Prop :=
  match sp with
  | [] => True
  | (u, l) :: rest => (exists d, get nodes u = Some d /\ n_p d = top rest /\ n_r d = child /\ linked nodes (Some u) (n_l d) l) /\ srep nodes (Some u) rest
  end.
Fixpoint croot (child : option nat) (sp : list (nat * tree)) : option nat :=
  match sp with [] => child | (u, l) :: rest => croot (Some u) rest end.

Lemma plug_inord sp : forall t, inord (plug t sp) = pre sp ++ inord t.
Proof. induction sp as [|[u l] sp IH]; intros t; cbn [plug pre]; auto. rewrite IH. cbn [inord]. rewrite <- !app_assoc. reflexivity. Qed.
Lemma pre_length sp : length sp <= length (pre sp).
Proof. induction sp as [|[u l] sp IH]; cbn [pre length]; auto. rewrite !app_length. cbn [length]. lia. Qed.
Lemma linked_frame nodes nodes' t : forall p o, linked nodes p o t -> (forall x, In x (inord t) -> get nodes' x = get nodes x) -> linked nodes' p o t.
Proof.
  induction t as [|l IHl v r IHr]; intros p o H F; cbn [linked inord] in *; auto. destruct H as (-> & d & G & P & L & R). split; auto. exists d.
  rewrite F by (rewrite in_app_iff; cbn; auto). split; auto. split; auto. split; [apply IHl|apply IHr]; auto; intros x Hx; apply F; rewrite in_app_iff; cbn; auto.
Qed.
Lemma srep_frame nodes nodes' sp : forall c, srep nodes c sp -> (forall x, In x (pre sp) -> get nodes' x = get nodes x) -> srep nodes' c sp.
Proof.
  induction sp as [|[u l] sp IH]; intros c H F; cbn [srep pre] in *; auto. destruct H as ((d & G & P & R & L) & S). split.
  - exists d. rewrite F by (rewrite !in_app_iff; cbn; auto). split; auto. split; auto. split; auto. eapply linked_frame; eauto. intros x Hx. apply F. rewrite !in_app_iff. auto.
  - apply IH; auto. intros x Hx. apply F. rewrite !in_app_iff. auto.
Qed.

Section Build.
Variable T : Type.
Variable ltb : T -> T -> bool.
Hypothesis W : weak_order ltb.
Variable dflt : T.
Variable a : list T.
Definition A (i : nat) : T := nth i a dflt.
Notation lt x y := (ltb (A x) (A y) = true).
Notation ge x y := (ltb (A x) (A y) = false).

Fixpoint cspine (els : list nat) (sp : list (nat * tree)) : Prop :=
  match sp with
  | [] => True
  | (u, l) :: rest => heap ltb A l /\ (forall x, In x (inord l) -> lt u x) /\ (forall x, In x els -> ge x u) /\ cspine (inord l ++ u :: els) rest
  end.
Lemma heap_plug sp : forall t, heap ltb A (plug t sp) <-> heap ltb A t /\ cspine (inord t) sp.
Proof.
  induction sp as [|[u l] sp IH]; intros t; cbn [plug cspine]; [tauto|]. rewrite IH. cbn [heap inord]. tauto.
Qed.
Lemma cspine_add v sp : forall els, cspine els sp -> (forall u l rest, sp = (u, l) :: rest -> ge v u) -> cspine (els ++ [v]) sp.
Proof.
  induction sp as [|[u l] sp IH]; intros els H Hv; cbn [cspine] in *; auto. destruct H as (H1 & H2 & H3 & H4).
  specialize (Hv u l sp eq_refl). split; auto. split; auto. split.
  - intros x Hx. apply in_app_iff in Hx. destruct Hx as [Hx|[<-|[]]]; auto.
  - replace (inord l ++ u :: els ++ [v]) with ((inord l ++ u :: els) ++ [v]) by (rewrite <- app_assoc; reflexivity). apply IH; auto.
    intros u2 l2 rest ->. cbn [cspine] in H4. destruct H4 as (_ & _ & H4 & _). specialize (H4 u ltac:(rewrite in_app_iff; cbn; auto)).
    exact (wle_trans _ _ W (A u2) (A u) (A v) H4 Hv).
Qed.

Definition inv (k : nat) (t : decalt) : Prop :=
  length (d_nodes t) = k /\ exists sp, srep (d_nodes t) None sp /\ d_root t = croot None sp /\
  (0 < k -> exists l rest, sp = (k - 1, l) :: rest) /\ pre sp = seq 0 k /\ heap ltb A (plug Leaf sp).

Lemma climb_ok k nodes sp : k < length a -> length nodes = k -> srep nodes None sp -> (exists l rest, sp = (k - 1, l) :: rest) -> pre sp = seq 0 k ->
  heap ltb A (plug Leaf sp) ->
  exists t sp' child, climb T ltb a nodes k (k - 1) = Some (top sp') /\ plug t sp' = plug Leaf sp /\ croot child sp' = croot None sp /\
    linked nodes (top sp') child t /\ srep nodes child sp' /\ (forall x, In x (inord t) -> lt k x) /\ (forall u l rest, sp' = (u, l) :: rest -> ge k u).
Proof.
  intros Hk Hn Hs Hsp Hp Hh. unfold climb.
  assert (B : forall t sp', plug t sp' = plug Leaf sp -> forall x, In x (pre sp') -> x < k).
  { intros t sp' E x Hx. assert (In x (inord (plug Leaf sp))) as Q by (rewrite <- E, plug_inord, in_app_iff; auto).
    rewrite plug_inord in Q. cbn [inord] in Q. rewrite app_nil_r, Hp in Q. apply in_seq in Q. lia. }
  match goal with |- context [loop _ ?bd _] => set (body := bd) end.
  assert (K : forall sp' fuel t child, length sp' < fuel -> plug t sp' = plug Leaf sp -> croot child sp' = croot None sp ->
    linked nodes (top sp') child t -> srep nodes child sp' -> (forall x, In x (inord t) -> lt k x) ->
    exists t2 sp2 child2, loop fuel body (top sp') = Some (top sp2) /\ plug t2 sp2 = plug Leaf sp /\ croot child2 sp2 = croot None sp /\
    linked nodes (top sp2) child2 t2 /\ srep nodes child2 sp2 /\ (forall x, In x (inord t2) -> lt k x) /\ (forall u l rest, sp2 = (u, l) :: rest -> ge k u)).
  { induction sp' as [|[u l] rest IH]; intros fuel t child Hf E C L S G; destruct fuel as [|fuel]; cbn [length] in Hf; try lia.
    - exists t, [], child. cbn [loop top hd_error option_map body]. split; auto. split; auto. split; auto. split; auto. split; auto. split; auto. intros; discriminate.
    - assert (Hu : u < k). { apply (B _ _ E). cbn [pre]. rewrite !in_app_iff. cbn. auto. }
      cbn [top hd_error option_map fst loop]. unfold body at 1.
      rewrite (@get_nth _ a u dflt) by lia. rewrite (@get_nth _ a k dflt) by lia. cbn [obind]. fold (A u) (A k).
      pose proof S as S'. cbn [srep] in S'. destruct S' as ((d & Gd & Pd & Rd & Ld) & Sr).
      destruct (ltb (A k) (A u)) eqn:Q.
      + rewrite Gd. cbn [obind]. rewrite Pd. apply (IH fuel (Nd l u t) (Some u)); auto; [lia| |].
        * cbn [linked]. split; auto. exists d. split; auto. split; auto. split; auto. rewrite Rd. exact L.
        * intros x Hx. cbn [inord] in Hx. apply in_app_iff in Hx. destruct Hx as [Hx|[<-|Hx]]; auto.
          assert (HH : heap ltb A (plug t ((u, l) :: rest))) by (rewrite E; auto). apply heap_plug in HH. cbn [cspine] in HH. destruct HH as (_ & _ & H2 & _).
          exact (wo_trans _ W _ _ _ Q (H2 x Hx)).
      + exists t, ((u, l) :: rest), child. split; auto. split; auto. split; auto. split; auto. split; auto. split; auto. intros u2 l2 rest2 E2. injection E2 as <- _ _. exact Q. }
  destruct Hsp as (l0 & rest0 & ->). specialize (K ((k - 1, l0) :: rest0) (k + 1) Leaf None).
  cbn [top hd_error option_map fst] in K. apply K; try assumption; try reflexivity.
  - pose proof (pre_length ((k - 1, l0) :: rest0)) as PL. rewrite Hp, seq_length in PL. lia.
  - intros x [].
Qed.

Lemma get_set_p nodes u v d x : get nodes u = Some d -> exists nodes', set_p nodes u v = Some nodes' /\ length nodes' = length nodes /\
  (x = u -> get nodes' x = Some (Node (Some v) (n_l d) (n_r d))) /\ (forall y, y <> u -> get nodes' y = get nodes y).
Proof.
  intros G. unfold set_p. rewrite G. cbn [obind]. rewrite set_some by (eapply get_some_lt; eauto). eexists. split; [reflexivity|]. split; [apply lset_length|].
  split; [intros ->; apply get_lset_eq; eapply get_some_lt; eauto|]. intros y Hy. now apply get_lset_neq; auto.
Qed.
Lemma get_set_r nodes u v d : get nodes u = Some d -> exists nodes', set_r nodes u v = Some nodes' /\ length nodes' = length nodes /\
  get nodes' u = Some (Node (n_p d) (n_l d) (Some v)) /\ (forall y, y <> u -> get nodes' y = get nodes y).
Proof.
  intros G. unfold set_r. rewrite G. cbn [obind]. rewrite set_some by (eapply get_some_lt; eauto). eexists. split; [reflexivity|]. split; [apply lset_length|].
  split; [apply get_lset_eq; eapply get_some_lt; eauto|]. intros y Hy. now apply get_lset_neq; auto.
Qed.
(** the parent link of the root of a subtree is changed *)
Lemma relink nodes p c t v : linked nodes p c t -> NoDup (inord t) ->
  exists nodes', match c with Some u => set_p nodes u v | None => Some nodes end = Some nodes' /\ length nodes' = length nodes /\
  linked nodes' (Some v) c t /\ (forall y, ~ In y (inord t) -> get nodes' y = get nodes y).
Proof.
  intros L N. destruct t as [|l x r]; cbn [linked] in L.
  - subst c. exists nodes. cbn [linked]. auto.
  - destruct L as (-> & d & G & P & Ll & Lr). destruct (@get_set_p nodes x v d x G) as (nodes' & E & Hl & G1 & G2). exists nodes'. split; auto. split; auto.
    cbn [inord] in N. apply NoDup_app_iff in N. destruct N as (N1 & N2 & N3). inversion N2 as [|? ? M1 M2]; subst.
    split.
    + cbn [linked]. split; auto. eexists. split; [apply G1; auto|]. cbn [n_p n_l n_r]. split; auto. split; eapply linked_frame; eauto; intros y Hy; apply G2; intros ->; [apply (N3 x); cbn; auto|tauto].
    + intros y Hy. apply G2. intros ->. apply Hy. cbn [inord]. rewrite in_app_iff. cbn. auto.
Qed.

Lemma step_ok k t : k < length a -> inv k t -> exists t', decalt_step T ltb a k t = Some t' /\ inv (S k) t'.
Proof.
  intros Hk (Hn & sp & Hs & Hr & Hsp & Hp & Hh). unfold decalt_step. destruct (Nat.eqb_spec (length (d_nodes t)) 0) as [E0|E0].
  - assert (Hk0 : k = 0) by lia. rewrite Hk0. eexists. split; [reflexivity|]. split; [reflexivity|]. exists [(0, Leaf)]. cbn [d_nodes d_root srep top hd_error option_map croot linked pre inord].
    repeat split; auto.
    + eexists. repeat split; reflexivity.
    + intros _. exists Leaf, []. reflexivity.
    + cbn. intros x [].
  - destruct t as [root nodes]. cbn [d_nodes d_root] in *. rewrite Hn.
    destruct (@climb_ok k nodes sp Hk Hn Hs (Hsp ltac:(lia)) Hp Hh) as (t & sp' & child & -> & E & C & L & S & G & Q). cbn [obind].
    assert (Io : pre sp' ++ inord t = seq 0 k). { rewrite <- plug_inord, E, plug_inord. cbn [inord]. now rewrite app_nil_r. }
    assert (ND : NoDup (pre sp' ++ inord t)) by (rewrite Io; apply seq_NoDup).
    assert (Bd : forall x, In x (pre sp' ++ inord t) -> x < k) by (intros x Hx; rewrite Io in Hx; apply in_seq in Hx; lia).
    pose proof ND as ND'. apply NoDup_app_iff in ND'. destruct ND' as (ND1 & ND2 & ND3).
    assert (Hh' : heap ltb A t /\ cspine (inord t) sp') by (apply heap_plug; rewrite E; auto). destruct Hh' as [Hh1 Hh2].
    assert (New : pre ((k, t) :: sp') = seq 0 (Datatypes.S k)).
    { cbn [pre]. rewrite app_assoc, Io. rewrite seq_S. reflexivity. }
    assert (NewH : heap ltb A (plug Leaf ((k, t) :: sp'))).
    { cbn [plug]. apply heap_plug. cbn [heap inord]. split; [split; auto; split; [intros x []|auto]|]. apply cspine_add; auto. }
    (* the new vector before the links are changed *)
    assert (Fr : forall nd x, x < k -> get (nodes ++ [nd]) x = get nodes x) by (intros; apply get_app_l; lia).
    assert (Lst : forall nd, get (nodes ++ [nd]) k = Some nd) by (intros; rewrite get_app_r by lia; replace (k - length nodes) with 0 by lia; reflexivity).
    destruct sp' as [|[u l] rest]; cbn [top hd_error option_map fst].
    + cbn [croot] in C. rewrite <- Hr in C. rewrite <- C in *.
      destruct child as [c|]; [|destruct t; [cbn in Io; destruct k; [lia|discriminate]|cbn [linked] in L; destruct L; discriminate]].
      cbn [obind].
      destruct (@relink (nodes ++ [Node None (Some c) None]) None (Some c) t k) as (nodes' & -> & Hl & L' & F'); auto.
      { eapply linked_frame; [exact L|]. intros x Hx. apply Fr. apply Bd. rewrite in_app_iff. auto. }
      cbn [obind]. eexists. split; [reflexivity|]. split; cbn [d_nodes d_root]; [rewrite Hl, app_length; cbn [length]; lia|].
      exists [(k, t)]. split; [|split; [reflexivity|split; [intros _; exists t, []; do 2 f_equal; lia|split; auto]]].
      cbn [srep]. split; auto. exists (Node None (Some c) None). rewrite F', Lst. { cbn. auto. } intros Hx. specialize (Bd k). rewrite in_app_iff in Bd. specialize (Bd (or_intror Hx)). lia.
    + cbn [srep] in S. destruct S as ((d & Gd & Pd & Rd & Ld) & Sr). rewrite Gd. cbn [obind]. rewrite Rd.
      assert (Hu : u < k). { apply Bd. cbn [pre]. rewrite !in_app_iff. cbn. auto. }
      assert (Nu : ~ In u (inord t)). { intros Hx. apply (ND3 u); auto. cbn [pre]. rewrite !in_app_iff. cbn. auto. }
      assert (Nk : ~ In k (inord t)). { intros Hx. specialize (Bd k). rewrite in_app_iff in Bd. specialize (Bd (or_intror Hx)). lia. }
      destruct (@relink (nodes ++ [Node (Some u) child None]) (Some u) child t k) as (nodes1 & E1 & Hl1 & L1 & F1); auto.
      { eapply linked_frame; [exact L|]. intros x Hx. apply Fr. apply Bd. rewrite in_app_iff. auto. }
      assert (Eq1 : match child with Some ur => set_p (nodes ++ [Node (Some u) child None]) ur k | None => Some (nodes ++ [Node (Some u) child None]) end = Some nodes1) by exact E1.
      rewrite Eq1. cbn [obind].
      destruct (@get_set_r nodes1 u k d) as (nodes2 & -> & Hl2 & G2 & F2). { rewrite F1, Fr; auto. }
      cbn [obind]. eexists. split; [reflexivity|]. split; cbn [d_nodes d_root]; [rewrite Hl2, Hl1, app_length; cbn [length]; lia|].
      exists ((k, t) :: (u, l) :: rest). split; [|split; [cbn [croot] in *; congruence|split; [intros _; exists t, ((u, l) :: rest); do 2 f_equal; lia|split; auto]]].
      cbn [pre] in ND1, ND3, Bd. apply NoDup_app_iff in ND1. destruct ND1 as (NA & NB & NC). apply NoDup_app_iff in NB. destruct NB as (NB1 & _ & NB2).
      assert (Fu : forall x, In x (pre rest) \/ In x (inord l) -> get nodes2 x = get nodes x).
      { intros x Hx. assert (x <> u).
        { intros ->. destruct Hx as [Hx|Hx]; [apply (NC u Hx); rewrite in_app_iff; cbn; auto|apply (NB2 u Hx); cbn; auto]. }
        assert (In x (pre rest ++ inord l ++ [u])) by (rewrite !in_app_iff; tauto).
        rewrite F2, F1, Fr; auto; [apply Bd; rewrite in_app_iff; auto|]. intros Hy. eapply ND3; eauto. }
      cbn [srep top hd_error option_map fst]. split; [|split].
      * exists (Node (Some u) child None). rewrite F2 by lia. rewrite F1, Lst by auto. split; auto. split; auto. split; auto. cbn [n_l]. eapply linked_frame; eauto. intros x Hx. apply F2. intros ->. tauto.
      * eexists. split; [exact G2|]. cbn [n_p n_l n_r]. split; auto. split; auto. eapply linked_frame; eauto.
      * eapply srep_frame; eauto.
Qed.

Lemma spine_linked nodes sp : forall t child, linked nodes (top sp) child t -> srep nodes child sp -> linked nodes None (croot child sp) (plug t sp).
Proof.
  induction sp as [|[u l] sp IH]; intros t child L S; cbn [plug croot]; auto. cbn [srep] in S. destruct S as ((d & G & P & R & Ld) & S).
  apply IH; auto. cbn [linked]. split; auto. exists d. rewrite R. cbn [top hd_error option_map fst] in L. auto.
Qed.

Theorem decalt_ok : exists d t, decalt_build T ltb a = Some d /\ length (d_nodes d) = length a /\
  linked (d_nodes d) None (d_root d) t /\ inord t = seq 0 (length a) /\ heap ltb A t.
Proof.
  unfold decalt_build. destruct (@for_up_rule _ inv (decalt_step T ltb a) (length a) 0 (Decalt None [])) as (d & E & I).
  - split; auto. exists []. cbn. repeat split; auto. lia.
  - intros k t Hk I. apply step_ok; auto. lia.
  - destruct I as (Hn & sp & Hs & Hr & _ & Hp & Hh). exists d, (plug Leaf sp). split; auto. split; auto. rewrite Hr. split; [apply spine_linked; cbn; auto|].
    split; auto. rewrite plug_inord, Hp. cbn [inord]. apply app_nil_r.
Qed.
End Build.
