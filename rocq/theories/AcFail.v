(** Proofs about [AcModel]: failure links and searches. *)
From Verif Require Import Base BaseLemmas ListExtra AcModel AcProof.
Set Implicit Arguments.

(** [y] is the node whose string is the longest node string that is a suffix of [w]. *)
Definition lsn (ss : list str) (w : str) (y : nat) : Prop :=
  exists t, get ss y = Some t /\ suffix t w /\ forall z r, get ss z = Some r -> suffix r w -> length r <= length t.
Definition failok (ns : list acnode) (ss : list str) (x : nat) : Prop :=
  exists nd y s, get ns x = Some nd /\ n_fail nd = Some y /\ get ss x = Some s /\ lsn ss (tl s) y.

Lemma get_node ns ss x s : trie ns ss -> get ss x = Some s -> exists nd, get ns x = Some nd.
Proof. intros T E. apply get_lt. rewrite <- (t_len T). now apply get_some_lt in E. Qed.
Lemma root_nil ns ss x : trie ns ss -> get ss x = Some [] -> x = 0.
Proof. intros T E. exact (get_uniq x 0 (t_nd T) E (t_root T)). Qed.

Lemma fall_ok ns ss w u c : trie ns ss ->
  (forall x s, get ss x = Some s -> s <> [] -> length s <= length w -> failok ns ss x) -> lsn ss w u ->
  exists y, ac_fall ns u c = Some y /\ lsn ss (w ++ [c]) y.
Proof.
  intros T F (t & Et & St & Mt). unfold ac_fall.
  assert (G : forall f u t, get ss u = Some t -> suffix t w -> (forall z r, get ss z = Some r -> suffix r w -> In (r ++ [c]) ss -> length r <= length t) -> length t < f ->
    exists y, loop f (fun u => let* t := ac_go ns u c in match t with Some t => Some (inr t) | None => let* nd := get ns u in let* f := n_fail nd in Some (inl f) end) u = Some y /\ lsn ss (w ++ [c]) y).
  { clear u t Et St Mt. induction f as [|f IH]; intros u t Et St Mt Hf; [lia|]. cbn [loop]. destruct (get_node u T Et) as [nd En]. unfold ac_go at 1. rewrite En. cbn [obind].
    destruct (assoc c (n_e nd)) as [y|] eqn:A; cbn [obind].
    - exists y. split; [auto|]. apply (t_edge T u c y En Et) in A. exists (t ++ [c]). split; [auto|]. split; [now apply suffix_snoc|]. intros z r Ez Sz. apply suffix_snoc_inv in Sz as [->|(r' & -> & Sr)]; [cbn; lia|].
      destruct (closed T [c] z r' Ez) as [z' Ez']. rewrite !app_length. assert (length r' <= length t); [|lia]. apply (Mt z' r' Ez' Sr). apply In_get_iff. eauto.
    - assert (NT : forall z, get ss z <> Some (t ++ [c])) by (intros z Ez; apply (t_edge T u c z En Et) in Ez; congruence).
      destruct (Nat.eqb_spec u 0) as [->|Nu]; cbn [obind].
      + exists 0. split; [auto|]. assert (t = []) by (pose proof (t_root T); congruence). subst t. exists []. split; [auto|]. split; [apply suffix_nil|]. intros z r Ez Sz. apply suffix_snoc_inv in Sz as [->|(r' & -> & Sr)]; [auto|].
        exfalso. destruct (closed T [c] z r' Ez) as [z' Ez']. specialize (Mt z' r' Ez' Sr). destruct r' as [|d r']; [now apply (NT z)|]. cbn in Mt. assert (S (length r') <= 0); [|lia]. apply Mt. apply In_get_iff. eauto.
      + rewrite ?En. cbn [obind]. assert (Nt : t <> []) by (intros ->; apply Nu; eapply root_nil; eauto). destruct (F u t Et Nt (suffix_length St)) as (nd' & y & s & E1 & E2 & E3 & (t' & Et' & St' & Mt')).
        assert (nd' = nd) by congruence. assert (s = t) by congruence. subst nd' s. rewrite E2. cbn [obind]. apply (IH y t' Et').
        * eapply suffix_trans; [exact St'|]. eapply suffix_trans; [apply tl_suffix|auto].
        * intros z r Ez Sr I. apply (Mt' z r Ez). apply suffix_tl.
          -- eapply suffix_le; eauto.
          -- intros ->. apply In_get_iff in I as [q Eq]. now apply (NT q).
        * apply suffix_length in St'. destruct t; [easy|]. cbn in *. lia. }
  apply (G (S (length ns)) u t Et St); [intros; now apply (Mt z)|]. pose proof (depth T u Et). apply get_some_lt in Et. rewrite (t_len T) in Et. lia.
Qed.

(** ** Building *)
Definition same (ns ns' : list acnode) : Prop :=
  length ns' = length ns /\ forall x nd', get ns' x = Some nd' -> exists nd, get ns x = Some nd /\ n_e nd' = n_e nd /\ n_id nd' = n_id nd.
Lemma same_refl ns : same ns ns.
Proof. split; eauto. Qed.
Lemma same_trans a b c : same a b -> same b c -> same a c.
Proof. intros [L1 H1] [L2 H2]. split; [congruence|]. intros x nd E. destruct (H2 x nd E) as (nd2 & E2 & A2 & B2). destruct (H1 x nd2 E2) as (nd3 & E3 & A3 & B3). exists nd3. repeat split; congruence. Qed.
Lemma same_trie ns ns' ss : same ns ns' -> trie ns ss -> trie ns' ss.
Proof. intros [L H] T. eapply trie_same; eauto. intros x nd' E. destruct (H x nd' E) as (nd & ? & ? & _). eauto. Qed.
Lemma same_node ns ns' x nd : same ns ns' -> get ns x = Some nd -> exists nd', get ns' x = Some nd' /\ n_e nd' = n_e nd /\ n_id nd' = n_id nd.
Proof.
  intros [L H] E. destruct (@get_lt _ ns' x) as [nd' E']; [rewrite L; now apply get_some_lt in E|]. exists nd'. destruct (H x nd' E') as (nd0 & E0 & A & B). split; [auto|]. split; congruence.
Qed.

Lemma set_fail_ok ns ss x s y : trie ns ss -> get ss x = Some s -> lsn ss (tl s) y ->
  exists ns', set_fail ns x y = Some ns' /\ same ns ns' /\ failok ns' ss x /\ forall z, z <> x -> failok ns ss z -> failok ns' ss z.
Proof.
  intros T Es L. destruct (get_node x T Es) as [nd En]. pose proof (get_some_lt _ _ En) as Hx. unfold set_fail. rewrite En. cbn [obind]. rewrite set_some by auto. eexists. split; [reflexivity|]. split; [split|split].
  - apply lset_length.
  - intros z nd' E. rewrite get_lset in E. destruct (Nat.eqb_spec x z) as [<-|N]; [|cbn in E; eauto]. destruct (_ <? _) in E; cbn in E; [injection E as <-|]; eauto.
  - eexists _, y, s. rewrite get_lset_eq by auto. split; [reflexivity|]. auto.
  - intros z N (nd0 & y0 & s0 & E1 & E2 & E3 & E4). exists nd0, y0, s0. rewrite get_lset_neq by auto. auto.
Qed.

Lemma edge_string ns ss x nd s c y : trie ns ss -> get ns x = Some nd -> get ss x = Some s -> (In (c, y) (n_e nd) <-> get ss y = Some (s ++ [c])).
Proof. intros T En Es. rewrite <- (t_edge T x c y En Es), assoc_in; [tauto|]. eapply t_keys; eauto. Qed.
Lemma edges_nodup ns ss x nd s es : trie ns ss -> get ns x = Some nd -> get ss x = Some s -> Permutation es (n_e nd) -> NoDup (map snd es).
Proof.
  intros T En Es P. assert (N : NoDup (map fst es)) by (eapply Permutation_NoDup; [apply Permutation_map, Permutation_sym, P|eapply t_keys; eauto]).
  assert (H : forall c y, In (c, y) es -> get ss y = Some (s ++ [c])) by (intros c y I; apply (edge_string x c y T En Es); eapply Permutation_in; eauto).
  clear P En. induction es as [|[c y] es IH]; cbn in *; constructor.
  - intros I. apply in_map_iff in I as ([d z] & Ez & I). cbn in Ez. subst z. inversion N as [|? ? N1 N2]; subst. apply N1. assert (E1 := H c y (or_introl eq_refl)). assert (E2 := H d y (or_intror I)).
    assert (E : s ++ [c] = s ++ [d]) by congruence. apply app_inj_tail in E as [_ ->]. now apply (in_map fst) in I.
  - inversion N; subst. apply IH; auto.
Qed.

Section Build.
Variable ord : list (nat * nat) -> list (nat * nat).
Hypothesis ordP : forall l, Permutation (ord l) l.
Variable ns0 : list acnode.
Variable ss : list str.
Hypothesis T0 : trie ns0 ss.

Record bfs (d : nat) (q1 q2 dn : list nat) (ns : list acnode) : Prop := {
  b_same : same ns0 ns;
  b_d : 1 <= d;
  b_q1 : forall x, In x q1 -> exists s, get ss x = Some s /\ length s = d;
  b_q2 : forall x, In x q2 -> failok ns ss x /\ exists p t c, In p dn /\ get ss p = Some t /\ get ss x = Some (t ++ [c]) /\ length t = d;
  b_dn : forall x, In x dn -> exists s, get ss x = Some s /\ length s <= d;
  b_nd : NoDup (dn ++ q1 ++ q2);
  b_ok : forall x s, get ss x = Some s -> 1 <= length s <= d -> failok ns ss x;
  b_next : forall x t c p, get ss x = Some (t ++ [c]) -> length t = d -> get ss p = Some t -> In x q2 \/ In p q1 }.

Lemma bfs_bound d q1 q2 dn ns : bfs d q1 q2 dn ns -> length (dn ++ q1 ++ q2) <= length ns0.
Proof.
  intros B. rewrite <- (seq_length (length ns0) 0). apply NoDup_incl_length; [apply (b_nd B)|]. intros x I. apply in_seq. split; [lia|].
  assert (exists s, get ss x = Some s) as [s E]. { apply in_app_or in I as [I|I]; [destruct (b_dn B x I) as (s & ? & _); eauto|]. apply in_app_or in I as [I|I]; [destruct (b_q1 B x I) as (s & ? & _); eauto|]. destruct (b_q2 B x I) as (_ & p & t & c & _ & _ & ? & _). eauto. }
  apply get_some_lt in E. rewrite (t_len T0) in E. lia.
Qed.
Lemma bfs_shift d q2 dn ns : bfs d [] q2 dn ns -> bfs (S d) q2 [] dn ns.
Proof.
  intros B. split.
  - apply B.
  - pose proof (b_d B). lia.
  - intros x I. destruct (b_q2 B x I) as (_ & p & t & c & _ & _ & E & L). eexists. split; [exact E|]. rewrite app_length. cbn. lia.
  - intros x [].
  - intros x I. destruct (b_dn B x I) as (s & E & L). exists s. split; [auto|lia].
  - pose proof (b_nd B) as N. rewrite app_nil_r. exact N.
  - intros x s E L. destruct (Nat.le_gt_cases (length s) d) as [H|H]; [apply (b_ok B x E); lia|].
    assert (N : s <> []) by (intros ->; cbn in L; lia). destruct (exists_last N) as (t & c & ->). rewrite app_length in H, L. cbn in H, L. destruct (closed T0 [c] x t E) as [p Ep]. destruct (@b_next _ _ _ _ _ B x t c p E) as [I|[]]; [lia|auto|]. apply (b_q2 B x I).
  - intros x t c p E L Ep. right. assert (N : t <> []) by (intros ->; cbn in L; lia). destruct (exists_last N) as (t' & c' & ->). rewrite app_length in L. cbn in L. destruct (closed T0 [c'] p t' Ep) as [p' Ep']. destruct (@b_next _ _ _ _ _ B p t' c' p' Ep) as [I|[]]; [lia|auto|auto].
Qed.

Lemma children_ok id s d : get ss id = Some s -> length s = d -> 1 <= d ->
  forall es q ns, trie ns ss -> failok ns ss id -> NoDup (map snd es) -> (forall c y, In (c, y) es -> get ss y = Some (s ++ [c])) ->
  (forall x s, get ss x = Some s -> 1 <= length s <= d -> failok ns ss x) ->
  exists ns', for_each es (fun '(c, next) '(q, ns) =>
          let* nd := get ns id in
          let* state := n_fail nd in
          let* target := ac_fall ns state c in
          let* ns := set_fail ns next target in
          Some (q ++ [next], ns)) (q, ns) = Some (q ++ map snd es, ns') /\ same ns ns' /\
    (forall y, In y (map snd es) -> failok ns' ss y) /\ (forall x, ~ In x (map snd es) -> failok ns ss x -> failok ns' ss x).
Proof.
  intros Es Ls Hd es. induction es as [|[c y] es IH]; intros q ns T F N H O; cbn [for_each map].
  - exists ns. rewrite app_nil_r. split; [auto|]. split; [apply same_refl|]. split; [intros ? []|auto].
  - pose proof F as (nd & f & s' & E1 & E2 & E3 & Lf). assert (s' = s) by congruence. subst s'. cbn [snd] in *. rewrite E1. cbn [obind]. rewrite E2. cbn [obind]. assert (Htl : length (tl s) = d - 1) by (destruct s; cbn in *; lia).
    destruct (@fall_ok ns ss (tl s) f c T) as (tg & Ef & Lg); [|auto|].
    { intros x r Ex Nr Lr. apply (O x r Ex). destruct r; [easy|]. cbn in *. lia. }
    rewrite Ef. cbn [obind]. pose proof (H c y (or_introl eq_refl)) as Ey. destruct (@set_fail_ok ns ss y (s ++ [c]) tg T Ey) as (ns1 & E & Sm & Fy & Fo); [destruct s; [cbn in Ls; lia|exact Lg]|].
    rewrite E. cbn [obind]. cbn [map snd] in N. inversion N as [|? ? N1 N2]; subst.
    assert (Dy : forall x r, get ss x = Some r -> length r <= length s -> x <> y) by (intros x r Ex Lr ->; assert (r = s ++ [c]) by congruence; subst r; rewrite app_length in Lr; cbn in Lr; lia).
    destruct (IH (q ++ [y]) ns1) as (ns2 & E' & Sm' & F1 & F2).
    + eapply same_trie; eauto.
    + apply Fo; auto. eapply Dy; eauto.
    + auto.
    + intros c' y' I. apply H. now right.
    + intros x r Ex Lr. apply Fo; [eapply Dy; eauto; lia|]. eapply O; eauto.
    + exists ns2. rewrite <- app_assoc in E'. split; [exact E'|]. split; [eapply same_trans; eauto|]. split.
      * intros z [<-|I]; [apply F2; auto|auto].
      * intros z Nz Fz. apply F2; [intros I; apply Nz; now right|]. apply Fo; auto. intros ->. apply Nz. now left.
Qed.

Lemma bfs_pop d id q1 q2 dn ns nd : bfs d (id :: q1) q2 dn ns -> get ns id = Some nd ->
  exists ns', for_each (ord (n_e nd)) (fun '(c, next) '(q, ns) =>
          let* nd := get ns id in
          let* state := n_fail nd in
          let* target := ac_fall ns state c in
          let* ns := set_fail ns next target in
          Some (q ++ [next], ns)) (q1 ++ q2, ns) = Some (q1 ++ q2 ++ map snd (ord (n_e nd)), ns') /\
    bfs d q1 (q2 ++ map snd (ord (n_e nd))) (dn ++ [id]) ns'.
Proof.
  intros B En. destruct (b_q1 B id (or_introl eq_refl)) as (s & Es & Ls). pose proof (same_trie (b_same B) T0) as T. pose proof (b_d B) as Hd.
  pose proof (edges_nodup id T En Es (ordP (n_e nd))) as NE.
  assert (HE : forall c y, In (c, y) (ord (n_e nd)) <-> get ss y = Some (s ++ [c])).
  { intros c y. rewrite <- (edge_string id c y T En Es). split; apply Permutation_in; [|apply Permutation_sym]; apply ordP. }
  destruct (@children_ok id s d Es Ls Hd (ord (n_e nd)) (q1 ++ q2) ns T) as (ns' & E & Sm & F1 & F2); auto; [apply (b_ok B id Es); lia|intros c y; apply HE|apply (b_ok B)|].
  exists ns'. rewrite <- app_assoc in E. split; [exact E|]. set (ch := map snd (ord (n_e nd))) in *.
  assert (HC : forall x, In x ch <-> exists c, get ss x = Some (s ++ [c])).
  { intros x. unfold ch. rewrite in_map_iff. split; [intros ([c y] & <- & I); apply HE in I; eauto|]. intros [c E1]. apply HE in E1. now exists (c, x). }
  assert (LC : forall x r, In x ch -> get ss x = Some r -> length r = S d) by (intros x r I E1; apply HC in I as [c E2]; assert (r = s ++ [c]) by congruence; subst r; rewrite app_length; cbn; lia).
  pose proof (b_nd B) as N. assert (NI : ~ In id dn) by (intros I; apply NoDup_app_iff in N as (_ & _ & N); apply (N id I); now left).
  assert (N2 : forall x, In x q2 -> ~ In x ch).
  { intros x I C. apply HC in C as [c Ec]. destruct (b_q2 B x I) as (_ & p & t & c' & Ip & Ep & Ex & _). assert (E1 : t ++ [c'] = s ++ [c]) by congruence. apply app_inj_tail in E1 as [-> _]. assert (p = id) by exact (get_uniq p id (t_nd T) Ep Es). congruence. }
  split.
  - eapply same_trans; [apply (b_same B)|auto].
  - auto.
  - intros x I. apply (b_q1 B). now right.
  - intros x I. apply in_app_or in I as [I|I].
    + destruct (b_q2 B x I) as (Fx & p & t & c & Ip & H). split; [apply F2; auto|]. exists p, t, c. split; [apply in_or_app; auto|auto].
    + split; [auto|]. apply HC in I as [c Ec]. exists id, s, c. split; [apply in_or_app; right; now left|auto].
  - intros x I. apply in_app_or in I as [I|[<-|[]]]; [apply (b_dn B x I)|]. exists s. split; [auto|lia].
  - assert (P : Permutation ((dn ++ id :: q1 ++ q2) ++ ch) ((dn ++ [id]) ++ q1 ++ q2 ++ ch)) by (rewrite <- !app_assoc; cbn; rewrite <- !app_assoc; apply Permutation_refl).
    eapply Permutation_NoDup; [exact P|]. apply NoDup_app_iff. split; [exact N|]. split; [auto|]. intros x I C.
    apply in_app_or in I as [I|I]; [destruct (b_dn B x I) as (r & Er & Lr); specialize (LC x r C Er); lia|].
    change (id :: q1 ++ q2) with ((id :: q1) ++ q2) in I. apply in_app_or in I as [I|I]; [destruct (b_q1 B x I) as (r & Er & Lr); specialize (LC x r C Er); lia|]. now apply (N2 x).
  - intros x r Er Lr. apply F2; [intros C; specialize (LC x r C Er); lia|]. apply (b_ok B x Er Lr).
  - intros x t c p Ex Lt Ep. destruct (@b_next _ _ _ _ _ B x t c p Ex Lt Ep) as [I|[<-|I]]; [left; apply in_or_app; auto| |auto]. left. apply in_or_app. right. apply HC. exists c. congruence.
Qed.

Lemma bfs_run : forall f d q1 q2 dn ns, bfs d q1 q2 dn ns -> length ns0 - length dn < f ->
  exists ns', loop f (fun '(q, ns) =>
    match q with
    | [] => Some (inr ns)
    | id :: q =>
        let* nd := get ns id in
        let* (q, ns) := for_each (ord (n_e nd)) (fun '(c, next) '(q, ns) =>
          let* nd := get ns id in
          let* state := n_fail nd in
          let* target := ac_fall ns state c in
          let* ns := set_fail ns next target in
          Some (q ++ [next], ns)) (q, ns) in
        Some (inl (q, ns))
    end) (q1 ++ q2, ns) = Some ns' /\ same ns0 ns' /\ forall x s, get ss x = Some s -> s <> [] -> failok ns' ss x.
Proof.
  induction f as [|f IH]; intros d q1 q2 dn ns B Hf; [lia|].
  assert (X : exists d' q1' q2', bfs d' q1' q2' dn ns /\ q1' ++ q2' = q1 ++ q2 /\ (q1' = [] -> q2' = [])).
  { destruct q1 as [|i q1]; [|exists d, (i :: q1), q2; split; [auto|split; [auto|discriminate]]]. exists (S d), q2, []. split; [now apply bfs_shift|]. split; [now rewrite app_nil_r|auto]. }
  clear B. destruct X as (d' & q1' & q2' & B & <- & Z). clear d q1 q2. rename d' into d, q1' into q1, q2' into q2. destruct q1 as [|id q1].
  - rewrite Z in * by auto. cbn [app loop obind]. exists ns. split; [auto|]. split; [apply B|]. intros x s E Ns.
    assert (H : length s <= d).
    { apply Nat.nlt_ge. intros H. rewrite <- (firstn_skipn (S d) s) in E. apply (closed T0) in E as [y Ey]. set (r := firstn (S d) s) in *. assert (Lr : length r = S d) by (unfold r; rewrite firstn_length; lia).
      assert (Nr : r <> []) by (intros E0; rewrite E0 in Lr; discriminate). destruct (exists_last Nr) as (t & c & Er). rewrite Er in Ey, Lr. rewrite app_length in Lr. cbn in Lr. destruct (closed T0 [c] y t Ey) as [p Ep]. destruct (@b_next _ _ _ _ _ B y t c p Ey) as [[]|[]]; [lia|auto]. }
    apply (b_ok B x E). destruct s; [easy|]. cbn in *. lia.
  - cbn [app loop]. destruct (b_q1 B id (or_introl eq_refl)) as (s & Es & _). destruct (get_node id (same_trie (b_same B) T0) Es) as [nd En]. rewrite En. cbn [obind].
    destruct (bfs_pop B En) as (ns' & E & B'). rewrite E. cbn [obind]. apply IH with (1 := B'). pose proof (bfs_bound B) as H. rewrite app_length in *. cbn [app length] in *. lia.
Qed.

Lemma roots_ok : forall es q ns, trie ns ss -> NoDup (map snd es) -> (forall c y, In (c, y) es -> get ss y = Some [c]) ->
  exists ns', for_each es (fun '(_, next) '(q, ns) => let* ns := set_fail ns next 0 in Some (q ++ [next], ns)) (q, ns) = Some (q ++ map snd es, ns') /\ same ns ns' /\
    (forall y, In y (map snd es) -> failok ns' ss y) /\ (forall x, ~ In x (map snd es) -> failok ns ss x -> failok ns' ss x).
Proof.
  induction es as [|[c y] es IH]; intros q ns T N H; cbn [for_each map snd].
  - exists ns. rewrite app_nil_r. split; [auto|]. split; [apply same_refl|]. split; [intros ? []|auto].
  - destruct (@set_fail_ok ns ss y [c] 0 T) as (ns1 & E & Sm & Fy & Fo); [apply H; now left| |].
    { exists []. split; [apply T|]. split; [apply suffix_nil|]. intros z r _ Sr. apply suffix_length in Sr. exact Sr. }
    rewrite E. cbn [obind]. cbn [map snd] in N. inversion N as [|? ? N1 N2]; subst. destruct (IH (q ++ [y]) ns1) as (ns2 & E' & Sm' & F1 & F2); [eapply same_trie; eauto|auto|intros c' y' I; apply H; now right|].
    exists ns2. rewrite <- app_assoc in E'. split; [exact E'|]. split; [eapply same_trans; eauto|]. split.
    + intros z [<-|I]; [apply F2; auto|auto].
    + intros z Nz Fz. apply F2; [intros I; apply Nz; now right|]. apply Fo; auto. intros ->. apply Nz. now left.
Qed.

Lemma build_fail_ok : exists ns', ac_build_fail ord ns0 = Some ns' /\ same ns0 ns' /\ forall x s, get ss x = Some s -> s <> [] -> failok ns' ss x.
Proof.
  unfold ac_build_fail. destruct (get_node 0 T0 (t_root T0)) as [nd En]. rewrite En. cbn [obind]. pose proof (edges_nodup 0 T0 En (t_root T0) (ordP (n_e nd))) as NE.
  assert (HE : forall c y, In (c, y) (ord (n_e nd)) <-> get ss y = Some [c]).
  { intros c y. rewrite <- (edge_string 0 c y T0 En (t_root T0)). split; apply Permutation_in; [|apply Permutation_sym]; apply ordP. }
  destruct (@roots_ok (ord (n_e nd)) [] ns0 T0 NE) as (ns1 & E & Sm & F1 & F2); [intros c y; apply HE|]. rewrite E. cbn [obind app]. set (ch := map snd (ord (n_e nd))) in *.
  assert (HC : forall x, In x ch <-> exists c, get ss x = Some [c]).
  { intros x. unfold ch. rewrite in_map_iff. split; [intros ([c y] & <- & I); apply HE in I; eauto|]. intros [c E1]. apply HE in E1. now exists (c, x). }
  assert (B : bfs 1 ch [] [] ns1).
  { split.
    - auto.
    - auto.
    - intros x I. apply HC in I as [c Ec]. now exists [c].
    - intros x [].
    - intros x [].
    - rewrite app_nil_r. exact NE.
    - intros x s Ex L. apply F1, HC. destruct s as [|c [|? ?]]; cbn in L; [lia|eauto|lia].
    - intros x t c p Ex L Ep. right. apply HC. destruct t as [|c' [|? ?]]; cbn in L; [lia|eauto|lia]. }
  destruct (@bfs_run (S (length ns1)) 1 ch [] [] ns1 B) as (ns' & E' & H); [cbn [length]; rewrite (proj1 Sm); lia|]. rewrite app_nil_r in E'. exists ns'. split; [exact E'|exact H].
Qed.
End Build.

(** ** Searching *)
Section Search.
Variable T : Type.
Implicit Types (a : ac T) (K : list (str * T)).
Definition built a (ss : list str) : Prop := entries_ok a ss /\ forall x s, get ss x = Some s -> s <> [] -> failok (a_nodes a) ss x.

Lemma make_ok ord (h : list (str * T)) : (forall l, Permutation (ord l) l) -> h <> [] -> exists a ss, ac_make ord h = Some a /\ built a ss /\ a_container a = registered [] h.
Proof.
  intros P N. unfold ac_make. destruct (inserts_all N) as (a & ss & E & (Tr & I1 & I2) & C). rewrite E. cbn [obind]. destruct (@build_fail_ok ord P (a_nodes a) ss Tr) as (ns & E1 & Sm & F). rewrite E1. cbn [obind].
  eexists _, ss. split; [reflexivity|]. split; [|auto]. split; [|auto]. split; [eapply same_trie; eauto|]. cbn [a_nodes a_container]. split.
  - intros x nd k En Ei. destruct Sm as [_ Sm]. destruct (Sm x nd En) as (nd0 & E0 & _ & E2). apply (I1 x nd0 k E0). congruence.
  - intros k s v Ec. destruct (I2 k s v Ec) as (Ns & x & nd & Ex & En & Ei). split; [auto|]. destruct (same_node x Sm En) as (nd' & E' & _ & E2). exists x, nd'. repeat split; auto. congruence.
Qed.

Lemma key_node a ss k v x : built a ss -> In (k, v) (a_container a) -> get ss x = Some k -> exists nd i, get (a_nodes a) x = Some nd /\ n_id nd = Some i /\ get (a_container a) i = Some (k, v).
Proof.
  intros ((Tr & I1 & I2) & _) I Ex. apply In_get_iff in I as [i Ei]. destruct (I2 i k v Ei) as (_ & x' & nd & Ex' & En & Eid). assert (x' = x) by exact (get_uniq x' x (t_nd Tr) Ex' Ex). subst x'. eauto.
Qed.
Lemma key_string a ss k v : built a ss -> In (k, v) (a_container a) -> k <> [] /\ exists x, get ss x = Some k.
Proof. intros ((Tr & I1 & I2) & _) I. apply In_get_iff in I as [i Ei]. destruct (I2 i k v Ei) as (N & x & nd & Ex & _). eauto. Qed.

(** [K]-suffixes are kept when passing to the longest node suffix *)
Lemma lsn_keys a ss w y t k v : built a ss -> lsn ss w y -> get ss y = Some t -> In (k, v) (a_container a) -> (suffix k w <-> suffix k t).
Proof.
  intros B (t' & E & S & M) Et I. assert (t' = t) by congruence. subst t'. destruct (@key_string _ _ _ _ B I) as [_ [x Ex]]. split; intros H.
  - apply suffix_le with w; auto. eapply M; eauto.
  - eapply suffix_trans; eauto.
Qed.

Lemma to_exact_ok a ss u t : built a ss -> get ss u = Some t ->
  exists u' t', ac_to_exact a u = Some u' /\ get ss u' = Some t' /\ suffix t' t /\ (u' <> 0 -> exists nd k, get (a_nodes a) u' = Some nd /\ n_id nd = Some k) /\
    (forall k v, In (k, v) (a_container a) -> suffix k t -> suffix k t').
Proof.
  intros B. pose proof B as ((Tr & I1 & I2) & F). unfold ac_to_exact. intros Et. assert (Hf : length t < S (length (a_nodes a))) by (pose proof (depth Tr u Et); apply get_some_lt in Et; rewrite (t_len Tr) in Et; lia).
  revert u t Et Hf. generalize (S (length (a_nodes a))). induction n as [|f IH]; intros u t Et Hf; [lia|]. cbn [loop]. destruct (Nat.eqb_spec u 0) as [->|Nu]; cbn [obind].
  - exists 0, t. repeat split; auto; [apply suffix_refl|]. easy.
  - destruct (get_node u Tr Et) as [nd En]. rewrite En. cbn [obind]. assert (Nt : t <> []) by (intros ->; apply Nu; eapply root_nil; eauto). destruct (n_id nd) as [k|] eqn:Ei; cbn [obind].
    + exists u, t. repeat split; auto; [apply suffix_refl|]. intros _. eauto.
    + destruct (F u t Et Nt) as (nd' & y & s & E1 & E2 & E3 & L). assert (nd' = nd) by congruence. assert (s = t) by congruence. subst nd' s. rewrite E2. cbn [obind]. pose proof L as (t1 & Et1 & St1 & _).
      destruct (IH y t1 Et1) as (u' & t' & E & Et' & St' & Hid & HK); [apply suffix_length in St1; destruct t; [easy|]; cbn in *; lia|]. exists u', t'. split; [auto|]. split; [auto|]. split; [|split; [auto|]].
      * eapply suffix_trans; [eauto|]. eapply suffix_trans; [eauto|apply tl_suffix].
      * intros k v I S. apply (HK k v I). apply (@lsn_keys _ _ _ _ _ _ _ B L Et1 I). apply suffix_tl; [auto|]. intros ->. destruct (@key_node _ _ _ _ u B I Et) as (nd0 & i & E0 & Ei0 & _). congruence.
Qed.

Lemma drain_ok a ss u t : built a ss -> get ss u = Some t -> (u <> 0 -> exists nd k, get (a_nodes a) u = Some nd /\ n_id nd = Some k) ->
  exists l, ac_drain a u = Some l /\ matches (a_container a) t l.
Proof.
  intros B. pose proof B as ((Tr & I1 & I2) & F). unfold ac_drain. intros Et Hu.
  assert (Hf : length t < S (length (a_nodes a))) by (pose proof (depth Tr u Et); apply get_some_lt in Et; rewrite (t_len Tr) in Et; lia).
  assert (G : forall f u t acc, get ss u = Some t -> (u <> 0 -> exists nd k, get (a_nodes a) u = Some nd /\ n_id nd = Some k) -> length t < f ->
    exists l, loop f (fun '(u, acc) => if u =? 0 then Some (inr acc) else let* x := ac_deref a u in let* u := ac_next a u in Some (inl (u, acc ++ [x]))) (u, acc) = Some (acc ++ l) /\ matches (a_container a) t l).
  { clear u t Et Hu Hf. induction f as [|f IH]; intros u t acc Et Hu Hf; [lia|]. cbn [loop]. destruct (Nat.eqb_spec u 0) as [->|Nu]; cbn [obind].
    - exists []. rewrite app_nil_r. split; [auto|]. assert (t = []) by (pose proof (t_root Tr); congruence). subst t. split.
      + intros k v. split; [intros []|]. intros [I S]. apply suffix_length in S. destruct (@key_string _ _ _ _ B I) as [N _]. destruct k; [easy|]. cbn in S. lia.
      + intros [|i] j x y _ E; discriminate.
    - destruct (Hu Nu) as (nd & i & En & Ei). destruct (I1 u nd i En Ei) as (s & v & Es & Ec). assert (s = t) by congruence. subst s. unfold ac_deref at 1. rewrite En. cbn [obind]. rewrite Ei. cbn [obind]. rewrite Ec. cbn [obind].
      unfold ac_next at 1. rewrite En. cbn [obind]. assert (Nt : t <> []) by (intros ->; apply Nu; eapply root_nil; eauto). destruct (F u t Et Nt) as (nd' & y & s & E1 & E2 & E3 & L). assert (nd' = nd) by congruence. assert (s = t) by congruence. subst nd' s. rewrite E2. cbn [obind]. pose proof L as (t1 & Et1 & St1 & _).
      destruct (to_exact_ok y B Et1) as (u' & t' & E & Et' & St' & Hid & HK). rewrite E. cbn [obind].
      assert (Lt : length t' < length t) by (apply suffix_length in St1, St'; destruct t; [easy|]; cbn in *; lia).
      destruct (IH u' t' (acc ++ [(t, v)]) Et' Hid) as (l & El & M1 & M2); [lia|]. exists ((t, v) :: l). split; [rewrite El, <- app_assoc; auto|]. split.
      + intros k v'. cbn [In]. rewrite M1. split.
        * intros [[= <- <-]|[I S]]; [split; [eapply get_In; eauto|apply suffix_refl]|]. split; [auto|]. eapply suffix_trans; [eauto|]. eapply suffix_trans; [eauto|]. eapply suffix_trans; [eauto|apply tl_suffix].
        * intros [I S]. destruct (list_eq_dec Nat.eq_dec k t) as [->|N].
          -- left. destruct (@key_node _ _ _ _ u B I Et) as (nd0 & i0 & E0 & Ei0 & Ec0). assert (nd0 = nd) by congruence. subst nd0. assert (i0 = i) by congruence. subst i0. congruence.
          -- right. split; [auto|]. apply (HK k v' I). apply (@lsn_keys _ _ _ _ _ _ _ B L Et1 I). now apply suffix_tl.
      + intros [|i'] j x z Hij Ex Ez; (destruct j as [|j]; [lia|]); cbn in Ex, Ez.
        * injection Ex as <-. cbn [fst]. destruct z as [k vz]. apply get_In, M1 in Ez as [_ S]. apply suffix_length in S. cbn. lia.
        * apply (M2 i' j x z); [lia|auto|auto]. }
  destruct (G (S (length (a_nodes a))) u t [] Et Hu Hf) as (l & E & M). exists l. auto.
Qed.

Lemma push_ok a ss w u c : built a ss -> lsn ss w u -> exists y, ac_push a u c = Some y /\ lsn ss (w ++ [c]) y.
Proof. intros ((Tr & _) & F) L. unfold ac_push. apply fall_ok; eauto. Qed.
Lemma lsn_root a ss : built a ss -> lsn ss [] 0.
Proof. intros ((Tr & _) & _). exists []. split; [apply Tr|]. split; [apply suffix_nil|]. intros z r _ S. now apply suffix_length in S. Qed.

(** The iterator at the node for the text [w] *)
Lemma exact_matches a ss w u : built a ss -> lsn ss w u ->
  exists c l, ac_to_exact a u = Some c /\ ac_drain a c = Some l /\ matches (a_container a) w l /\ (c = 0 <-> l = []).
Proof.
  intros B L. pose proof L as (t & Et & _). destruct (to_exact_ok u B Et) as (c & t' & E & Et' & St' & Hid & HK). destruct (drain_ok B Et' Hid) as (l & El & M1 & M2). exists c, l. split; [auto|]. split; [auto|]. split.
  - split; [|auto]. intros k v. rewrite M1. split; intros [I S]; (split; [auto|]).
    + apply (@lsn_keys _ _ _ _ _ _ _ B L Et I). eapply suffix_trans; eauto.
    + apply (HK k v I). now apply (@lsn_keys _ _ _ _ _ _ _ B L Et I).
  - split.
    + intros ->. unfold ac_drain in El. cbn in El. now injection El.
    + intros ->. destruct (Nat.eq_dec c 0) as [|N]; [auto|]. destruct (Hid N) as (nd & k & En & Ei). destruct B as ((Tr & I1 & _) & _). destruct (I1 c nd k En Ei) as (s & v & Es & Ec). assert (s = t') by congruence. subst s. exfalso. apply (proj2 (M1 t' v)). split; [eapply get_In; eauto|apply suffix_refl].
Qed.
End Search.
