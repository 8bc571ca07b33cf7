(** Proofs about [AcModel]: the trie of the inserted keys. *)
From Verif Require Import Base BaseLemmas ListExtra AcModel.
Set Implicit Arguments.

(** ** Edges *)
Lemma assoc_filter c d e : d <> c -> assoc d (filter (fun p => negb (fst p =? c)) e) = assoc d e.
Proof.
  intros N. induction e as [|[x y] e IH]; [auto|]. cbn [filter fst]. destruct (Nat.eqb_spec x c) as [->|Hx]; cbn [negb].
  - rewrite IH. cbn [assoc]. destruct (Nat.eqb_spec c d); [congruence|auto].
  - cbn [assoc]. now rewrite IH.
Qed.
Lemma assoc_put c y e d : assoc d (put c y e) = if c =? d then Some y else assoc d e.
Proof. unfold put. cbn [assoc]. destruct (Nat.eqb_spec c d); [auto|]. apply assoc_filter. auto. Qed.
Lemma put_nodup c y e : NoDup (map fst e) -> NoDup (map fst (put c y e)).
Proof.
  intros H. unfold put. cbn [map fst]. constructor.
  - intros I. apply in_map_iff in I as ([x z] & E & I). apply filter_In in I as [_ I]. cbn in *. subst. rewrite Nat.eqb_refl in I. discriminate.
  - induction e as [|[x z] e IH]; [constructor|]. cbn [map] in H. inversion H as [|? ? H1 H2]; subst. cbn [filter fst]. destruct (negb (x =? c)); [|auto].
    cbn [map]. constructor; auto. intros I. apply H1. apply in_map_iff in I as (p & E & I). apply filter_In in I as [I _]. cbn in E. rewrite <- E. now apply in_map.
Qed.
Lemma assoc_in c y e : NoDup (map fst e) -> (assoc c e = Some y <-> In (c, y) e).
Proof.
  induction e as [|[d z] e IH]; cbn [assoc map fst]; intros H; [split; [discriminate|intros []]|]. inversion H as [|? ? H1 H2]; subst. destruct (Nat.eqb_spec d c) as [->|N].
  - split; [intros [= ->]; now left|]. intros [[= ->]|I]; [auto|]. exfalso. apply H1. now apply (in_map fst) in I.
  - rewrite IH by auto. split; [now right|]. intros [[= ? ?]|I]; [congruence|auto].
Qed.

(** ** Suffixes *)
Lemma suffix_refl w : suffix w w.
Proof. now exists []. Qed.
Lemma suffix_trans a b c : suffix a b -> suffix b c -> suffix a c.
Proof. intros [p ->] [q ->]. exists (q ++ p). now rewrite app_assoc. Qed.
Lemma suffix_nil w : suffix [] w.
Proof. exists w. now rewrite app_nil_r. Qed.
Lemma suffix_length s w : suffix s w -> length s <= length w.
Proof. intros [p ->]. rewrite app_length. lia. Qed.
Lemma suffix_le r t w : suffix r w -> suffix t w -> length r <= length t -> suffix r t.
Proof.
  intros [p ->] [q E] H. apply app_eq_app in E as (l & [[_ E]|[_ E]]); [now exists l|]. assert (l = []) by (destruct l; [auto|]; rewrite E, app_length in H; cbn in H; lia). subst l. cbn in E. subst. apply suffix_refl.
Qed.
Lemma suffix_tl r t : suffix r t -> r <> t -> suffix r (tl t).
Proof. intros [[|c p] ->] N; [easy|]. now exists p. Qed.
Lemma tl_suffix (t : str) : suffix (tl t) t.
Proof. destruct t as [|c t]; [apply suffix_refl|]. now exists [c]. Qed.
Lemma suffix_snoc s w c : suffix s w -> suffix (s ++ [c]) (w ++ [c]).
Proof. intros [p ->]. exists p. now rewrite app_assoc. Qed.
Lemma suffix_snoc_inv r w c : suffix r (w ++ [c]) -> r = [] \/ exists r', r = r' ++ [c] /\ suffix r' w.
Proof.
  intros [p E]. destruct (list_eq_dec Nat.eq_dec r []) as [->|N]; [auto|]. right. destruct (exists_last N) as (r' & d & ->). rewrite app_assoc in E. apply app_inj_tail in E as [-> ->]. exists r'. split; [auto|now exists p].
Qed.
Lemma prefixb_spec s w : prefixb s w = true <-> exists r, w = s ++ r.
Proof.
  revert w. induction s as [|c s IH]; intros w; cbn [prefixb]; [split; [intros _; now exists w|auto]|]. destruct w as [|d w]; [split; [discriminate|intros [r H]; discriminate]|].
  rewrite andb_true_iff, Nat.eqb_eq, IH. split.
  - intros [-> [r ->]]. now exists r.
  - intros [r [= -> ->]]. split; [auto|now exists r].
Qed.

(** ** The trie *)
Record trie (ns : list acnode) (ss : list str) : Prop := {
  t_len : length ss = length ns;
  t_root : get ss 0 = Some [];
  t_nd : NoDup ss;
  t_edge : forall x nd s c y, get ns x = Some nd -> get ss x = Some s -> (assoc c (n_e nd) = Some y <-> get ss y = Some (s ++ [c]));
  t_keys : forall x nd, get ns x = Some nd -> NoDup (map fst (n_e nd));
  t_par : forall y s, get ss y = Some s -> s = [] \/ exists x t c, x < y /\ get ss x = Some t /\ s = t ++ [c] }.

Lemma get_uniq (ss : list str) x y s : NoDup ss -> get ss x = Some s -> get ss y = Some s -> x = y.
Proof. intros N Ex Ey. apply (proj1 (NoDup_nth_error ss) N x y); [now apply get_some_lt in Ex|]. unfold get in *. congruence. Qed.
Lemma closed ns ss : trie ns ss -> forall b y a, get ss y = Some (a ++ b) -> exists x, get ss x = Some a.
Proof.
  intros T b. induction b as [|c b IH] using rev_ind; intros y a E; [rewrite app_nil_r in E; eauto|].
  destruct (t_par T y E) as [E0|(x & t & d & _ & Ex & E0)]; [now destruct a, b|]. rewrite app_assoc in E0. apply app_inj_tail in E0 as [<- _]. eauto.
Qed.
Lemma depth ns ss : trie ns ss -> forall x s, get ss x = Some s -> length s <= x.
Proof.
  intros T x. induction x as [x IH] using lt_wf_ind; intros s E. destruct (t_par T x E) as [->|(y & t & c & Hy & Ey & ->)]; [cbn; lia|].
  specialize (IH y Hy t Ey). rewrite app_length. cbn. lia.
Qed.
Lemma trie_same ns ns' ss : trie ns ss -> length ns' = length ns -> (forall x nd', get ns' x = Some nd' -> exists nd, get ns x = Some nd /\ n_e nd' = n_e nd) -> trie ns' ss.
Proof.
  intros T L H. split; try apply T; [rewrite L; apply T| |].
  - intros x nd' s c y E Es. destruct (H x nd' E) as (nd & En & ->). apply (t_edge T x c y En Es).
  - intros x nd' E. destruct (H x nd' E) as (nd & En & ->). apply (t_keys T x En).
Qed.
Lemma In_get_iff {A} (l : list A) x : In x l <-> exists i, get l i = Some x.
Proof. split; [intros H; apply In_get in H as (i & _ & E); eauto|intros [i E]; eapply get_In; eauto]. Qed.
Lemma trie_one : trie [new_node] [[]].
Proof.
  split; auto.
  - constructor; [intros []|constructor].
  - intros [|x] nd s c y E Es; [|destruct x; discriminate]. cbn in E, Es. injection E as <-. injection Es as <-. cbn. split; [discriminate|]. destruct y as [|[|y]]; discriminate.
  - intros [|x] nd E; [|destruct x; discriminate]. injection E as <-. constructor.
  - intros [|y] s E; [injection E as <-; auto|destruct y; discriminate].
Qed.

Lemma add_child ns ss u nd s c : trie ns ss -> get ns u = Some nd -> get ss u = Some s -> ~ In (s ++ [c]) ss ->
  trie (lset (ns ++ [new_node]) u (AcNode (n_id nd) (put c (length ns) (n_e nd)) (n_fail nd))) (ss ++ [s ++ [c]]).
Proof.
  intros T En Es NI. pose proof (get_some_lt _ _ En) as Hu. pose proof (t_len T) as L.
  assert (GS : forall y w, get (ss ++ [s ++ [c]]) y = Some w <-> get ss y = Some w \/ y = length ss /\ w = s ++ [c]).
  { intros y w. destruct (Nat.lt_ge_cases y (length ss)) as [H|H].
    - rewrite get_app_l by auto. split; [auto|]. intros [?|[? _]]; [auto|lia].
    - rewrite get_app_r by auto. rewrite (get_none ss) by auto. split.
      + intros E. right. destruct (y - length ss) as [|k] eqn:Ek; [cbn in E; injection E as <-; split; [lia|auto]|destruct k; discriminate].
      + intros [?|[-> ->]]; [discriminate|]. now rewrite Nat.sub_diag. }
  assert (ND : NoDup (ss ++ [s ++ [c]])). { apply NoDup_app_iff. split; [apply T|]. split; [constructor; [intros []|constructor]|]. intros x Hx [<-|[]]. auto. }
  split.
  - rewrite lset_length, !app_length. cbn. lia.
  - apply GS. left. apply T.
  - exact ND.
  - intros x nd' t d y Ex Et. rewrite get_lset in Ex. apply GS in Et.
    destruct (Nat.eqb_spec u x) as [<-|Nx].
    + destruct (Nat.ltb_spec u (length (ns ++ [new_node]))) as [_|B]; [|rewrite app_length in B; cbn in B; lia]. cbn in Ex. injection Ex as <-. cbn [n_e].
      destruct Et as [Et|[Et _]]; [|lia]. assert (t = s) by congruence. subst t. rewrite assoc_put, GS. destruct (Nat.eqb_spec c d) as [<-|Nc].
      * rewrite L. split; [intros [= <-]; auto|]. intros [E|[-> _]]; [|auto]. exfalso. apply NI. apply In_get_iff. eauto.
      * rewrite (t_edge T u d y En Es). split; [auto|]. intros [E|[_ E]]; [auto|]. apply app_inj_tail in E as [_ E]. congruence.
    + cbn in Ex. destruct (Nat.lt_ge_cases x (length ns)) as [Hx|Hx].
      * rewrite get_app_l in Ex by auto. destruct Et as [Et|[Et _]]; [|lia]. rewrite (t_edge T x d y Ex Et), GS. split; [auto|]. intros [E|[_ E]]; [auto|]. apply app_inj_tail in E as [-> _]. exfalso. apply Nx. exact (get_uniq u x (t_nd T) Es Et).
      * rewrite get_app_r in Ex by auto. destruct (x - length ns) as [|k] eqn:Ek; [|destruct k; discriminate]. cbn in Ex. injection Ex as <-. cbn. split; [discriminate|].
        destruct Et as [Et|[_ ->]]; [apply get_some_lt in Et; lia|]. intros E. apply GS in E as [E|[_ E]].
        -- apply (closed T) in E as [z Ez]. exfalso. apply NI, In_get_iff. eauto.
        -- apply (f_equal (@length nat)) in E. rewrite !app_length in E. cbn in E. lia.
  - intros x nd' Ex. rewrite get_lset in Ex. destruct (_ && _) in Ex; [injection Ex as <-; apply put_nodup; eapply (t_keys T); eauto|].
    destruct (Nat.lt_ge_cases x (length ns)); [rewrite get_app_l in Ex by auto; eapply (t_keys T); eauto|]. rewrite get_app_r in Ex by auto. destruct (x - length ns) as [|k]; [injection Ex as <-; constructor|destruct k; discriminate].
  - intros y w E. apply GS in E as [E|[-> ->]].
    + destruct (t_par T y E) as [?|(x & t & d & Hx & Ex & ->)]; [auto|]. right. exists x, t, d. rewrite GS. auto.
    + right. exists u, s, c. rewrite GS. split; [lia|auto].
Qed.

Lemma descend_ok ns ss : trie ns ss -> forall key u p, get ss u = Some p ->
  exists u' a rest, ac_descend ns u key = Some (u', rest) /\ key = a ++ rest /\ get ss u' = Some (p ++ a) /\ forall c t, rest = c :: t -> ~ In (p ++ a ++ [c]) ss.
Proof.
  intros T key. induction key as [|c key IH]; intros u p E.
  - exists u, [], []. cbn. rewrite app_nil_r. repeat split; auto. discriminate.
  - cbn [ac_descend]. destruct (@get_lt _ ns u) as [nd En]; [rewrite <- (t_len T); now apply get_some_lt in E|]. rewrite En. cbn [obind]. destruct (assoc c (n_e nd)) as [y|] eqn:A.
    + apply (t_edge T u c y En E) in A. destruct (IH y (p ++ [c]) A) as (u' & a & rest & E1 & -> & E2 & E3). exists u', (c :: a), rest. split; [auto|]. split; [auto|].
      split; [now rewrite <- app_assoc in E2|]. intros d t Er. specialize (E3 d t Er). now rewrite <- app_assoc in E3.
    + exists u, [], (c :: key). rewrite app_nil_r. repeat split; auto. intros d t [= <- <-] I. cbn in I. apply In_get_iff in I as [y Ey]. apply (t_edge T u c y En E) in Ey. congruence.
Qed.
Lemma extend_ok : forall rest ns ss u s, trie ns ss -> get ss u = Some s -> (forall c t, rest = c :: t -> ~ In (s ++ [c]) ss) ->
  exists ns' u' ss', ac_extend ns u rest = Some (ns', u') /\ trie ns' ss' /\ get ss' u' = Some (s ++ rest) /\ (forall x w, get ss x = Some w -> get ss' x = Some w) /\
    (forall w, In w ss' <-> In w ss \/ exists r r2, rest = r ++ r2 /\ r <> [] /\ w = s ++ r) /\
    (forall x nd', get ns' x = Some nd' -> (exists nd, get ns x = Some nd /\ n_id nd' = n_id nd) \/ length ns <= x /\ n_id nd' = None) /\
    (forall x nd, get ns x = Some nd -> exists nd', get ns' x = Some nd' /\ n_id nd' = n_id nd).
Proof.
  induction rest as [|c rest IH]; intros ns ss u s T Es NI.
  - exists ns, u, ss. rewrite app_nil_r. split; [auto|]. split; [exact T|]. split; [auto|]. split; [auto|]. split; [|split; eauto].
    intros w. split; [auto|]. intros [?|(r & r2 & E & N & _)]; [auto|]. destruct r; [easy|discriminate].
  - cbn [ac_extend]. pose proof (get_some_lt _ _ Es) as Hu. rewrite (t_len T) in Hu. destruct (@get_lt _ ns u Hu) as [nd En]. rewrite get_app_l, En by auto. cbn [obind].
    rewrite set_some by (rewrite app_length; cbn; lia). cbn [obind]. specialize (NI c rest eq_refl). pose proof (@add_child _ _ _ _ _ _ T En Es NI) as T1. set (ns1 := lset _ _ _) in *. set (ss1 := ss ++ [s ++ [c]]) in *.
    assert (E1 : get ss1 (length ns) = Some (s ++ [c])) by (unfold ss1; rewrite get_app_r, <- (t_len T), Nat.sub_diag by (rewrite (t_len T); auto); auto).
    destruct (IH ns1 ss1 (length ns) (s ++ [c]) T1 E1) as (ns' & u' & ss' & E & T' & G & P & I & D1 & D2).
    { intros d t Er F. unfold ss1 in F. apply in_app_or in F as [F|[F|[]]].
      - apply In_get_iff in F as [y Ey]. apply (closed T) in Ey as [z Ez]. apply NI, In_get_iff. eauto.
      - apply (f_equal (@length nat)) in F. rewrite !app_length in F. cbn in F. lia. }
    exists ns', u', ss'. split; [exact E|]. split; [auto|]. split; [now rewrite <- app_assoc in G|]. split; [|split; [|split]].
    + intros x w Ex. apply P. unfold ss1. rewrite get_app_l; [auto|now apply get_some_lt in Ex].
    + intros w. rewrite I. unfold ss1. rewrite in_app_iff. cbn [In]. split.
      * intros [[?|[<-|[]]]|(r & r2 & -> & N & ->)]; [auto| |].
        -- right. exists [c], rest. repeat split; auto. discriminate.
        -- right. exists (c :: r), r2. rewrite <- app_assoc. repeat split; auto. discriminate.
      * intros [?|(r & r2 & E0 & N & ->)]; [auto|]. destruct r as [|d r]; [easy|]. cbn in E0. injection E0 as <- ->. destruct r as [|d r]; [auto|]. right. exists (d :: r), r2. rewrite <- app_assoc. repeat split; auto. discriminate.
    + intros x nd' Ex. destruct (D1 x nd' Ex) as [(nd1 & En1 & ->)|[Hx ->]].
      * unfold ns1 in En1. rewrite get_lset in En1. destruct (Nat.eqb_spec u x) as [<-|Nx].
        -- destruct (_ <? _) in En1; cbn in En1; [injection En1 as <-; left; exists nd; auto|]. left. exists nd. split; auto. rewrite get_app_l in En1 by auto. congruence.
        -- cbn in En1. destruct (Nat.lt_ge_cases x (length ns)); [rewrite get_app_l in En1 by auto; left; eauto|]. rewrite get_app_r in En1 by auto. destruct (x - length ns) as [|k]; [injection En1 as <-; auto|destruct k; discriminate].
      * right. split; [|auto]. unfold ns1 in Hx. rewrite lset_length, app_length in Hx. lia.
    + intros x nd' Ex. pose proof (get_some_lt _ _ Ex) as Hx. destruct (Nat.eq_dec u x) as [<-|Nx].
      * destruct (D2 u (AcNode (n_id nd) (put c (length ns) (n_e nd)) (n_fail nd))) as (nd2 & E2 & E3); [unfold ns1; rewrite get_lset_eq by (rewrite app_length; cbn; lia); auto|]. exists nd2. split; auto. cbn in E3. congruence.
      * apply D2. unfold ns1. rewrite get_lset_neq, get_app_l by auto. auto.
Qed.

Section Insert.
Variable T : Type.
Definition entries_ok (a : ac T) (ss : list str) : Prop :=
  trie (a_nodes a) ss /\
  (forall x nd k, get (a_nodes a) x = Some nd -> n_id nd = Some k -> exists s v, get ss x = Some s /\ get (a_container a) k = Some (s, v)) /\
  (forall k s v, get (a_container a) k = Some (s, v) -> s <> [] /\ exists x nd, get ss x = Some s /\ get (a_nodes a) x = Some nd /\ n_id nd = Some k).
Definition strings (ss seen : list str) : Prop := forall w, In w ss <-> w = [] \/ exists k r, In k seen /\ k = w ++ r.

Lemma insert_ok (a : ac T) ss seen key v : entries_ok a ss -> strings ss seen ->
  exists a' ss', ac_insert a key v = Some a' /\ entries_ok a' ss' /\ strings ss' (key :: seen) /\
    a_container a' = a_container a ++ (if (match key with [] => true | _ => false end) || existsb (prefixb key) seen then [] else [(key, v)]).
Proof.
  intros (Tr & I1 & I2) St. unfold strings in *. unfold ac_insert. assert (E0 : match a_nodes a with [] => [new_node] | n :: l => n :: l end = a_nodes a).
  { destruct (a_nodes a) eqn:E; [|auto]. pose proof (t_len Tr) as L. pose proof (get_some_lt _ _ (t_root Tr)). cbn in L. lia. }
  rewrite E0. assert (Cond : (match key with [] => true | _ => false end) || existsb (prefixb key) seen = true <-> In key ss).
  { rewrite St, orb_true_iff, existsb_exists. split.
    - intros [H|(k & Hk & H)]; [left; now destruct key|]. apply prefixb_spec in H as [r ->]. eauto.
    - intros [->|(k & r & Hk & ->)]; [auto|]. right. exists (key ++ r). split; auto. apply prefixb_spec. eauto. }
  destruct (descend_ok Tr key 0 (t_root Tr)) as (u & p & rest & E & Ek & Eu & NI). cbn [app] in Eu, NI. rewrite E. cbn [obind]. destruct rest as [|c rest].
  - rewrite app_nil_r in Ek. subst p. rewrite (proj2 Cond) by (apply In_get_iff; eauto). exists (Ac (a_container a) (a_nodes a)), ss. split; [auto|]. cbn [a_container a_nodes]. rewrite app_nil_r. split; [split; auto|]. split; [|auto].
    intros w. rewrite St. split; [intros [?|(k & r & ? & ?)]; [auto|right; exists k, r; split; [now right|auto]]|]. intros [?|(k & r & [<-|Hk] & Er)]; [auto| |eauto].
    apply St. rewrite Er in Eu. apply (closed Tr) in Eu as [x Ex]. apply In_get_iff. eauto.
  - assert (NK : (match key with [] => true | _ => false end) || existsb (prefixb key) seen = false).
    { apply not_true_is_false. intros B. apply Cond in B. apply In_get_iff in B as [y Ey]. apply (NI c rest eq_refl). subst key. replace (p ++ c :: rest) with ((p ++ [c]) ++ rest) in Ey by (now rewrite <- app_assoc).
      apply (closed Tr) in Ey as [z Ez]. apply In_get_iff. eauto. }
    rewrite NK. destruct (@extend_ok (c :: rest) (a_nodes a) ss u p Tr Eu) as (ns' & u' & ss' & E1 & T1 & G & P & I & D1 & D2); [intros d t [= <- <-]; eauto|]. rewrite E1. cbn [obind].
    rewrite <- Ek in G. pose proof (get_some_lt _ _ G) as Hu'. rewrite (t_len T1) in Hu'. destruct (@get_lt _ ns' u' Hu') as [nd En]. rewrite En. cbn [obind]. rewrite set_some by auto. cbn [obind].
    eexists _, ss'. split; [reflexivity|]. cbn [a_container a_nodes].
    assert (Nu : length (a_nodes a) <= u').
    { apply Nat.nlt_ge. intros H. destruct (@get_lt _ ss u') as [w Ew]; [now rewrite (t_len Tr)|]. pose proof (P _ _ Ew) as Ew'. assert (w = key) by congruence. subst w.
      assert (In key ss) by (apply In_get_iff; eauto). apply Cond in H0. congruence. }
    split; [split; [|split]|split; [|auto]]; cbn [a_container a_nodes].
    + apply trie_same with ns'; auto; [apply lset_length|]. intros x nd' Ex. rewrite get_lset in Ex. destruct (Nat.eqb_spec u' x) as [<-|N]; [|cbn in Ex; eauto]. destruct (_ <? _) in Ex; cbn in Ex; [|eauto]. injection Ex as <-. eauto.
    + intros x nd' k Ex Ei. rewrite get_lset in Ex. destruct (Nat.eqb_spec u' x) as [<-|N].
      * destruct (Nat.ltb_spec u' (length ns')); [|lia]. cbn in Ex. injection Ex as <-. cbn in Ei. injection Ei as <-. exists key, v. split; auto. rewrite get_app_r, Nat.sub_diag by auto. auto.
      * cbn in Ex. destruct (D1 x nd' Ex) as [(nd0 & E2 & E3)|[_ E3]]; [|congruence]. destruct (I1 x nd0 k E2) as (s & v0 & Es & Ec); [congruence|]. exists s, v0. split; [auto|]. rewrite get_app_l; [auto|now apply get_some_lt in Ec].
    + intros k s v0 Ec. destruct (Nat.lt_ge_cases k (length (a_container a))) as [H|H].
      * rewrite get_app_l in Ec by auto. destruct (I2 k s v0 Ec) as (N & x & nd0 & Es & En0 & Ei). split; [auto|]. destruct (D2 x nd0 En0) as (nd1 & E2 & E3). exists x, nd1. split; [auto|].
        assert (u' <> x) by (apply get_some_lt in En0; lia). rewrite get_lset_neq by auto. split; [auto|congruence].
      * rewrite get_app_r in Ec by auto. destruct (k - length (a_container a)) as [|q] eqn:Eq; [|destruct q; discriminate]. cbn in Ec. injection Ec as <- <-. split; [subst key; now destruct p|].
        eexists u', _. split; [auto|]. rewrite get_lset_eq by auto. split; [reflexivity|]. cbn. f_equal. lia.
    + intros w. rewrite I, St. split.
      * intros [[?|(k & r & ? & ?)]|(r & r2 & E2 & N & ->)]; [auto|right; exists k, r; split; [now right|auto]|]. right. exists key, r2. split; [now left|]. now rewrite Ek, E2, app_assoc.
      * intros [?|(k & r & [<-|Hk] & Er)]; [auto| |left; right; eauto]. subst key. apply eq_sym, app_eq_app in Er as (l & [[-> Er]|[-> Er]]).
        -- (* w = p ++ l *) destruct l as [|d l]; [left; apply St; rewrite app_nil_r; apply In_get_iff; eauto|]. right. exists (d :: l), r. repeat split; auto. discriminate.
        -- (* p = w ++ l *) left. apply St. apply (closed Tr) in Eu as [x Ex]. apply In_get_iff. eauto.
Qed.

Lemma inserts_ok h : forall (a : ac T) ss seen, entries_ok a ss -> strings ss seen ->
  exists a' ss', for_each h (fun '(k, v) a => ac_insert a k v) a = Some a' /\ entries_ok a' ss' /\ a_container a' = a_container a ++ registered seen h.
Proof.
  induction h as [|[k v] h IH]; intros a ss seen I St; cbn [for_each registered].
  - exists a, ss. rewrite app_nil_r. auto.
  - destruct (@insert_ok a ss seen k v I St) as (a1 & ss1 & E & I1 & St1 & C1). rewrite E. cbn [obind]. destruct (IH a1 ss1 (k :: seen) I1 St1) as (a2 & ss2 & E2 & I2 & C2). exists a2, ss2. split; [auto|]. split; [auto|].
    rewrite C2, C1, <- app_assoc. reflexivity.
Qed.
Lemma inserts_all h : h <> [] -> exists a ss, for_each h (fun '(k, v) a => ac_insert a k v) (ac_empty T) = Some a /\ entries_ok a ss /\ a_container a = registered [] h.
Proof.
  intros N. destruct h as [|[k v] h]; [easy|]. destruct (@inserts_ok ((k, v) :: h) (Ac [] [new_node]) [[]] []) as (a & ss & E & I & C).
  - split; [apply trie_one|]. cbn [a_nodes a_container]. split.
    + intros [|x] nd i E Ei; [injection E as <-; discriminate|destruct x; discriminate].
    + intros [|i] s v0 E; discriminate.
  - intros w. cbn. split; [intros [<-|[]]; auto|]. intros [->|(k0 & r & [] & _)]; auto.
  - exists a, ss. split; [exact E|]. auto.
Qed.
End Insert.
