(** C46: the AC machine ([AcMachine]) reports the occurrences of the registered keywords. *)
From Verif Require Import Base BaseLemmas ListExtra AcModel AcProof AcFail.
Set Implicit Arguments.

(** For every non-empty list of insertions and every iteration order of the hash maps the
    machine is built; [registered [] h] are the insertions that took effect. For every text
    the positions reported are, in increasing order, exactly the ends of occurrences of
    registered keywords, and iterating over a reported position yields exactly the
    registered keywords ending there, each with its value, longest first. *)
Theorem C46_find_all : forall T ord (h : list (str * T)), (forall l, Permutation (ord l) l) -> h <> [] ->
  exists a, ac_make ord h = Some a /\
    forall text, exists ret, ac_find_all a text = Some ret /\
      (forall i, In i (map fst ret) <-> 1 <= i <= length text /\ exists k v, In (k, v) (registered [] h) /\ suffix k (firstn i text)) /\
      (forall p q i j c d, p < q -> get ret p = Some (i, c) -> get ret q = Some (j, d) -> i < j) /\
      (forall i c, In (i, c) ret -> exists l, ac_drain a c = Some l /\ matches (registered [] h) (firstn i text) l).
Proof.
  intros T ord h P N. destruct (make_ok ord P N) as (a & ss & E & B & C). exists a. split; [exact E|]. intros text. unfold ac_find_all. rewrite <- C. clear C.
  set (K := a_container a). match goal with |- context [for_each text ?f _] => set (body := f) end.
  assert (G : forall rest w it ret, lsn ss w it ->
    (forall i, In i (map fst ret) <-> 1 <= i <= length w /\ exists k v, In (k, v) K /\ suffix k (firstn i w)) ->
    (forall p q i j c d, p < q -> get ret p = Some (i, c) -> get ret q = Some (j, d) -> i < j) ->
    (forall i c, In (i, c) ret -> exists l, ac_drain a c = Some l /\ matches K (firstn i w) l) ->
    exists n it' ret', for_each rest body (length w, it, ret) = Some (n, it', ret') /\
      (forall i, In i (map fst ret') <-> 1 <= i <= length (w ++ rest) /\ exists k v, In (k, v) K /\ suffix k (firstn i (w ++ rest))) /\
      (forall p q i j c d, p < q -> get ret' p = Some (i, c) -> get ret' q = Some (j, d) -> i < j) /\
      (forall i c, In (i, c) ret' -> exists l, ac_drain a c = Some l /\ matches K (firstn i (w ++ rest)) l)).
  { induction rest as [|ch rest IH]; intros w it ret L H1 H2 H3; cbn [for_each].
    - rewrite app_nil_r. exists (length w), it, ret. auto.
    - unfold body at 1. destruct (push_ok ch B L) as (it1 & E1 & L1). rewrite E1. cbn [obind]. destruct (exact_matches B L1) as (c & l & Ec & El & M & Hc). rewrite Ec. cbn [obind].
      replace (w ++ ch :: rest) with ((w ++ [ch]) ++ rest) by (now rewrite <- app_assoc). replace (length w + 1) with (length (w ++ [ch])) by (rewrite app_length; auto).
      assert (FW : forall i, i <= length w -> firstn i (w ++ [ch]) = firstn i w) by (intros i Hi; rewrite firstn_app; replace (i - length w) with 0 by lia; apply app_nil_r).
      assert (LW : length (w ++ [ch]) = S (length w)) by (rewrite app_length; cbn; lia).
      assert (In1 : forall i, In i (map fst ret) -> 1 <= i <= length w) by (intros i I; apply H1 in I; lia).
      apply IH; [auto| | |].
      + intros i. assert (X : In i (map fst (if c =? 0 then ret else ret ++ [(length (w ++ [ch]), c)])) <-> In i (map fst ret) \/ c <> 0 /\ i = length (w ++ [ch])).
        { destruct (Nat.eqb_spec c 0) as [E0|N0]; [split; [auto|intros [?|[? _]]; [auto|lia]]|]. rewrite map_app, in_app_iff. cbn. intuition congruence. }
        rewrite X, H1, LW. split.
        * intros [[Hi (k & v & I & S)]|[Hc0 ->]].
          -- split; [lia|]. exists k, v. split; [auto|]. now rewrite FW by lia.
          -- split; [lia|]. destruct l as [|[k v] l]; [exfalso; apply Hc0, Hc; auto|]. exists k, v. rewrite <- LW, firstn_all. apply (proj1 M). now left.
        * intros [Hi (k & v & I & S)]. destruct (Nat.eq_dec i (Datatypes.S (length w))) as [->|Ni].
          -- right. split; [|auto]. intros E0. apply Hc in E0. rewrite <- LW, firstn_all in S. assert (F : In (k, v) l) by (apply (proj1 M); auto). rewrite E0 in F. destruct F.
          -- left. split; [lia|]. exists k, v. split; [auto|]. now rewrite FW in S by lia.
      + intros p q i j c1 d1 Hpq Ep Eq. destruct (Nat.eqb_spec c 0) as [E0|N0]; [now apply (H2 p q i j c1 d1)|].
        assert (Hp : p < length ret) by (apply get_some_lt in Eq; rewrite app_length in Eq; cbn in Eq; lia). rewrite get_app_l in Ep by auto. destruct (Nat.lt_ge_cases q (length ret)) as [Hq|Hq]; [rewrite get_app_l in Eq by auto; now apply (H2 p q i j c1 d1)|].
        rewrite get_app_r in Eq by auto. destruct (q - length ret) as [|z]; [|destruct z; discriminate]. cbn in Eq. injection Eq as <- _. apply get_In in Ep. apply (in_map fst) in Ep. apply In1 in Ep. cbn in Ep. lia.
      + intros i c1 I. destruct (Nat.eqb_spec c 0) as [E0|N0].
        * pose proof (In1 i (in_map fst _ _ I)). rewrite FW by lia. auto.
        * apply in_app_or in I as [I|[[= <- <-]|[]]]; [pose proof (In1 i (in_map fst _ _ I)); rewrite FW by lia; auto|]. rewrite firstn_all. eauto. }
  destruct (G text [] 0 [] (lsn_root B)) as (n & it & ret & Ef & R).
  - intros i. cbn. split; [intros []|lia].
  - intros [|p] q; discriminate.
  - intros i c [].
  - change (length (@nil nat)) with 0 in Ef. rewrite Ef. cbn [obind]. exists ret. split; [auto|]. exact R.
Qed.

Theorem C46_find_suffix : forall T ord (h : list (str * T)), (forall l, Permutation (ord l) l) -> h <> [] ->
  exists a, ac_make ord h = Some a /\
    forall text, exists c l, ac_find_suffix a text = Some c /\ ac_drain a c = Some l /\ matches (registered [] h) text l /\ (c = 0 <-> l = []).
Proof.
  intros T ord h P N. destruct (make_ok ord P N) as (a & ss & E & B & C). exists a. split; [exact E|]. intros text. unfold ac_find_suffix. rewrite <- C. clear C.
  assert (G : forall rest w it, lsn ss w it -> exists it', for_each rest (fun ch it => ac_push a it ch) it = Some it' /\ lsn ss (w ++ rest) it').
  { induction rest as [|ch rest IH]; intros w it L; cbn [for_each]; [exists it; now rewrite app_nil_r|]. destruct (push_ok ch B L) as (it1 & E1 & L1). rewrite E1. cbn [obind].
    destruct (IH _ _ L1) as (it2 & E2 & L2). exists it2. rewrite <- app_assoc in L2. auto. }
  destruct (G text [] 0 (lsn_root B)) as (it & Ei & L). rewrite Ei. cbn [obind app]. destruct (exact_matches B L) as (c & l & H). exists c, l. exact H.
Qed.

(** If no keyword is empty or a prefix of a keyword inserted earlier, all are registered. *)
Theorem C46_all_registered : forall T (h : list (str * T)),
  (forall k v, In (k, v) h -> k <> []) ->
  (forall i j k v k' v', i < j -> get h i = Some (k, v) -> get h j = Some (k', v') -> ~ exists r, k = k' ++ r) ->
  registered [] h = h.
Proof.
  intros T h N H. assert (G : forall seen, (forall k k' v r, In k seen -> In (k', v) h -> k <> k' ++ r) -> registered seen h = h).
  { induction h as [|[k v] h IH]; intros seen Hs; cbn [registered]; [auto|]. destruct k as [|c k]; [exfalso; apply (N [] v); [now left|auto]|]. cbn [orb].
    destruct (existsb (prefixb (c :: k)) seen) eqn:X.
    - apply existsb_exists in X as (k0 & I & X). apply prefixb_spec in X as [r ->]. exfalso. eapply (Hs _ (c :: k) v r I); [now left|auto].
    - cbn [app]. f_equal. apply IH.
      + intros k0 v0 I. apply (N k0 v0). now right.
      + intros i j k0 v0 k1 v1 Hij E1 E2. apply (H (S i) (S j) k0 v0 k1 v1); [lia|auto|auto].
      + intros k0 k1 v1 r [<-|I] I1; [|apply (Hs k0 k1 v1 r I); now right]. apply In_get_iff in I1 as [j Ej]. intros Er. apply (H 0 (S j) (c :: k) v k1 v1); [lia|auto|auto|eauto]. }
  apply G. intros k k' v r [].
Qed.

(** A keyword that is a prefix of an earlier one is never reported. *)
Theorem C46_refuted : exists (h : list (str * nat)) text k v a, In (k, v) h /\ (exists p q, text = p ++ k ++ q) /\ k <> [] /\
  ac_make (fun l => l) h = Some a /\ ac_find_all a text = Some [] /\ ac_find_suffix a text = Some 0.
Proof.
  exists [([0; 1], 7); ([0], 8)], [0], [0], 8. eexists. split; [right; now left|]. split; [now exists [], []|]. split; [discriminate|]. split; [vm_compute; reflexivity|]. vm_compute. auto.
Qed.
(** Without any insertion [build] reads node 0 of an empty vector. *)
Theorem C46_empty_refuted : forall T ord, ac_make ord ([] : list (str * T)) = None.
Proof. reflexivity. Qed.

(** he, she, his, hers in "ushers" *)
Example C46_ex : exists a, ac_make (fun l => rev l) [([8; 5], 1); ([19; 8; 5], 2); ([8; 9; 19], 3); ([8; 5; 18; 19], 4)] = Some a /\
  exists ret, ac_find_all a [21; 19; 8; 5; 18; 19] = Some ret /\ map fst ret = [4; 6] /\
    map (fun p => ac_drain a (snd p)) ret = [Some [([19; 8; 5], 2); ([8; 5], 1)]; Some [([8; 5; 18; 19], 4)]] /\ (exists c, ac_find_suffix a [8; 9; 19] = Some c /\ ac_drain a c = Some [([8; 9; 19], 3)]).
Proof. eexists. split; [vm_compute; reflexivity|]. eexists. split; [vm_compute; reflexivity|]. split; [auto|]. split; [vm_compute; reflexivity|]. eexists. split; vm_compute; reflexivity. Qed.

Print Assumptions C46_find_all.
Print Assumptions C46_find_suffix.
Print Assumptions C46_all_registered.
Print Assumptions C46_refuted.
Print Assumptions C46_empty_refuted.
