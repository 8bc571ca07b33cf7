From Verif Require Import Base BaseLemmas ListExtra SearchModel GraphModel.

(** ** The adjacency lists hold exactly the arcs *)
Definition adj (G : graph) (u : nat) : list nat := nth u (gr_g G) [].
Definition repr (G : graph) (n : nat) (A : list (nat * nat)) : Prop :=
  gr_n G = n /\ length (gr_g G) = n /\ length (gr_in G) = n /\
  (forall u, adj G u = map snd (filter (fun e => fst e =? u) A)) /\
  (forall t, t < n -> get (gr_in G) t = Some (count_occ Nat.eq_dec (map snd A) t)) /\
  (forall a b, In (a, b) A -> a < n /\ b < n).

Lemma repr_make n : repr (gr_make n) n [].
Proof.
  unfold repr, gr_make, adj. cbn [gr_n gr_g gr_in]. rewrite !repeat_length. split; [auto|]. split; [auto|]. split; [auto|].
  split; [intros u; apply nth_repeat|]. split; [|intros a b []].
  intros t Ht. unfold get. rewrite nth_error_repeat; auto.
Qed.
Lemma repr_dir G n A a b : repr G n A -> a < n -> b < n ->
  exists G', add_edge_dir G a b = Some G' /\ repr G' n (A ++ [(a, b)]).
Proof.
  intros (E & L1 & L2 & Ad & I & Ok) Ha Hb. unfold add_edge_dir.
  destruct (@get_lt _ (gr_g G) a ltac:(lia)) as (l & Gl). rewrite Gl. cbn [obind]. rewrite set_some by lia. cbn [obind].
  rewrite (I b Hb). cbn [obind]. rewrite set_some by lia. cbn [obind]. eexists; split; [reflexivity|].
  unfold repr, adj. cbn [gr_n gr_g gr_in]. rewrite !lset_length. split; [auto|]. split; [auto|]. split; [auto|]. split; [|split].
  - intros u. rewrite filter_app, map_app, <- Ad. cbn [filter fst]. unfold adj.
    destruct (Nat.eqb_spec a u) as [->|N].
    + cbn [map snd]. rewrite (nth_error_nth _ _ _ (@get_lset_eq _ (gr_g G) u (l ++ [b]) ltac:(lia))).
      now rewrite (nth_error_nth _ _ _ Gl).
    + cbn [map]. rewrite app_nil_r. rewrite <- !nth_default_eq. unfold nth_default. fold (get (lset (gr_g G) a (l ++ [b])) u) (get (gr_g G) u).
      now rewrite get_lset_neq.
  - intros t Ht. rewrite map_app, count_occ_app. cbn [map snd count_occ].
    destruct (Nat.eq_dec b t) as [->|N].
    + now rewrite get_lset_eq by lia.
    + rewrite get_lset_neq by auto. rewrite Nat.add_0_r. auto.
  - intros x y Hx. apply in_app_or in Hx as [Hx|[Hx|[]]]; auto. injection Hx as <- <-. auto.
Qed.
Lemma build_ok n es : edges_ok n es -> exists G, build n es = Some G /\ repr G n (arcs es).
Proof.
  intros Ok. unfold build.
  assert (H : forall es G A, repr G n A -> edges_ok n es -> exists G', for_each es (fun e G => add G e) G = Some G' /\ repr G' n (A ++ arcs es)).
  { clear. induction es as [|e es IH]; intros G A R Ok; cbn [for_each].
    - exists G. split; auto. cbn. now rewrite app_nil_r.
    - assert (Ok2 : edges_ok n es) by (intros x y Hxy; apply Ok; unfold arcs; cbn [flat_map]; apply in_or_app; now right).
      destruct e as [a b|a b]; cbn [add].
      + destruct (Ok a b) as [Ha Hb]; [now left|].
        destruct (repr_dir G n A a b R Ha Hb) as (G1 & -> & R1). cbn [obind].
        destruct (IH G1 _ R1 Ok2) as (G2 & E2 & R2). exists G2. split; auto. now rewrite <- app_assoc in R2.
      + destruct (Ok a b) as [Ha Hb]; [now left|]. unfold add_edge.
        destruct (repr_dir G n A a b R Ha Hb) as (G1 & -> & R1). cbn [obind].
        destruct (repr_dir G1 n _ b a R1 Hb Ha) as (G2 & -> & R2). cbn [obind].
        destruct (IH G2 _ R2 Ok2) as (G3 & E3 & R3). exists G3. split; auto. now rewrite <- !app_assoc in R3. }
  apply (H es (gr_make n) [] (repr_make n) Ok).
Qed.
Lemma adj_in G n A u t : repr G n A -> (In t (adj G u) <-> In (u, t) A).
Proof.
  intros (_ & _ & _ & Ad & _). rewrite Ad, in_map_iff. split.
  - intros ([x y] & E & H). apply filter_In in H as [H1 H2]. cbn in *. apply Nat.eqb_eq in H2. now subst.
  - intros H. exists (u, t). split; auto. apply filter_In. cbn. now rewrite Nat.eqb_refl.
Qed.
Lemma get_adj G n A u : repr G n A -> u < n -> get (gr_g G) u = Some (adj G u).
Proof. intros (_ & L & _) H. unfold get, adj. apply nth_error_nth'. lia. Qed.

(** ** Breadth-first search *)
Section Bfs.
Variable w : Z.
Variable G : graph.
Variable n : nat.
Variable A : list (nat * nat).
Variable s : nat.
Variable INF : Z.
Hypothesis Rp : repr G n A.
Hypothesis Hs : s < n.
Hypothesis HI : (Z.of_nat n <= INF < 2 ^ (w - 1))%Z.

Definition dget (dist : list Z) (v : nat) : Z := nth v dist INF.
Lemma dget_get dist v : length dist = n -> v < n -> get dist v = Some (dget dist v).
Proof. intros L H. unfold get, dget. apply nth_error_nth'. lia. Qed.
Lemma dget_lset dist v x t : length dist = n -> v < n -> dget (lset dist v x) t = if t =? v then x else dget dist t.
Proof.
  intros L H. unfold dget. destruct (Nat.eqb_spec t v) as [->|N].
  - apply nth_error_nth. apply get_lset_eq. lia.
  - rewrite <- !nth_default_eq. unfold nth_default. fold (get (lset dist v x) t) (get dist t). rewrite get_lset_neq; auto.
Qed.

(** [dn]: dequeued, [q]: waiting; [d] the distance at the head of the queue. *)
Record bfs_inv (dn q : list nat) (d : nat) (dist : list Z) : Prop := {
  bi_len : length dist = n;
  bi_nd : NoDup (dn ++ q);
  bi_lt : forall v, In v (dn ++ q) -> v < n;
  bi_un : forall v, v < n -> ~ In v (dn ++ q) -> dget dist v = INF;
  bi_walk : forall v, In v (dn ++ q) -> exists k, dget dist v = Z.of_nat k /\ walk A k s v;
  bi_s : In s (dn ++ q) /\ dget dist s = 0%Z;
  bi_dn : forall v, In v dn -> (dget dist v <= Z.of_nat d)%Z;
  bi_q : exists q1 q2, q = q1 ++ q2 /\ (forall v, In v q1 -> dget dist v = Z.of_nat d) /\
         (forall v, In v q2 -> dget dist v = Z.of_nat (d + 1));
  bi_d : forall v, In v q -> (dget dist v <= Z.of_nat (length dn))%Z
}.
Definition relaxed (dist : list Z) (v t : nat) : Prop := (dget dist t <= dget dist v + 1)%Z.

(** Scanning one adjacency list. *)
Lemma scan_ok dn c q d dist : bfs_inv (dn ++ [c]) q d dist -> dget dist c = Z.of_nat d -> d < length (dn ++ [c]) ->
  (forall v t, In v dn -> In (v, t) A -> relaxed dist v t /\ In t (dn ++ [c] ++ q)) ->
  exists q' dist', for_each (adj G c) (fun t '(q, dist) =>
          let* dt := get dist t in
          let* d1 := mach w (Z.of_nat d + 1) in
          if (dt <=? d1)%Z then Some (q, dist)
          else let* dist := set dist t d1 in Some (q ++ [t], dist)) (q, dist) = Some (q', dist') /\
    bfs_inv (dn ++ [c]) q' d dist' /\
    (forall v t, In v (dn ++ [c]) -> In (v, t) A -> relaxed dist' v t /\ In t (dn ++ [c] ++ q')).
Proof.
  intros I0 Dc Ld Rx.
  assert (Hc : c < n) by (apply (bi_lt _ _ _ _ I0); apply in_or_app; left; apply in_or_app; right; now left).
  assert (Hn : length (dn ++ [c]) <= n).
  { apply NoDup_bound; [eapply NoDup_app_remove_r, (bi_nd _ _ _ _ I0)|]. intros v Hv. apply (bi_lt _ _ _ _ I0). apply in_or_app; now left. }
  assert (Wc : walk A d s c).
  { destruct (bi_walk _ _ _ _ I0 c) as (k & E & Wk); [apply in_or_app; left; apply in_or_app; right; now left|].
    rewrite Dc in E. apply Nat2Z.inj in E. now subst. }
  destruct (@for_each_rule _ _ (fun done rest '(q', dist') =>
      adj G c = done ++ rest /\ bfs_inv (dn ++ [c]) q' d dist' /\ dget dist' c = Z.of_nat d /\
      (forall v t, In v dn -> In (v, t) A -> relaxed dist' v t /\ In t (dn ++ [c] ++ q')) /\
      (forall t, In t done -> relaxed dist' c t /\ In t (dn ++ [c] ++ q'))) (fun t '(q, dist) =>
          let* dt := get dist t in
          let* d1 := mach w (Z.of_nat d + 1) in
          if (dt <=? d1)%Z then Some (q, dist)
          else let* dist := set dist t d1 in Some (q ++ [t], dist)) (adj G c) [] (q, dist)) as ([q' dist'] & E & El & I' & D' & R1 & R2).
  - split; [auto|]. split; [auto|]. split; [auto|]. split; [auto|]. intros t [].
  - intros done t rest [q1 dist1] (El & I1 & D1 & R1 & R2).
    assert (El2 : adj G c = (done ++ [t]) ++ rest) by (rewrite <- app_assoc; exact El).
    assert (Ht : In (c, t) A).
    { apply (adj_in G n A); auto. rewrite El. apply in_or_app. right. now left. }
    assert (Tn : t < n) by (apply Rp in Ht; tauto).
    rewrite dget_get by (auto; apply (bi_len _ _ _ _ I1)). cbn [obind].
    assert (mach w (Z.of_nat d + 1) = Some (Z.of_nat d + 1)%Z) as ->.
    { unfold mach. destruct (_ && _)%bool eqn:E; auto. apply andb_false_iff in E as [E|E]; [apply Z.leb_gt in E|apply Z.ltb_ge in E]; lia. }
    cbn [obind].
    assert (Dn : (dget dist1 t <= Z.of_nat d + 1)%Z <-> In t ((dn ++ [c]) ++ q1)).
    { split.
      - intros Le. destruct (in_dec Nat.eq_dec t ((dn ++ [c]) ++ q1)) as [Hin|Hout]; auto.
        rewrite (bi_un _ _ _ _ I1 t Tn Hout) in Le. exfalso.
        assert (Lt : length (t :: (dn ++ [c]) ++ q1) <= n).
        { apply NoDup_bound; [constructor; [auto|apply (bi_nd _ _ _ _ I1)]|]. intros v [<-|Hv]; auto. apply (bi_lt _ _ _ _ I1); auto. }
        cbn [length] in Lt. rewrite app_length in Lt. lia.
      - intros Hin. apply in_app_or in Hin as [Hin|Hin].
        + pose proof (bi_dn _ _ _ _ I1 t Hin). lia.
        + destruct (bi_q _ _ _ _ I1) as (p1 & p2 & -> & Q1 & Q2). apply in_app_or in Hin as [Hin|Hin]; [rewrite (Q1 t Hin)|rewrite (Q2 t Hin)]; lia. }
    destruct (Z.leb_spec (dget dist1 t) (Z.of_nat d + 1)) as [C|C].
    + eexists; split; [reflexivity|]. split; [auto|]. split; [auto|]. split; [auto|]. split; [auto|].
      intros t' Ht'. apply in_app_or in Ht' as [Ht'|[<-|[]]]; auto. split; [unfold relaxed; lia|]. rewrite app_assoc. now apply Dn.
    + assert (Nt : ~ In t ((dn ++ [c]) ++ q1)) by (intros Hin; apply Dn in Hin; lia).
      rewrite set_some by (rewrite (bi_len _ _ _ _ I1); auto). cbn [obind]. eexists; split; [reflexivity|].
      pose proof (bi_len _ _ _ _ I1) as Len.
      assert (Ne : forall v, In v ((dn ++ [c]) ++ q1) -> dget (lset dist1 t (Z.of_nat d + 1)%Z) v = dget dist1 v).
      { intros v Hv. rewrite dget_lset by auto. destruct (Nat.eqb_spec v t); [subst; tauto|auto]. }
      assert (Nt2 : dget (lset dist1 t (Z.of_nat d + 1)%Z) t = (Z.of_nat d + 1)%Z) by (rewrite dget_lset, Nat.eqb_refl; auto).
      assert (Rel : forall v x, In v ((dn ++ [c]) ++ q1) -> In x (dn ++ [c] ++ q1) -> relaxed dist1 v x -> relaxed (lset dist1 t (Z.of_nat d + 1)%Z) v x).
      { intros v x Hv Hx. unfold relaxed. rewrite !Ne; auto. now rewrite <- app_assoc. }
      split; [exact El2|]. split; [|split; [|split]].
      * constructor.
        -- now rewrite lset_length.
        -- rewrite app_assoc. apply NoDup_app_iff. split; [apply (bi_nd _ _ _ _ I1)|]. split; [repeat constructor; auto|].
           intros x Hx [<-|[]]. tauto.
        -- intros v Hv. rewrite app_assoc in Hv. apply in_app_or in Hv as [Hv|[<-|[]]]; auto. apply (bi_lt _ _ _ _ I1); auto.
        -- intros v Hv Nv. rewrite app_assoc in Nv. rewrite dget_lset by auto. destruct (Nat.eqb_spec v t) as [->|].
           ++ exfalso. apply Nv. apply in_or_app. right. now left.
           ++ apply (bi_un _ _ _ _ I1); auto. intros Hin. apply Nv. apply in_or_app. now left.
        -- intros v Hv. rewrite app_assoc in Hv. apply in_app_or in Hv as [Hv|[<-|[]]].
           ++ rewrite Ne by auto. apply (bi_walk _ _ _ _ I1); auto.
           ++ exists (S d). rewrite Nt2. split; [lia|]. econstructor; eauto.
        -- destruct (bi_s _ _ _ _ I1) as [S1 S2]. split; [rewrite app_assoc; apply in_or_app; now left|]. now rewrite Ne.
        -- intros v Hv. rewrite Ne by (apply in_or_app; now left). apply (bi_dn _ _ _ _ I1); auto.
        -- destruct (bi_q _ _ _ _ I1) as (p1 & p2 & Eq & Q1 & Q2). exists p1, (p2 ++ [t]). rewrite Eq, app_assoc. split; auto. split.
           ++ intros v Hv. rewrite Ne; auto. apply in_or_app. right. rewrite Eq. apply in_or_app. now left.
           ++ intros v Hv. apply in_app_or in Hv as [Hv|[<-|[]]].
              ** rewrite Ne; auto. apply in_or_app. right. rewrite Eq. apply in_or_app. now right.
              ** rewrite Nt2. lia.
        -- intros v Hv. apply in_app_or in Hv as [Hv|[<-|[]]].
           ++ rewrite Ne by (apply in_or_app; now right). apply (bi_d _ _ _ _ I1); auto.
           ++ rewrite Nt2. lia.
      * rewrite Ne; auto. apply in_or_app. left. apply in_or_app. right. now left.
      * intros v x Hv Hx. destruct (R1 v x Hv Hx) as [Q1 Q2]. split.
        -- apply Rel; auto. apply in_or_app. left. apply in_or_app. now left.
        -- rewrite !app_assoc in *. apply in_or_app. now left.
      * intros x Hx. apply in_app_or in Hx as [Hx|[<-|[]]].
        -- destruct (R2 x Hx) as [Q1 Q2]. split.
           ++ apply Rel; auto. apply in_or_app. left. apply in_or_app. right. now left.
           ++ rewrite !app_assoc in *. apply in_or_app. now left.
        -- split.
           ++ unfold relaxed. rewrite Nt2, Ne, D1; [lia|]. apply in_or_app. left. apply in_or_app. right. now left.
           ++ rewrite !app_assoc. apply in_or_app. right. now left.
  - exists q', dist'. split; [exact E|]. split; [auto|]. intros v t Hv Ht. apply in_app_or in Hv as [Hv|[<-|[]]]; auto.
    apply R2. rewrite app_nil_r in El. rewrite <- El. now apply (adj_in G n A).
Qed.

Lemma bfs_ok : exists dist, bfs w G s INF = Some dist /\ length dist = n /\
  forall v, v < n -> (exists k, dget dist v = Z.of_nat k /\ walk A k s v /\ forall k', walk A k' s v -> k <= k') \/
                    (dget dist v = INF /\ forall k, ~ walk A k s v).
Proof.
  unfold bfs. pose proof Rp as (En & _). rewrite En. rewrite set_some by (rewrite repeat_length; lia). cbn [obind].
  match goal with |- context [loop _ ?bd _] => set (body := bd) end.
  set (INVA := fun '((q, dist) : list nat * list Z) => exists dn d, bfs_inv dn q d dist /\
     (forall v t, In v dn -> In (v, t) A -> relaxed dist v t /\ In t (dn ++ q))).
  set (Q := fun dist => length dist = n /\
     forall v, v < n -> (exists k, dget dist v = Z.of_nat k /\ walk A k s v /\ forall k', walk A k' s v -> k <= k') \/
                    (dget dist v = INF /\ forall k, ~ walk A k s v)).
  assert (Hl : forall fuel q dist dn d, bfs_inv dn q d dist ->
     (forall v t, In v dn -> In (v, t) A -> relaxed dist v t /\ In t (dn ++ q)) -> n - length dn < fuel ->
     exists dist', loop fuel body (q, dist) = Some dist' /\ Q dist').
  { induction fuel as [|fuel IH]; intros q dist dn d I R Hf; [lia|]. cbn [loop]. unfold body at 1.
    destruct q as [|c q].
    - cbn [obind]. exists dist. split; auto. split; [apply (bi_len _ _ _ _ I)|]. rewrite app_nil_r in *.
      assert (Up : forall k v, walk A k s v -> In v dn /\ (dget dist v <= Z.of_nat k)%Z).
      { intros k v Wk. remember s as s0 eqn:Es in Wk. induction Wk as [|k u v t Wk IHk Hin].
        - subst. destruct (bi_s _ _ _ _ I) as [S1 S2]. rewrite app_nil_r in S1. split; auto. lia.
        - destruct (IHk Es) as [V1 V2]. destruct (R v t V1 Hin) as [Q1 Q2]. rewrite ?app_nil_r in Q2. split; auto. unfold relaxed in Q1. lia. }
      intros v Hv. destruct (in_dec Nat.eq_dec v dn) as [Hin|Hout].
      + left. destruct (bi_walk _ _ _ _ I v) as (k & Ek & Wk); [now rewrite app_nil_r|]. exists k. split; auto. split; auto.
        intros k' W'. destruct (Up k' v W') as [_ Le]. lia.
      + right. split; [apply (bi_un _ _ _ _ I); auto; now rewrite app_nil_r|]. intros k Wk. apply Up in Wk. tauto.
    - destruct (bi_q _ _ _ _ I) as (q1 & q2 & Eq & Q1 & Q2).
      assert (Hc : c < n) by (apply (bi_lt _ _ _ _ I); apply in_or_app; right; now left).
      assert (I2 : exists d', d <= d' <= d + 1 /\ dget dist c = Z.of_nat d' /\ bfs_inv (dn ++ [c]) q d' dist /\ d' < length (dn ++ [c])).
      { assert (Bd := bi_d _ _ _ _ I c ltac:(now left)).
        assert (Base : forall d', d <= d' -> (forall v, In v [c] -> (dget dist v <= Z.of_nat d')%Z) ->
            (exists q1 q2, q = q1 ++ q2 /\ (forall v, In v q1 -> dget dist v = Z.of_nat d') /\ (forall v, In v q2 -> dget dist v = Z.of_nat (d' + 1))) ->
            bfs_inv (dn ++ [c]) q d' dist).
        { intros d' Ld Hd Hq. destruct I as [a1 a2 a3 a4 a5 a6 a7 a8 a9]. assert (Ea : (dn ++ [c]) ++ q = dn ++ c :: q) by now rewrite <- app_assoc.
          constructor; rewrite ?Ea; auto.
          - intros v Hv. apply in_app_or in Hv as [Hv|Hv]; auto. pose proof (a7 v Hv). lia.
          - intros v Hv. rewrite app_length. cbn [length]. assert (Hv2 := a9 v (or_intror Hv)). lia. }
        rewrite app_length. cbn [length]. destruct q1 as [|c1 q1].
        - cbn [app] in Eq. subst q2. exists (d + 1). assert (Ec := Q2 c ltac:(now left)). split; [lia|]. split; [auto|].
          split; [|lia]. apply Base; try lia.
          + intros v [<-|[]]. lia.
          + exists q, []. rewrite app_nil_r. split; auto. split; [intros v Hv; apply Q2; now right|intros v []].
        - injection Eq as <- Eq. exists d. assert (Ec := Q1 c ltac:(now left)). split; [lia|]. split; [auto|].
          split; [|lia]. apply Base; try lia.
          + intros v [<-|[]]. lia.
          + exists q1, q2. split; auto. split; [intros v Hv; apply Q1; now right|auto]. }
      destruct I2 as (d' & _ & Ec & I2 & Ld).
      destruct (scan_ok dn c q d' dist I2 Ec Ld) as (q' & dist' & Es & I3 & R3).
      { intros v t Hv Ht. exact (R v t Hv Ht). }
      rewrite dget_get, Ec by (auto; apply (bi_len _ _ _ _ I)). cbn [obind]. rewrite (get_adj G n A) by auto. cbn [obind].
      rewrite Es. cbn [obind]. apply (IH q' dist' (dn ++ [c]) d' I3).
      + intros v t Hv Ht. destruct (R3 v t Hv Ht) as [Q3 Q4]. split; auto. now rewrite <- app_assoc.
      + assert (Ll : length (dn ++ [c]) <= n).
        { apply NoDup_bound; [eapply NoDup_app_remove_r, (bi_nd _ _ _ _ I3)|]. intros v Hv. apply (bi_lt _ _ _ _ I3). apply in_or_app; now left. }
        rewrite app_length in *. cbn [length] in *. lia. }
  assert (L0 : length (repeat INF n) = n) by apply repeat_length.
  apply (Hl (n + 1) [s] _ [] 0); cbn [app length]; [|intros v t []|lia].
  constructor; cbn [app].
  - now rewrite lset_length.
  - repeat constructor. auto.
  - intros v [<-|[]]. auto.
  - intros v Hv Nv. rewrite dget_lset by auto. destruct (Nat.eqb_spec v s) as [->|]; [exfalso; apply Nv; now left|]. apply nth_repeat.
  - intros v [<-|[]]. exists 0. rewrite dget_lset, Nat.eqb_refl by auto. split; auto. constructor.
  - split; [now left|]. now rewrite dget_lset, Nat.eqb_refl by auto.
  - intros v [].
  - exists [s], []. split; auto. split; [|intros v []]. intros v [<-|[]]. now rewrite dget_lset, Nat.eqb_refl by auto.
  - intros v [<-|[]]. rewrite dget_lset, Nat.eqb_refl by auto. cbn. lia.
Qed.
End Bfs.

(** ** Topological sort *)
Section Topo.
Variable G : graph.
Variable n : nat.
Variable A : list (nat * nat).
Hypothesis Rp : repr G n A.
Notation cnt_in := (count_occ Nat.eq_dec).

(** The number of arcs into [t] scanned when [p u] out-arcs of each [u] are. *)
Definition scanned (p : nat -> nat) (t : nat) : nat := list_sum (map (fun u => cnt_in (firstn (p u) (adj G u)) t) (seq 0 n)).
Definition total (t : nat) : nat := cnt_in (map snd A) t.

Lemma sum_map_add {X} (f g : X -> nat) l : list_sum (map (fun x => f x + g x) l) = list_sum (map f l) + list_sum (map g l).
Proof. induction l as [|x l IH]; cbn; auto. unfold list_sum in IH. lia. Qed.
Lemma sum_map_ext {X} (f g : X -> nat) l : (forall x, In x l -> f x = g x) -> list_sum (map f l) = list_sum (map g l).
Proof. intros H. f_equal. now apply map_ext_in. Qed.
Lemma sum_map_le {X} (f g : X -> nat) l : (forall x, In x l -> f x <= g x) -> list_sum (map f l) <= list_sum (map g l).
Proof. induction l as [|x l IH]; intros H; cbn; auto. pose proof (H x ltac:(now left)). specialize (IH (fun y Hy => H y (or_intror Hy))). unfold list_sum in IH. lia. Qed.
Lemma sum_map_le_eq {X} (f g : X -> nat) l : (forall x, In x l -> f x <= g x) -> list_sum (map f l) = list_sum (map g l) -> forall x, In x l -> f x = g x.
Proof.
  induction l as [|y l IH]; intros H E x Hx; [easy|]. cbn in E.
  pose proof (H y ltac:(now left)). pose proof (sum_map_le f g l (fun z Hz => H z (or_intror Hz))) as L. unfold list_sum in *.
  destruct Hx as [<-|Hx]; [lia|]. apply IH; auto; [|lia]. intros z Hz. apply H. now right.
Qed.
Lemma sum_one (u m : nat) (x : nat) : u < m -> list_sum (map (fun v => if v =? u then x else 0) (seq 0 m)) = x.
Proof.
  induction m as [|m IH]; intros H; [lia|]. rewrite seq_S, map_app, list_sum_app. cbn [map list_sum fold_right plus].
  destruct (Nat.eqb_spec m u) as [->|N].
  - assert (Z : list_sum (map (fun v => if v =? u then x else 0) (seq 0 u)) = 0).
    { assert (Q : forall k, k <= u -> list_sum (map (fun v => if v =? u then x else 0) (seq 0 k)) = 0).
      { induction k as [|k IHk]; intros Hk; auto. rewrite seq_S, map_app, list_sum_app, IHk by lia. cbn.
        destruct (Nat.eqb_spec k u); lia. }
      apply Q; lia. }
    rewrite Z. cbn. lia.
  - rewrite IH by lia. cbn. lia.
Qed.
Lemma total_sum t : total t = list_sum (map (fun u => cnt_in (adj G u) t) (seq 0 n)).
Proof.
  destruct Rp as (_ & _ & _ & Ad & _ & Ok). unfold total. clear Rp.
  transitivity (list_sum (map (fun u => cnt_in (map snd (filter (fun e => fst e =? u) A)) t) (seq 0 n))).
  2:{ apply sum_map_ext. intros u _. now rewrite Ad. }
  clear Ad. revert Ok. generalize A as B. induction B as [|[a b] A' IH]; intros Ok.
  - cbn. assert (Q : forall l, list_sum (map (fun _ : nat => 0) l) = 0) by (induction l; auto). now rewrite Q.
  - transitivity (list_sum (map (fun u => (if u =? a then (if Nat.eq_dec b t then 1 else 0) else 0) +
        cnt_in (map snd (filter (fun e => fst e =? u) A')) t) (seq 0 n))).
    + rewrite sum_map_add, sum_one by (apply (Ok a b); now left). rewrite <- IH by (intros x y Hxy; apply Ok; now right).
      cbn [map snd count_occ]. destruct (Nat.eq_dec b t); auto.
    + apply sum_map_ext. intros u _. cbn [filter fst]. rewrite (Nat.eqb_sym a u). destruct (u =? a); auto.
      cbn [map snd count_occ]. destruct (Nat.eq_dec b t); auto.
Qed.
Lemma count_firstn (l : list nat) k t : cnt_in (firstn k l) t <= cnt_in l t.
Proof. rewrite <- (firstn_skipn k l) at 2. rewrite count_occ_app. lia. Qed.
Lemma scanned_le p t : scanned p t <= total t.
Proof. rewrite total_sum. apply sum_map_le. intros. apply count_firstn. Qed.

Record tinv (order cnt : list nat) (p : nat -> nat) (ex : nat -> Prop) : Prop := {
  ti_len : length cnt = n;
  ti_cnt : forall t, t < n -> get cnt t = Some (scanned p t);
  ti_nd : NoDup order;
  ti_lt : forall v, In v order -> v < n;
  ti_p : forall u, p u <= length (adj G u);
  ti_p0 : forall u, ~ In u order -> p u = 0;
  ti_top : forall l1 t l2 u, order = l1 ++ t :: l2 -> In t (adj G u) -> In u l1;
  ti_all : forall t, In t order -> scanned p t = total t;
  ti_comp : forall t, t < n -> 0 < total t -> scanned p t = total t -> In t order \/ ex t
}.

Lemma adj_lt u t : In t (adj G u) -> u < n /\ t < n.
Proof. intros H. apply (adj_in G n A) in H; auto. apply Rp in H. auto. Qed.

Lemma all_scanned order cnt p ex t u : tinv order cnt p ex -> scanned p t = total t -> In t (adj G u) -> In u order.
Proof.
  intros I E H. destruct (in_dec Nat.eq_dec u order) as [|N]; auto. exfalso. pose proof (ti_p0 _ _ _ _ I u N) as P0.
  destruct (adj_lt u t H) as [Hu _].
  rewrite total_sum in E.
  pose proof (sum_map_le_eq (fun u => cnt_in (firstn (p u) (adj G u)) t) (fun u => cnt_in (adj G u) t) (seq 0 n) (fun x _ => count_firstn _ _ _) E u) as Q.
  cbn beta in Q. rewrite P0 in Q. cbn [firstn count_occ] in Q.
  apply (count_occ_In Nat.eq_dec) in H. rewrite <- Q in H; [lia|]. apply in_seq. lia.
Qed.

Lemma push_ok order cnt p s : tinv order cnt p (eq s) -> ~ In s order -> s < n -> scanned p s = total s ->
  tinv (order ++ [s]) cnt p (fun _ => False).
Proof.
  intros I N Hs E. pose proof (fun u => all_scanned order cnt p (eq s) s u I E) as AS. destruct I as [a1 a2 a3 a4 a5 a6 a7 a8 a9].
  constructor; auto.
  - apply NoDup_app_iff. split; auto. split; [repeat constructor; auto|]. intros x Hx [<-|[]]. auto.
  - intros v Hv. apply in_app_or in Hv as [Hv|[<-|[]]]; auto.
  - intros u Hu. apply a6. intros H. apply Hu. apply in_or_app. now left.
  - intros l1 t l2 u El Hu. destruct l2 as [|y l2] using rev_ind.
    + apply app_inj_tail in El as [-> ->]. apply AS; auto.
    + rewrite app_comm_cons, app_assoc in El. apply app_inj_tail in El as [-> ->]. eapply a7; eauto.
  - intros t Ht. apply in_app_or in Ht as [Ht|[<-|[]]]; auto.
  - intros t Ht P Q. left. apply in_or_app. destruct (a9 t Ht P Q) as [|<-]; auto. right. now left.
Qed.

Lemma scanned_step p s t rest t' : s < n -> skipn (p s) (adj G s) = t :: rest ->
  scanned (fun u => if u =? s then p s + 1 else p u) t' = scanned p t' + (if t =? t' then 1 else 0).
Proof.
  intros Hs Sk. unfold scanned.
  transitivity (list_sum (map (fun u => cnt_in (firstn (p u) (adj G u)) t' + (if u =? s then (if t =? t' then 1 else 0) else 0)) (seq 0 n))).
  - apply sum_map_ext. intros u _. destruct (Nat.eqb_spec u s) as [->|]; [|lia].
    rewrite <- (firstn_skipn (p s) (adj G s)) at 1. rewrite Sk.
    assert (L : length (firstn (p s) (adj G s)) = p s).
    { apply firstn_length_le. assert (H := f_equal (@length _) Sk). rewrite skipn_length in H. cbn in H. lia. }
    rewrite firstn_app, L. replace (p s + 1 - p s) with 1 by lia. cbn [firstn].
    rewrite firstn_all2 by lia. rewrite count_occ_app. cbn [count_occ]. destruct (Nat.eq_dec t t'), (Nat.eqb_spec t t'); lia.
  - rewrite sum_map_add. now rewrite sum_one.
Qed.

Lemma dfs_ok : forall fuel s order cnt p, tinv order cnt p (eq s) -> ~ In s order -> s < n -> scanned p s = total s -> n - length order <= fuel ->
  exists rest cnt' p', topo_dfs fuel G s (order, cnt) = Some (order ++ s :: rest, cnt') /\
    tinv (order ++ s :: rest) cnt' p' (fun _ => False) /\ (forall u, In u order -> p' u = p u) /\
    (forall u, In u (s :: rest) -> p' u = length (adj G u)) /\ (forall u, In u rest -> 0 < total u).
Proof.
  induction fuel as [|fuel IH]; intros s order cnt p I N Hs E Hf.
  { exfalso. assert (length (s :: order) <= n).
    { apply NoDup_bound; [constructor; auto; apply (ti_nd _ _ _ _ I)|]. intros v [<-|Hv]; auto. apply (ti_lt _ _ _ _ I v Hv). }
    cbn [length] in *. lia. }
  cbn [topo_dfs]. rewrite (get_adj G n A) by auto. cbn [obind].
  match goal with |- context [for_each _ ?bd _] => set (body := bd) end.
  destruct (@for_each_rule _ _ (fun done todo '(order', cnt') => adj G s = done ++ todo /\ exists rest p',
      order' = order ++ s :: rest /\ tinv order' cnt' p' (fun _ => False) /\ (forall u, In u order -> p' u = p u) /\
      p' s = length done /\ (forall u, In u rest -> p' u = length (adj G u) /\ 0 < total u)) body (adj G s) [] (order ++ [s], cnt))
    as ([order' cnt'] & Er & Ea & rest & p' & -> & I' & P1 & P2 & P3).
  - split; [auto|]. exists [], p. split; [auto|]. split; [apply push_ok; auto|]. split; [auto|].
    split; [apply (ti_p0 _ _ _ _ I); auto|]. intros u [].
  - intros done t todo [order1 cnt1] (Ea & rest & p1 & -> & I1 & P1 & P2 & P3).
    assert (Ea2 : adj G s = (done ++ [t]) ++ todo) by (rewrite <- app_assoc; exact Ea).
    assert (Hin : In t (adj G s)) by (rewrite Ea; apply in_or_app; right; now left).
    assert (Ht : t < n) by (apply (adj_lt s t Hin)).
    unfold body. rewrite (ti_cnt _ _ _ _ I1 t Ht). cbn [obind].
    rewrite set_some by (rewrite (ti_len _ _ _ _ I1); auto). cbn [obind].
    assert (Ein : get (gr_in G) t = Some (total t)) by (apply Rp; auto). rewrite Ein. cbn [obind].
    set (p2 := fun u => if u =? s then p1 s + 1 else p1 u).
    assert (Sk : skipn (p1 s) (adj G s) = t :: todo).
    { rewrite P2, Ea, skipn_app, Nat.sub_diag, skipn_all2 by lia. reflexivity. }
    assert (Sc : forall t', scanned p2 t' = scanned p1 t' + (if t =? t' then 1 else 0)) by (intros t'; apply (scanned_step p1 s t todo t'); auto).
    assert (Nt : ~ In t (order ++ s :: rest)).
    { intros H. pose proof (ti_all _ _ _ _ I1 t H) as Q. pose proof (scanned_le p2 t) as Q2. rewrite Sc, Nat.eqb_refl in Q2. lia. }
    assert (I2 : tinv (order ++ s :: rest) (lset cnt1 t (scanned p1 t + 1)) p2 (eq t)).
    { assert (Nst : forall x, In x (order ++ s :: rest) -> x <> t) by (intros x Hx ->; auto).
      destruct I1 as [a1 a2 a3 a4 a5 a6 a7 a8 a9]. constructor; auto.
      - now rewrite lset_length.
      - intros t' Ht'. rewrite Sc. destruct (Nat.eqb_spec t t') as [<-|Ne].
        + apply get_lset_eq. lia.
        + rewrite get_lset_neq by auto. rewrite Nat.add_0_r. auto.
      - intros u. unfold p2. destruct (Nat.eqb_spec u s) as [->|]; auto. rewrite P2, Ea, app_length. cbn [length]. lia.
      - intros u Hu. unfold p2. destruct (Nat.eqb_spec u s) as [->|]; auto. exfalso. apply Hu. apply in_or_app. right. now left.
      - intros x Hx. rewrite Sc. destruct (Nat.eqb_spec t x) as [<-|]; [exfalso; auto|]. rewrite Nat.add_0_r. auto.
      - intros x Hx Px Qx. rewrite Sc in Qx. destruct (Nat.eqb_spec t x) as [<-|]; [now right|]. rewrite Nat.add_0_r in Qx. left. destruct (a9 x Hx Px Qx) as [|[]]. auto. }
    assert (P1' : forall u, In u order -> p2 u = p u).
    { intros u Hu. unfold p2. destruct (Nat.eqb_spec u s) as [->|]; [contradiction|auto]. }
    assert (P2' : p2 s = length (done ++ [t])) by (unfold p2; rewrite Nat.eqb_refl, app_length; cbn [length]; lia).
    assert (P3' : forall u, In u rest -> p2 u = length (adj G u) /\ 0 < total u).
    { intros u Hu. destruct (P3 u Hu) as [Q1 Q2]. split; auto. unfold p2. destruct (Nat.eqb_spec u s) as [->|]; auto.
      exfalso. pose proof (ti_nd _ _ _ _ I1) as ND. apply NoDup_app_iff in ND as (_ & ND & _). inversion ND; auto. }
    destruct (Nat.eqb_spec (scanned p1 t + 1) (total t)) as [Eq|Nq].
    + assert (Sct : scanned p2 t = total t) by (rewrite Sc, Nat.eqb_refl; auto).
      destruct (IH t (order ++ s :: rest) _ p2 I2 Nt Ht Sct) as (rest' & cnt' & p' & Er & I' & R1 & R2 & R3).
      { rewrite app_length. cbn [length]. lia. }
      rewrite Er. eexists; split; [reflexivity|]. split; [auto|]. exists (rest ++ t :: rest'), p'.
      split; [now rewrite <- app_assoc|]. split; [auto|]. split; [|split].
      * intros u Hu. rewrite R1 by (apply in_or_app; now left). auto.
      * rewrite R1 by (apply in_or_app; right; now left). auto.
      * intros u Hu. apply in_app_or in Hu as [Hu|Hu].
        -- rewrite R1 by (apply in_or_app; right; now right). auto.
        -- split; [auto|]. destruct Hu as [<-|Hu]; auto. lia.
    + eexists; split; [reflexivity|]. split; [auto|]. exists rest, p2. split; [auto|]. split; [|auto].
      destruct I2 as [a1 a2 a3 a4 a5 a6 a7 a8 a9]. constructor; auto.
      intros x Hx Px Qx. destruct (a9 x Hx Px Qx) as [|<-]; auto. rewrite Sc, Nat.eqb_refl in Qx. lia.
  - exists rest, cnt', p'. split; [exact Er|]. split; [auto|]. split; [auto|]. split.
    + intros u [<-|Hu]; [|now apply P3]. rewrite app_nil_r in Ea. now rewrite P2, Ea.
    + intros u Hu. now apply P3.
Qed.

Lemma scanned_full p t : (forall u, In t (adj G u) -> p u = length (adj G u)) -> scanned p t = total t.
Proof.
  intros H. rewrite total_sum. apply sum_map_ext. intros u _. destruct (in_dec Nat.eq_dec t (adj G u)) as [Hin|Hout].
  - now rewrite H, firstn_all.
  - rewrite (proj1 (count_occ_not_In Nat.eq_dec _ _) Hout). pose proof (count_firstn (adj G u) (p u) t) as Q.
    rewrite (proj1 (count_occ_not_In Nat.eq_dec _ _) Hout) in Q. lia.
Qed.

Lemma topo_run : exists order, topological_sort G = Some (length order =? n, order) /\
  NoDup order /\ (forall v, In v order -> v < n) /\
  (forall l1 t l2 u, order = l1 ++ t :: l2 -> In (u, t) A -> In u l1) /\
  (forall v, v < n -> ~ In v order -> exists u, In (u, v) A /\ ~ In u order).
Proof.
  unfold topological_sort. pose proof Rp as (En & _). rewrite En.
  match goal with |- context [for_up _ _ ?bd _] => set (body := bd) end.
  destruct (@for_up_rule _ (fun i '(order, cnt) => exists p, tinv order cnt p (fun _ => False) /\
     (forall u, In u order -> p u = length (adj G u)) /\ (forall v, v < i -> total v = 0 -> In v order) /\
     (forall v, In v order -> total v = 0 -> v < i)) body n 0 ([], repeat 0 n)) as ([order cnt] & Er & p & I & F & C1 & C2).
  - exists (fun _ => 0). split; [|split; [intros u []|split; [intros v Hv; lia|intros v []]]].
    assert (Z0 : forall t, scanned (fun _ => 0) t = 0).
    { intros t. unfold scanned. cbn [firstn count_occ]. induction (seq 0 n); auto. }
    constructor; try (intros; cbn in *; tauto || lia).
    + apply repeat_length.
    + intros t Ht. rewrite Z0. unfold get. now rewrite nth_error_repeat.
    + constructor.
    + intros l1 t l2 u El. destruct l1; discriminate.
    + intros t _ P Q. rewrite Z0 in Q. lia.
  - intros i [order cnt] Hi (p & I & F & C1 & C2). unfold body.
    assert (Ein : get (gr_in G) i = Some (total i)) by (apply Rp; lia). rewrite Ein. cbn [obind].
    destruct (Nat.eqb_spec (total i) 0) as [E0|N0].
    + assert (Ni : ~ In i order) by (intros H; apply C2 in H; auto; lia).
      assert (Ix : tinv order cnt p (eq i)).
      { destruct I as [a1 a2 a3 a4 a5 a6 a7 a8 a9]. constructor; auto. intros t Ht Px Qx. left. destruct (a9 t Ht Px Qx) as [|[]]. auto. }
      destruct (dfs_ok (n + 1) i order cnt p Ix Ni ltac:(lia)) as (rest & cnt' & p' & Er & I' & R1 & R2 & R3); [pose proof (scanned_le p i); lia|lia|].
      rewrite Er. eexists; split; [reflexivity|]. cbn beta iota. exists p'. split; [auto|]. split; [|split].
      * intros u Hu. apply in_app_or in Hu as [Hu|Hu]; auto. rewrite R1 by auto. auto.
      * intros v Hv Z. apply in_or_app. destruct (Nat.eq_dec v i) as [->|]; [right; now left|]. left. apply C1; auto. lia.
      * intros v Hv Z. apply in_app_or in Hv as [Hv|[<-|Hv]]; [|lia|].
        -- pose proof (C2 v Hv Z). lia.
        -- pose proof (R3 v Hv). lia.
    + eexists; split; [reflexivity|]. cbn beta iota. exists p. split; [auto|]. split; [auto|]. split.
      * intros v Hv Z. destruct (Nat.eq_dec v i) as [->|]; [lia|]. apply C1; auto. lia.
      * intros v Hv Z. pose proof (C2 v Hv Z). lia.
  - rewrite Er. cbn [obind]. eexists; split; [reflexivity|]. split; [apply (ti_nd _ _ _ _ I)|]. split; [apply (ti_lt _ _ _ _ I)|]. split.
    + intros l1 t l2 u El Hin. apply (ti_top _ _ _ _ I l1 t l2 u El). now apply (adj_in G n A).
    + intros v Hv Nv.
      assert (T : 0 < total v) by (destruct (Nat.eq_dec (total v) 0); [exfalso; apply Nv, C1; auto|lia]).
      destruct (existsb (fun u => existsb (Nat.eqb v) (adj G u) && negb (existsb (Nat.eqb u) order)) (seq 0 n)) eqn:X.
      * apply existsb_exists in X as (u & Hu & X). apply andb_true_iff in X as [X1 X2]. exists u. split.
        -- apply existsb_exists in X1 as (v' & Hv' & E'). apply Nat.eqb_eq in E'. subst v'. now apply (adj_in G n A).
        -- intros Hin. apply negb_true_iff in X2. assert (existsb (Nat.eqb u) order = true) by (apply existsb_exists; exists u; split; auto; apply Nat.eqb_refl). congruence.
      * exfalso. apply Nv. destruct (ti_comp _ _ _ _ I v Hv T) as [|[]]; auto. apply scanned_full. intros u Hu. apply F.
        destruct (in_dec Nat.eq_dec u order) as [|Nu]; auto. exfalso.
        assert (Y : existsb (fun u => existsb (Nat.eqb v) (adj G u) && negb (existsb (Nat.eqb u) order)) (seq 0 n) = true).
        { apply existsb_exists. exists u. split; [apply in_seq; destruct (adj_lt u v Hu); lia|]. apply andb_true_iff. split.
          - apply existsb_exists. exists v. split; auto. apply Nat.eqb_refl.
          - apply negb_true_iff. destruct (existsb (Nat.eqb u) order) eqn:Z; auto. apply existsb_exists in Z as (u' & H' & E'). apply Nat.eqb_eq in E'. subst. contradiction. }
        congruence.
Qed.
End Topo.

(** ** Orders and cycles *)
Lemma before_trans l a b c : NoDup l -> before l a b -> before l b c -> before l a c.
Proof.
  intros ND (l1 & l2 & l3 & E1) (m1 & m2 & m3 & E2).
  assert (E3 : l1 ++ a :: l2 = m1 /\ l3 = m2 ++ c :: m3).
  { assert (E : (l1 ++ a :: l2) ++ b :: l3 = m1 ++ b :: m2 ++ c :: m3) by (rewrite <- app_assoc; cbn; congruence).
    assert (ND2 : NoDup ((l1 ++ a :: l2) ++ b :: l3)) by (rewrite <- app_assoc; cbn; congruence).
    clear E1 E2. revert m1 E ND2. generalize (l1 ++ a :: l2) as x. induction x as [|y x IH]; intros [|z m1] E ND2; cbn [app] in *.
    - injection E as E. auto.
    - injection E as -> E. exfalso. inversion ND2; subst. apply H1. apply in_or_app. right. now left.
    - injection E as -> E. exfalso. inversion ND2; subst. apply H1. apply in_or_app. right. now left.
    - injection E as -> E. inversion ND2; subst. destruct (IH m1 E H2) as [-> ->]. auto. }
  destruct E3 as [<- ->]. exists l1, (l2 ++ b :: m2), m3. rewrite E1. now rewrite <- app_assoc.
Qed.
Lemma before_irrefl l a : NoDup l -> ~ before l a a.
Proof.
  intros ND (l1 & l2 & l3 & ->). apply NoDup_app_iff in ND as (_ & ND & _). inversion ND; subst. apply H1. apply in_or_app. right. now left.
Qed.
Lemma walk_before A l k u v : NoDup l -> (forall a b, In (a, b) A -> before l a b) -> walk A (S k) u v -> before l u v.
Proof.
  intros ND H. revert v. induction k as [|k IH]; intros v W; inversion W as [|k' u' x t W' Hin]; subst.
  - inversion W'; subst. auto.
  - apply (before_trans l u x v); auto.
Qed.
Lemma walk_trans A j k u v t : walk A j u v -> walk A k v t -> walk A (j + k) u t.
Proof.
  intros W1 W2. induction W2 as [v|k v x t W2 IH Hin]; [now rewrite Nat.add_0_r|].
  rewrite Nat.add_succ_r. econstructor; eauto.
Qed.
Lemma dup_split (l : list nat) : ~ NoDup l -> exists x l1 l2 l3, l = l1 ++ x :: l2 ++ x :: l3.
Proof.
  induction l as [|y l IH]; intros H; [exfalso; apply H; constructor|].
  destruct (in_dec Nat.eq_dec y l) as [Hin|Hout].
  - apply in_split in Hin as (l2 & l3 & ->). exists y, [], l2, l3. reflexivity.
  - destruct IH as (x & l1 & l2 & l3 & ->); [intros ND; apply H; now constructor|]. exists x, (y :: l1), l2, l3. reflexivity.
Qed.
(** Backward chains: [l] lists the vertices from the end of a walk. *)
Fixpoint chain (A : list (nat * nat)) (l : list nat) : Prop :=
  match l with
  | a :: l' => match l' with b :: _ => In (a, b) A | [] => True end /\ chain A l'
  | [] => True
  end.
Lemma chain_walk A l1 x l2 y l3 : chain A (l1 ++ x :: l2 ++ y :: l3) -> walk A (S (length l2)) x y.
Proof.
  induction l1 as [|z l1 IH]; cbn [app]; intros C.
  - assert (W : forall l2 x j u, walk A j u x -> chain A (x :: l2 ++ y :: l3) -> walk A (j + S (length l2)) u y).
    { clear. induction l2 as [|z l2 IH]; intros x j u W C.
      - cbn [app chain] in C. destruct C as [C _]. cbn [length]. rewrite Nat.add_1_r. econstructor; eauto.
      - cbn [app] in C. change (In (x, z) A /\ chain A (z :: l2 ++ y :: l3)) in C. destruct C as [C1 C2]. cbn [length].
        replace (j + S (S (length l2))) with (S j + S (length l2)) by lia. apply (IH z); auto. econstructor; eauto. }
    apply (W l2 x 0 x); auto. constructor.
  - apply IH. destruct (l1 ++ x :: l2 ++ y :: l3); [easy|]. apply C.
Qed.
Lemma no_source_cycle A n (P : nat -> Prop) v : P v -> (forall v, P v -> v < n /\ exists u, In (u, v) A /\ P u) -> ~ acyclic A.
Proof.
  intros Hv H Ac.
  assert (C : forall k, exists l, length l = S k /\ chain A l /\ (forall x, In x l -> P x)).
  { induction k as [|k (l & L & Ch & Pl)].
    - exists [v]. split; auto. split; [cbn; auto|]. intros x [<-|[]]; auto.
    - destruct l as [|x l]; [easy|]. destruct (H x (Pl x ltac:(now left))) as (_ & u & Hu & Pu).
      exists (u :: x :: l). split; [cbn in *; lia|]. split; [cbn [chain tl]; auto|]. intros y [<-|Hy]; auto. }
  destruct (C n) as (l & L & Ch & Pl).
  destruct (dup_split l) as (x & l1 & l2 & l3 & El).
  - intros ND. assert (length l <= n) by (apply NoDup_bound; auto; intros y Hy; apply H, Pl, Hy). lia.
  - rewrite El in Ch. apply chain_walk in Ch. exact (Ac _ _ Ch).
Qed.

Lemma topo_ok G n A : repr G n A -> exists order, topological_sort G = Some (length order =? n, order) /\
  (length order = n <-> acyclic A) /\ (acyclic A -> topological n A order).
Proof.
  intros R. destruct (topo_run G n A R) as (order & E & ND & Lt & Top & Comp). exists order. split; auto.
  assert (Full : length order = n -> topological n A order).
  { intros L. assert (Hall : forall v, In v order <-> v < n).
    { intros v. split; auto. intros Hv. destruct (in_dec Nat.eq_dec v order) as [|Nv]; auto. exfalso.
      assert (length (v :: order) <= n) by (apply NoDup_bound; [now constructor|intros y [<-|Hy]; auto]). cbn in *. lia. }
    split; auto. split; auto. intros a b Hab. destruct R as (_ & _ & _ & _ & _ & Ok). destruct (Ok a b Hab) as [Ha Hb].
    apply Hall in Hb. apply in_split in Hb as (l1 & l2 & El). pose proof (Top l1 b l2 a El Hab) as Hin.
    apply in_split in Hin as (m1 & m2 & ->). exists m1, m2, l2. rewrite El. now rewrite <- app_assoc. }
  assert (Ac : length order = n -> acyclic A).
  { intros L v k W. destruct (Full L) as (_ & _ & B). apply (before_irrefl order v ND). eapply walk_before; eauto. }
  assert (Len : acyclic A -> length order = n).
  { intros HA. destruct (Nat.eq_dec (length order) n) as [|NE]; auto. exfalso.
    assert (X : exists v, v < n /\ ~ In v order).
    { destruct (existsb (fun v => negb (existsb (Nat.eqb v) order)) (seq 0 n)) eqn:X.
      - apply existsb_exists in X as (v & Hv & X). apply in_seq in Hv. exists v. split; [lia|]. intros Hin. apply negb_true_iff in X.
        assert (existsb (Nat.eqb v) order = true) by (apply existsb_exists; exists v; split; auto; apply Nat.eqb_refl). congruence.
      - exfalso. apply NE. assert (L1 : length order <= n) by (apply NoDup_bound; auto).
        assert (L2 : length (seq 0 n) <= length order).
        { apply NoDup_incl_length; [apply seq_NoDup|]. intros v Hv. destruct (in_dec Nat.eq_dec v order) as [|Nv]; auto. exfalso.
          assert (Y : existsb (fun v => negb (existsb (Nat.eqb v) order)) (seq 0 n) = true).
          { apply existsb_exists. exists v. split; auto. apply negb_true_iff. destruct (existsb (Nat.eqb v) order) eqn:Z; auto.
            apply existsb_exists in Z as (u' & H' & E'). apply Nat.eqb_eq in E'. subst. contradiction. }
          congruence. }
        rewrite seq_length in L2. lia. }
    destruct X as (v & Hv & Nv). revert HA. apply (no_source_cycle A n (fun v => v < n /\ ~ In v order) v); auto.
    intros x [Hx Nx]. split; auto. destruct (Comp x Hx Nx) as (u & Hu & Nu). exists u. split; auto. split; auto.
    destruct R as (_ & _ & _ & _ & _ & Ok). apply (Ok u x Hu). }
  split; [split; auto|]. intros HA. apply Full, Len, HA.
Qed.
