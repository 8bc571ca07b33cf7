(** Proofs about [FlowModel]: the searches of Dinic's algorithm. *)
From Verif Require Import Base BaseLemmas ListExtra NthExtra FlowModel FlowProof.
Set Implicit Arguments.
Open Scope Z_scope.

Section Dinic.
Variable M : Z.

(** ** Breadth-first search *)
Section Bfs.
Variables (g : net) (s t : nat).
Hypothesis O : ok M g.
Hypothesis Hs : (s < length g)%nat.
Hypothesis St : s <> t.

Definition dv (dist : list (option nat)) (v : nat) : option nat := match get dist v with Some d => d | None => None end.
(** [arcs below] the set of arcs already looked at: all those of finite vertices that are
    not queued, and those of [u] in [seen]. *)
Record bfsi (d : nat) (q1 q2 : list nat) (dn : list nat) (dist : list (option nat)) : Prop := {
  i_len : length dist = length g;
  i_s : dv dist s = Some 0%nat;
  i_q1 : forall v, In v q1 -> dv dist v = Some d /\ v <> t;
  i_q2 : forall v, In v q2 -> dv dist v = Some (S d) /\ v <> t;
  i_nd : NoDup (dn ++ q1 ++ q2);
  i_dn : forall v, In v dn -> (v < length g)%nat /\ exists x, dv dist v = Some x /\ (x <= d)%nat;
  i_le : forall v x, dv dist v = Some x -> (x <= S d)%nat;
  i_fin : forall v x, dv dist v = Some x -> v = t \/ In v (dn ++ q1 ++ q2);
  i_pred : forall v x, dv dist v = Some x -> v = s \/ exists u i e, get2 g u i = Some e /\ to e = v /\ cap e <> 0 /\ u <> t /\ dv dist u = Some (x - 1)%nat /\ (1 <= x)%nat }.
Definition closed_at (dist : list (option nat)) (d : nat) (e : arc) : Prop := cap e <> 0 -> exists x, dv dist (to e) = Some x /\ (x <= S d)%nat.

Lemma dv_get dist v x : dv dist v = Some x -> get dist v = Some (Some x).
Proof. unfold dv. destruct (get dist v) as [y|]; [|discriminate]. congruence. Qed.
Lemma dv_set dist v x w : (v < length dist)%nat -> dv (lset dist v (Some x)) w = if (v =? w)%nat then Some x else dv dist w.
Proof. intros H. unfold dv. rewrite get_lset. destruct (Nat.eqb_spec v w) as [<-|]; cbn [andb]; [|auto]. now replace (v <? length dist)%nat with true by (symmetry; now apply Nat.ltb_lt). Qed.

Lemma scan_ok d u q1 dn row : get g u = Some row -> forall es q2 dist, (forall e, In e es -> In e row) -> bfsi d q1 q2 (dn ++ [u]) dist -> dv dist u = Some d -> u <> t ->
  exists q2' dist', for_each es (fun e '(q, dist) =>
          if cap e =? 0 then Some (q, dist)
          else
            let* du := get dist u in
            let* du := du in
            let* de := get dist (to e) in
            if (match de with Some x => x <=? du + 1 | None => false end)%nat then Some (q, dist)
            else
              let* dist := set dist (to e) (Some (du + 1)%nat) in
              Some (if (to e =? t)%nat then q else q ++ [to e], dist)) (q1 ++ q2, dist) = Some (q1 ++ q2', dist') /\ bfsi d q1 q2' (dn ++ [u]) dist' /\
    (forall v x, dv dist v = Some x -> dv dist' v = Some x) /\ (forall e, In e es -> closed_at dist' d e).
Proof.
  intros Er es. induction es as [|e es IH]; intros q2 dist Hin I Eu Nu; cbn [for_each].
  - exists q2, dist. split; [auto|]. split; [auto|]. split; [auto|]. intros e [].
  - destruct (Z.eqb_spec (cap e) 0) as [C0|C0]; cbn [obind].
    + destruct (IH q2 dist) as (q2' & dist' & E & I' & K & C); auto; [intros; apply Hin; now right|]. exists q2', dist'. split; [auto|]. split; [auto|]. split; [auto|]. intros e' [<-|H]; [intros Hc; congruence|auto].
    + destruct (In_get _ _ (Hin e (or_introl eq_refl))) as (j & _ & Ej). rewrite <- (get2_row _ _ _ Er) in Ej. pose proof (ok_to O Ej) as Hto. rewrite (dv_get _ _ Eu). cbn [obind]. destruct (@get_lt _ dist (to e)) as [de Ede]; [rewrite (i_len I); auto|]. rewrite Ede. cbn [obind].
      assert (Edv : dv dist (to e) = de) by (unfold dv; now rewrite Ede). destruct de as [x|].
      * pose proof (i_le I _ Edv) as Hx. replace (x <=? d + 1)%nat with true by (symmetry; apply Nat.leb_le; lia). cbn [obind].
        destruct (IH q2 dist) as (q2' & dist' & E & I' & K & C); auto; [intros; apply Hin; now right|]. exists q2', dist'. split; [auto|]. split; [auto|]. split; [auto|]. intros e' [<-|H]; [|auto]. intros _. exists x. split; auto.
      * rewrite set_some by (rewrite (i_len I); auto). cbn [obind]. set (dist1 := lset dist (to e) (Some (d + 1)%nat)).
        assert (D : forall w, dv dist1 w = if (to e =? w)%nat then Some (S d) else dv dist w) by (intros w; unfold dist1; rewrite dv_set by (rewrite (i_len I); auto); now rewrite Nat.add_1_r).
        assert (Kp : forall v x, dv dist v = Some x -> dv dist1 v = Some x) by (intros v x Hv; rewrite D; destruct (Nat.eqb_spec (to e) v); [congruence|auto]).
        set (q2n := if (to e =? t)%nat then q2 else q2 ++ [to e]).
        assert (Qn : (if (to e =? t)%nat then q1 ++ q2 else (q1 ++ q2) ++ [to e]) = q1 ++ q2n) by (unfold q2n; destruct (to e =? t)%nat; [auto|now rewrite app_assoc]).
        assert (I1 : bfsi d q1 q2n (dn ++ [u]) dist1).
        { split.
          - unfold dist1. rewrite lset_length. apply I.
          - apply Kp, I.
          - intros v Hv. destruct (i_q1 I v Hv). split; auto.
          - intros v Hv. unfold q2n in Hv. destruct (Nat.eqb_spec (to e) t); [destruct (i_q2 I v Hv); split; auto|]. apply in_app_or in Hv as [Hv|[<-|[]]]; [destruct (i_q2 I v Hv); split; auto|]. rewrite D, Nat.eqb_refl. auto.
          - unfold q2n. destruct (Nat.eqb_spec (to e) t); [apply I|]. rewrite !app_assoc. rewrite <- (app_assoc (dn ++ [u])). apply NoDup_app_iff. split; [apply I|]. split; [constructor; [intros []|constructor]|]. intros v Hv [<-|[]].
            assert (exists y, dv dist (to e) = Some y) as [y Hy]; [|congruence]. apply in_app_or in Hv as [Hv|Hv]; [destruct (i_dn I _ Hv) as (_ & y & ? & _); eauto|]. apply in_app_or in Hv as [Hv|Hv]; [destruct (i_q1 I _ Hv); eauto|destruct (i_q2 I _ Hv); eauto].
          - intros v Hv. destruct (i_dn I v Hv) as (Hl & y & Hy & Hd). split; [auto|]. exists y. split; auto.
          - intros v y Hy. rewrite D in Hy. destruct (Nat.eqb_spec (to e) v); [injection Hy as <-; lia|eapply i_le; eauto].
          - intros v y Hy. rewrite D in Hy. destruct (Nat.eqb_spec (to e) v) as [<-|].
            + destruct (Nat.eqb_spec (to e) t) as [|Nt]; [auto|]. right. unfold q2n. destruct (Nat.eqb_spec (to e) t); [congruence|]. apply in_or_app. right. apply in_or_app. right. apply in_or_app. right. now left.
            + destruct (i_fin I v Hy) as [|Hv]; [auto|]. right. apply in_app_or in Hv as [Hv|Hv]; [apply in_or_app; auto|]. apply in_or_app. right. apply in_app_or in Hv as [Hv|Hv]; apply in_or_app; [auto|]. right. unfold q2n. destruct (to e =? t)%nat; [auto|apply in_or_app; auto].
          - intros v y Hy. rewrite D in Hy. destruct (Nat.eqb_spec (to e) v) as [<-|].
            + right. injection Hy as <-. exists u, j, e. repeat split; auto; [|lia]. replace (S d - 1)%nat with d by lia. auto.
            + destruct (i_pred I v Hy) as [|(u' & j' & e' & H1 & H2 & H3 & H4 & H5 & H6)]; [auto|]. right. exists u', j', e'. repeat split; auto. }
        destruct (IH q2n dist1) as (q2' & dist' & E & I' & K & C); auto; [intros; apply Hin; now right|]. exists q2', dist'.
        split; [|split; [auto|split; [auto|]]].
        -- rewrite <- Qn in E. exact E.
        -- intros e' [<-|H]; [|auto]. intros _. exists (S d). split; [|lia]. apply K. rewrite D, Nat.eqb_refl. auto.
Qed.

Definition scanned (dn : list nat) (dist : list (option nat)) : Prop := forall v i e x, In v dn -> get2 g v i = Some e -> dv dist v = Some x -> closed_at dist x e.

Lemma shift_ok d q2 dn dist : bfsi d [] q2 dn dist -> bfsi (S d) q2 [] dn dist.
Proof.
  intros I. split; try apply I.
  - intros v [].
  - rewrite app_nil_r. apply (i_nd I).
  - intros v Hv. destruct (i_dn I v Hv) as (Hl & x & E & H). split; [auto|]. exists x. split; auto.
  - intros v x E. pose proof (i_le I v E). lia.
  - intros v x E. rewrite app_nil_r. apply (i_fin I v E).
Qed.

Lemma bfs_run : forall k d q1 q2 dn dist, bfsi d q1 q2 dn dist -> scanned dn dist -> (length g - length dn < k)%nat ->
  exists dist', loop k (fun '(q, dist) =>
    match q with
    | [] => Some (inr dist)
    | u :: q =>
        let* row := get g u in
        let* (q, dist) := for_each row (fun e '(q, dist) =>
          if cap e =? 0 then Some (q, dist)
          else
            let* du := get dist u in
            let* du := du in
            let* de := get dist (to e) in
            if (match de with Some x => x <=? du + 1 | None => false end)%nat then Some (q, dist)
            else
              let* dist := set dist (to e) (Some (du + 1)%nat) in
              Some (if (to e =? t)%nat then q else q ++ [to e], dist)) (q, dist) in
        Some (inl (q, dist))
    end) (q1 ++ q2, dist) = Some dist' /\
    length dist' = length g /\ dv dist' s = Some 0%nat /\
    (forall v x, dv dist' v = Some x -> v = s \/ exists u i e, get2 g u i = Some e /\ to e = v /\ cap e <> 0 /\ u <> t /\ dv dist' u = Some (x - 1)%nat /\ (1 <= x)%nat) /\
    (forall v i e x, v <> t -> dv dist' v = Some x -> get2 g v i = Some e -> closed_at dist' x e).
Proof.
  induction k as [|k IH]; intros d q1 q2 dn dist I Sc Hk; [lia|].
  assert (X : exists d' q1' q2', bfsi d' q1' q2' dn dist /\ q1' ++ q2' = q1 ++ q2 /\ (q1' = [] -> q2' = [])).
  { destruct q1 as [|x q1]; [|exists d, (x :: q1), q2; split; [auto|split; [auto|discriminate]]]. exists (S d), q2, []. split; [now apply shift_ok|]. split; [now rewrite app_nil_r|auto]. }
  clear I. destruct X as (d' & q1' & q2' & I & <- & Z). clear d q1 q2. rename d' into d, q1' into q1, q2' into q2. destruct q1 as [|u q1].
  - rewrite Z in * by auto. cbn [app loop]. exists dist. split; [auto|]. split; [apply I|]. split; [apply I|]. split; [apply I|]. intros v i e x Nt Ev Ee. apply (Sc v i e x); auto. destruct (i_fin I v Ev) as [|Hv]; [congruence|]. now rewrite !app_nil_r in Hv.
  - cbn [app loop]. destruct (i_q1 I u (or_introl eq_refl)) as [Eu Nu]. destruct (@get_lt _ g u) as [row Er]; [rewrite <- (i_len I); apply dv_get in Eu; now apply get_some_lt in Eu|]. rewrite Er. cbn [obind].
    assert (I1 : bfsi d q1 q2 (dn ++ [u]) dist).
    { split; try apply I.
      - intros v Hv. apply (i_q1 I). now right.
      - rewrite <- app_assoc. apply (i_nd I).
      - intros v Hv. apply in_app_or in Hv as [Hv|[<-|[]]]; [apply (i_dn I v Hv)|]. split; [rewrite <- (i_len I); apply dv_get in Eu; now apply get_some_lt in Eu|]. exists d. auto.
      - intros v x E. destruct (i_fin I v E) as [|Hv]; [auto|]. right. now rewrite <- app_assoc. }
    destruct (@scan_ok d u q1 dn row Er row q2 dist (fun _ H => H) I1 Eu Nu) as (q2' & dist' & E & I' & K & C). rewrite E. cbn [obind]. apply IH with (1 := I').
    + intros v i e x Hv Ee Ex. assert (Hold : forall e0 x0, closed_at dist x0 e0 -> closed_at dist' x0 e0) by (intros e0 x0 H Hc; destruct (H Hc) as (y & ? & ?); exists y; split; auto).
      apply in_app_or in Hv as [Hv|[<-|[]]].
      * destruct (i_dn I v Hv) as (_ & y & Ey & _). rewrite (K v y Ey) in Ex. injection Ex as <-. apply Hold, (Sc v i e y); auto.
      * rewrite (K u d Eu) in Ex. injection Ex as <-. apply C. rewrite (get2_row _ _ _ Er) in Ee. eapply get_In; eauto.
    + rewrite app_length. cbn [length]. assert (length (dn ++ [u]) <= length g)%nat.
      { rewrite <- (seq_length (length g) 0). apply NoDup_incl_length; [pose proof (i_nd I1) as N; apply NoDup_app_remove_r in N; exact N|]. intros v Hv. apply in_seq. destruct (i_dn I1 v Hv). lia. }
      rewrite app_length in H. cbn in H. lia.
Qed.

Lemma bfs_ok : exists dist, dn_bfs g s t = Some dist /\ length dist = length g /\ dv dist s = Some 0%nat /\
    (forall v x, dv dist v = Some x -> v = s \/ exists u i e, get2 g u i = Some e /\ to e = v /\ cap e <> 0 /\ u <> t /\ dv dist u = Some (x - 1)%nat /\ (1 <= x)%nat) /\
    (forall v i e x, v <> t -> dv dist v = Some x -> get2 g v i = Some e -> closed_at dist x e).
Proof.
  unfold dn_bfs. rewrite set_some by (now rewrite repeat_length). cbn [obind]. set (dist0 := lset _ _ _).
  assert (D : forall v, dv dist0 v = if (s =? v)%nat then Some 0%nat else None).
  { intros v. unfold dist0. rewrite dv_set by (now rewrite repeat_length). destruct (s =? v)%nat; [auto|]. unfold dv. destruct (get (repeat None (length g)) v) as [y|] eqn:E; [|auto]. apply get_In, repeat_spec in E. now subst. }
  change [s] with ([s] ++ []). apply bfs_run with (d := 0%nat) (dn := []); [|intros v i e x []|cbn; lia]. split.
  - unfold dist0. now rewrite lset_length, repeat_length.
  - rewrite D, Nat.eqb_refl. auto.
  - intros v [<-|[]]. rewrite D, Nat.eqb_refl. auto.
  - intros v [].
  - cbn. constructor; [intros []|constructor].
  - intros v [].
  - intros v x E. rewrite D in E. destruct (s =? v)%nat; [injection E as <-; lia|discriminate].
  - intros v x E. rewrite D in E. destruct (Nat.eqb_spec s v) as [->|]; [right; now left|discriminate].
  - intros v x E. rewrite D in E. destruct (Nat.eqb_spec s v) as [->|]; [auto|discriminate].
Qed.
End Bfs.

(** ** Depth-first search *)
Section Dfs.
Variables (dist : list (option nat)) (t : nat).

Definition adm (u : nat) (e : arc) : Prop := cap e <> 0 /\ exists d, dv dist u = Some d /\ dv dist (to e) = Some (S d).
(** Everything before [nxt] leads to exhausted vertices, as long as nothing was pushed. *)
Definition exhausted (g : net) (nxt : list nat) : Prop :=
  forall v i e k, get nxt v = Some k -> (i < k)%nat -> get2 g v i = Some e -> adm v e -> to e <> t /\ get nxt (to e) = Some (length (nth (to e) g [])).

Lemma level_ok u v d : dv dist u = Some d -> (v < length dist)%nat -> exists b, level dist u v = Some b /\ (b = true <-> dv dist v = Some (S d)).
Proof.
  intros Eu Hv. unfold level. apply dv_get in Eu. rewrite Eu. cbn [obind]. destruct (@get_lt _ dist v Hv) as [y Ey]. rewrite Ey. cbn [obind]. eexists. split; [reflexivity|]. unfold dv. rewrite Ey. destruct y as [x|]; [|split; discriminate]. rewrite Nat.eqb_eq. split; [intros ->; f_equal; lia|intros [= ->]; lia].
Qed.
Lemma dist_max_le v x : dv dist v = Some x -> (x <= dist_max dist)%nat.
Proof.
  intros E. apply dv_get, get_In in E. unfold dist_max. pose proof (proj1 (list_max_le (map (fun d => match d with Some x => x | None => 0%nat end) dist) _) (le_n _)) as F. rewrite Forall_forall in F. apply F. apply in_map_iff. now exists (Some x).
Qed.

Lemma dfs_ok : forall fuel u f nxt g d, ok M g -> length dist = length g -> length nxt = length g -> (forall v k, get nxt v = Some k -> (k <= length (nth v g []))%nat) ->
  dv dist u = Some d -> 0 < f -> (dist_max dist - d < fuel)%nat ->
  exists fl nxt' g', dn_dfs M fuel dist t u f nxt g = Some (fl, nxt', g') /\ 0 <= fl <= f /\ moved M g g' u t fl /\ length nxt' = length nxt /\
    (forall v k, get nxt' v = Some k -> (k <= length (nth v g []))%nat) /\
    (forall v x, dv dist v = Some x -> (x < d)%nat -> get nxt' v = get nxt v /\ get g' v = get g v) /\
    (forall v, dv dist v = None -> get nxt' v = get nxt v) /\
    (fl = 0 -> g' = g /\ u <> t /\ (exhausted g nxt -> exhausted g nxt' /\ get nxt' u = Some (length (nth u g [])) /\
        forall v, get nxt v = Some (length (nth v g [])) -> get nxt' v = Some (length (nth v g [])))).
Proof.
  induction fuel as [|fuel IH]; intros u f nxt g d O Ld Ln Bn Eu Hf Hfu; [lia|]. cbn [dn_dfs].
  assert (M0 : forall g u, ok M g -> moved M g g u t 0) by (intros; split; [apply same_refl|split; [auto|intros; ring]]).
  destruct (Nat.eqb_spec u t) as [->|Nt].
  - exists f, nxt, g. split; [auto|]. split; [lia|]. split; [split; [apply same_refl|split; [auto|intros; ring]]|]. split; [auto|]. split; [auto|]. split; [auto|]. split; [auto|]. lia.
  - assert (Hu : (u < length g)%nat) by (rewrite <- Ld; apply dv_get in Eu; now apply get_some_lt in Eu). destruct (@get_lt _ g u Hu) as [row Er]. rewrite Er. cbn [obind].
    match goal with |- context [loop _ ?bd _] => set (body := bd) end.
    set (GOAL := fun fl nxt' g' => 0 <= fl <= f /\ moved M g g' u t fl /\ length nxt' = length nxt /\
      (forall v k, get nxt' v = Some k -> (k <= length (nth v g []))%nat) /\
      (forall v x, dv dist v = Some x -> (x < d)%nat -> get nxt' v = get nxt v /\ get g' v = get g v) /\
      (forall v, dv dist v = None -> get nxt' v = get nxt v) /\
      (fl = 0 -> g' = g /\ (exhausted g nxt -> exhausted g nxt' /\ forall v, v <> u -> get nxt v = Some (length (nth v g [])) -> get nxt' v = Some (length (nth v g []))))).
    assert (G : forall k fs nx g1 it, GOAL fs nx g1 -> get nx u = Some it -> (length row - it < k)%nat ->
      exists fl nxt' g', loop k body (fs, nx, g1) = Some (fl, nxt', g') /\ GOAL fl nxt' g' /\ (fl = 0 -> get nxt' u = Some (length row))).
    { induction k as [|k IHk]; intros fs nx g1 it (A1 & A2 & A3 & A4 & A5 & A6 & A7) Ei Hk; [lia|]. cbn [loop]. unfold body at 1. rewrite Ei. cbn [obind].
      assert (GO : GOAL fs nx g1) by exact (conj A1 (conj A2 (conj A3 (conj A4 (conj A5 (conj A6 A7)))))).
      destruct A2 as (S1 & O1 & R1). assert (Lg1 : length g1 = length g) by apply (sm_len S1). destruct (@get_lt _ g1 u) as [row1 Er1]; [lia|]. rewrite Er1. cbn [obind].
      assert (Lr : length row1 = length row) by (pose proof (sm_row S1 u) as H; rewrite (@nth_get _ _ _ _ [] Er1), (@nth_get _ _ _ _ [] Er) in H; auto).
      assert (Hit : (it <= length row)%nat) by (pose proof (A4 u it Ei) as H; now rewrite (@nth_get _ _ _ _ [] Er) in H). rewrite Lr.
      destruct (Nat.eqb_spec it (length row)) as [Eend|Nend]; cbn [orb].
      { exists fs, nx, g1. split; [auto|]. split; [exact GO|]. intros _. congruence. }
      destruct (Z.ltb_spec fs f) as [Hfs|Hfs]; cbn [negb].
      2:{ exists fs, nx, g1. split; [auto|]. split; [exact GO|]. lia. }
      destruct (@get_lt _ row1 it) as [e Ee]; [lia|]. rewrite Ee. cbn [obind]. assert (Ee2 : get2 g1 u it = Some e) by (now rewrite (get2_row _ _ _ Er1)). pose proof (ok_cap O1 Ee2) as Ce. pose proof (ok_to O1 Ee2) as Te.
      (* the common end of an iteration *)
      assert (STEP : forall fs1 nx1 g2, GOAL fs1 nx1 g2 -> get nx1 u = Some it ->
        (fs1 = 0 -> forall e0, get2 g u it = Some e0 -> adm u e0 -> exhausted g nxt -> to e0 <> t /\ get nx1 (to e0) = Some (length (nth (to e0) g []))) ->
        exists fl nxt' g', match (let* it := get nx1 u in let* nx2 := set nx1 u (S it) in Some (inl (fs1, nx2, g2))) with None => None | Some (inl s') => loop k body s' | Some (inr r) => Some r end = Some (fl, nxt', g') /\ GOAL fl nxt' g' /\ (fl = 0 -> get nxt' u = Some (length row))).
      { intros fs1 nx1 g2 (C1 & C2 & C3 & C4 & C5 & C6 & C7) E1 Hadm. rewrite E1. cbn [obind]. assert (Hul : (u < length nx1)%nat) by lia. rewrite set_some by auto. cbn [obind]. apply IHk with (it := S it).
        - split; [auto|]. split; [auto|]. split; [now rewrite lset_length|]. split; [|split; [|split]].
          + intros v kk Ek. rewrite get_lset in Ek. destruct (Nat.eqb_spec u v) as [<-|]; cbn [andb] in Ek; [|eauto]. destruct (_ <? _)%nat in Ek; [|eauto]. injection Ek as <-. rewrite (@nth_get _ _ _ _ [] Er). lia.
          + intros v x Ev Hx. rewrite get_lset_neq by (intros ->; assert (x = d) by congruence; lia). eauto.
          + intros v Ev. rewrite get_lset_neq by congruence. eauto.
          + intros F0. destruct (C7 F0) as [Cg Cx]. split; [auto|]. intros X. destruct (Cx X) as [X1 X2]. split.
            * intros v i e' kk Ek Hi Ee' Ad. assert (Hv : to e' <> t /\ get nx1 (to e') = Some (length (nth (to e') g []))).
              { rewrite get_lset in Ek. destruct (Nat.eqb_spec u v) as [<-|]; cbn [andb] in Ek; [|eapply X1; eauto].
                replace (u <? length nx1)%nat with true in Ek by (symmetry; now apply Nat.ltb_lt). injection Ek as <-. destruct (Nat.eq_dec i it) as [->|]; [now apply (Hadm F0 e')|]. apply (X1 u i e' it); auto. lia. }
              destruct Hv as [Hv1 Hv2]. split; [auto|]. rewrite get_lset_neq; [auto|]. intros Eq. rewrite <- Eq, E1, (@nth_get _ _ _ _ [] Er) in Hv2. injection Hv2 as Hv2. congruence.
            * intros v Nv Hv. rewrite get_lset_neq by auto. auto.
        - apply get_lset_eq. auto.
        - lia. }
      assert (Eg : fs = 0 -> forall e0, get2 g u it = Some e0 -> e0 = e) by (intros F0 e0 E0; destruct (A7 F0) as [-> _]; congruence).
      destruct (Z.eqb_spec (cap e) 0) as [C0|C0]; cbn [obind].
      { apply STEP; auto. intros F0 e0 E0 [Ad _]. rewrite (Eg F0 e0 E0) in Ad. congruence. }
      destruct (@level_ok u (to e) d Eu) as (b & Eb & Hb); [lia|]. rewrite Eb. cbn [obind]. destruct b; cbn [obind].
      2:{ apply STEP; auto. intros F0 e0 E0 (_ & y & Y1 & Y2). rewrite (Eg F0 e0 E0) in Y2. assert (y = d) by congruence. subst y. apply Hb in Y2. discriminate. }
      pose proof (proj1 Hb eq_refl) as Et. clear Hb. assert (Ntu : to e <> u) by (intros El; rewrite El in Et; rewrite Eu in Et; injection Et as Et; lia).
      destruct (IH (to e) (Z.min (f - fs) (cap e)) nx g1 (S d)) as (fl & nx' & g3 & E3 & B1 & (S3 & O3 & R3) & B3 & B4 & B5 & B6 & B7); auto; try lia.
      { intros v kk Ek. rewrite (sm_row S1). eauto. }
      { pose proof (dist_max_le _ Et). lia. }
      rewrite E3. cbn [obind]. destruct (B5 u d Eu ltac:(lia)) as [Bu1 Bu2].
      assert (Bk : forall v kk, get nx' v = Some kk -> (kk <= length (nth v g []))%nat) by (intros v kk Ek; rewrite <- (sm_row S1); eauto).
      destruct (Z.eqb_spec fl 0) as [F0|F0]; cbn [obind].
      - destruct (B7 F0) as (-> & Bt & Bx). apply STEP; [|congruence|].
        + split; [auto|]. split; [split; [auto|split; auto]|]. split; [lia|]. split; [auto|]. split; [|split].
          * intros v x Ev Hx. destruct (B5 v x Ev ltac:(lia)) as [-> _]. eauto.
          * intros v Ev. rewrite (B6 v Ev). auto.
          * intros Fs. destruct (A7 Fs) as [-> Ax]. split; [auto|]. intros X. destruct (Ax X) as [X1 X2]. destruct (Bx X1) as (Y1 & Y2 & Y3). split; auto.
        + intros Fs e0 E0 _ X. rewrite (Eg Fs e0 E0). destruct (A7 Fs) as [Eg1 Ax]. subst g1. destruct (Ax X) as [X1 X2]. destruct (Bx X1) as (Y1 & Y2 & Y3). auto.
      - assert (Ee3 : get2 g3 u it = Some e) by (unfold get2; rewrite Bu2, Er1; auto). destruct (@push_ok M g3 u it e fl O3 Ee3 Ntu) as (g4 & E4 & S4 & O4 & R4 & K4); [lia|]. rewrite E4. cbn [obind]. apply STEP; [|congruence|lia].
        split; [lia|]. split; [split; [eapply same_trans; [exact S1|eapply same_trans; eauto]|split; [auto|intros v; rewrite R4, R3, R1; ring]]|]. split; [lia|]. split; [auto|]. split; [|split; [|lia]].
        + intros v x Ev Hx. destruct (B5 v x Ev ltac:(lia)) as [-> Bg]. destruct (A5 v x Ev Hx) as [An Ag]. split; [auto|]. rewrite K4; [congruence|intros ->; congruence || (assert (x = d) by congruence; lia)|intros ->; assert (x = S d) by congruence; lia].
        + intros v Ev. rewrite (B6 v Ev). auto. }
    destruct (@get_lt _ nxt u) as [it0 Ei0]; [lia|].
    destruct (G (S (length row)) 0 nxt g it0) as (fl & nxt' & g' & E & (H1 & H2 & H3 & H4 & H5 & H6 & H7) & Hend); auto; [|lia|].
    { split; [lia|]. split; [apply M0; auto|]. split; [auto|]. split; [auto|]. split; [auto|]. split; [auto|]. intros _. split; [auto|]. auto. }
    exists fl, nxt', g'. split; [exact E|]. split; [auto|]. split; [auto|]. split; [auto|]. split; [auto|]. split; [auto|]. split; [auto|]. intros F0. destruct (H7 F0) as [Hg Hx]. split; [auto|]. split; [auto|]. intros X. destruct (Hx X) as [X1 X2]. split; [auto|].
    assert (Eend : get nxt' u = Some (length (nth u g []))) by (rewrite (@nth_get _ _ _ _ [] Er); auto). split; [auto|]. intros v Hv. destruct (Nat.eq_dec v u) as [->|]; auto.
Qed.
End Dfs.
End Dinic.
