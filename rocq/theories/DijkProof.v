From Verif Require Import Base BaseLemmas ListExtra SearchModel FibModel FibOps FibProp NetModel.

(** ** The adjacency lists hold exactly the arcs *)
Definition nadj (G : network) (u : nat) : list (nat * Z) := nth u (nw_g G) [].
Definition nrepr (G : network) (n : nat) (A : list (nat * nat * Z)) : Prop :=
  nw_n G = n /\ length (nw_g G) = n /\ length (nw_in G) = n /\
  (forall u t c, In (t, c) (nadj G u) <-> In (u, t, c) A).
Lemma nrepr_make n : nrepr (nw_new n) n [].
Proof.
  unfold nrepr, nw_new, nadj. cbn [nw_n nw_g nw_in]. rewrite !repeat_length. split; [auto|]. split; [auto|]. split; [auto|].
  intros u t c. rewrite nth_repeat. cbn. tauto.
Qed.
Lemma to_int_id c : (0 <= c < 2 ^ 31)%Z -> to_int c = c.
Proof. intros H. unfold to_int. rewrite Z.mod_small by lia. lia. Qed.
Lemma nrepr_dir G n A a b c : nrepr G n A -> a < n -> b < n -> (0 <= c < 2 ^ 31)%Z ->
  exists G', nw_add_dir G a b c = Some G' /\ nrepr G' n (A ++ [(a, b, c)]).
Proof.
  intros (E & L1 & L2 & Ad) Ha Hb Hc. unfold nw_add_dir. rewrite to_int_id by auto.
  destruct (@get_lt _ (nw_g G) a ltac:(lia)) as (l & Gl). rewrite Gl. cbn [obind]. rewrite set_some by lia. cbn [obind].
  destruct (@get_lt _ (nw_in G) b ltac:(lia)) as (k & Gk). rewrite Gk. cbn [obind]. rewrite set_some by lia. cbn [obind]. eexists; split; [reflexivity|].
  unfold nrepr. cbn [nw_n nw_g nw_in]. rewrite !lset_length. split; [auto|]. split; [auto|]. split; [auto|].
  intros u t x. rewrite in_app_iff, <- Ad. unfold nadj. cbn [nw_g].
  destruct (Nat.eq_dec a u) as [->|N].
  - rewrite (nth_error_nth _ _ _ (@get_lset_eq _ (nw_g G) u (l ++ [(b, c)]) ltac:(lia))). rewrite (nth_error_nth _ _ _ Gl).
    rewrite in_app_iff. cbn. intuition congruence.
  - rewrite <- !nth_default_eq. unfold nth_default. fold (get (lset (nw_g G) a (l ++ [(b, c)])) u) (get (nw_g G) u).
    rewrite get_lset_neq by auto. cbn. intuition congruence.
Qed.
Lemma nbuild_ok n es : nedges_ok n (narcs es) -> exists G, nw_build n es = Some G /\ nrepr G n (narcs es).
Proof.
  unfold nw_build. intros Ok.
  assert (H : forall es G A, nrepr G n A -> nedges_ok n (narcs es) ->
    exists G', for_each es (fun e G => match e with NDir a b c => nw_add_dir G a b c | NBoth a b c => nw_add G a b c end) G = Some G' /\ nrepr G' n (A ++ narcs es)).
  { clear. induction es as [|e es IH]; intros G A R Ok; cbn [for_each].
    - exists G. split; auto. cbn. now rewrite app_nil_r.
    - assert (Ok2 : nedges_ok n (narcs es)) by (intros x y c Hxy; apply Ok; unfold narcs; cbn [flat_map]; apply in_or_app; now right).
      destruct e as [a b c|a b c].
      + destruct (Ok a b c) as (Ha & Hb & Hc); [now left|].
        destruct (nrepr_dir G n A a b c R Ha Hb Hc) as (G1 & -> & R1). cbn [obind].
        destruct (IH G1 _ R1 Ok2) as (G2 & E2 & R2). exists G2. split; auto. now rewrite <- app_assoc in R2.
      + destruct (Ok a b c) as (Ha & Hb & Hc); [now left|]. unfold nw_add.
        destruct (nrepr_dir G n A a b c R Ha Hb Hc) as (G1 & -> & R1). cbn [obind].
        destruct (nrepr_dir G1 n _ b a c R1 Hb Ha Hc) as (G2 & -> & R2). cbn [obind].
        destruct (IH G2 _ R2 Ok2) as (G3 & E3 & R3). exists G3. split; auto. now rewrite <- !app_assoc in R3. }
  apply (H es (nw_new n) [] (nrepr_make n) Ok).
Qed.

Lemma gtb_weak : weak_order Z.gtb.
Proof. split; intros *; rewrite ?Z.gtb_ltb, ?Z.ltb_lt, ?Z.ltb_ge; lia. Qed.

Local Open Scope Z_scope.
Section Dijkstra.
Variables (w : Z) (G : network) (n : nat) (A : list (nat * nat * Z)) (s : nat) (INF : Z).
Hypothesis Rp : nrepr G n A.
Hypothesis Ok : nedges_ok n A.
Hypothesis Hs : (s < n)%nat.
Hypothesis DO : dist_ok w A s INF.
Notation reach := (reach Z.gtb 0 n).

Lemma walk_nonneg u v c : wwalk A u v c -> 0 <= c.
Proof. induction 1; [lia|]. apply Ok in H0. lia. Qed.
Lemma walk_lt v c : wwalk A s v c -> (v < n)%nat.
Proof. intros H. inversion H; subst; auto. match goal with H : In _ A |- _ => apply Ok in H end. tauto. Qed.

Definition D (dist : list Z) (v : nat) : Z := nth v dist INF.
Lemma D_get dist v : length dist = n -> (v < n)%nat -> get dist v = Some (D dist v).
Proof. intros L H. unfold get, D. apply nth_error_nth'. lia. Qed.
Lemma D_lset dist v x t : length dist = n -> (v < n)%nat -> D (lset dist v x) t = if (t =? v)%nat then x else D dist t.
Proof.
  intros L H. unfold D. destruct (Nat.eqb_spec t v) as [->|N].
  - apply nth_error_nth. apply (@get_lset_eq _ dist v x). lia.
  - rewrite <- !nth_default_eq. unfold nth_default. fold (get (lset dist v x) t) (get dist t). rewrite get_lset_neq; auto.
Qed.

(** [P v t c] says whether the arc has been relaxed; [b] separates settled and live distances. *)
Record inv (b : Z) (S : list nat) (P : nat -> nat -> Z -> Prop) (h : fh Z) (m : pmap Z) (dist : list Z) : Prop := {
  i_r : reach h m;
  i_len : length dist = n;
  i_m : forall v d, m v = Some d -> (v < n)%nat /\ D dist v = d /\ d < INF /\ b <= d;
  i_nd : NoDup S;
  i_S : forall v, In v S -> (v < n)%nat /\ m v = None /\ D dist v < INF /\ D dist v <= b;
  i_walk : forall v, D dist v = INF \/ wwalk A s v (D dist v);
  i_live : forall v, D dist v < INF -> In v S \/ m v = Some (D dist v);
  i_le : forall v, D dist v <= INF;
  i_rel : forall v t c, In v S -> In (v, t, c) A -> P v t c -> D dist t <= D dist v + c;
  i_s : D dist s = 0 }.
Definition all_rel : nat -> nat -> Z -> Prop := fun _ _ _ => True.

Lemma frontier b S h m dist u v c : inv b S all_rel h m dist -> wwalk A u v c -> u = s ->
  (In v S /\ D dist v <= c) \/ (exists y d, m y = Some d /\ d <= c) \/ INF <= c.
Proof.
  intros I Hw. induction Hw as [u|u v t c x Hw IH He]; intros ->.
  - destruct DO as (HI & _). destruct (i_live _ _ _ _ _ _ I s) as [H|H]; [rewrite (i_s _ _ _ _ _ _ I); lia| |].
    + left. split; auto. rewrite (i_s _ _ _ _ _ _ I). lia.
    + right. left. exists s, (D dist s). split; auto. rewrite (i_s _ _ _ _ _ _ I). lia.
  - destruct (Ok _ _ _ He) as (_ & _ & Hx). destruct (IH eq_refl) as [[Hv Hd]|[(y & d & Hm & Hd)|H]].
    + pose proof (i_rel _ _ _ _ _ _ I v t x Hv He Logic.I) as Hr.
      pose proof (i_le _ _ _ _ _ _ I t) as Hl. destruct (Z.eq_dec (D dist t) INF) as [E|N]; [right; right; lia|].
      destruct (i_live _ _ _ _ _ _ I t) as [H|H]; [lia| |].
      * left. split; auto. lia.
      * right. left. exists t, (D dist t). split; auto. lia.
    + right. left. exists y, d. split; auto. lia.
    + right. right. lia.
Qed.

Lemma dijkstra_ok : exists dist, dijkstra w G s INF = Some dist /\ length dist = n /\
  forall v, (v < n)%nat -> shortest A s v (D dist v) \/ (D dist v = INF /\ forall c, ~ wwalk A s v c).
Proof.
  destruct Rp as (En & Lg & _ & Adj). destruct DO as (HI & HR & HO).
  unfold dijkstra. rewrite En. rewrite set_some by (rewrite repeat_length; auto). cbn [obind].
  destruct (C42_new Z.gtb 0 n) as (h0 & E0 & R0). rewrite E0. cbn [obind].
  destruct (C42_update gtb_weak 0 R0 Hs) as (h1 & E1 & R1). rewrite E1. cbn [obind].
  match goal with |- context [loop _ ?bd _] => set (body := bd) end.
  assert (Lp : forall fuel b S h m dist, inv b S all_rel h m dist -> (n < length S + fuel)%nat ->
    exists b' S' h' m' dist', loop fuel body (h, dist) = Some dist' /\ inv b' S' all_rel h' m' dist' /\ forall v, m' v = None).
  { induction fuel as [|fuel IH]; intros b S h m dist I Hf.
    { exfalso. assert (length S <= n)%nat; [|lia]. apply NoDup_bound; [apply (i_nd _ _ _ _ _ _ I)|]. intros x Hx. now apply (i_S _ _ _ _ _ _ I). }
    cbn [loop]. unfold body at 1. pose proof (C42_size gtb_weak (i_r _ _ _ _ _ _ I)) as Sz.
    destruct (Nat.eqb_spec (fh_size h) 0) as [Ez|Nz].
    { exists b, S, h, m, dist. split; auto. split; auto. intros v. rewrite Ez in Sz. destruct Sz as (ks & _ & L & H). destruct ks; [|discriminate].
      destruct (m v) eqn:Em; auto. exfalso. apply (proj2 (H v)). congruence. }
    assert (Hj : exists j, m j <> None).
    { destruct Sz as (ks & _ & L & H). destruct ks as [|j ks]; [cbn in L; lia|]. exists j. apply H. now left. }
    destruct Hj as (j & Ej). destruct (C42_pop gtb_weak j (i_r _ _ _ _ _ _ I) Ej) as (k & d & h2 & Et & (Ek & Best) & Ep & R2).
    rewrite Et. cbn [obind]. rewrite Ep. cbn [obind].
    destruct (i_m _ _ _ _ _ _ I k d Ek) as (Lk & Dk & dI & bd). rewrite (D_get dist k (i_len _ _ _ _ _ _ I) Lk). cbn [obind].
    rewrite Dk, Z.eqb_refl. cbn [guard obind].
    assert (Rk : get (nw_g G) k = Some (nadj G k)) by (unfold get, nadj; apply nth_error_nth'; lia). rewrite Rk. cbn [obind].
    assert (NkS : ~ In k S) by (intros H; apply (i_S _ _ _ _ _ _ I) in H as (_ & H & _); congruence).
    assert (Sd : shortest A s k d).
    { split.
      - destruct (i_walk _ _ _ _ _ _ I k) as [H|H]; [lia|]. now rewrite Dk in H.
      - intros c Hc. destruct (frontier _ _ _ _ _ _ _ _ I Hc eq_refl) as [[H _]|[(y & dy & Hy & Hd)|H]]; [contradiction| |lia].
        apply Best in Hy. rewrite Z.gtb_ltb in Hy. apply Z.ltb_ge in Hy. lia. }
    assert (d0 : 0 <= d) by (destruct Sd as [Sd _]; now apply walk_nonneg in Sd).
    (* relaxing the arcs of k *)
    match goal with |- context [for_each _ ?bd _] => set (relax := bd) end.
    assert (Lr : forall l h3 m3 dist3, (forall t c, In (t, c) l -> In (k, t, c) A) -> D dist3 k = d ->
        inv d (k :: S) (fun v t c => v = k -> ~ In (t, c) l) h3 m3 dist3 ->
        exists h4 m4 dist4, for_each l relax (h3, dist3) = Some (h4, dist4) /\ inv d (k :: S) all_rel h4 m4 dist4).
    { induction l as [|[t c] l IHl]; intros h3 m3 dist3 Hl Dk3 I3; cbn [for_each].
      - exists h3, m3, dist3. split; auto. destruct I3. split; auto.
      - assert (He : In (k, t, c) A) by (apply Hl; now left). destruct (Ok _ _ _ He) as (_ & Lt & Hc).
        pose proof (HO k d t c Sd He) as Ho. unfold relax at 1.
        assert (Em : mach w (d + c) = Some (d + c)).
        { unfold mach. replace ((- 2 ^ (w - 1) <=? d + c) && (d + c <? 2 ^ (w - 1))) with true; auto. symmetry. apply andb_true_iff.
          split; [apply Z.leb_le|apply Z.ltb_lt]; lia. }
        rewrite Em. cbn [obind]. rewrite (D_get dist3 t (i_len _ _ _ _ _ _ I3) Lt). cbn [obind].
        destruct (Z.leb_spec (D dist3 t) (d + c)) as [Hle|Hgt]; cbn [obind].
        + apply IHl with m3; auto; [intros; apply Hl; now right|]. destruct I3. split; auto.
          intros v t' c' Hv He' Hn. destruct (Nat.eq_dec v k) as [->|Nv].
          * destruct (Nat.eq_dec t' t) as [->|Nt]; [destruct (Z.eq_dec c' c) as [->|Nc]; [lia|]|].
            -- apply i_rel0; auto. intros _ [H1|H1]; [congruence|]. now apply Hn.
            -- apply i_rel0; auto. intros _ [H1|H1]; [congruence|]. now apply Hn.
          * apply i_rel0; auto; intros; congruence.
        + rewrite set_some by (rewrite (i_len _ _ _ _ _ _ I3); auto). cbn [obind].
          destruct (C42_update gtb_weak (d + c) (i_r _ _ _ _ _ _ I3) Lt) as (h4 & E4 & R4). rewrite E4. cbn [obind].
          assert (Nt : ~ In t (k :: S)).
          { intros H1. apply (i_S _ _ _ _ _ _ I3) in H1. lia. }
          pose proof (i_le _ _ _ _ _ _ I3 t) as HtI.
          assert (Hset : forall x, D (lset dist3 t (d + c)) x = if (x =? t)%nat then d + c else D dist3 x) by (intros x; apply D_lset; auto; apply (i_len _ _ _ _ _ _ I3)).
          assert (Nk : k <> t) by (intros ->; apply Nt; now left).
          assert (Hm4 : forall x, p_push Z.gtb m3 t (d + c) x = if (x =? t)%nat then Some (d + c) else m3 x).
          { intros x. unfold p_push, p_set. destruct (x =? t)%nat; auto. destruct (m3 t) as [y|] eqn:Ey; auto.
            destruct (i_m _ _ _ _ _ _ I3 t y Ey) as (_ & <- & _). rewrite Z.gtb_ltb. now rewrite (proj2 (Z.ltb_lt _ _) Hgt). }
          apply IHl with (p_push Z.gtb m3 t (d + c)); auto; [intros; apply Hl; now right| |].
          { rewrite Hset. rewrite (proj2 (Nat.eqb_neq _ _) Nk). auto. }
          destruct I3. split; auto.
          * now rewrite lset_length.
          * intros x y. rewrite Hm4, Hset. destruct (Nat.eqb_spec x t) as [->|N]; auto. intros E. injection E as <-. repeat split; auto; lia.
          * intros x Hx. rewrite Hm4, Hset. destruct (Nat.eqb_spec x t) as [->|N]; [contradiction|]. auto.
          * intros x. rewrite Hset. destruct (Nat.eqb_spec x t) as [->|N]; auto. right. eapply ww_snoc; [apply Sd|auto].
          * intros x. rewrite Hset, Hm4. destruct (Nat.eqb_spec x t) as [->|N]; auto.
          * intros x. rewrite Hset. destruct (Nat.eqb_spec x t) as [->|N]; auto. lia.
          * intros v t' c' Hv He' Hn. rewrite !Hset. destruct (Nat.eqb_spec v t) as [->|Nv]; [contradiction|].
            destruct (Nat.eq_dec v k) as [->|Nvk].
            -- destruct (Nat.eqb_spec t' t) as [->|Nt'].
               ++ destruct (Z.eq_dec c' c) as [->|Nc]; [lia|].
                  assert (D dist3 t <= D dist3 k + c'); [|lia]. apply i_rel0; auto. intros _ [H1|H1]; [congruence|]. now apply Hn.
               ++ apply i_rel0; auto. intros _ [H1|H1]; [congruence|]. now apply Hn.
            -- assert (D dist3 t' <= D dist3 v + c') by (apply i_rel0; auto; intros; congruence).
               destruct (Nat.eqb_spec t' t) as [->|Nt']; lia.
          * rewrite Hset. destruct (Nat.eqb_spec s t) as [<-|N]; auto. lia. }
    destruct (Lr (nadj G k) h2 (p_set m k None) dist) as (h4 & m4 & dist4 & E4 & I4).
    - intros t c. apply Adj.
    - auto.
    - destruct I. split; auto.
      + intros x y. unfold p_set. destruct (x =? k)%nat eqn:Ex; [discriminate|]. intros Ey. destruct (i_m0 x y Ey) as (H1 & H2 & H3 & H4). repeat split; auto.
        apply Best in Ey. rewrite Z.gtb_ltb in Ey. now apply Z.ltb_ge in Ey.
      + constructor; auto.
      + intros x. unfold p_set. intros [<-|Hx].
        * rewrite Nat.eqb_refl. repeat split; auto; lia.
        * destruct (i_S0 x Hx) as (H1 & H2 & H3 & H4). rewrite H2. destruct (x =? k)%nat; repeat split; auto; lia.
      + intros x Hx. unfold p_set. destruct (Nat.eqb_spec x k) as [->|N]; [left; now left|]. destruct (i_live0 x Hx); [left; now right|auto].
      + intros v t c [<-|Hv] He Hn; [exfalso; apply Hn; auto; now apply Adj|]. apply i_rel0; auto. exact Logic.I.
    - rewrite E4. cbn [obind]. apply (IH d (k :: S) h4 m4 dist4 I4). cbn. lia. }
  destruct (Lp (n + 1)%nat 0 [] h1 (p_push Z.gtb (fun _ => None) s 0) (lset (repeat INF n) s 0)) as (b' & S' & h' & m' & dist' & E & I & Hm).
  - assert (Hset : forall x, D (lset (repeat INF n) s 0) x = if (x =? s)%nat then 0 else INF).
    { intros x. rewrite D_lset; auto using repeat_length. unfold D. now rewrite nth_repeat. }
    assert (Hp : forall x, p_push Z.gtb (fun _ => None) s 0 x = if (x =? s)%nat then Some 0 else None) by (intros x; reflexivity).
    split; try (intros; contradiction); auto.
    + now rewrite lset_length, repeat_length.
    + intros x y. rewrite Hp, Hset. destruct (Nat.eqb_spec x s) as [->|N]; [|discriminate]. intros E. injection E as <-. repeat split; auto; lia.
    + constructor.
    + intros x. rewrite Hset. destruct (Nat.eqb_spec x s) as [->|N]; auto. right. constructor.
    + intros x. rewrite Hset, Hp. destruct (Nat.eqb_spec x s) as [->|N]; auto. lia.
    + intros x. rewrite Hset. destruct (Nat.eqb_spec x s) as [->|N]; lia.
    + rewrite Hset. now rewrite Nat.eqb_refl.
  - cbn. lia.
  - exists dist'. split; auto. split; [apply (i_len _ _ _ _ _ _ I)|]. intros v Hv.
    pose proof (i_le _ _ _ _ _ _ I v) as Hle. destruct (Z.eq_dec (D dist' v) INF) as [Ed|Nd].
    + right. split; auto. intros c Hc. destruct (HR v c Hc) as (d & Hd & Lt).
      destruct (frontier _ _ _ _ _ _ _ _ I Hd eq_refl) as [[H _]|[(y & dy & Hy & _)|H]]; [|rewrite Hm in Hy; discriminate|lia].
      apply (i_S _ _ _ _ _ _ I) in H. lia.
    + left. split.
      * destruct (i_walk _ _ _ _ _ _ I v) as [H|H]; auto. contradiction.
      * intros c Hc. destruct (frontier _ _ _ _ _ _ _ _ I Hc eq_refl) as [[_ H]|[(y & dy & Hy & _)|H]]; [auto|rewrite Hm in Hy; discriminate|lia].
Qed.
End Dijkstra.
