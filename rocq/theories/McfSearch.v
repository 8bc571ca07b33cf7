(** Proofs about [McfModel]: the search for cheapest paths with potentials. *)
From Verif Require Import Base BaseLemmas ListExtra NthExtra FibModel FibOps FibProp DijkProof FlowModel FlowProof McfModel McfCost McfBuild.
Set Implicit Arguments.
Open Scope Z_scope.

Section Search.
Variables (w K : Z) (n : nat) (g : cnet) (h : list Z) (s : nat) (R : nat -> Prop).
Notation INF := (inf w).
Notation reach := (reach Z.gtb 0 n).
Definition ph (v : nat) : Z := nth v h 0.
Definition D (dist : list Z) (v : nat) : Z := nth v dist INF.
Definition V (pv : list nat) (v : nat) : nat := nth v pv 0%nat.
Hypothesis Lg : length g = n.
Hypothesis Lh : length h = n.
Hypothesis Hs : (s < n)%nat.
Hypothesis HK : 0 <= K.
Hypothesis HI : Z.of_nat n * K < INF.
Hypothesis Ar : forall u i e k, get2 g u i = Some (e, k) -> (to e < n)%nat /\ - K <= k <= K.
Hypothesis Rs : R s.
Hypothesis Rc : forall u i e k, R u -> get2 g u i = Some (e, k) -> cap e <> 0 -> R (to e) /\ 0 <= k + ph u - ph (to e).
Hypothesis Rh : forall v, R v -> 0 <= ph v.
Hypothesis H0 : ph s = 0.

Lemma D_get dist v : length dist = n -> (v < n)%nat -> get dist v = Some (D dist v).
Proof. intros L Lv. unfold get, D. apply nth_error_nth'. lia. Qed.
Lemma D_lset dist v x t : length dist = n -> (v < n)%nat -> D (lset dist v x) t = if (t =? v)%nat then x else D dist t.
Proof.
  intros L Lv. unfold D. rewrite nth_lset, (Nat.eqb_sym t v). destruct (v =? t)%nat; cbn [andb]; [|auto]. rewrite (proj2 (Nat.ltb_lt _ _)); [auto|lia].
Qed.
Lemma V_lset pv v x t : length pv = n -> (v < n)%nat -> V (lset pv v x) t = if (t =? v)%nat then x else V pv t.
Proof.
  intros L Lv. unfold V. rewrite nth_lset, (Nat.eqb_sym t v). destruct (v =? t)%nat; cbn [andb]; [|auto]. rewrite (proj2 (Nat.ltb_lt _ _)); [auto|lia].
Qed.

(** [S] are the vertices already taken from the heap, [rk] their order; [P v i] says whether
    the arc has been relaxed; [b] separates settled and live distances. *)
Record inv (b : Z) (S : list nat) (rk : nat -> nat) (P : nat -> nat -> Prop) (m : pmap Z) (st : fh Z * list Z * list nat * list nat) : Prop := Inv {
  i_r : reach (fst (fst (fst st))) m;
  i_len : length (snd (fst (fst st))) = n;
  i_pv : length (snd (fst st)) = n;
  i_pe : length (snd st) = n;
  i_m : forall v d, m v = Some d -> (v < n)%nat /\ D (snd (fst (fst st))) v = d /\ d < INF /\ b <= d;
  i_nd : NoDup S;
  i_S : forall v, In v S -> (v < n)%nat /\ m v = None /\ D (snd (fst (fst st))) v < INF /\ D (snd (fst (fst st))) v <= b /\ (rk v < length S)%nat;
  i_R : forall v, D (snd (fst (fst st))) v < INF -> (v < n)%nat /\ R v /\ D (snd (fst (fst st))) v + ph v <= Z.of_nat (length S) * K;
  i_le : forall v, 0 <= D (snd (fst (fst st))) v <= INF;
  i_live : forall v, D (snd (fst (fst st))) v < INF -> In v S \/ m v = Some (D (snd (fst (fst st))) v);
  i_rel : forall v i e k, In v S -> get2 g v i = Some (e, k) -> cap e <> 0 -> P v i -> D (snd (fst (fst st))) (to e) < INF /\ D (snd (fst (fst st))) (to e) <= D (snd (fst (fst st))) v + k + ph v - ph (to e);
  i_s : D (snd (fst (fst st))) s = 0;
  i_prev : forall v, D (snd (fst (fst st))) v < INF -> v <> s -> exists e k, get2 g (V (snd (fst st)) v) (V (snd st) v) = Some (e, k) /\ to e = v /\ cap e <> 0 /\ In (V (snd (fst st)) v) S /\
    D (snd (fst (fst st))) v = D (snd (fst (fst st))) (V (snd (fst st)) v) + k + ph (V (snd (fst st)) v) - ph v;
  i_ord : forall v, In v S -> v <> s -> (rk (V (snd (fst st)) v) < rk v)%nat }.
Definition all_rel : nat -> nat -> Prop := fun _ _ => True.

Lemma INF_pos : 0 < INF.
Proof. nia. Qed.
Lemma INF_def : INF = 2 ^ (w - 1) - 1.
Proof. reflexivity. Qed.

Lemma relax_ok u d S rk m qs dist pv pe : inv d (u :: S) rk (fun v _ => v <> u) m (qs, dist, pv, pe) -> D dist u = d -> d + ph u <= Z.of_nat (length S) * K ->
  exists st m', mc_relax w g h u d (qs, dist, pv, pe) = Some st /\ inv d (u :: S) rk all_rel m' st.
Proof.
  intros I0 Du Bd. assert (uS : In u (u :: S)) by now left. destruct (i_S I0 u uS) as (Lu & _ & dI & _). cbn [fst snd] in *. destruct (i_R I0 u dI) as (_ & Ru & _). pose proof (i_le I0 u) as du0. cbn [fst snd] in *. pose proof (Rh Ru) as Hu.
  assert (Sn : (length (u :: S) <= n)%nat) by (apply NoDup_bound; [apply (i_nd I0)|]; intros x Hx; now apply (i_S I0)). cbn [length] in Sn.
  assert (Bq : Z.of_nat (length (u :: S)) * K <= Z.of_nat n * K) by (apply Z.mul_le_mono_nonneg_r; cbn [length]; lia).
  assert (Bq1 : Z.of_nat (length (u :: S)) * K = Z.of_nat (length S) * K + K) by (cbn [length]; rewrite Nat2Z.inj_succ; ring).
  unfold mc_relax. destruct (@get_lt _ g u) as [row Er]; [lia|]. rewrite Er. cbn [obind].
  match goal with |- context [for_up _ _ ?bd _] => set (body := bd) end.
  destruct (@for_up_rule _ (fun j st => (exists m', inv d (u :: S) rk (fun v i => v = u -> (i < j)%nat) m' st) /\ D (snd (fst (fst st))) u = d) body (length row) 0 (qs, dist, pv, pe)) as (st & E & (m' & I1) & Du1).
  - split; [|auto]. exists m. destruct I0. split; auto. intros v i e k Hv He Hc HP. apply (i_rel0 v i e k); auto. intros ->. specialize (HP eq_refl). lia.
  - intros j [[[qs1 dist1] pv1] pe1] Hj [(m1 & I1) Du1]. cbn [fst snd] in Du1. destruct (@get_lt _ row j) as [[e k] Ee]; [lia|]. unfold body. rewrite Ee. cbn [obind].
    assert (Eg : get2 g u j = Some (e, k)) by (unfold get2; rewrite Er; auto).
    destruct (Z.eqb_spec (cap e) 0) as [Ec|Nc].
    { eexists. split; [reflexivity|]. split; [|auto]. exists m1. destruct I1. split; auto. intros v i e' k' Hv He' Hc' HP. apply (i_rel0 v i e' k'); auto. intros ->. specialize (HP eq_refl). destruct (Nat.eq_dec i j) as [->|]; [|lia]. exfalso. congruence. }
    destruct (Ar _ _ Eg) as [Lt Hk]. destruct (Rc _ Ru Eg Nc) as [Rt Hrc]. pose proof (Rh Rt) as Ht.
    assert (Gh : forall v, (v < n)%nat -> get h v = Some (ph v)) by (intros v Lv; apply get_nth; lia).
    rewrite (Gh u Lu), (Gh (to e) Lt). cbn [obind]. pose proof INF_def as ID.
    rewrite mach_some by lia. cbn [obind]. rewrite mach_some by lia. cbn [obind]. rewrite mach_some by lia. cbn [obind].
    rewrite (@D_get dist1 (to e) (i_len I1) Lt). cbn [obind fst snd]. set (x := d + k + ph u - ph (to e)).
    destruct (Z.leb_spec (D dist1 (to e)) x) as [Hle|Hgt].
    { eexists. split; [reflexivity|]. split; [|auto]. exists m1. destruct I1. split; auto. intros v i e' k' Hv He' Hc' HP. destruct (Nat.eq_dec v u) as [->|Nv]; [|apply (i_rel0 v i e' k'); auto; intros; congruence].
      destruct (Nat.eq_dec i j) as [->|Ni]; [|apply (i_rel0 u i e' k'); auto; intros _; specialize (HP eq_refl); lia]. assert (e' = e /\ k' = k) as [-> ->] by (split; congruence). cbn [fst snd] in *. rewrite Du1. unfold x in Hle. lia. }
    pose proof (i_pv I1) as Lpv. pose proof (i_pe I1) as Lpe. pose proof (i_len I1) as Ld. cbn [fst snd] in Lpv, Lpe, Ld.
    rewrite set_some by lia. cbn [obind]. destruct (C42_push gtb_weak x (i_r I1) Lt) as (h4 & E4 & R4). cbn [fst snd] in E4. rewrite E4. cbn [obind]. rewrite set_some by lia. cbn [obind]. rewrite set_some by lia. cbn [obind].
    eexists. split; [reflexivity|].
    assert (Nt : ~ In (to e) (u :: S)). { intros Hin. apply (i_S I1) in Hin. cbn [fst snd] in Hin. unfold x in Hgt. lia. }
    assert (Nut : u <> to e) by (intros E; apply Nt; rewrite <- E; now left).
    assert (Nst : s <> to e). { intros E. rewrite <- E in Hgt. pose proof (i_s I1) as Q. cbn [fst snd] in Q. unfold x in Hgt. lia. }
    pose proof (i_le I1 (to e)) as HtI. cbn [fst snd] in HtI.
    assert (Hset : forall y, D (lset dist1 (to e) x) y = if (y =? to e)%nat then x else D dist1 y) by (intros y; apply D_lset; auto).
    assert (HV : forall y, V (lset pv1 (to e) u) y = if (y =? to e)%nat then u else V pv1 y) by (intros y; apply V_lset; auto).
    assert (HE : forall y, V (lset pe1 (to e) j) y = if (y =? to e)%nat then j else V pe1 y) by (intros y; apply V_lset; auto).
    assert (Hm4 : forall y, p_push Z.gtb m1 (to e) x y = if (y =? to e)%nat then Some x else m1 y).
    { intros y. unfold p_push, p_set. destruct (y =? to e)%nat; auto. destruct (m1 (to e)) as [z|] eqn:Ez; auto.
      destruct (i_m I1 _ Ez) as (_ & <- & _). cbn [fst snd]. rewrite Z.gtb_ltb. now rewrite (proj2 (Z.ltb_lt _ _) Hgt). }
    split; [|cbn [fst snd]; rewrite Hset, (proj2 (Nat.eqb_neq _ _) Nut); auto].
    exists (p_push Z.gtb m1 (to e) x). destruct I1. cbn [fst snd] in *. split; cbn [fst snd]; auto.
    + now rewrite lset_length.
    + now rewrite lset_length.
    + now rewrite lset_length.
    + intros v y. rewrite Hm4, Hset. destruct (Nat.eqb_spec v (to e)) as [->|N]; auto. intros E. injection E as <-. unfold x in *. repeat split; auto; lia.
    + intros v Hv. rewrite Hm4, Hset. destruct (Nat.eqb_spec v (to e)) as [->|N]; [contradiction|]. auto.
    + intros v. rewrite Hset. destruct (Nat.eqb_spec v (to e)) as [->|N]; auto. intros _. split; [auto|]. split; [auto|]. unfold x. lia.
    + intros v. rewrite Hset. destruct (Nat.eqb_spec v (to e)) as [->|N]; auto. unfold x in *. lia.
    + intros v. rewrite Hset, Hm4. destruct (Nat.eqb_spec v (to e)) as [->|N]; auto.
    + intros v i e' k' Hv He' Hc' HP. rewrite !Hset. destruct (Nat.eqb_spec v (to e)) as [->|Nv]; [contradiction|].
      destruct (Nat.eq_dec v u) as [->|Nvu].
      * destruct (Nat.eq_dec i j) as [->|Ni].
        -- assert (e' = e /\ k' = k) as [-> ->] by (split; congruence). rewrite Nat.eqb_refl, Du1. unfold x in *. lia.
        -- destruct (i_rel0 u i e' k') as [Q1 Q2]; auto; [intros _; specialize (HP eq_refl); lia|]. destruct (Nat.eqb_spec (to e') (to e)) as [Q|]; [rewrite Q in *; lia|auto].
      * destruct (i_rel0 v i e' k') as [Q1 Q2]; auto; [intros; congruence|]. destruct (Nat.eqb_spec (to e') (to e)) as [Q|]; [rewrite Q in *; lia|auto].
    + rewrite Hset, (proj2 (Nat.eqb_neq _ _) Nst). auto.
    + intros v. rewrite Hset, HV, HE. destruct (Nat.eqb_spec v (to e)) as [->|N].
      * intros _ _. exists e, k. rewrite Hset, (proj2 (Nat.eqb_neq _ _) Nut). repeat split; auto. unfold x. lia.
      * intros Hv Ns. destruct (i_prev0 v Hv Ns) as (e' & k' & Q1 & Q2 & Q3 & Q4 & Q5). exists e', k'. rewrite Hset. destruct (Nat.eqb_spec (V pv1 v) (to e)) as [Q|_]; [rewrite Q in Q4; contradiction|]. auto.
    + intros v Hv Ns. rewrite HV. destruct (Nat.eqb_spec v (to e)) as [->|N]; [contradiction|]. auto.
  - exists st, m'. split; [auto|]. destruct I1. split; auto. intros v i e k Hv He Hc _. apply (i_rel0 v i e k); auto. intros ->. unfold get2 in He. rewrite Er in He. cbn [obind] in He. apply get_some_lt in He. lia.
Qed.

Lemma search_ok qs m0 pv pe : reach qs m0 -> (forall v, m0 v = None) -> length pv = n -> length pe = n ->
  exists qs' m dist pv' pe' rk, mc_search w g h s qs pv pe = Some (qs', dist, pv', pe') /\ reach qs' m /\ (forall v, m v = None) /\
    length dist = n /\ length pv' = n /\ length pe' = n /\ D dist s = 0 /\ (forall v, 0 <= D dist v <= INF) /\
    (forall v, D dist v < INF -> (v < n)%nat /\ R v /\ D dist v + ph v <= Z.of_nat n * K /\ (rk v < n)%nat) /\
    (forall u i e k, get2 g u i = Some (e, k) -> cap e <> 0 -> D dist u < INF -> D dist (to e) < INF /\ D dist (to e) <= D dist u + k + ph u - ph (to e)) /\
    (forall v, D dist v < INF -> v <> s -> exists e k, get2 g (V pv' v) (V pe' v) = Some (e, k) /\ to e = v /\ cap e <> 0 /\ D dist (V pv' v) < INF /\
      (rk (V pv' v) < rk v)%nat /\ D dist v = D dist (V pv' v) + k + ph (V pv' v) - ph v).
Proof.
  intros R0 M0 Lpv Lpe. pose proof INF_pos as IP. unfold mc_search. rewrite Lg. rewrite set_some by (rewrite repeat_length; auto). cbn [obind].
  destruct (C42_push gtb_weak 0 R0 Hs) as (h1 & E1 & R1). rewrite E1. cbn [obind].
  match goal with |- context [loop _ ?bd _] => set (body := bd) end.
  assert (Lp : forall fuel b S rk m st, inv b S rk all_rel m st -> (n < length S + fuel)%nat ->
    exists b' S' rk' m' st', loop fuel body st = Some st' /\ inv b' S' rk' all_rel m' st' /\ forall v, m' v = None).
  { induction fuel as [|fuel IH]; intros b S rk m [[[q dist] pv1] pe1] I Hf.
    { exfalso. assert (length S <= n)%nat; [|lia]. apply NoDup_bound; [apply (i_nd I)|]. intros x Hx. now apply (i_S I). }
    cbn [loop]. unfold body at 1. pose proof (C42_size gtb_weak (i_r I)) as Sz. cbn [fst snd] in Sz.
    destruct (Nat.eqb_spec (fh_size q) 0) as [Ez|Nz].
    { exists b, S, rk, m, (q, dist, pv1, pe1). split; auto. split; auto. intros v. rewrite Ez in Sz. destruct Sz as (ks & _ & L & Hk). destruct ks; [|discriminate].
      destruct (m v) eqn:Em; auto. exfalso. apply (proj2 (Hk v)). congruence. }
    assert (Hj : exists j, m j <> None).
    { destruct Sz as (ks & _ & L & Hk). destruct ks as [|j ks]; [cbn in L; lia|]. exists j. apply Hk. now left. }
    destruct Hj as (j & Ej). destruct (C42_pop gtb_weak j (i_r I) Ej) as (u & d & h2 & Et & (Ek & Best) & Ep & R2). cbn [fst snd] in *.
    rewrite Et. cbn [obind]. rewrite Ep. cbn [obind].
    destruct (i_m I u Ek) as (Lu & Du & dI & bd). cbn [fst snd] in Du.
    assert (NuS : ~ In u S) by (intros Hin; apply (i_S I) in Hin as (_ & Q & _); congruence).
    destruct (i_R I u) as (_ & Ru & Bu); [cbn [fst snd]; lia|]. cbn [fst snd] in Bu. rewrite Du in Bu.
    set (rk' := fun v => if (v =? u)%nat then length S else rk v).
    destruct (@relax_ok u d S rk' (p_set m u None) h2 dist pv1 pe1) as (st2 & m2 & E2 & I2); auto.
    - destruct I. cbn [fst snd] in *. split; cbn [fst snd]; auto.
      + intros x y. unfold p_set. destruct (x =? u)%nat eqn:Ex; [discriminate|]. intros Ey. destruct (i_m0 x y Ey) as (Q1 & Q2 & Q3 & Q4). repeat split; auto.
        apply Best in Ey. rewrite Z.gtb_ltb in Ey. now apply Z.ltb_ge in Ey.
      + constructor; auto.
      + intros x. unfold p_set, rk'. intros [<-|Hx].
        * rewrite Nat.eqb_refl. cbn [length]. repeat split; auto; lia.
        * destruct (i_S0 x Hx) as (Q1 & Q2 & Q3 & Q4 & Q5). rewrite Q2. cbn [length]. destruct (x =? u)%nat; repeat split; auto; lia.
      + intros v Hv. destruct (i_R0 v Hv) as (Q1 & Q2 & Q3). cbn [length]. rewrite Nat2Z.inj_succ, Z.mul_succ_l. repeat split; auto; lia.
      + intros x Hx. unfold p_set. destruct (Nat.eqb_spec x u) as [->|N]; [left; now left|]. destruct (i_live0 x Hx); [left; now right|auto].
      + intros v i e k [<-|Hv] He Hc HP; [congruence|]. apply (i_rel0 v i e k); auto. exact Logic.I.
      + intros v Hv Ns. destruct (i_prev0 v Hv Ns) as (e & k & Q1 & Q2 & Q3 & Q4 & Q5). exists e, k. split; auto. split; auto. split; auto. split; auto. now right.
      + intros v Hv Ns. unfold rk'. assert (VS : In (V pv1 v) S).
        { destruct Hv as [<-|Hv]; [destruct (i_prev0 u) as (e & k & _ & _ & _ & Q & _); auto; lia|]. destruct (i_prev0 v) as (e & k & _ & _ & _ & Q & _); auto. now apply i_S0. }
        destruct (Nat.eqb_spec (V pv1 v) u) as [Q|_]; [rewrite Q in VS; contradiction|].
        destruct Hv as [<-|Hv]; [rewrite Nat.eqb_refl; now apply i_S0|]. destruct (Nat.eqb_spec v u) as [->|_]; [contradiction|]. auto.
    - rewrite E2. cbn [obind]. apply (IH d (u :: S) rk' m2 st2 I2). cbn. lia. }
  assert (Hp : forall x, p_push Z.gtb m0 s 0 x = if (x =? s)%nat then Some 0 else None).
  { intros x. unfold p_push, p_set. rewrite M0. destruct (x =? s)%nat; auto. }
  destruct (Lp (n + 1)%nat 0 [] (fun _ => 0%nat) (p_push Z.gtb m0 s 0) (h1, lset (repeat INF n) s 0, pv, pe)) as (b' & S' & rk & m' & [[[qs' dist] pv'] pe'] & E & I & Hm).
  - assert (Hset : forall x, D (lset (repeat INF n) s 0) x = if (x =? s)%nat then 0 else INF).
    { intros x. rewrite D_lset; auto using repeat_length. unfold D. now rewrite nth_repeat. }
    split; cbn [fst snd]; auto.
    + now rewrite lset_length, repeat_length.
    + intros v d. rewrite Hp, Hset. destruct (Nat.eqb_spec v s) as [->|N]; [|discriminate]. intros E. injection E as <-. repeat split; auto; lia.
    + constructor.
    + intros v [].
    + intros v. rewrite Hset. destruct (Nat.eqb_spec v s) as [->|N]; [|lia]. intros _. rewrite H0. cbn. repeat split; auto; lia.
    + intros v. rewrite Hset. destruct (Nat.eqb_spec v s) as [->|N]; lia.
    + intros v. rewrite Hset, Hp. destruct (Nat.eqb_spec v s) as [->|N]; [auto|lia].
    + intros v i e k [].
    + rewrite Hset, Nat.eqb_refl. auto.
    + intros v. rewrite Hset. destruct (Nat.eqb_spec v s) as [->|N]; [congruence|lia].
    + intros v [].
  - cbn. lia.
  - assert (AS : forall v, D dist v < INF -> In v S'). { intros v Hv. destruct (i_live I v Hv) as [|Q]; auto. rewrite Hm in Q. discriminate. }
    assert (LS : (length S' <= n)%nat). { apply NoDup_bound; [apply (i_nd I)|]. intros x Hx. now apply (i_S I). }
    exists qs', m', dist, pv', pe', rk. split; [auto|]. split; [apply (i_r I)|]. split; [auto|]. split; [apply (i_len I)|]. split; [apply (i_pv I)|]. split; [apply (i_pe I)|]. split; [apply (i_s I)|]. split; [apply (i_le I)|]. split; [|split].
    + intros v Hv. destruct (i_R I v Hv) as (Q1 & Q2 & Q3). destruct (i_S I v (AS v Hv)) as (_ & _ & _ & _ & Q4). cbn [fst snd] in *. split; auto. split; auto. split; [|lia]. assert (Z.of_nat (length S') * K <= Z.of_nat n * K) by (apply Z.mul_le_mono_nonneg_r; lia). lia.
    + intros u i e k He Hc Hu. destruct I; cbn [fst snd] in *; apply (i_rel0 u i e k); auto; exact Logic.I.
    + intros v Hv Ns. destruct (@i_prev _ _ _ _ _ _ I v Hv Ns) as (e & k & Q1 & Q2 & Q3 & Q4 & Q5). cbn [fst snd] in *. exists e, k. split; auto. split; auto. split; auto. split; [now apply (i_S I)|]. split; auto. apply (i_ord I); auto.
Qed.
End Search.
