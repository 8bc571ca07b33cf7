(** Proofs about [McfModel]: potentials, augmentation, the rounds of [flow]. *)
From Verif Require Import Base BaseLemmas ListExtra NthExtra FibModel FibOps FibProp DijkProof FlowModel FlowProof FlowNet McfModel McfCost McfBuild McfSearch.
Set Implicit Arguments.
Open Scope Z_scope.
Notation reach := (FibProp.reach Z.gtb 0).

(** ** The update of the potentials *)
Lemma pot_ok w n h dist : length h = n -> length dist = n -> (forall v, D w dist v <= inf w) ->
  (forall v, D w dist v < inf w -> - 2 ^ (w - 1) <= ph h v + D w dist v < 2 ^ (w - 1)) ->
  exists h', mc_pot w n h dist = Some h' /\ length h' = n /\ forall v, ph h' v = if D w dist v <? inf w then ph h v + D w dist v else ph h v.
Proof.
  intros Lh Ld Le Bd. unfold mc_pot. match goal with |- context [for_up _ _ ?bd _] => set (body := bd) end.
  destruct (@for_up_rule _ (fun j h1 => length h1 = n /\ forall v, ph h1 v = if (v <? j)%nat && (D w dist v <? inf w) then ph h v + D w dist v else ph h v) body n 0 h) as (h' & E & L & F).
  - split; [auto|]. intros v. reflexivity.
  - intros j h1 Hj [L1 F1]. unfold body. rewrite (get_nth dist j (inf w)) by lia. cbn [obind]. fold (D w dist j). destruct (Z.eqb_spec (D w dist j) (inf w)) as [E|N].
    + exists h1. split; [auto|]. split; [auto|]. intros v. rewrite F1. destruct (Nat.eq_dec v j) as [->|Nv]; [rewrite E, Z.ltb_irrefl, !andb_false_r; auto|]. replace (v <? S j)%nat with (v <? j)%nat; [auto|]. destruct (Nat.ltb_spec v j), (Nat.ltb_spec v (S j)); auto; lia.
    + rewrite (get_nth h1 j 0) by lia. cbn [obind]. fold (ph h1 j). pose proof (Le j). rewrite F1, Nat.ltb_irrefl. cbn [andb]. rewrite mach_some by (apply Bd; lia). cbn [obind]. rewrite set_some by lia. eexists. split; [reflexivity|]. rewrite lset_length. split; [auto|].
      intros v. unfold ph at 1. rewrite nth_lset. fold (ph h1 v). destruct (Nat.eqb_spec j v) as [<-|Nv]; cbn [andb].
      * rewrite (proj2 (Nat.ltb_lt j (length h1))) by lia. rewrite (proj2 (Nat.ltb_lt j (S j))) by lia. rewrite (proj2 (Z.ltb_lt _ _)) by lia. reflexivity.
      * rewrite F1. replace (v <? S j)%nat with (v <? j)%nat; [auto|]. destruct (Nat.ltb_spec v j), (Nat.ltb_spec v (S j)); auto; lia.
  - exists h'. split; [auto|]. split; [auto|]. intros v. rewrite F. destruct (Nat.ltb_spec v (0 + n)) as [|Hv]; [auto|]. cbn [andb]. replace (D w dist v) with (inf w); [now rewrite Z.ltb_irrefl|]. unfold D. now rewrite nth_overflow by lia.
Qed.

(** ** Augmentation along the tree of the search *)
Section Augment.
Variables (w M K : Z) (n : nat) (g : cnet) (s : nat) (T : nat -> Prop) (p : nat -> Z) (rk : nat -> nat) (pv pe : list nat).
Hypothesis Lg : length g = n.
Hypothesis Lpv : length pv = n.
Hypothesis Lpe : length pe = n.
(** [T] are the vertices of the tree; the arcs of the tree are tight for the potential [p]. *)
Hypothesis Tn : forall v, T v -> (v < n)%nat /\ 0 <= p v <= Z.of_nat n * K /\ (rk v < n)%nat.
Hypothesis Tp : forall v, T v -> v <> s -> exists e k, get2 g (V pv v) (V pe v) = Some (e, k) /\ to e = v /\ cap e <> 0 /\ T (V pv v) /\ (rk (V pv v) < rk v)%nat /\ k = p v - p (V pv v).
Hypothesis HK : Z.of_nat n * K < 2 ^ (w - 1).
Hypothesis O : ok M (strip g).

Inductive chain : nat -> list nat -> Prop :=
| ch_nil : chain s []
| ch_cons v l : v <> s -> T v -> chain (V pv v) l -> chain v (v :: l).
Lemma chain_ex : forall b v, T v -> (rk v < b)%nat -> exists l, chain v l /\ (length l <= rk v)%nat.
Proof.
  induction b as [|b IH]; intros v Tv Hb; [lia|]. destruct (Nat.eq_dec v s) as [->|N]; [exists []; split; [constructor|cbn; lia]|].
  destruct (Tp Tv N) as (e & k & _ & _ & _ & Tu & Hr & _). destruct (IH _ Tu) as (l & C & L); [lia|]. exists (v :: l). split; [now constructor|]. cbn. lia.
Qed.
Lemma chain_rk v l : chain v l -> forall x, In x l -> (rk x <= rk v)%nat.
Proof.
  induction 1 as [|v l N Tv C IH]; intros x Hx; [destruct Hx|]. destruct Hx as [<-|Hx]; [auto|]. destruct (Tp Tv N) as (e & k & _ & _ & _ & _ & Hr & _). apply IH in Hx. lia.
Qed.
Lemma chain_T v l : T s -> chain v l -> T v.
Proof. intros Ts C. destruct C; auto. Qed.

Definition tcap (v : nat) : Z := cap_at (strip g) (V pv v) (V pe v).
Lemma path_ok t l : T s -> T t -> chain t l -> forall d0, 0 < d0 -> (length l <= n)%nat ->
  exists d, mc_path w g s t pv pe d0 = Some (d, p t - p s) /\ 0 < d <= d0 /\ forall v, In v l -> d <= tcap v.
Proof.
  intros Ts Tt Ct d0 Hd0 Ll. unfold mc_path. rewrite Lg. match goal with |- context [loop _ ?bd _] => set (body := bd) end.
  assert (X : forall i l, chain i l -> forall fuel d, (length l < fuel)%nat -> 0 < d ->
    exists d', loop fuel body (i, d, p t - p i) = Some (d', p t - p s) /\ 0 < d' <= d /\ forall v, In v l -> d' <= tcap v).
  { clear l Ct Ll. induction 1 as [|v l N Tv C IH]; intros fuel d Hf Hd; (destruct fuel as [|fuel]; [cbn in Hf; lia|]); cbn [loop]; unfold body at 1.
    - rewrite Nat.eqb_refl. exists d. split; [auto|]. split; [lia|]. intros v [].
    - rewrite (proj2 (Nat.eqb_neq _ _) N). destruct (Tn Tv) as (Lv & Pv & _). rewrite (get_nth pv v 0%nat), (get_nth pe v 0%nat) by lia. cbn [obind]. fold (V pv v) (V pe v).
      destruct (Tp Tv N) as (e & k & Ee & Te & Ce & Tu & _ & ->). rewrite Ee. cbn [obind]. destruct (Tn Tt) as (_ & Pt & _). destruct (Tn Tu) as (_ & Pu & _).
      replace (p t - p v + (p v - p (V pv v))) with (p t - p (V pv v)) by ring. rewrite mach_some by lia. cbn [obind].
      pose proof (ok_cap O (get2_strip_some _ _ _ Ee)) as Cp. cbn in Hf. destruct (IH fuel (Z.min d (cap e))) as (d' & E & Hd' & F); [lia|lia|]. exists d'. split; [auto|]. split; [lia|].
      intros x [<-|Hx]; [|auto]. unfold tcap, cap_at. rewrite (get2_strip_some _ _ _ Ee). lia. }
  destruct (X t l Ct (S n) d0) as (d & E & Hd & F); [lia|auto|]. rewrite Z.sub_diag in E. exists d. auto.
Qed.

Definition good (g : cnet) : Prop := forall u i e k, get2 g u i = Some (e, k) -> cap e <> 0 -> 0 <= k + p u - p (to e).
Definition closed (g : cnet) : Prop := forall u i e k, T u -> get2 g u i = Some (e, k) -> cap e <> 0 -> T (to e).
Lemma augment_ok t l d : T s -> chain t l -> (length l <= n)%nat -> 0 < d -> (forall v, In v l -> d <= tcap v) -> costed K g -> good g -> closed g ->
  exists g', mc_augment M g s t pv pe d = Some g' /\ length g' = n /\ moved M (strip g) (strip g') s t d /\ costed K g' /\ good g' /\ closed g' /\
    price g' = price g - 2 * (d * (p t - p s)) /\ (forall v j, option_map snd (get2 g' v j) = option_map snd (get2 g v j)).
Proof.
  intros Ts Ct Ll Hd Hc Co Gd Cl. unfold mc_augment. rewrite Lg. match goal with |- context [loop _ ?bd _] => set (body := bd) end.
  assert (X : forall i l, chain i l -> forall fuel g1, (length l < fuel)%nat -> (forall v, In v l -> d <= tcap v) -> length g1 = n -> ok M (strip g1) -> costed K g1 -> good g1 -> closed g1 ->
    (forall v, In v l -> get2 g1 (V pv v) (V pe v) = get2 g (V pv v) (V pe v)) ->
    exists g', loop fuel body (i, g1) = Some g' /\ length g' = n /\ moved M (strip g1) (strip g') s i d /\ costed K g' /\ good g' /\ closed g' /\
      price g' = price g1 - 2 * (d * (p i - p s)) /\ (forall v j, option_map snd (get2 g' v j) = option_map snd (get2 g1 v j))).
  { clear t l Ct Ll Hc Co Gd Cl. induction 1 as [|v l N Tv C IH]; intros fuel g1 Hf Hc L1 O1 Co Gd Cl Same; (destruct fuel as [|fuel]; [cbn in Hf; lia|]); cbn [loop]; unfold body at 1.
    - rewrite Nat.eqb_refl. exists g1. split; [auto|]. split; [auto|]. split; [split; [apply same_refl|]; split; [auto|]; intros; ring|]. split; [auto|]. split; [auto|]. split; [auto|]. split; [ring|auto].
    - rewrite (proj2 (Nat.eqb_neq _ _) N). destruct (Tn Tv) as (Lv & Pv & _). rewrite (get_nth pv v 0%nat), (get_nth pe v 0%nat) by lia. cbn [obind]. fold (V pv v) (V pe v).
      destruct (Tp Tv N) as (e & k & Ee & Te & Ce & Tu & Hr & Hk). set (u := V pv v) in *. set (j := V pe v) in *.
      assert (Nu : to e <> u) by (intros Q; rewrite Te in Q; rewrite <- Q in Hr; lia).
      assert (E1 : get2 g1 u j = Some (e, k)) by (rewrite <- Ee; apply Same; now left).
      assert (Cd : d <= cap e). { specialize (Hc v (or_introl eq_refl)). unfold tcap, cap_at in Hc. fold u j in Hc. rewrite (get2_strip_some _ _ _ Ee) in Hc. auto. }
      destruct (@mpush_ok M K g1 u j e k d O1 Co E1 Nu) as (g2 & c & P & Fp & L2 & Co2 & Pr & G & Sn); [lia|]. rewrite Te in P. rewrite P. cbn [obind].
      destruct (@push_ok M (strip g1) u j e d O1 (get2_strip_some _ _ _ E1) Nu) as (g2' & Fp' & Sm & O2 & Rw & _); [lia|]. assert (g2' = strip g2) by congruence. subst g2'.
      assert (Gd2 : good g2).
      { intros x i e' k' He' Hc'. rewrite G in He'. destruct ((to e =? x)%nat && (rv e =? i)%nat) eqn:Q1; [apply andb_true_iff in Q1 as [Q1%Nat.eqb_eq _]; injection He' as <- <-; cbn [to]; subst x; rewrite Te; lia|].
        destruct ((u =? x)%nat && (j =? i)%nat) eqn:Q2; [apply andb_true_iff in Q2 as [Q2%Nat.eqb_eq _]; injection He' as <- <-; cbn [to]; subst x; rewrite Te; lia|]. apply (Gd x i e' k' He' Hc'). }
      assert (Cl2 : closed g2).
      { intros x i e' k' Tx He' Hc'. rewrite G in He'. destruct ((to e =? x)%nat && (rv e =? i)%nat) eqn:Q1; [injection He' as <- <-; auto|].
        destruct ((u =? x)%nat && (j =? i)%nat) eqn:Q2; [injection He' as <- <-; cbn [to]; now rewrite Te|]. apply (Cl x i e' k' Tx He' Hc'). }
      cbn in Hf. destruct (IH fuel g2) as (g' & E & L' & (Sm' & O' & Rw') & Co' & Gd' & Cl' & Pr' & Sn'); auto; [lia|intros x Hx; apply Hc; now right|lia| |].
      + intros x Hx. pose proof (@chain_rk _ _ C x Hx) as Rx. rewrite G.
        assert (CT : forall a m, chain a m -> forall y, In y m -> T y /\ y <> s). { induction 1 as [|a m Na Ta Ca IHc]; intros y Hy; [destruct Hy|]. destruct Hy as [<-|Hy]; auto. }
        destruct (CT _ _ C x Hx) as [Tx Nx]. destruct (Tp Tx Nx) as (e' & k' & Ee' & Te' & _ & _ & Hr' & _).
        destruct ((to e =? V pv x)%nat && (rv e =? V pe x)%nat) eqn:Q1; [apply andb_true_iff in Q1 as [Q1%Nat.eqb_eq _]; rewrite Te in Q1; rewrite <- Q1 in Hr'; lia|].
        destruct ((u =? V pv x)%nat && (j =? V pe x)%nat) eqn:Q2; [apply andb_true_iff in Q2 as [Q2%Nat.eqb_eq Q3%Nat.eqb_eq]; rewrite <- Q2, <- Q3, Ee in Ee'; injection Ee' as <- <-; rewrite Te in Te'; subst x; lia|].
        apply Same. now right.
      + exists g'. split; [auto|]. split; [auto|]. split; [split; [eapply same_trans; eauto|]; split; [auto|]; intros x; rewrite Rw', Rw, Te; fold u; ring|]. split; [auto|]. split; [auto|]. split; [auto|]. split; [|intros; rewrite Sn', Sn; auto].
        rewrite Pr', Pr, Hk. fold u. ring. }
  destruct (X t l Ct (S n) g) as (g' & E & L' & Q); auto; [lia|]. exists g'. auto.
Qed.
End Augment.

(** ** The rounds *)
Section Rounds.
Variables (w M K : Z) (n : nat) (es : list (edge * Z)) (g0 : cnet) (s t : nat) (limit : Z).
Hypothesis HE : cedges_ok M K n es.
Hypothesis B : cbuilt M K n es g0.
Hypothesis St : s <> t.
Hypothesis Hs : (s < n)%nat.
Hypothesis Ht : (t < n)%nat.
Hypothesis HK : 0 <= K.
Hypothesis HI : Z.of_nat n * K < inf w.
Hypothesis HC : cost_bound es < 2 ^ (w - 1).
Hypothesis Hl : 0 <= limit <= M.
Notation cost g := (flow_cost es (flow_of (map fst es) (strip g))).

Definition pot_ok_for (g : cnet) (h : list Z) (p : nat -> Z) (R : nat -> Prop) : Prop :=
  R s /\ ph h s = 0 /\ (forall v, R v -> p v = ph h v /\ 0 <= ph h v) /\ closed R g /\ good p g.
Record round (f res : Z) (g : cnet) (h : list Z) (qs : fh Z) (pv pe : list nat) : Prop := {
  r_st : state M (strip g0) s t (strip g) f;
  r_f : 0 <= f <= limit;
  r_res : res = cost g;
  r_co : costed K g;
  r_pl : placed es g;
  r_h : length h = n;
  r_pv : length pv = n;
  r_pe : length pe = n;
  r_q : exists m, reach n qs m /\ forall v, m v = None;
  r_p : exists p R, pot_ok_for g h p R }.
Definition result (f res : Z) (g : cnet) : Prop :=
  0 <= f <= limit /\ res = cost g /\ shows (strip g) (map fst es) (flow_of (map fst es) (strip g)) /\
  cheapest es s t (flow_of (map fst es) (strip g)) f /\ (f < limit -> max_flow (map fst es) s t f).

Lemma good_cheapest g f p : state M (strip g0) s t (strip g) f -> placed es g -> good p g -> cheapest es s t (flow_of (map fst es) (strip g)) f.
Proof.
  intros T Pl Gd. pose proof (edges_ok' HE) as HE'. apply (@pot_cheapest es s t _ f p St); [apply (state_flow HE' (cb_built B) St Hs Ht T)|].
  intros i a b c k x E Ex. assert (E' : get (map fst es) i = Some (a, b, c)) by (rewrite get_map, E; auto). apply flow_get in Ex as ->.
  destruct (arcs_of HE' (cb_built B) St Hs Ht i T E') as (e & e' & Ee & Ee' & Te & Te' & Ce & Ce' & Hx & Zz). destruct (Pl i a b c k E) as [(x1 & P1) (x2 & P2)].
  assert (x1 = e) by (pose proof (get2_strip_some _ _ _ P1); congruence). assert (x2 = e') by (pose proof (get2_strip_some _ _ _ P2); congruence). subst x1 x2. split; intros Hlt.
  - pose proof (Gd _ _ _ _ P1 ltac:(lia)) as Q. rewrite Te in Q. auto.
  - destruct (Nat.eqb_spec a b) as [Eab|Nab]; [rewrite Zz in Hlt by auto; lia|]. pose proof (Gd _ _ _ _ P2 ltac:(lia)) as Q. rewrite Te' in Q. lia.
Qed.

Lemma rounds_ok : forall fuel f res g h qs pv pe, round f res g h qs pv pe -> (Z.to_nat (total (strip g0) - f) < fuel)%nat ->
  exists f' res' g', loop fuel (fun '(f, res, g, h, qs, pv, pe) =>
    if (limit <=? f)%Z then Some (inr (f, res, g))
    else
      let* (qs, dist, pv, pe) := mc_search w g h s qs pv pe in
      let* dt := get dist t in
      if (dt =? inf w)%Z then Some (inr (f, res, g))
      else
        let* h := mc_pot w n h dist in
        let* d := ll M (limit - f) in
        let* (d, cs) := mc_path w g s t pv pe d in
        let* f := ll M (f + d) in
        let* x := mach w (d * cs) in
        let* res := mach w (res + x) in
        let* g := mc_augment M g s t pv pe d in
        Some (inl (f, res, g, h, qs, pv, pe))) (f, res, g, h, qs, pv, pe) = Some (f', res', g') /\ result f' res' g'.
Proof.
  pose proof (edges_ok' HE) as HE'. induction fuel as [|fuel IH]; intros f res g h qs pv pe [T Hf Res Co Pl Lh Lpv Lpe (m & Rq & Mn) (p & R & Rs & H0 & Rp & Rc & Gd)] Hfuel; [lia|].
  cbn [loop]. assert (Lg : length g = n) by (rewrite <- strip_len, (sm_len (st_same T)); apply (bt_len (cb_built B))).
  pose proof (good_cheapest T Pl Gd) as Ch. pose proof (state_shows HE' (cb_built B) St Hs Ht T) as Sh.
  destruct (Z.leb_spec limit f) as [Hlf|Hlf]; [exists f, res, g; split; [auto|]; split; [auto|]; split; [auto|]; split; [auto|]; split; [auto|lia]|].
  destruct (@search_ok w K n g h s R Lg Lh Hs HK HI) with (qs := qs) (m0 := m) (pv := pv) (pe := pe) as (qs' & m' & dist & pv' & pe' & rk & E & Rq' & Mn' & Ld & Lpv' & Lpe' & Ds & Dle & Dr & Dc & Dp); auto.
  { intros u i e k He. split; [|apply (co_bd Co _ _ He)]. pose proof (ok_to (st_ok T) (get2_strip_some _ _ _ He)) as Q. rewrite strip_len in Q. lia. }
  { intros u i e k Ru He Hc. pose proof (Rc u i e k Ru He Hc) as Rt. split; [auto|]. pose proof (Gd u i e k He Hc) as Q. rewrite (proj1 (Rp _ Ru)), (proj1 (Rp _ Rt)) in Q. auto. }
  { intros v Rv. apply (Rp v Rv). }
  rewrite E. cbn [obind]. rewrite (get_nth dist t (inf w)) by lia; fold (D w dist t). cbn [obind]. destruct (Z.eqb_spec (D w dist t) (inf w)) as [Et|Nt].
  { exists f, res, g. split; [auto|]. split; [auto|]. split; [auto|]. split; [auto|]. split; [auto|]. intros _. set (S := fun v => D w dist v <? inf w).
    pose proof (Dle t) as Qt. assert (K0 : is_cut s t S) by (split; unfold S; [apply Z.ltb_lt; rewrite Ds; nia|apply Z.ltb_ge; lia]).
    apply (cut_max (proj1 Ch) K0). rewrite (state_cut HE' (cb_built B) St Hs Ht T K0); [lia|]. intros u i e Su Ee Ce. destruct (strip_get2 _ _ _ Ee) as (k & Ek). unfold S in *. apply Z.ltb_lt in Su. apply Z.ltb_lt. apply (Dc u i e k Ek Ce Su). }
  assert (Lt : D w dist t < inf w) by (pose proof (Dle t); lia). assert (Ls : D w dist s < inf w) by (rewrite Ds; nia).
  assert (ID : inf w = 2 ^ (w - 1) - 1) by reflexivity.
  destruct (@pot_ok w n h dist Lh Ld) as (h' & Eh & Lh' & Hh); [apply Dle| |].
  { intros v Hv. destruct (Dr v Hv) as (_ & Rv & Q & _). pose proof (proj2 (Rp v Rv)). pose proof (Dle v). lia. }
  rewrite Eh. cbn [obind]. rewrite ll_some by lia. cbn [obind].
  set (T' := fun v => D w dist v < inf w). set (p' := fun v => p v + D w dist v).
  assert (pT : forall v, T' v -> p' v = ph h' v /\ 0 <= p' v <= Z.of_nat n * K).
  { intros v Tv. unfold p', T' in *. rewrite Hh, (proj2 (Z.ltb_lt _ _) Tv). destruct (Dr v Tv) as (_ & Rv & Q & _). destruct (Rp v Rv) as [-> Q2]. pose proof (Dle v). split; [auto|]. lia. }
  assert (Tn : forall v, T' v -> (v < n)%nat /\ 0 <= p' v <= Z.of_nat n * K /\ (rk v < n)%nat) by (intros v Tv; destruct (Dr v Tv) as (Q1 & _ & _ & Q2); split; [auto|]; split; [apply (pT v Tv)|auto]).
  assert (Tp : forall v, T' v -> v <> s -> exists e k, get2 g (V pv' v) (V pe' v) = Some (e, k) /\ to e = v /\ cap e <> 0 /\ T' (V pv' v) /\ (rk (V pv' v) < rk v)%nat /\ k = p' v - p' (V pv' v)).
  { intros v Tv Nv. destruct (Dp v Tv Nv) as (e & k & Q1 & Q2 & Q3 & Q4 & Q5 & Q6). exists e, k. repeat (split; [auto; fail|]). unfold p'. destruct (Dr v Tv) as (_ & Rv & _). destruct (Dr _ Q4) as (_ & Ru & _). rewrite (proj1 (Rp _ Rv)), (proj1 (Rp _ Ru)). lia. }
  assert (Gd' : good p' g).
  { intros u i e k He Hc. unfold p'. pose proof (Gd u i e k He Hc) as Q. pose proof (Dle u) as Qu. pose proof (Dle (to e)) as Qt. destruct (Z.eq_dec (D w dist u) (inf w)) as [Eu|Nu]; [lia|].
    destruct (Dc u i e k He Hc) as [Q1 Q2]; [lia|]. destruct (Dr u) as (_ & Ru & _); [lia|]. destruct (Dr _ Q1) as (_ & Rt & _). rewrite (proj1 (Rp _ Ru)), (proj1 (Rp _ Rt)). lia. }
  assert (Cl' : closed T' g) by (intros u i e k Tu He Hc; apply (Dc u i e k He Hc Tu)).
  destruct (@chain_ex w K n g s T' p' rk pv' pe' Lg Lpv' Lpe' Tn Tp n t Lt) as (l & Cl & Ll); [apply (Dr t Lt)|]. assert (Ln : (length l <= n)%nat) by (destruct (Dr t Lt) as (_ & _ & _ & Q); lia).
  destruct (@path_ok w M K n g s T' p' rk pv' pe' Lg Lpv' Lpe' Tn Tp ltac:(lia) (st_ok T) t l Ls Lt Cl (limit - f)) as (d & Ep & Hd & Hcap); [lia|auto|]. rewrite Ep. cbn [obind]. rewrite ll_some by lia. cbn [obind].
  assert (p0 : p' s = 0) by (unfold p'; rewrite Ds, (proj1 (Rp _ Rs)), H0; lia).
  destruct (@augment_ok w M K n g s T' p' rk pv' pe' Lg Lpv' Lpe' Tn Tp (st_ok T) t l d Ls Cl Ln ltac:(lia) Hcap Co Gd' Cl') as (g' & Ea & Lg' & Mv & Co' & Gd2 & Cl2 & Pr & Sn).
  pose proof (state_moved T Mv) as T2. assert (Pl' : placed es g').
  { intros i a b c k Ei. destruct (Pl i a b c k Ei) as [(x1 & P1) (x2 & P2)]. split.
    - specialize (Sn a (pos1 (map fst es) i)). rewrite P1 in Sn. destruct (get2 g' a _) as [[x k']|]; [|discriminate]. cbn in Sn. injection Sn as ->. eauto.
    - specialize (Sn b (pos2 (map fst es) i)). rewrite P2 in Sn. destruct (get2 g' b _) as [[x k']|]; [|discriminate]. cbn in Sn. injection Sn as ->. eauto. }
  pose proof (price_flow HE B St Hs Ht T Pl) as F1. pose proof (price_flow HE B St Hs Ht T2 Pl') as F2. pose proof (cost_le HE B St Hs Ht _ T) as C1. pose proof (cost_le HE B St Hs Ht _ T2) as C2.
  assert (Cost : cost g' = res + d * (p' t - p' s)) by lia. rewrite p0, Z.sub_0_r in *. pose proof (proj2 (pT t Lt)) as Pt. assert (0 <= d * p' t) by (apply Z.mul_nonneg_nonneg; lia).
  rewrite mach_some by lia. cbn [obind]. rewrite mach_some by lia. cbn [obind]. rewrite Ea. cbn [obind].
  apply IH; [|pose proof (state_total (cb_built B) St Hs Ht T); pose proof (state_total (cb_built B) St Hs Ht T2); lia]. split; auto; [lia|exists m'; auto|].
  exists p', T'. split; [auto|]. split; [rewrite <- (proj1 (pT s Ls)); auto|]. split; [|auto]. intros v Tv. destruct (pT v Tv) as [<- Q]. split; [auto|lia].
Qed.

Lemma flow_ok : exists f res g, mc_flow w M g0 s t limit = Some (f, res, g) /\ result f res g.
Proof.
  assert (Lg : length g0 = n) by (rewrite <- strip_len; apply (bt_len (cb_built B))). unfold mc_flow. rewrite Lg. destruct (C42_new Z.gtb 0 n) as (q0 & E0 & R0). rewrite E0. cbn [obind].
  assert (T : state M (strip g0) s t (strip g0) 0) by apply (state0 s t (cb_built B)).
  apply (@rounds_ok (S (Z.to_nat (total (strip g0)))) 0 0 g0 (repeat 0 n) q0 (repeat 0%nat n) (repeat 0%nat n)); [|lia]. assert (Hz : forall v, ph (repeat 0 n) v = 0) by (intros v; unfold ph; apply nth_repeat).
  split; auto using repeat_length.
  - lia.
  - pose proof (price_flow HE B St Hs Ht T (cb_placed B)) as Q. rewrite (price0 HE B St Hs Ht) in Q. lia.
  - apply (cb_costed B).
  - apply (cb_placed B).
  - exists (fun _ => None). auto.
  - exists (fun _ => 0), (fun _ => True). split; [auto|]. split; [auto|]. split; [intros v _; rewrite Hz; split; [auto|lia]|]. split; [intros u i e k _ _ _; exact Logic.I|]. intros u i e k He Hc. pose proof (cb_pos B _ _ He Hc). lia.
Qed.
End Rounds.
