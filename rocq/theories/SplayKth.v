(** SplayTreeList: kth_element. *)
From Coq Require Import Permutation.
From Verif Require Import SplayModel SplayRot SplayTree SplaySplay BaseLemmas ListExtra LazySegProp.
Set Implicit Arguments.

Lemma split_unique {B} (u : nat) : forall (s1 s1' : list (nat * B)) x y s2 s2', NoDup (map fst (s1 ++ (u, x) :: s2)) -> s1 ++ (u, x) :: s2 = s1' ++ (u, y) :: s2' -> s1 = s1' /\ x = y /\ s2 = s2'.
Proof.
  induction s1 as [|a s1 IH]; intros [|b s1'] x y s2 s2' N E; cbn in *.
  - injection E as -> ->. auto.
  - exfalso. injection E as <- ->. cbn in N. apply NoDup_cons_iff in N as [N _]. apply N. rewrite map_app. apply in_or_app. right. now left.
  - exfalso. injection E as -> <-. cbn in N. apply NoDup_cons_iff in N as [N _]. apply N. rewrite map_app. apply in_or_app. right. now left.
  - injection E as -> E. apply NoDup_cons_iff in N as [_ N]. destruct (IH _ _ _ _ _ N E) as (-> & -> & ->). auto.
Qed.

Arguments split_unique {B} u {s1 s1' x y s2 s2'} _ _.
Section Splay.
Variables (M A : Type) (op : M -> M -> M) (e : M) (comp : A -> A -> A) (aid : A) (act : A -> M -> M).
Hypothesis Mon : monoid_laws op e.
Hypothesis Act : action_laws op comp aid act.
Notation nd := (nd M A).
Notation sh := (sh M A).
Notation den := (den act).
Notation val := (val op e act true).
Notation valc := (valc op e act true).
Notation clean := (clean act).
Notation ST := (@ST M A).
Implicit Types (D : nat -> nd) (t : bt).
Notation Prop_ok := (propagate_ok Mon Act true).
Notation Agg_ok := (@aggregate_ok M A op e act Mon true).

Lemma lsplay_ok X h D rp c l u r : ST X h D rp (plug c (Nd l u r)) -> valc D c -> val D l -> val D r ->
  exists h' D' l' r', lsplay op comp aid act h u = Some h' /\ ST X h' D' rp (Nd l' u r') /\ hext X h h' /\ clean D' u /\ val D' (Nd l' u r') /\ den D' (Nd l' u r') = den D (plug c (Nd l u r)).
Proof. apply (splay_ok Prop_ok Agg_ok). Qed.
Arguments lsplay_ok {X h D rp c l u r} _ _ _ _.
Lemma den_nodup X h D rp t : ST X h D rp t -> NoDup (map fst (den D t)).
Proof. intros S. apply (Permutation_NoDup (Permutation_sym (den_ids act D t))). apply (st_nodup S). Qed.
Arguments den_nodup {X h D rp t} _.

Lemma sum_ok X h D t : dat h D X -> (forall i, bptr t = Some i -> In i X) -> val D t -> sum_opt h (bptr t) = Some (bsize t).
Proof.
  intros Da I V. unfold sum_opt. destruct t as [|l i r]; [reflexivity|]. cbn [bptr get_opt]. rewrite (Da i) by (apply I; reflexivity). cbn [obind]. destruct V as ((V & _) & _). now rewrite V.
Qed.
Arguments sum_ok {X h D t} _ _ _.

Lemma kth_loop X k0 den0 : forall fuel h D c l u r k L R, ST X h D None (plug c (Nd l u r)) -> valc D c -> val D (Nd l u r) -> den D (plug c (Nd l u r)) = den0 -> den0 = L ++ den D (Nd l u r) ++ R -> k + length L = k0 -> k < bsize (Nd l u r) ->
  length (sd h) < fuel + length c ->
  exists h' D' c' l' u' r', loop fuel (fun '(h, u, k) =>
    let* l := get (pl (sk h)) u in
    let* r := get (pr (sk h)) u in
    let* lp := sum_opt h l in
    let* rp := sum_opt h r in
    let* n := sum_opt h (Some u) in
    let* _ := guard (n =? lp + rp + 1) in
    let* h := propagate comp aid act h u in
    let* l := get (pl (sk h)) u in
    let* r := get (pr (sk h)) u in
    match l with
    | None => if k =? 0 then Some (inr (h, u)) else let* v := r in Some (inl (h, v, k - 1))
    | Some lv =>
        let* ls := sum_opt h l in
        if ls =? k then Some (inr (h, u))
        else if k <? ls then Some (inl (h, lv, k))
        else let* v := r in Some (inl (h, v, k - (ls + 1)))
    end) (h, u, k) = Some (h', u') /\ ST X h' D' None (plug c' (Nd l' u' r')) /\ hext X h h' /\ valc D' c' /\ val D' l' /\ val D' r' /\ den D' (plug c' (Nd l' u' r')) = den0 /\ exists m L R, den0 = L ++ (u', m) :: R /\ length L = k0.
Proof.
  induction fuel as [|fuel IH]; intros h D c l u r k L R S Vc V E0 E1 Hk Hb Hf; [pose proof (st_fuel S); lia|].
  cbn [loop]. destruct (st_children S) as (G1 & G2 & _). rewrite G1. cbn [obind]. rewrite G2. cbn [obind]. pose proof V as V0. destruct V as (Vu & Vl & Vr).
  assert (Iin : forall t, (t = l \/ t = r \/ t = Nd l u r) -> forall i, bptr t = Some i -> In i X). { intros t Ht i Ei. apply bptr_in in Ei. apply (st_in S), plug_in. right. destruct Ht as [-> |[-> | ->]]; [cbn; apply in_or_app; auto|cbn; apply in_or_app; right; now right|exact Ei]. }
  rewrite (sum_ok (st_dat S) (Iin l (or_introl eq_refl)) Vl). cbn [obind]. rewrite (sum_ok (st_dat S) (Iin r (or_intror (or_introl eq_refl))) Vr). cbn [obind]. change (Some u) with (bptr (Nd l u r)) at 1.
  rewrite (sum_ok (t := Nd l u r) (st_dat S) (Iin _ (or_intror (or_intror eq_refl))) V0). cbn [obind bsize]. match goal with |- context [?a =? ?b] => replace (a =? b) with true by (symmetry; apply Nat.eqb_eq; lia) end. cbn [guard obind].
  destruct (prop_node Prop_ok S Vl Vr) as (h1 & D1 & a & b & P1 & S1 & X1 & C1 & Va & Vb & De1 & O1 & I1). rewrite P1. cbn [obind].
  destruct (NoDup_plug (st_nodup S)) as (_ & Dj & _). assert (Oc : forall j, In j (cids c) -> D1 j = D j). { intros j J. apply O1. intros I. exact (Dj j J I). }
  assert (Vc1 : valc D1 c) by exact (valc_ext Oc Vc). assert (E2 : den D1 (plug c (Nd a u b)) = den0) by (rewrite <- E0; apply den_plug; auto).
  assert (Hs : bsize a + bsize b = bsize l + bsize r). { apply (f_equal (@length _)) in De1. rewrite !den_length in De1. cbn in De1. lia. }
  destruct (st_children S1) as (G3 & G4 & _). rewrite G3. cbn [obind]. rewrite G4. cbn [obind]. rewrite <- De1, (den_clean a b C1) in E1. rewrite <- app_assoc in E1. cbn [app] in E1. cbn [bsize] in Hb.
  assert (La : length (den D1 a) = bsize a) by apply den_length.
  assert (Lh : length (sd h1) = length (sd h)) by apply X1.
  assert (Found : bsize a = k -> exists h' D' c' l' u' r', Some (h1, u) = Some (h', u') /\ ST X h' D' None (plug c' (Nd l' u' r')) /\ hext X h h' /\ valc D' c' /\ val D' l' /\ val D' r' /\ den D' (plug c' (Nd l' u' r')) = den0 /\ exists m L R, den0 = L ++ (u', m) :: R /\ length L = k0).
  { intros Ek. exists h1, D1, c, a, u, b. split; [auto|]. split; [auto|]. split; [auto|]. split; [auto|]. split; [auto|]. split; [auto|]. split; [auto|]. exists (nm (D1 u)), (L ++ den D1 a), (den D1 b ++ R). split; [rewrite E1, <- app_assoc; reflexivity|]. rewrite app_length, La. lia. }
  assert (Right : k > bsize a -> exists b1 v b2, b = Nd b1 v b2 /\ exists h' D' c' l' u' r', loop fuel (fun '(h, u, k) =>
    let* l := get (pl (sk h)) u in
    let* r := get (pr (sk h)) u in
    let* lp := sum_opt h l in
    let* rp := sum_opt h r in
    let* n := sum_opt h (Some u) in
    let* _ := guard (n =? lp + rp + 1) in
    let* h := propagate comp aid act h u in
    let* l := get (pl (sk h)) u in
    let* r := get (pr (sk h)) u in
    match l with
    | None => if k =? 0 then Some (inr (h, u)) else let* v := r in Some (inl (h, v, k - 1))
    | Some lv =>
        let* ls := sum_opt h l in
        if ls =? k then Some (inr (h, u))
        else if k <? ls then Some (inl (h, lv, k))
        else let* v := r in Some (inl (h, v, k - (ls + 1)))
    end) (h1, v, k - (bsize a + 1)) = Some (h', u') /\ ST X h' D' None (plug c' (Nd l' u' r')) /\ hext X h h' /\ valc D' c' /\ val D' l' /\ val D' r' /\ den D' (plug c' (Nd l' u' r')) = den0 /\ exists m L R, den0 = L ++ (u', m) :: R /\ length L = k0).
  { intros Hg. destruct b as [|b1 v b2]; [cbn in Hs; lia|]. exists b1, v, b2. split; [reflexivity|].
    destruct (IH h1 D1 (FR a u :: c) b1 v b2 (k - (bsize a + 1)) (L ++ den D1 a ++ [(u, nm (D1 u))]) R S1) as (h' & D' & c' & l' & u' & r' & Q1 & Q2 & Q3 & Q4); auto.
    - now constructor.
    - rewrite E1, <- !app_assoc. cbn. reflexivity.
    - rewrite !app_length, La. cbn. lia.
    - lia.
    - cbn. lia.
    - exists h', D', c', l', u', r'. split; [exact Q1|]. split; [exact Q2|]. split; [exact (hext_trans X1 Q3)|exact Q4]. }
  destruct a as [|a1 lv a2].
  - cbn [bptr]. destruct (Nat.eqb_spec k 0) as [->|Nk]; [apply Found; reflexivity|]. destruct Right as (b1 & v & b2 & -> & Rt); [cbn; lia|]. cbn [bptr obind]. replace (k - 1) with (k - (bsize Lf + 1)) by (cbn; lia). exact Rt.
  - cbn [bptr]. change (Some lv) with (bptr (Nd a1 lv a2)) at 1. assert (Ia : forall i, bptr (Nd a1 lv a2) = Some i -> In i X) by (intros i Ei; apply bptr_in in Ei; apply (st_in S1), plug_in; right; cbn [ids]; apply in_or_app; auto). rewrite (sum_ok (st_dat S1) Ia Va). cbn [obind].
    destruct (Nat.eqb_spec (bsize (Nd a1 lv a2)) k) as [Ek|Nk]; [apply Found; auto|]. destruct (Nat.ltb_spec k (bsize (Nd a1 lv a2))) as [Lk|Lk].
    + destruct (IH h1 D1 (FL u b :: c) a1 lv a2 k L ((u, nm (D1 u)) :: den D1 b ++ R) S1) as (h' & D' & c' & l' & u' & r' & Q1 & Q2 & Q3 & Q4); auto.
      * now constructor.
      * cbn. lia.
      * exists h', D', c', l', u', r'. split; [exact Q1|]. split; [exact Q2|]. split; [exact (hext_trans X1 Q3)|exact Q4].
    + destruct Right as (b1 & v & b2 & -> & Rt); [lia|]. cbn [bptr obind]. exact Rt.
Qed.
Theorem kth_ok X h D t k : ST X h D None t -> val D t -> k < bsize t ->
  exists h' D' l' u r', kth op comp aid act (h, bptr t) k = Some ((h', Some u), u) /\ ST X h' D' None (Nd l' u r') /\ hext X h h' /\ clean D' u /\ val D' (Nd l' u r') /\
    den D' (Nd l' u r') = den D t /\ den D t = den D' l' ++ (u, nm (D' u)) :: den D' r' /\ bsize l' = k.
Proof.
  intros S V Hk. unfold kth. assert (It : forall i, bptr t = Some i -> In i X) by (intros i Ei; apply bptr_in in Ei; apply (st_in S); auto). pose proof (sum_ok (st_dat S) It V) as Es. destruct t as [|l u r]; [cbn in Hk; lia|]. cbn [bptr obind] in *. rewrite Es. cbn [obind]. replace (k <? bsize (Nd l u r)) with true by (symmetry; apply Nat.ltb_lt; auto). cbn [guard obind].
  destruct (@kth_loop X k (den D (Nd l u r)) (sfuel h) h D [] l u r k [] []) as (h1 & D1 & c & a & v & b & E1 & S1 & X1 & Vc1 & Va & Vb & De1 & m & L & R & EL & Lk); auto.
  - constructor.
  - cbn [app]. now rewrite app_nil_r.
  - unfold sfuel. cbn. lia.
  - rewrite E1. cbn [obind]. destruct (lsplay_ok S1 Vc1 Va Vb) as (h2 & D2 & l2 & r2 & E2 & S2 & X2 & C2 & V2 & De2). rewrite E2. cbn [obind]. exists h2, D2, l2, v, r2. split; [auto|]. split; [auto|]. split; [exact (hext_trans X1 X2)|]. split; [auto|]. split; [auto|].
    assert (De : den D2 (Nd l2 v r2) = den D (Nd l u r)) by congruence. split; [auto|]. pose proof (den_nodup S2) as Nd2. rewrite (den_clean _ _ C2) in De, Nd2. split; [auto|]. rewrite EL in De. destruct (split_unique _ Nd2 De) as (<- & _). rewrite <- Lk. symmetry. apply den_length.
Qed.
End Splay.
