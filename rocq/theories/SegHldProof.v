(** SegmentHld: construction and whole operations. *)
From Verif Require Import SegHldModel SegHldShape SegHldData SegHldOps BaseLemmas NthExtra ListExtra LazySegProp LazySegSpec.
Set Implicit Arguments.

Section Seg.
Variables (M A : Type) (op : M -> M -> M) (e : M) (comp : A -> A -> A) (aid : A) (act : A -> M -> M).
Hypothesis Mon : monoid_laws op e.
Hypothesis Act : action_laws op comp aid act.
Notation sd := (sd M A).
Notation seg := (seg M A).
Notation prod := (product op e).
Implicit Types (D : list sd) (t L R : gt).
Notation dg := (dg e aid).
Notation den := (den e aid act).
Notation inner := (inner e aid act).
Notation val := (val op e aid act).
Notation clean := (clean e aid act).
Notation same := (same e aid).
Notation frame := (frame e aid).

(** a state stands for a list *)
Definition RI (s : seg) (xs : list M) : Prop :=
  exists t, grep (sg_T s) (sg_tg s) t 0 (length xs) None /\ gid t = 0 /\ length (sg_D s) = length (sg_T s) /\ val (sg_D s) t /\ den (sg_D s) t = xs.

(** ** construction *)
Lemma val_init t D : (forall u, dg D u = SD e e aid) -> val D t /\ den D t = repeat e (gsz t).
Proof.
  intros H. induction t as [u|u L IL R IR].
  - cbn. rewrite H. cbn. rewrite (mon_right Mon), (act_unit _ _ _ _ Act). auto.
  - destruct IL as [VL EL], IR as [VR ER]. assert (P : forall n, prod (repeat e n) = e) by (induction n as [|n IH]; [auto|change (op e (prod (repeat e n)) = e); rewrite IH; apply (mon_right Mon)]).
    assert (Pr : forall n, rev (repeat e n) = repeat e n). { intros n. induction n as [|n IH]; cbn; [auto|]. rewrite IH. change (repeat e n ++ repeat e 1 = e :: repeat e n). rewrite <- repeat_app, Nat.add_comm. reflexivity. }
    cbn [SegHldData.val SegHldData.den gid SegHldData.inner gsz]. rewrite EL, ER, H. cbn [sm srm sa]. rewrite <- repeat_app, Pr, P. repeat split; auto. rewrite <- (map_id (repeat e (gsz L + gsz R))) at 2. apply map_ext. apply (act_unit _ _ _ _ Act).
Qed.
Lemma new_ok h cw : sh_cw h = Some cw -> inc cw (hn h) -> 1 <= hn h -> exists s, sh_new e aid h = Some s /\ RI s (repeat e (hn h)) /\ SI (hn h) (length (sg_T s)) (sg_T s) (sg_tg s) /\ sg_D s = repeat (SD e e aid) (length (sg_T s)).
Proof.
  intros Ec I Ln. unfold sh_new. rewrite Ec. cbn [obind]. destruct (shape_ok I Ln) as (T & tg & t & Es & H & G & Eg). rewrite Es. cbn [obind]. eexists. split; [reflexivity|]. split; [|auto]. exists t. cbn [sg_T sg_tg sg_D]. rewrite !repeat_length. split; [auto|]. split; [auto|]. split; [auto|].
  destruct (@val_init t (repeat (SD e e aid) (length T))) as [V E]; [|rewrite E; split; [auto|]; f_equal; rewrite (@gsz_grep _ _ _ _ _ _ G); lia].
  intros u. unfold SegHldData.dg. apply nth_repeat.
Qed.
(** every node has what it takes of its children *)
Definition loc (xs : list M) D (u : nat) (x : sn) : Prop :=
  sa (dg D u) = aid /\ if ssize x =? 1 then sm (dg D u) = nth (sl x) xs e /\ srm (dg D u) = nth (sl x) xs e
    else exists a b, slc x = Some a /\ src x = Some b /\ sm (dg D u) = op (sm (dg D a)) (sm (dg D b)) /\ srm (dg D u) = op (srm (dg D b)) (srm (dg D a)).
Lemma loc_val T tg xs D t : forall l r p, grep T tg t l r p -> (forall u x, get T u = Some x -> loc xs D u x) -> val D t /\ den D t = map (fun j => nth j xs e) (seq l (r - l)) /\ clean D (gid t).
Proof.
  induction t as [u|u L IL R IR]; intros l r p G H.
  - destruct G as (Gu & -> & _). destruct (H _ _ Gu) as (Ea & K). unfold ssize in K. cbn [sl sr] in K. replace (S l - l) with 1 in K by lia. cbn [Nat.eqb] in K. destruct K as [K1 K2]. unfold SegHldData.clean. cbn [SegHldData.val SegHldData.den gid SegHldData.inner rev app]. rewrite Ea, K1, K2, (product_one Mon). replace (S l - l) with 1 by lia. cbn [seq map]. rewrite !(act_unit _ _ _ _ Act). repeat split; auto. apply (act_unit _ _ _ _ Act).
  - pose proof G as (m & Gu & HL & HR). pose proof (grep_lt _ _ _ _ _ _ HL). pose proof (grep_lt _ _ _ _ _ _ HR). destruct (IL _ _ _ HL H) as (VL & EL & CL). destruct (IR _ _ _ HR H) as (VR & ER & CR). destruct (H _ _ Gu) as (Ea & K). unfold ssize in K. cbn [sl sr slc src] in K. destruct (Nat.eqb_spec (r - l) 1) as [|_]; [lia|]. destruct K as (a & b & [= <-] & [= <-] & K1 & K2).
    destruct (root_prod op L VL CL) as [P1 P2], (root_prod op R VR CR) as [P3 P4]. assert (C : clean D u) by (unfold SegHldData.clean; rewrite Ea; apply (act_unit _ _ _ _ Act)).
    split; [|split; [rewrite (den_clean (GN u L R) C); cbn [SegHldData.inner]; rewrite EL, ER, <- map_app; f_equal; replace (r - l) with ((m - l) + (r - m)) by lia; rewrite seq_app; do 2 f_equal; lia|exact C]].
    cbn [SegHldData.val gid SegHldData.inner]. rewrite K1, K2, P1, P2, P3, P4, rev_app_distr, !(product_app Mon). auto.
Qed.
Lemma build_ok h cw xs : sh_cw h = Some cw -> inc cw (hn h) -> 1 <= hn h -> length xs <= hn h ->
  exists s, sh_build op e aid h xs = Some s /\ RI s (xs ++ repeat e (hn h - length xs)).
Proof.
  intros Ec I Ln Lx. destruct (@new_ok _ _ Ec I Ln) as (s & Es & R & H & ED). unfold sh_build. rewrite Es. cbn [obind]. destruct s as [T tg D0]. cbn [sg_T sg_tg sg_D] in *. set (n := hn h) in *.
  (* the leaves *)
  set (leaf := fun (k : nat) (D : list sd) => length D = length T /\ forall u x, get T u = Some x -> dg D u = if (ssize x =? 1) && (sl x <? k) then SD (nth (sl x) xs e) (nth (sl x) xs e) aid else SD e e aid).
  assert (F1 : exists D1, for_each xs (fun x '(i, D) => let* u := get tg i in let* D := n_set D u x in Some (S i, D)) (0, D0) = Some (length xs, D1) /\ leaf (length xs) D1).
  { assert (K : forall suf pre D, xs = pre ++ suf -> leaf (length pre) D -> exists D1, for_each suf (fun x '(i, D) => let* u := get tg i in let* D := n_set D u x in Some (S i, D)) (length pre, D) = Some (length xs, D1) /\ leaf (length xs) D1).
    { induction suf as [|x suf IH]; intros pre D Ex Lf; [exists D; rewrite app_nil_r in Ex; subst pre; auto|]. cbn [for_each]. assert (Lp : length pre < n) by (rewrite Ex, app_length in Lx; cbn in Lx; lia). destruct (get_lt tg (i := length pre)) as (u & Gu); [rewrite (si_tg H); auto|]. rewrite Gu. cbn [obind].
      (* the node of this position *)
      assert (Gn : exists y, get T u = Some y /\ ssize y = 1 /\ sl y = length pre).
      { destruct R as (t & G & _). cbn [sg_T sg_tg] in G. rewrite repeat_length in G. clear - G Lp Gu. assert (Q : forall t l r p, grep T tg t l r p -> l <= length pre < r -> exists y, get T u = Some y /\ ssize y = 1 /\ sl y = length pre).
        { clear G. induction t0 as [v|v L IL R IR]; intros l r p G B; [destruct G as (G & -> & Gt); assert (l = length pre) as -> by lia; assert (v = u) as -> by congruence; exists (SN (length pre) (S (length pre)) p None None); split; [auto|]; unfold ssize; cbn [sl sr]; split; [lia|auto]|]. destruct G as (m & _ & HL & HR). destruct (Nat.lt_ge_cases (length pre) m); [apply (IL _ _ _ HL)|apply (IR _ _ _ HR)]; lia. }
        exact (Q _ _ _ _ G ltac:(lia)). }
      destruct Gn as (y & Gy & Sy & Ly). destruct Lf as [Le Lf]. assert (Iu : u < length D) by (rewrite Le; exact (get_some_lt _ _ Gy)). rewrite set_eq with (e := e) (aid := aid) by auto. cbn [obind].
      assert (Ex' : xs = (pre ++ [x]) ++ suf) by (now rewrite <- app_assoc). replace (S (length pre)) with (length (pre ++ [x])) by (rewrite app_length; cbn; lia). apply IH; [auto|]. split; [now rewrite lset_length|].
      intros v z Gz. rewrite dg_lset by auto. rewrite app_length. cbn [length]. destruct (Nat.eqb_spec u v) as [<-|Nv].
      - assert (z = y) as -> by congruence. rewrite (Lf _ _ Gy). rewrite Sy, Ly. rewrite Nat.eqb_refl. cbn [andb]. destruct (Nat.ltb_spec (length pre) (length pre)); [lia|]. destruct (Nat.ltb_spec (length pre) (length pre + 1)); [|lia]. cbn [sa]. rewrite Ex, app_nth2, Nat.sub_diag by lia. reflexivity.
      - rewrite (Lf _ _ Gz). destruct (Nat.eqb_spec (ssize z) 1) as [Sz|]; [|reflexivity]. cbn [andb]. assert (Nl : sl z <> length pre). { intros Q. assert (E1 : forall w q, get T w = Some q -> ssize q = 1 -> get tg (sl q) = Some w). { intros w q Gw Sw. destruct (si_done H Gw (get_some_lt _ _ Gw)) as [(_ & _ & _ & K)|(K & _)]; [auto|lia]. } pose proof (E1 _ _ Gz Sz) as Q1. congruence. }
        destruct (Nat.ltb_spec (sl z) (length pre)), (Nat.ltb_spec (sl z) (length pre + 1)); auto; lia. }
    apply (K xs [] D0 eq_refl). split; [rewrite ED; apply repeat_length|]. intros u x G. cbn [length]. rewrite Bool.andb_false_r. rewrite ED. unfold SegHldData.dg. apply nth_repeat. }
  destruct F1 as (D1 & F1 & Le & Lf). rewrite F1. cbn [obind]. clear F1.
  (* the other nodes *)
  assert (Lxs : forall x, sl x < length xs \/ nth (sl x) xs e = e). { intros x. destruct (Nat.lt_ge_cases (sl x) (length xs)); [auto|]. right. now apply nth_overflow. }
  assert (F2 : exists D2, for_down (length T) 0 (fun i D => let* x := get T i in if ssize x =? 1 then Some D else let* a := slc x in let* b := src x in n_take op D i a b) D1 = Some D2 /\ length D2 = length T /\ forall u x, get T u = Some x -> loc xs D2 u x).
  { assert (K : forall k D, k <= length T -> length D = length T -> (forall u x, get T u = Some x -> u < k -> dg D u = dg D1 u) -> (forall u x, get T u = Some x -> k <= u -> loc xs D u x) ->
      exists D2, for_down k 0 (fun i D => let* x := get T i in if ssize x =? 1 then Some D else let* a := slc x in let* b := src x in n_take op D i a b) D = Some D2 /\ length D2 = length T /\ forall u x, get T u = Some x -> loc xs D2 u x).
    { induction k as [|k IH]; intros D Lk LD Hlo Hhi; [exists D; cbn; split; [auto|split; [auto|intros u x G; apply Hhi; auto; lia]]|]. cbn [for_down Nat.add]. destruct (get_lt T (i := k) ltac:(lia)) as (x & Gx). rewrite Gx. cbn [obind]. pose proof (Lf _ _ Gx) as Ex. pose proof (Hlo _ _ Gx ltac:(lia)) as Ek.
      destruct (Nat.eqb_spec (ssize x) 1) as [Sx|Sx].
      - cbn [obind andb] in *. apply IH; auto; [lia|intros u y Gy Lu; apply (Hlo _ _ Gy); lia|]. intros u y Gy Lu. destruct (Nat.eq_dec u k) as [->|]; [|apply Hhi; auto; lia]. assert (y = x) as -> by congruence. unfold loc. rewrite Ek, Ex, Sx. cbn [Nat.eqb]. destruct (Nat.ltb_spec (sl x) (length xs)); cbn [sa sm srm]; [auto|]. rewrite nth_overflow by auto. auto.
      - cbn [andb] in Ex. destruct (si_done H Gx (get_some_lt _ _ Gx)) as [(K & _)|(K & a & b & y & z & Ea & Eb & La & Lb & Ga & Gb & _)]; [contradiction|]. rewrite Ea, Eb. cbn [obind]. rewrite take_eq with (e := e) (aid := aid) by (rewrite LD; eauto using get_some_lt). cbn [obind]. assert (Lk' : k < length D) by lia.
        apply IH; [lia|now rewrite lset_length|intros u w Gw Lu; rewrite dg_neq by (auto; lia); apply (Hlo _ _ Gw); lia|].
        intros u w Gw Lu. destruct (Nat.eq_dec u k) as [->|Nu].
        + assert (w = x) as -> by congruence. unfold loc. rewrite dg_eq by auto. cbn [sa sm srm]. rewrite Ek, Ex. split; [reflexivity|]. destruct (Nat.eqb_spec (ssize x) 1) as [|_]; [contradiction|]. exists a, b. rewrite !dg_neq by (auto; lia). auto.
        + specialize (Hhi _ _ Gw ltac:(lia)). unfold loc in *. rewrite dg_neq by (auto; lia). destruct Hhi as [H1 H2]. split; [auto|]. destruct (Nat.eqb_spec (ssize w) 1) as [|Sw]; [auto|]. destruct H2 as (a' & b' & Ea' & Eb' & H2 & H3). exists a', b'. destruct (si_done H Gw (get_some_lt _ _ Gw)) as [(K' & _)|(_ & a2 & b2 & _ & _ & Ea2 & Eb2 & La2 & Lb2 & _)]; [contradiction|]. assert (a2 = a') as -> by congruence. assert (b2 = b') as -> by congruence. rewrite !dg_neq by (auto; lia). auto. }
    apply K; auto. intros u x G Lu. apply get_some_lt in G. lia. }
  destruct F2 as (D2 & F2 & L2 & H2). cbn [sg_T] in *. rewrite F2. cbn [obind]. eexists. split; [reflexivity|]. destruct R as (t & G & Eg & _). unfold RI, with_D. cbn [sg_T sg_tg sg_D] in *. rewrite repeat_length in G. exists t.
  assert (El : length (xs ++ repeat e (n - length xs)) = n) by (rewrite app_length, repeat_length; lia). rewrite El. split; [auto|]. split; [auto|]. split; [auto|]. destruct (@loc_val T tg xs D2 _ _ _ _ G H2) as (V & Ed & _). split; [auto|]. rewrite Ed, Nat.sub_0_r. apply get_ext. intros i. destruct (Nat.lt_ge_cases i n) as [Li|Li].
  - rewrite get_map, get_seq by auto. cbn. symmetry. destruct (Nat.lt_ge_cases i (length xs)) as [B|B]; [rewrite get_app_l by auto; apply get_nth; auto|]. rewrite get_app_r by auto. rewrite nth_overflow by auto. apply get_repeat. lia.
  - rewrite !get_none; auto; [lia|rewrite map_length, seq_length; lia].
Qed.

Section Triv.
(** ** SegmentHld: the operators act trivially *)
Hypothesis Triv : forall a v, act a v = v.
Lemma sg_query_ok rv s xs l r : RI s xs -> l <= r -> sg_query op e rv s l r = Some (prod (rsel rv (slice l r xs))).
Proof.
  intros (t & G & Eg & ED & V & Ed) Lr. destruct s as [T tg D]. cbn [sg_T sg_tg sg_D] in *. unfold sg_query. cbn [sg_T]. rewrite <- Eg.
  assert (K : forall t fuel lo hi p, grep T tg t lo hi p -> gh t <= fuel -> val D t -> sg_query_at op e fuel rv (Seg T tg D) l r (Some (gid t)) = Some (prod (rsel rv (slice (l - lo) (r - lo) (den D t))))).
  { clear - Mon Triv Lr ED. intros t. induction t as [u|u L IL R IR]; intros fuel lo hi p G Lf V; (destruct fuel as [|fuel]; [cbn in Lf; lia|]); pose proof (grep_lt _ _ _ _ _ _ G) as Lt; pose proof (@den_length _ _ e aid act T tg D _ _ _ _ G) as Ld; cbn [sg_query_at gid sg_T sg_D]; (assert (C : clean D u) by (intros v; apply Triv)).
    - pose proof G as (Gu & Er & _). rewrite Gu. cbn [obind sl sr]. destruct (Nat.leb_spec hi l), (Nat.leb_spec r lo); cbn [orb]; try (rewrite slice_out by (rewrite Ld; lia); destruct rv; reflexivity).
      destruct (Nat.leb_spec l lo), (Nat.leb_spec hi r); try lia. cbn [andb]. rewrite dg_get with (e := e) (aid := aid) by (rewrite ED; exact (get_some_lt _ _ Gu)). cbn [obind]. rewrite slice_all by lia. destruct (root_prod op (GL u) V C) as [P1 P2]. cbn [gid] in *. rewrite P1, P2. destruct rv; reflexivity.
    - pose proof G as (m & Gu & HL & HR). rewrite Gu. cbn [obind sl sr slc src]. pose proof (grep_lt _ _ _ _ _ _ HL). pose proof (grep_lt _ _ _ _ _ _ HR). destruct (Nat.leb_spec hi l), (Nat.leb_spec r lo); cbn [orb]; try (rewrite slice_out by (rewrite Ld; lia); destruct rv; reflexivity).
      destruct (andb (l <=? lo) (hi <=? r)) eqn:Eb.
      + apply andb_prop in Eb as [B1 B2]. apply Nat.leb_le in B1, B2. rewrite dg_get with (e := e) (aid := aid) by (rewrite ED; exact (get_some_lt _ _ Gu)). cbn [obind]. rewrite slice_all by lia. destruct (root_prod op (GN u L R) V C) as [P1 P2]. cbn [gid] in *. rewrite P1, P2. destruct rv; reflexivity.
      + rewrite (den_clean (GN u L R) C). cbn [SegHldData.inner gh] in *. pose proof (@den_length _ _ e aid act T tg D _ _ _ _ HL) as Ll. destruct V as (_ & _ & V3 & V4). rewrite slice_cat, Ll. replace (l - lo - (m - lo)) with (l - m) by lia. replace (r - lo - (m - lo)) with (r - m) by lia.
        destruct rv; [rewrite (IR fuel m hi _ HR ltac:(lia) V4); cbn [obind]; rewrite (IL fuel lo m _ HL ltac:(lia) V3)|rewrite (IL fuel lo m _ HL ltac:(lia) V3); cbn [obind]; rewrite (IR fuel m hi _ HR ltac:(lia) V4)]; cbn [obind rsel]; rewrite ?rev_app_distr, (product_app Mon); reflexivity. }
  rewrite (K t _ _ _ _ G); [|pose proof (grep_height _ _ _ _ _ _ G); lia|auto]. now rewrite !Nat.sub_0_r, Ed.
Qed.
Lemma sg_get_ok s xs i : RI s xs -> i < length xs -> sg_get s i = get xs i /\ sg_get_rev s i = get xs i.
Proof.
  intros (t & G & Eg & ED & V & Ed) Li. destruct s as [T tg D]. cbn [sg_T sg_tg sg_D] in *. rewrite <- Ed. unfold sg_get, sg_get_rev. cbn [sg_tg sg_D].
  assert (K : forall t lo hi p k, grep T tg t lo hi p -> val D t -> lo + k < hi -> exists u, get tg (lo + k) = Some u /\ get (den D t) k = Some (sm (dg D u)) /\ srm (dg D u) = sm (dg D u) /\ u < length T).
  { clear - Mon Triv. intros t. induction t as [u|u L IL R IR]; intros lo hi p k G V Lk.
    - destruct G as (Gu & -> & Gt). exists u. assert (k = 0) as -> by lia. rewrite Nat.add_0_r. split; [auto|]. destruct V as (V1 & V2 & _). cbn in V1, V2 |- *. rewrite Triv. split; [auto|]. split; [rewrite V2; apply (mon_right Mon)|exact (get_some_lt _ _ Gu)].
    - pose proof G as (m & Gu & HL & HR). destruct V as (_ & _ & V3 & V4). assert (C : clean D u) by (intros v; apply Triv). rewrite (den_clean (GN u L R) C). cbn [SegHldData.inner]. pose proof (@den_length _ _ e aid act T tg D _ _ _ _ HL) as Ll. pose proof (grep_lt _ _ _ _ _ _ HL). destruct (Nat.lt_ge_cases (lo + k) m) as [B|B].
      + rewrite get_app_l by lia. exact (IL _ _ _ _ HL V3 B).
      + rewrite get_app_r, Ll by lia. replace (lo + k) with (m + (k - (m - lo))) by lia. apply (IR _ _ _ _ HR V4). lia. }
  destruct (K t 0 (length xs) None i G V Li) as (u & Gt & Gd & Er & Lu). cbn [Nat.add] in Gt. rewrite Gt. cbn [obind]. rewrite dg_get with (e := e) (aid := aid) by lia. cbn [obind]. rewrite Gd, Er. auto.
Qed.
Lemma sg_set_ok s xs i x : RI s xs -> i < length xs -> exists s', sg_set op s i x = Some s' /\ RI s' (lset xs i x).
Proof.
  intros (t & G & Eg & ED & V & Ed) Li. destruct s as [T tg D]. cbn [sg_T sg_tg sg_D] in *. unfold sg_set. cbn [sg_T sg_tg sg_D].
  match goal with |- context [loop _ ?bd _] => set (body := bd) end.
  assert (K : forall t lo hi p k u0, grep T tg t lo hi p -> val D t -> lo + k < hi -> get tg (lo + k) = Some u0 -> exists D1 nd, n_set D u0 x = Some D1 /\ get T u0 = Some nd /\
    exists c D', c < gh t /\ (forall f, c <= f -> loop f body (sp nd, D1) = loop (f - c) body (p, D')) /\ frame D D' t /\ val D' t /\ den D' t = lset (den D t) k x).
  { clear - Mon Triv ED. intros t. induction t as [u|u L IL R IR]; intros lo hi p k u0 G V Lk Gt.
    - destruct G as (Gu & -> & Gt'). assert (k = 0) as -> by lia. rewrite Nat.add_0_r in Gt. assert (u0 = u) as -> by congruence. assert (I : u < length D) by (rewrite ED; exact (get_some_lt _ _ Gu)). rewrite set_eq with (e := e) (aid := aid) by auto. do 2 eexists. split; [reflexivity|]. split; [exact Gu|]. cbn [sp]. eexists 0, _. split; [cbn; lia|]. split; [intros f _; now rewrite Nat.sub_0_r|]. split; [apply frame_lset; [now left|auto]|]. cbn [SegHldData.val gid SegHldData.inner SegHldData.den]. rewrite dg_eq by auto. cbn [sm srm sa rev app lset]. rewrite Triv, (product_one Mon). auto.
    - pose proof G as (m & Gu & HL & HR). destruct V as (V1 & V2 & V3 & V4). assert (C : forall D v, clean D v) by (intros D2 w v; apply Triv). rewrite (den_clean (GN u L R) (C D u)). cbn [SegHldData.inner]. pose proof (@den_length _ _ e aid act T tg D _ _ _ _ HL) as Ll. pose proof (grep_lt _ _ _ _ _ _ HL). destruct (split_nd G) as (N1 & N2 & N3 & N4). destruct (Nat.lt_ge_cases (lo + k) m) as [B|B].
      + destruct (IL _ _ _ _ _ HL V3 B Gt) as (D1 & nd & E1 & Gn & c & D2 & Lc & Lp & F & V5 & Ed). exists D1, nd. split; [auto|]. split; [auto|]. pose proof (frame_same _ F N4) as S2. assert (E2 : length D2 = length T) by (now rewrite (proj1 F)).
        destruct (take_ok Mon (D := D2) G E2 (C _ _) V5 (val_same op act S2 V4) (C _ _) (C _ _)) as (D3 & Q & F3 & W & _ & X). exists (S c), D3. split; [cbn [gh]; lia|]. split.
        * intros f Lf. rewrite Lp by lia. replace (f - c) with (S (f - S c)) by lia. cbn [loop]. unfold body at 1. rewrite Gu. cbn [obind slc src]. rewrite Q. reflexivity.
        * split; [eapply frame_trans; [exact (frame_sub (GN u L R) F (@sub_l u L R))|exact F3]|]. split; [auto|]. rewrite X, Ed, (den_same act S2). symmetry. apply lset_app_l. lia.
      + destruct (IR m hi (Some u) (k - (m - lo)) u0 HR V4 ltac:(lia) ltac:(rewrite <- Gt; f_equal; lia)) as (D1 & nd & E1 & Gn & c & D2 & Lc & Lp & F & V5 & Ed). exists D1, nd. split; [auto|]. split; [auto|]. pose proof (frame_same _ F N3) as S2. assert (E2 : length D2 = length T) by (now rewrite (proj1 F)).
        destruct (take_ok Mon (D := D2) G E2 (C _ _) (val_same op act S2 V3) V5 (C _ _) (C _ _)) as (D3 & Q & F3 & W & _ & X). exists (S c), D3. split; [cbn [gh]; lia|]. split.
        * intros f Lf. rewrite Lp by lia. replace (f - c) with (S (f - S c)) by lia. cbn [loop]. unfold body at 1. rewrite Gu. cbn [obind slc src]. rewrite Q. reflexivity.
        * split; [eapply frame_trans; [exact (frame_sub (GN u L R) F (@sub_r u L R))|exact F3]|]. split; [auto|]. rewrite X, Ed, (den_same act S2). symmetry. rewrite <- Ll. apply lset_app_r. lia. }
  assert (Lk : i < gsz t) by (rewrite (@gsz_grep _ _ _ _ _ _ G); lia). destruct (@gpath_leaf T tg t i _ _ _ G Lk) as (Q & u0 & _ & Gt). destruct (K t 0 (length xs) None i u0 G V Li Gt) as (D1 & nd & E1 & Gn & c & D' & Lc & Lp & F & V' & Ed'). cbn [Nat.add] in Gt. rewrite Gt. cbn [obind]. rewrite E1. cbn [obind]. rewrite Gn. cbn [obind].
  pose proof (grep_height _ _ _ _ _ _ G). rewrite Lp by lia. replace (S (length T) - c) with (S (length T - c)) by lia. cbn [loop body obind]. eexists. split; [reflexivity|]. exists t. cbn [with_D sg_T sg_tg sg_D]. rewrite lset_length, (proj1 F), Ed', Ed. auto.
Qed.
End Triv.

(** ** LazySegmentHld *)
Variable isop : A -> bool.
Hypothesis Isop : forall a, isop a = false -> forall v, act a v = v.
Lemma lg_query_ok rv s xs l r : RI s xs -> l <= r -> exists s', lg_query op e comp aid act isop rv s l r = Some (s', prod (rsel rv (slice l r xs))) /\ RI s' xs.
Proof.
  intros (t & G & Eg & ED & V & Ed) Lr. destruct s as [T tg D]. cbn [sg_T sg_tg sg_D] in *. unfold lg_query. cbn [sg_T sg_D]. rewrite <- Eg. destruct (@query_ok _ _ _ _ _ _ _ _ Mon Act Isop T tg D rv l r Lr t (S (length T)) _ _ _ D G) as (D' & E & F & V' & Ed'); auto; [pose proof (grep_height _ _ _ _ _ _ G); lia|]. rewrite E. cbn [obind]. rewrite !Nat.sub_0_r, Ed. eexists. split; [reflexivity|]. exists t. cbn [with_D sg_T sg_tg sg_D]. rewrite (proj1 F), Ed', Ed. auto.
Qed.
Lemma lg_update_ok s xs l r f : RI s xs -> l <= r -> r <= length xs -> exists s', lg_update op comp aid act isop s l r f = Some s' /\ RI s' (map_range (act f) l r xs) /\ length (map_range (act f) l r xs) = length xs.
Proof.
  intros (t & G & Eg & ED & V & Ed) Lr Lx. destruct s as [T tg D]. cbn [sg_T sg_tg sg_D] in *. unfold lg_update. cbn [sg_T sg_D]. rewrite <- Eg. destruct (@update_ok _ _ _ _ _ _ _ _ Mon Act Isop T tg D l r f Lr t (S (length T)) _ _ _ D G) as (D' & E & F & V' & C & Ed'); auto; [pose proof (grep_height _ _ _ _ _ _ G); lia|]. rewrite E. cbn [obind]. rewrite !Nat.sub_0_r, Ed in Ed'. eexists. split; [reflexivity|].
  assert (Em : length (map_range (act f) l r xs) = length xs) by (rewrite <- Ed', (@den_length _ _ e aid act T tg D' _ _ _ _ G); lia). split; [|auto]. exists t. cbn [with_D sg_T sg_tg sg_D]. rewrite (proj1 F), Em. auto.
Qed.
Lemma lg_set_ok s xs i x : RI s xs -> i < length xs -> exists s', lg_set op comp aid act isop s i x = Some s' /\ RI s' (lset xs i x).
Proof.
  intros (t & G & Eg & ED & V & Ed) Li. destruct s as [T tg D]. cbn [sg_T sg_tg sg_D] in *. unfold lg_set. cbn [sg_T sg_tg sg_D].
  assert (Lk : i < gsz t) by (rewrite (@gsz_grep _ _ _ _ _ _ G); lia). destruct (@gpath_leaf T tg t i _ _ _ G Lk) as (Q & u0 & Ep & Gt). rewrite Nat.add_0_l in Gt. rewrite Gt. cbn [obind].
  assert (Ei : lg_ids (Seg T tg D) u0 = Some (rev (gpath t i))).
  { unfold lg_ids. cbn [sg_T]. pose proof (gpath_len t i). pose proof (grep_height _ _ _ _ _ _ G). pose proof (@ids_ok M A T tg D t i 0 (length xs) None (S (length T)) [] u0 G Lk Gt ltac:(lia)) as K. cbn [sg_T app] in K. cbn zeta in K. etransitivity; [exact K|]. replace (S (length T) - length (gpath t i)) with (S (length T - length (gpath t i))) by lia. reflexivity. }
  rewrite Ei. cbn [obind]. destruct (@down_ok _ _ _ _ _ _ _ _ Mon Act Isop T tg D t i _ _ _ D G Lk ED V) as (D1 & E1 & F1 & V1 & Ed1 & C1).
  rewrite (for_down_each (lg_prop comp aid act isop (Seg T tg D)) (rev (gpath t i)) D), rev_involutive, E1. cbn [obind]. assert (G0 : get (rev (gpath t i)) 0 = Some u0) by (rewrite Ep, rev_app_distr; reflexivity). rewrite G0. cbn [obind].
  destruct (@up_ok _ _ _ _ _ _ _ _ Mon Act Isop T tg D x t i 0 (length xs) None D1 u0 G Lk Gt ltac:(rewrite (proj1 F1); auto) V1 C1) as (D2 & D3 & E2 & E3 & F3 & V3 & C3 & Ed3). rewrite E2. cbn [obind]. destruct (climb_spec t i) as [Lc Hc]. rewrite rev_length, <- Lc.
  rewrite (for_up_each _ (lz_step op comp aid act isop T tg D)), E3.
  - cbn [obind]. eexists. split; [reflexivity|]. exists t. cbn [with_D sg_T sg_tg sg_D]. rewrite lset_length, (proj1 F3), (proj1 F1), Ed3, Ed1, Ed. auto.
  - intros k [a b] D4 Gk. destruct (Hc _ _ _ Gk) as [G1 G2]. replace (1 + k) with (S k) by lia. rewrite G1. cbn [obind]. replace (S k - 1) with k by lia. unfold lz_step. cbn [fst snd]. destruct (get T a) as [nd|]; [|reflexivity]. cbn [obind]. destruct (slc nd); [|reflexivity]. cbn [obind]. destruct (src nd); [|reflexivity]. cbn [obind]. rewrite G2. reflexivity.
Qed.
End Seg.
