From Coq Require Import Permutation.
From Verif Require Import Base BaseLemmas ListExtra Order MeldModel.

Section Meld.
Variable T : Type.
Variable ltb : T -> T -> bool.
Hypothesis W : weak_order ltb.
Variable coin : nat -> bool.
Notation node := (node T).
Notation mem := (mem T).
Notation wle := (wle T ltb).

(** The tree hanging from a pointer, with its addresses. *)
Inductive tree := Lf | Nd (a : nat) (x : T) (l r : tree).
Fixpoint addrs (t : tree) : list nat :=
  match t with Lf => [] | Nd a _ l r => a :: addrs l ++ addrs r end.
Fixpoint elems (t : tree) : list T :=
  match t with Lf => [] | Nd _ x l r => x :: elems l ++ elems r end.
Fixpoint rep (h : list node) (p : option nat) (t : tree) : Prop :=
  match t with
  | Lf => p = None
  | Nd a x l r => p = Some a /\ exists lp rp, get h a = Some (mk_node x lp rp) /\ rep h lp l /\ rep h rp r
  end.
Fixpoint heapo (t : tree) : Prop :=
  match t with
  | Lf => True
  | Nd _ x l r => (forall y, In y (elems l ++ elems r) -> wle y x) /\ heapo l /\ heapo r
  end.

Lemma rep_frame h h' t : forall p, rep h p t -> (forall a, In a (addrs t) -> get h' a = get h a) -> rep h' p t.
Proof.
  induction t as [|a x l IHl r IHr]; intros p; cbn [rep addrs]; auto.
  intros (-> & lp & rp & G & L & R) F. split; auto. exists lp, rp.
  split; [rewrite F; auto; now left|]. split.
  - apply IHl; auto. intros b Hb. apply F. right. apply in_or_app. auto.
  - apply IHr; auto. intros b Hb. apply F. right. apply in_or_app. auto.
Qed.
Lemma rep_bound h t : forall p, rep h p t -> forall a, In a (addrs t) -> a < length h.
Proof.
  induction t as [|a x l IHl r IHr]; intros p; cbn [rep addrs]; [intros _ ? []|].
  intros (-> & lp & rp & G & L & R) b [<-|Hb]; [eapply get_some_lt; eauto|].
  apply in_app_or in Hb. destruct Hb; eauto.
Qed.
Lemma addrs_len t : length (addrs t) = length (elems t).
Proof. induction t as [|a x l IHl r IHr]; cbn; auto. rewrite !app_length. lia. Qed.
Lemma root_max a x l r y : heapo (Nd a x l r) -> In y (elems (Nd a x l r)) -> wle y x.
Proof. intros (H & _) [<-|I]; auto. apply wle_refl; auto. Qed.

(** Calls left before one tree gets smaller. *)
Definition flips (h : list node) (l r : option nat) : nat :=
  match l, r with
  | Some a, Some b =>
      match get h a, get h b with
      | Some na, Some nb => if ltb (nd_x na) (nd_x nb) then 1 else 0
      | _, _ => 0
      end
  | _, _ => 0
  end.

Lemma flips_le h p q : flips h p q <= 1.
Proof.
  unfold flips. destruct p as [a|], q as [b|]; auto. destruct (get h a), (get h b); auto. destruct (ltb _ _); auto.
Qed.

Lemma meld_ok fuel : forall h c p q t u,
  rep h p t -> rep h q u -> heapo t -> heapo u -> NoDup (addrs t ++ addrs u) ->
  2 * (length (addrs t) + length (addrs u)) + flips h p q < fuel ->
  exists h' c' s v, meld_rec ltb coin fuel (h, c) p q = Some ((h', c'), s) /\ rep h' s v /\ heapo v /\
    Permutation (addrs v) (addrs t ++ addrs u) /\ Permutation (elems v) (elems t ++ elems u) /\
    length h' = length h /\ (forall a, ~ In a (addrs t ++ addrs u) -> get h' a = get h a).
Proof.
  induction fuel as [|fuel IH]; intros h c p q t u Rp Rq Ht Hu ND F; [lia|].
  cbn [meld_rec].
  destruct t as [|a x l r].
  { cbn in Rp. subst p. exists h, c, q, u. cbn [addrs elems app]. repeat split; auto. }
  destruct u as [|b y l' r'].
  { cbn in Rq. subst q. cbn [rep] in Rp. destruct Rp as (-> & Rp).
    exists h, c, (Some a), (Nd a x l r). cbn [addrs elems]. rewrite !app_nil_r.
    split; [reflexivity|]. split; [cbn [rep]; auto|]. repeat split; auto. apply Ht. apply Ht. apply Ht. }
  pose proof Rp as Rp0. pose proof Rq as Rq0.
  cbn [rep] in Rp, Rq. destruct Rp as (-> & lp & rp & Ga & RL & RR). destruct Rq as (-> & lq & rq & Gb & RL' & RR').
  unfold flips in F. rewrite Ga, Gb in F. cbn [fst snd obind]. rewrite Ga, Gb. cbn [obind nd_x nd_l nd_r] in *.
  destruct (ltb x y) eqn:E.
  - destruct (IH h c (Some b) (Some a) (Nd b y l' r') (Nd a x l r)) as (h' & c' & s & v & -> & K); auto.
    + apply (Permutation_NoDup (Permutation_app_comm _ _)). auto.
    + unfold flips. rewrite Ga, Gb. cbn [nd_x]. rewrite (wo_asym _ _ W _ _ E). lia.
    + destruct K as (R & Hv & P1 & P2 & L & Fr). exists h', c', s, v. split; [reflexivity|]. repeat split; auto.
      * rewrite P1. apply Permutation_app_comm.
      * rewrite P2. apply Permutation_app_comm.
      * intros z Hz. apply Fr. intros I. apply Hz. apply in_app_or in I. apply in_or_app. tauto.
  - cbv iota in F. cbn [addrs length] in F. rewrite !app_length in F.
    assert (NDl : NoDup (addrs l ++ addrs (Nd b y l' r')) /\ NoDup (addrs r ++ addrs (Nd b y l' r')) /\
      ~ In a (addrs l ++ addrs r ++ addrs (Nd b y l' r')) /\ NoDup ((addrs l ++ addrs r) ++ addrs (Nd b y l' r'))).
    { cbn [addrs app] in ND. inversion ND as [|? ? Na ND']; subst. rewrite <- app_assoc in Na, ND'.
      assert (PP : Permutation (addrs l ++ addrs r ++ addrs (Nd b y l' r')) (addrs r ++ addrs l ++ addrs (Nd b y l' r'))).
      { rewrite !app_assoc. apply Permutation_app_tail. apply Permutation_app_comm. }
      split; [|split; [|split]].
      - apply (Permutation_NoDup PP) in ND'. eapply NoDup_app_remove_l; eauto.
      - eapply NoDup_app_remove_l; eauto.
      - exact Na.
      - rewrite <- app_assoc. exact ND'. }
    destruct NDl as (ND1 & ND2 & Na & ND3). destruct Ht as (Hx & Hl & Hr).
    assert (Yx : forall z, In z (elems (Nd b y l' r')) -> wle z x).
    { intros z Hz. apply (wle_trans _ _ W z y x); [eapply root_max; eauto|exact E]. }
    assert (Sep : forall z, In z (addrs l) -> In z (addrs r) -> False).
    { intros z I1 I2. clear - ND3 I1 I2. rewrite <- app_assoc in ND3.
      induction (addrs l) as [|w m IHm]; [contradiction|]. inversion ND3; subst. destruct I1 as [->|I1].
      - apply H1. apply in_or_app. right. apply in_or_app. auto.
      - auto. }
    assert (SepU : forall z, In z (addrs l ++ addrs r) -> In z (addrs (Nd b y l' r')) -> False).
    { intros z I1 I2. clear - ND3 I1 I2. induction (addrs l ++ addrs r) as [|w m IHm]; [contradiction|].
      cbn [app] in ND3. inversion ND3; subst. destruct I1 as [->|I1].
      - apply H1. apply in_or_app. auto.
      - auto. }
    destruct (coin c).
    + destruct (IH h (c + 1) lp (Some b) l (Nd b y l' r')) as (h' & c' & s & v & -> & R & Hv & P1 & P2 & L & Fr); auto.
      { cbn [addrs length]. rewrite app_length. pose proof (flips_le h lp (Some b)). lia. }
      cbn [obind fst snd]. rewrite Fr by (intros I; apply Na; apply in_app_or in I; apply in_or_app; destruct I; auto; right; apply in_or_app; auto).
      rewrite Ga. cbn [obind nd_x nd_r].
      rewrite set_some by (rewrite L; eapply get_some_lt; eauto). cbn [obind].
      eexists _, c', (Some a), (Nd a x v r). split; [reflexivity|].
      assert (Nav : ~ In a (addrs v)) by (intros I; apply (Permutation_in _ P1) in I; apply Na; apply in_app_or in I; apply in_or_app; destruct I; auto; right; apply in_or_app; auto).
      assert (Nar : ~ In a (addrs r)) by (intros I; apply Na; apply in_or_app; right; apply in_or_app; auto).
      split; [|split; [|split; [|split; [|split]]]].
      * cbn [rep]. split; auto. exists s, rp. split; [apply get_lset_eq; rewrite L; eapply get_some_lt; eauto|]. split.
        -- apply (rep_frame h'); auto. intros z Hz. apply get_lset_neq. intros <-. auto.
        -- apply (rep_frame h); auto. intros z Hz. rewrite get_lset_neq by (intros <-; auto).
           apply Fr. intros I. apply in_app_or in I. destruct I as [I|I]; [eapply Sep; eauto|].
           eapply SepU; [apply in_or_app; right; exact Hz|exact I].
      * cbn [heapo]. split; auto. intros z Hz. apply in_app_or in Hz. destruct Hz as [Hz|Hz].
        -- apply (Permutation_in _ P2) in Hz. apply in_app_or in Hz. destruct Hz; auto. apply Hx, in_or_app. auto.
        -- apply Hx, in_or_app. auto.
      * cbn [addrs]. rewrite P1. cbn [app addrs]. constructor. rewrite <- !app_assoc. apply Permutation_app_head. apply Permutation_app_comm.
      * cbn [elems]. rewrite P2. cbn [app elems]. constructor. rewrite <- !app_assoc. apply Permutation_app_head. apply Permutation_app_comm.
      * now rewrite lset_length.
      * intros z Hz. cbn [addrs app] in Hz. rewrite get_lset_neq by (intros <-; apply Hz; now left).
        apply Fr. intros I. apply Hz. right. rewrite <- app_assoc. apply in_app_or in I. apply in_or_app. destruct I; auto.
        right. apply in_or_app. auto.
    + destruct (IH h (c + 1) rp (Some b) r (Nd b y l' r')) as (h' & c' & s & v & -> & R & Hv & P1 & P2 & L & Fr); auto.
      { cbn [addrs length]. rewrite app_length. pose proof (flips_le h rp (Some b)). lia. }
      cbn [obind fst snd]. rewrite Fr by (intros I; apply Na; apply in_or_app; auto).
      rewrite Ga. cbn [obind nd_x nd_l].
      rewrite set_some by (rewrite L; eapply get_some_lt; eauto). cbn [obind].
      eexists _, c', (Some a), (Nd a x l v). split; [reflexivity|].
      assert (Nav : ~ In a (addrs v)) by (intros I; apply (Permutation_in _ P1) in I; apply Na; apply in_or_app; auto).
      assert (Nal : ~ In a (addrs l)) by (intros I; apply Na; apply in_or_app; auto).
      split; [|split; [|split; [|split; [|split]]]].
      * cbn [rep]. split; auto. exists lp, s. split; [apply get_lset_eq; rewrite L; eapply get_some_lt; eauto|]. split.
        -- apply (rep_frame h); auto. intros z Hz. rewrite get_lset_neq by (intros <-; auto).
           apply Fr. intros I. apply in_app_or in I. destruct I as [I|I]; [eapply Sep; eauto|].
           eapply SepU; [apply in_or_app; left; exact Hz|exact I].
        -- apply (rep_frame h'); auto. intros z Hz. apply get_lset_neq. intros <-. auto.
      * cbn [heapo]. split; auto. intros z Hz. apply in_app_or in Hz. destruct Hz as [Hz|Hz].
        -- apply Hx, in_or_app. auto.
        -- apply (Permutation_in _ P2) in Hz. apply in_app_or in Hz. destruct Hz; auto. apply Hx, in_or_app. auto.
      * cbn [addrs]. rewrite P1. cbn [app addrs]. constructor. rewrite <- !app_assoc. reflexivity.
      * cbn [elems]. rewrite P2. cbn [app elems]. constructor. rewrite <- !app_assoc. reflexivity.
      * now rewrite lset_length.
      * intros z Hz. cbn [addrs app] in Hz. rewrite get_lset_neq by (intros <-; apply Hz; now left).
        apply Fr. intros I. apply Hz. right. rewrite <- app_assoc. apply in_or_app. auto.
Qed.

(** A heap object, its tree and its contents. *)
Record obj (h : list node) (o : heap) (t : tree) (l : list T) : Prop := {
  ob_rep : rep h (hp_r o) t;
  ob_heap : heapo t;
  ob_nd : NoDup (addrs t);
  ob_perm : Permutation (elems t) l;
  ob_size : hp_sz o = length l
}.

Lemma obj_frame h h' o t l : obj h o t l -> (forall a, In a (addrs t) -> get h' a = get h a) -> obj h' o t l.
Proof. intros [R H N P S] F. constructor; auto. eapply rep_frame; eauto. Qed.

Lemma meld_ptr_ok h c p q t u : rep h p t -> rep h q u -> heapo t -> heapo u -> NoDup (addrs t ++ addrs u) ->
  exists h' c' s v, meld_ptr ltb coin (h, c) p q = Some ((h', c'), s) /\ rep h' s v /\ heapo v /\ NoDup (addrs v) /\
    Permutation (addrs v) (addrs t ++ addrs u) /\ Permutation (elems v) (elems t ++ elems u) /\
    length h' = length h /\ (forall a, ~ In a (addrs t ++ addrs u) -> get h' a = get h a).
Proof.
  intros Rp Rq Ht Hu ND. unfold meld_ptr. cbn [fst].
  destruct (meld_ok (2 * length h + 2) h c p q t u) as (h' & c' & s & v & E & R & H & P1 & P2 & L & F); auto.
  - assert (length (addrs t ++ addrs u) <= length h).
    { apply NoDup_bound; auto. intros a I. apply in_app_or in I.
      destruct I; [apply (rep_bound h t p Rp); auto|apply (rep_bound h u q Rq); auto]. }
    rewrite app_length in *. pose proof (flips_le h p q).
    lia.
  - exists h', c', s, v. split; auto. split; auto. split; auto. split; auto.
    eapply Permutation_NoDup; [symmetry; eauto|auto].
Qed.

Lemma push_obj h c o t l x : obj h o t l ->
  exists h' c' o' t', hp_push ltb coin (h, c) o x = Some ((h', c'), o') /\ obj h' o' t' (x :: l) /\
    Permutation (addrs t') (length h :: addrs t) /\ length h' = S (length h) /\
    (forall a, a < length h -> ~ In a (addrs t) -> get h' a = get h a).
Proof.
  intros [R H N P S]. unfold hp_push. cbn [fst snd]. rewrite app_length. cbn [length].
  replace (length h + 1 - 1) with (length h) by lia.
  set (h1 := h ++ [mk_node x None None]).
  assert (B : forall a, In a (addrs t) -> a < length h) by (eapply rep_bound; eauto).
  destruct (meld_ptr_ok h1 c (hp_r o) (Some (length h)) t (Nd (length h) x Lf Lf))
    as (h' & c' & s & v & -> & R' & H' & N' & P1 & P2 & L & F).
  - eapply rep_frame; eauto. intros a I. apply get_app_l. auto.
  - cbn [rep]. split; auto. exists None, None. split; auto. unfold h1. rewrite get_app_r, Nat.sub_diag by lia. reflexivity.
  - auto.
  - cbn. repeat split; auto. intros ? [].
  - cbn [addrs app]. apply NoDup_app_iff. repeat split; auto; [constructor; [intros []|constructor]|].
    intros a I [<-|[]]. apply B in I. lia.
  - cbn [obind]. exists h', c', (mk_heap s (hp_sz o + 1)), v. split; [reflexivity|].
    cbn [addrs elems app] in *. split; [|split; [|split]].
    + constructor; cbn [hp_r hp_sz]; auto.
      * rewrite P2, P. rewrite Permutation_app_comm. reflexivity.
      * rewrite S. cbn. lia.
    + rewrite P1. symmetry. apply Permutation_cons_append.
    + rewrite L. unfold h1. rewrite app_length. cbn. lia.
    + intros a Ha Na. rewrite F.
      * unfold h1. now apply get_app_l.
      * intros I. apply in_app_or in I. destruct I as [I|[I|[]]]; auto. lia.
Qed.

Lemma range_obj xs : forall h c, exists h' c' o' t', hp_range ltb coin (h, c) xs = Some ((h', c'), o') /\
  obj h' o' t' xs /\ (forall a, In a (addrs t') -> length h <= a) /\ length h <= length h' /\
  (forall a, a < length h -> get h' a = get h a).
Proof.
  intros h c. unfold hp_range.
  destruct (@for_each_rule _ _ (fun done rest '((h', c'), o) => exists t, obj h' o t done /\
      (forall a, In a (addrs t) -> length h <= a) /\ length h <= length h' /\
      (forall a, a < length h -> get h' a = get h a))
    (fun x '(m, o) => hp_push ltb coin m o x) xs [] ((h, c), hp_empty)) as ([[h' c'] o'] & E & t & K).
  - exists Lf. split; [|split; [intros ? []|auto]]. constructor; cbn; auto. constructor.
  - intros done x rest [[h1 c1] o1] (t & O & B & L & F).
    destruct (push_obj h1 c1 o1 t done x O) as (h2 & c2 & o2 & t2 & E & O2 & P2 & L2 & F2).
    exists ((h2, c2), o2). split; [exact E|]. exists t2. split; [|split; [|split]].
    + destruct O2 as [R2 H2 N2 P2' S2]. constructor; auto.
      * rewrite P2'. apply Permutation_cons_append.
      * rewrite S2, app_length. cbn. lia.
    + intros a I. apply (Permutation_in _ P2) in I. destruct I as [<-|I]; auto.
    + lia.
    + intros a Ha. rewrite F2; auto; [lia|]. intros I. apply B in I. lia.
  - exists h', c', o', t. split; [exact E|exact K].
Qed.

Lemma meld_obj h c o t l o2 t2 l2 : obj h o t l -> obj h o2 t2 l2 ->
  (forall a, In a (addrs t) -> In a (addrs t2) -> False) ->
  exists h' c' o' t', hp_meld ltb coin (h, c) o o2 = Some ((h', c'), o') /\ obj h' o' t' (l ++ l2) /\
    Permutation (addrs t') (addrs t ++ addrs t2) /\ length h' = length h /\
    (forall a, ~ In a (addrs t ++ addrs t2) -> get h' a = get h a).
Proof.
  intros [R H N P S] [R2 H2 N2 P2 S2] D. unfold hp_meld.
  destruct (meld_ptr_ok h c (hp_r o) (hp_r o2) t t2) as (h' & c' & s & v & -> & R' & H' & N' & Q1 & Q2 & L & F); auto.
  { apply NoDup_app_iff. auto. }
  cbn [obind]. do 4 eexists. split; [reflexivity|]. split; [|split; [eauto|auto]].
  constructor; cbn [hp_r hp_sz]; auto; [now rewrite Q2, P, P2|rewrite app_length; lia].
Qed.

Lemma pop_obj h c o t l : obj h o t l -> l <> [] ->
  exists h' c' o' t' x l', hp_pop ltb coin (h, c) o = Some ((h', c'), o', x) /\ hp_top (h, c) o = Some x /\
    greatest ltb x l /\ Permutation l (x :: l') /\ obj h' o' t' l' /\ incl (addrs t') (addrs t) /\
    length h' = length h /\ (forall a, ~ In a (addrs t) -> get h' a = get h a).
Proof.
  intros [R H N P S] NE. destruct t as [|a x tl tr].
  { cbn in P. apply Permutation_nil in P. contradiction. }
  pose proof (fun y => root_max a x tl tr y H) as RM.
  cbn [rep] in R. destruct R as (E & lp & rp & G & RL & RR). unfold hp_pop, hp_top. rewrite E. cbn [obind fst].
  rewrite G. cbn [obind nd_x nd_l nd_r]. cbn [addrs] in N. inversion N as [|? ? Na N']; subst.
  destruct H as (Hx & HL & HR).
  destruct (meld_ptr_ok h c lp rp tl tr) as (h' & c' & s & v & -> & R' & H' & Nv & P1 & P2 & L & F); auto.
  cbn [obind]. do 4 eexists. exists x, (elems v). split; [reflexivity|]. split; auto.
  assert (PL : Permutation l (x :: elems v)) by (rewrite <- P, P2; reflexivity).
  split; [|split; [auto|split; [|split; [|split]]]].
  - split.
    + eapply Permutation_in; [symmetry; eauto|now left].
    + intros y I. apply RM. eapply Permutation_in; [symmetry; eauto|auto].
  - constructor; cbn [hp_r hp_sz]; eauto. rewrite S, (Permutation_length PL). cbn. lia.
  - intros b I. right. eapply Permutation_in; eauto.
  - auto.
  - intros b I. apply F. intros J. apply I. now right.
Qed.

(** ** The pool *)
Record inv (st : mem * list heap) (bs : list (bag T)) (f : nat -> tree) : Prop := {
  iv_len : length (snd st) = length bs;
  iv_obj : forall i l, get bs i = Some (Some l) -> exists o, get (snd st) i = Some o /\ obj (fst (fst st)) o (f i) l;
  iv_dead : forall i, i < length bs -> get bs i = Some None -> f i = Lf;
  iv_sep : forall i j, i < length bs -> j < length bs -> i <> j -> forall a, In a (addrs (f i)) -> In a (addrs (f j)) -> False;
  iv_bound : forall i a, i < length bs -> In a (addrs (f i)) -> a < length (fst (fst st))
}.
Definition upd (f : nat -> tree) i t : nat -> tree := fun j => if j =? i then t else f j.
Lemma upd_eq f i t : upd f i t i = t. Proof. unfold upd. now rewrite Nat.eqb_refl. Qed.
Lemma upd_neq f i j t : j <> i -> upd f i t j = f j.
Proof. intros N. unfold upd. apply Nat.eqb_neq in N. now rewrite N. Qed.

(** Replacing one live object. *)
Lemma inv_upd h c hs bs f i h' c' o' t' l' : inv ((h, c), hs) bs f -> i < length bs ->
  obj h' o' t' l' -> length h <= length h' ->
  (forall a, In a (addrs t') -> In a (addrs (f i)) \/ length h <= a) ->
  (forall a, a < length h -> ~ In a (addrs (f i)) -> get h' a = get h a) ->
  inv ((h', c'), lset hs i o') (lset bs i (Some l')) (upd f i t').
Proof.
  intros [IL IO ID IS IB] Hi O L N F. cbn [fst snd] in *. constructor; cbn [fst snd]; rewrite ?lset_length; auto.
  - intros j l E. destruct (Nat.eq_dec j i) as [->|NE].
    + rewrite get_lset_eq in E by auto. injection E as <-. rewrite get_lset_eq by lia. rewrite upd_eq. eauto.
    + rewrite get_lset_neq in E by auto. destruct (IO j l E) as (o & G & OJ). rewrite get_lset_neq by auto.
      rewrite upd_neq by auto. exists o. split; auto. eapply obj_frame; eauto.
      intros a I. assert (Hj : j < length bs) by (eapply get_some_lt; eauto). apply F; [eapply IB; eauto|].
      intros J. apply (IS j i Hj Hi NE a I J).
  - intros j Hj E. destruct (Nat.eq_dec j i) as [->|NE].
    + rewrite get_lset_eq in E by auto. discriminate.
    + rewrite get_lset_neq in E by auto. rewrite upd_neq by auto. auto.
  - intros j k Hj Hk NE a I J. unfold upd in *.
    destruct (Nat.eqb_spec j i) as [->|N1], (Nat.eqb_spec k i) as [->|N2].
    + auto.
    + destruct (N a I) as [I'|I']; [apply (IS i k Hj Hk NE a I' J)|]. apply IB in J; auto. lia.
    + destruct (N a J) as [I'|I']; [apply (IS j i Hj Hk NE a I I')|]. apply IB in I; auto. lia.
    + apply (IS j k Hj Hk NE a I J).
  - intros j a Hj I. unfold upd in I. destruct (Nat.eqb_spec j i) as [->|N1].
    + eapply rep_bound; [apply (ob_rep _ _ _ _ O)|auto].
    + apply IB in I; auto. lia.
Qed.

(** Adding a new object. *)
Lemma inv_new h c hs bs f h' c' o' t' l' : inv ((h, c), hs) bs f ->
  obj h' o' t' l' -> length h <= length h' ->
  (forall a, In a (addrs t') -> length h <= a) ->
  (forall a, a < length h -> get h' a = get h a) ->
  inv ((h', c'), hs ++ [o']) (bs ++ [Some l']) (upd f (length bs) t').
Proof.
  intros [IL IO ID IS IB] O L N F. cbn [fst snd] in *.
  constructor; cbn [fst snd]; rewrite ?app_length; cbn [length]; auto.
  - intros j l E. destruct (Nat.eq_dec j (length bs)) as [->|NE].
    + rewrite get_app_r, Nat.sub_diag in E by lia. cbn in E. injection E as <-. rewrite get_app_r by lia.
      rewrite IL, Nat.sub_diag. rewrite upd_eq. cbn. eauto.
    + assert (Hj : j < length bs). { apply get_some_lt in E. rewrite app_length in E. cbn in E. lia. }
      rewrite get_app_l in E by auto. destruct (IO j l E) as (o & G & OJ). rewrite get_app_l by lia.
      rewrite upd_neq by auto. exists o. split; auto. eapply obj_frame; [exact OJ|].
      intros a I. apply F. eapply IB; eauto.
  - intros j Hj E. destruct (Nat.eq_dec j (length bs)) as [->|NE].
    + rewrite get_app_r, Nat.sub_diag in E by lia. discriminate.
    + rewrite get_app_l in E by lia. rewrite upd_neq by auto. apply ID; auto. lia.
  - intros j k Hj Hk NE a I J. unfold upd in *.
    destruct (Nat.eqb_spec j (length bs)) as [->|N1], (Nat.eqb_spec k (length bs)) as [->|N2].
    + auto.
    + apply N in I. apply IB in J; lia.
    + apply N in J. apply IB in I; lia.
    + apply (IS j k ltac:(lia) ltac:(lia) NE a I J).
  - intros j a Hj I. unfold upd in I. destruct (Nat.eqb_spec j (length bs)) as [->|N1].
    + eapply rep_bound; [apply (ob_rep _ _ _ _ O)|auto].
    + apply IB in I; lia.
Qed.

(** An object melded away. *)
Lemma inv_kill st bs f i : inv st bs f -> i < length bs -> inv st (lset bs i None) (upd f i Lf).
Proof.
  intros [IL IO ID IS IB] Hi. constructor; rewrite ?lset_length; auto.
  - intros j l E. destruct (Nat.eq_dec j i) as [->|NE].
    + rewrite get_lset_eq in E by auto. discriminate.
    + rewrite get_lset_neq in E by auto. rewrite upd_neq by auto. auto.
  - intros j Hj E. destruct (Nat.eq_dec j i) as [->|NE]; [apply upd_eq|].
    rewrite get_lset_neq in E by auto. rewrite upd_neq by auto. auto.
  - intros j k Hj Hk NE a I J. unfold upd in *.
    destruct (Nat.eqb_spec j i) as [->|N1], (Nat.eqb_spec k i) as [->|N2]; try contradiction.
    apply (IS j k Hj Hk NE a I J).
  - intros j a Hj I. unfold upd in I. destruct (Nat.eqb_spec j i) as [->|N1]; [contradiction|eauto].
Qed.

Definition sizes (bs : list (bag T)) : list (option nat) := map (option_map (@length T)) bs.
Lemma sizes_get bs i : get (sizes bs) i = option_map (option_map (@length T)) (get bs i).
Proof. apply get_map. Qed.
Lemma sizes_lset bs : forall i b, lset (sizes bs) i (option_map (@length T) b) = sizes (lset bs i b).
Proof. induction bs as [|x bs IH]; intros [|i] b; cbn; auto. f_equal. apply IH. Qed.

Lemma step_ok st bs f o ns : inv st bs f -> legal_step (sizes bs) o = Some ns ->
  exists r st' bs' f', step ltb coin st o = Some (r, st') /\ spec ltb bs o r bs' /\ inv st' bs' f' /\ sizes bs' = ns.
Proof.
  intros I L. destruct st as [[h c] hs]. pose proof I as [IL IO ID IS IB]. cbn [fst snd] in *.
  assert (live : forall i n, get (sizes bs) i = Some (Some n) -> exists l o, get bs i = Some (Some l) /\ length l = n /\
     i < length bs /\ get hs i = Some o /\ obj h o (f i) l).
  { intros i n E. rewrite sizes_get in E. destruct (get bs i) as [[l|]|] eqn:G; try discriminate.
    cbn in E. injection E as <-. destruct (IO i l G) as (ob & Go & O). exists l, ob. repeat split; auto; try apply O.
    eapply get_some_lt; eauto. }
  destruct o as [|xs|i x|i|i|i|i|i|i j]; cbn [legal_step] in L; cbn [step].
  - injection L as <-. do 4 eexists. split; [reflexivity|]. split; [constructor|].
    split; [apply inv_new with (h := h) (c := c) (t' := Lf); eauto|].
    + constructor; cbn; auto. constructor.
    + intros ? [].
    + unfold sizes. rewrite map_app. reflexivity.
  - injection L as <-. destruct (range_obj xs h c) as (h' & c' & o' & t' & -> & O & B & Ln & F). cbn [obind].
    do 4 eexists. split; [reflexivity|]. split; [constructor|]. split; [apply inv_new with (h := h) (c := c) (t' := t'); eauto|].
    unfold sizes. rewrite map_app. reflexivity.
  - destruct (get (sizes bs) i) as [[n|]|] eqn:G; try discriminate. injection L as <-.
    destruct (live i n G) as (l & ob & Gl & <- & Hi & Go & O). rewrite Go. cbn [obind].
    destruct (push_obj h c ob (f i) l x O) as (h' & c' & o' & t' & -> & O' & P & Ln & F). cbn [obind].
    rewrite set_some by lia. cbn [obind]. do 4 eexists. split; [reflexivity|]. split; [econstructor; eauto|].
    split; [apply inv_upd with (h := h) (c := c) (t' := t'); eauto; [lia|]|].
    + intros a Ia. apply (Permutation_in _ P) in Ia. destruct Ia as [<-|Ia]; auto.
    + rewrite <- sizes_lset. cbn. do 2 f_equal. lia.
  - destruct (get (sizes bs) i) as [[[|n]|]|] eqn:G; try discriminate. injection L as <-.
    destruct (live i _ G) as (l & ob & Gl & Hn & Hi & Go & O). rewrite Go. cbn [obind].
    destruct (pop_obj h c ob (f i) l O) as (h' & c' & o' & t' & x & l' & -> & _ & Gr & P & O' & In' & Ln & F).
    { intros ->. discriminate. }
    cbn [obind]. rewrite set_some by lia. cbn [obind]. do 4 eexists. split; [reflexivity|]. split; [econstructor; eauto|].
    split; [apply inv_upd with (h := h) (c := c) (t' := t'); eauto; lia|].
    rewrite <- sizes_lset. cbn. apply Permutation_length in P. cbn in P. do 2 f_equal. lia.
  - destruct (get (sizes bs) i) as [[[|n]|]|] eqn:G; try discriminate. injection L as <-.
    destruct (live i _ G) as (l & ob & Gl & Hn & Hi & Go & O). rewrite Go. cbn [obind].
    destruct (pop_obj h c ob (f i) l O) as (h' & c' & o' & t' & x & l' & _ & -> & Gr & _).
    { intros ->. discriminate. }
    cbn [obind]. exists (OVal x), ((h, c), hs), bs, f. split; [reflexivity|]. split; [econstructor; eauto|]. auto.
  - destruct (get (sizes bs) i) as [[n|]|] eqn:G; try discriminate. injection L as <-.
    destruct (live i _ G) as (l & ob & Gl & Hn & Hi & Go & O). rewrite Go. cbn [obind].
    exists (ONum T (length l)), ((h, c), hs), bs, f. split; [unfold hp_size; now rewrite (ob_size _ _ _ _ O)|]. split; [econstructor; eauto|]. auto.
  - destruct (get (sizes bs) i) as [[n|]|] eqn:G; try discriminate. injection L as <-.
    destruct (live i _ G) as (l & ob & Gl & Hn & Hi & Go & O). rewrite Go. cbn [obind].
    exists (OBool T (length l =? 0)), ((h, c), hs), bs, f. split; [unfold hp_isempty, hp_size; now rewrite (ob_size _ _ _ _ O)|].
    split; [econstructor; eauto|]. auto.
  - rewrite sizes_get in L. destruct (get bs i) as [b|] eqn:G; [|discriminate]. cbn in L. injection L as <-.
    assert (Hi : i < length bs) by (eapply get_some_lt; eauto).
    destruct (@get_lt _ hs i) as [ob Go]; [lia|]. rewrite Go. cbn [obind]. rewrite set_some by lia. cbn [obind].
    do 4 eexists. split; [reflexivity|]. split; [econstructor; eauto|]. split.
    + apply inv_upd with (h := h) (c := c) (t' := Lf); eauto; [constructor; cbn; auto; constructor|intros ? []].
    + rewrite <- sizes_lset. reflexivity.
  - destruct (Nat.eqb_spec i j) as [|NE]; [discriminate|].
    destruct (get (sizes bs) i) as [[n|]|] eqn:G; try discriminate.
    destruct (get (sizes bs) j) as [[n2|]|] eqn:G2; try discriminate. injection L as <-.
    destruct (live i _ G) as (l & ob & Gl & <- & Hi & Go & O). destruct (live j _ G2) as (l2 & ob2 & Gl2 & <- & Hj & Go2 & O2).
    rewrite Go, Go2. cbn [obind].
    destruct (meld_obj h c ob (f i) l ob2 (f j) l2 O O2) as (h' & c' & o' & t' & -> & O' & P & Ln & F).
    { apply (IS i j); auto. }
    cbn [obind]. rewrite set_some by lia. cbn [obind]. do 4 eexists. split; [reflexivity|]. split; [econstructor; eauto|]. split.
    + assert (I1 : inv ((h, c), hs) (lset bs j None) (upd f j Lf)) by (apply inv_kill; auto).
      assert (Comm : forall b1 b2, lset (lset bs i b1) j b2 = lset (lset bs j b2) i b1).
      { intros b1 b2. apply get_ext. intros k. rewrite !get_lset. rewrite !lset_length.
        destruct (Nat.eqb_spec i k) as [->|], (Nat.eqb_spec j k) as [->|]; try congruence; auto. }
      rewrite Comm.
      (* first hand the nodes of j over to i *)
      constructor; cbn [fst snd]; rewrite ?lset_length; auto.
      * intros k l0 E. destruct (Nat.eq_dec k i) as [->|N1].
        -- rewrite get_lset_eq in E by (now rewrite lset_length). injection E as <-. rewrite get_lset_eq by lia.
           exists o'. split; auto. instantiate (1 := upd (upd f j Lf) i t'). rewrite upd_eq. auto.
        -- rewrite get_lset_neq in E by auto. destruct (Nat.eq_dec k j) as [->|N2]; [rewrite get_lset_eq in E by auto; discriminate|].
           rewrite get_lset_neq in E by auto. destruct (IO k l0 E) as (ok & Gk & Ok). rewrite get_lset_neq by auto.
           rewrite !upd_neq by auto. exists ok. split; auto. eapply obj_frame; eauto.
           assert (Hk : k < length bs) by (eapply get_some_lt; eauto).
           intros a Ia. apply F. intros J. apply in_app_or in J. destruct J as [J|J]; [apply (IS k i Hk Hi N1 a Ia J)|apply (IS k j Hk Hj N2 a Ia J)].
      * intros k Hk E. destruct (Nat.eq_dec k i) as [->|N1].
        -- rewrite get_lset_eq in E by (now rewrite lset_length). discriminate.
        -- rewrite upd_neq by auto. destruct (Nat.eq_dec k j) as [->|N2]; [apply upd_eq|]. rewrite upd_neq by auto.
           rewrite !get_lset_neq in E by auto. auto.
      * intros k1 k2 H1 H2 N12 a A1 A2. unfold upd in A1, A2.
        destruct (Nat.eqb_spec k1 i) as [->|M1], (Nat.eqb_spec k2 i) as [->|M2]; [congruence| | |].
        -- destruct (Nat.eqb_spec k2 j) as [->|M3]; [contradiction|]. apply (Permutation_in _ P) in A1. apply in_app_or in A1.
           destruct A1 as [A1|A1]; [apply (IS i k2 Hi H2 ltac:(auto) a A1 A2)|apply (IS j k2 Hj H2 ltac:(auto) a A1 A2)].
        -- destruct (Nat.eqb_spec k1 j) as [->|M3]; [contradiction|]. apply (Permutation_in _ P) in A2. apply in_app_or in A2.
           destruct A2 as [A2|A2]; [apply (IS k1 i H1 Hi ltac:(auto) a A1 A2)|apply (IS k1 j H1 Hj ltac:(auto) a A1 A2)].
        -- destruct (Nat.eqb_spec k1 j) as [->|M3]; [contradiction|]. destruct (Nat.eqb_spec k2 j) as [->|M4]; [contradiction|].
           apply (IS k1 k2 H1 H2 N12 a A1 A2).
      * intros k a Hk Ia. unfold upd in Ia. destruct (Nat.eqb_spec k i) as [->|M1].
        -- eapply rep_bound; [apply (ob_rep _ _ _ _ O')|auto].
        -- destruct (Nat.eqb_spec k j) as [->|M2]; [contradiction|]. rewrite Ln. eauto.
    + rewrite <- sizes_lset, <- sizes_lset. cbn. rewrite app_length. reflexivity.
Qed.

Lemma run_ok ops : forall st bs f, inv st bs f -> legal (sizes bs) ops ->
  exists rs st' bs', run ltb coin st ops = Some (rs, st') /\ spec_run ltb bs ops rs bs'.
Proof.
  induction ops as [|o ops IH]; intros st bs f I L.
  - exists [], st, bs. split; [reflexivity|constructor].
  - cbn [legal] in L. destruct (legal_step (sizes bs) o) as [ns|] eqn:E; [|contradiction].
    destruct (step_ok st bs f o ns I E) as (r & st1 & bs1 & f1 & E1 & S1 & I1 & <-).
    destruct (IH st1 bs1 f1 I1 L) as (rs & st2 & bs2 & E2 & S2).
    exists (r :: rs), st2, bs2. cbn [run]. rewrite E1. cbn [obind]. rewrite E2. cbn [obind].
    split; [reflexivity|]. econstructor; eauto.
Qed.
End Meld.
