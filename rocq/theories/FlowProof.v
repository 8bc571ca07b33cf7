(** Proofs about [FlowModel]: residual networks, Ford-Fulkerson. *)
From Verif Require Import Base BaseLemmas NthExtra FlowModel.
Set Implicit Arguments.
Open Scope Z_scope.

(** ** Sums *)
Lemma zsum_cons {A} (f : A -> Z) x l : zsum f (x :: l) = f x + zsum f l.
Proof. reflexivity. Qed.
Lemma zsum_app {A} (f : A -> Z) l r : zsum f (l ++ r) = zsum f l + zsum f r.
Proof. induction l as [|x l IH]; cbn [app]; [reflexivity|]. rewrite !zsum_cons, IH. ring. Qed.
Lemma zsum_ext {A} (f g : A -> Z) l : (forall x, In x l -> f x = g x) -> zsum f l = zsum g l.
Proof. induction l as [|x l IH]; intros H; [reflexivity|]. rewrite !zsum_cons, IH, (H x); [auto|now left|]. intros; apply H; now right. Qed.
Lemma zsum_le {A} (f g : A -> Z) l : (forall x, In x l -> f x <= g x) -> zsum f l <= zsum g l.
Proof. induction l as [|x l IH]; intros H; [reflexivity|]. rewrite !zsum_cons. pose proof (H x (or_introl eq_refl)). specialize (IH (fun y I => H y (or_intror I))). lia. Qed.
Lemma zsum_0 {A} (f : A -> Z) l : (forall x, In x l -> f x = 0) -> zsum f l = 0.
Proof. induction l as [|x l IH]; intros H; [reflexivity|]. rewrite zsum_cons, IH, (H x); [auto|now left|]. intros; apply H; now right. Qed.
Lemma zsum_nonneg {A} (f : A -> Z) l : (forall x, In x l -> 0 <= f x) -> 0 <= zsum f l.
Proof. intros H. rewrite <- (@zsum_0 A (fun _ => 0) l) by auto. now apply zsum_le. Qed.
Lemma zsum_add {A} (f g : A -> Z) l : zsum (fun x => f x + g x) l = zsum f l + zsum g l.
Proof. induction l as [|x l IH]; [reflexivity|]. rewrite !zsum_cons, IH. ring. Qed.
Lemma zsum_sub {A} (f g : A -> Z) l : zsum (fun x => f x - g x) l = zsum f l - zsum g l.
Proof. induction l as [|x l IH]; [reflexivity|]. rewrite !zsum_cons, IH. ring. Qed.
Lemma zsum_mul {A} (f : A -> Z) c l : zsum (fun x => c * f x) l = c * zsum f l.
Proof. induction l as [|x l IH]; [cbn; ring|]. rewrite !zsum_cons, IH. ring. Qed.
Lemma zsum_map {A B} (f : B -> Z) (h : A -> B) l : zsum f (map h l) = zsum (fun x => f (h x)) l.
Proof. induction l as [|x l IH]; cbn [map]; [reflexivity|]. now rewrite !zsum_cons, IH. Qed.
Lemma zsum_swap {A B} (f : A -> B -> Z) l r : zsum (fun x => zsum (fun y => f x y) r) l = zsum (fun y => zsum (fun x => f x y) l) r.
Proof.
  induction l as [|x l IH]; [symmetry; now apply zsum_0|]. rewrite zsum_cons, IH, <- zsum_add. apply zsum_ext. intros y _. now rewrite zsum_cons.
Qed.
Lemma zsum_filter {A} (p : A -> bool) (f : A -> Z) l : zsum f (filter p l) = zsum (fun x => if p x then f x else 0) l.
Proof. induction l as [|x l IH]; cbn [filter]; [reflexivity|]. rewrite (zsum_cons _ x l), <- IH. destruct (p x); [now rewrite zsum_cons|ring]. Qed.
(** Sums by index *)
Definition at_ {A} (f : A -> Z) (l : list A) (i : nat) : Z := match get l i with Some x => f x | None => 0 end.
Lemma zsum_at {A} (f : A -> Z) l : zsum f l = zsum (at_ f l) (seq 0 (length l)).
Proof.
  induction l as [|x l IH]; [reflexivity|]. cbn [length seq]. rewrite !zsum_cons, <- seq_shift, zsum_map, IH. reflexivity.
Qed.
Lemma zsum_ind_at (F : nat -> Z) v n : (v < n)%nat -> zsum (fun i => if (i =? v)%nat then F i else 0) (seq 0 n) = F v.
Proof.
  intros H. replace n with (v + (1 + (n - v - 1)))%nat by lia. rewrite seq_app, zsum_app, zsum_0, Nat.add_0_l.
  - cbn [seq Nat.add]. rewrite zsum_cons, Nat.eqb_refl, zsum_0; [ring|]. intros i I. apply in_seq in I. destruct (Nat.eqb_spec i v); [lia|auto].
  - intros i I. apply in_seq in I. destruct (Nat.eqb_spec i v); [lia|auto].
Qed.

(** ** Cells *)
Lemma get2_set2 {A} (g g' : list (list A)) u i x v j : set2 g u i x = Some g' -> get2 g' v j = if (u =? v)%nat && (i =? j)%nat then Some x else get2 g v j.
Proof.
  unfold set2, get2. destruct (get g u) as [row|] eqn:E; [|discriminate]. cbn [obind]. destruct (set row i x) as [row'|] eqn:E1; [|discriminate]. cbn [obind]. intros H. apply set_inv in H as [H ->]. apply set_inv in E1 as [H1 ->].
  rewrite get_lset. destruct (Nat.eqb_spec u v) as [<-|N]; cbn [andb]; [|auto]. replace (u <? length g)%nat with true by (symmetry; now apply Nat.ltb_lt). cbn [obind]. rewrite E. cbn [obind]. rewrite get_lset. destruct (Nat.eqb_spec i j); cbn [andb]; [|auto].
  now replace (i <? length row)%nat with true by (symmetry; now apply Nat.ltb_lt).
Qed.
Lemma set2_some {A} (g : list (list A)) u i x y : get2 g u i = Some y -> exists g', set2 g u i x = Some g'.
Proof.
  unfold set2, get2. destruct (get g u) as [row|] eqn:E; [|discriminate]. cbn [obind]. intros H. apply get_some_lt in H, E. rewrite set_some by auto. cbn [obind]. rewrite set_some by auto. eauto.
Qed.
Lemma set2_length {A} (g g' : list (list A)) u i x : set2 g u i x = Some g' -> length g' = length g.
Proof. unfold set2. destruct (get g u) as [row|]; [|discriminate]. cbn [obind]. destruct (set row i x); [|discriminate]. cbn [obind]. intros H. apply set_inv in H as [_ ->]. apply lset_length. Qed.
Lemma set2_get {A} (g g' : list (list A)) u i x v : set2 g u i x = Some g' -> v <> u -> get g' v = get g v.
Proof. unfold set2. destruct (get g u) as [row|]; [|discriminate]. cbn [obind]. destruct (set row i x); [|discriminate]. cbn [obind]. intros H. apply set_inv in H as [_ ->]. intros N. apply get_lset_neq. auto. Qed.
Lemma set2_row {A} (g g' : list (list A)) u i x v : set2 g u i x = Some g' -> length (nth v g' []) = length (nth v g []).
Proof.
  unfold set2. destruct (get g u) as [row|] eqn:E; [|discriminate]. cbn [obind]. destruct (set row i x) as [row'|] eqn:E1; [|discriminate]. cbn [obind]. intros H. apply set_inv in H as [H ->]. apply set_inv in E1 as [_ ->]. rewrite nth_lset. destruct (Nat.eqb_spec u v) as [<-|]; cbn [andb]; [|auto].
  replace (u <? length g)%nat with true by (symmetry; now apply Nat.ltb_lt). rewrite lset_length. now rewrite (@nth_get _ _ _ _ [] E).
Qed.
Lemma get2_lt {A} (g : list (list A)) u i x : get2 g u i = Some x -> (u < length g)%nat /\ (i < length (nth u g []))%nat.
Proof.
  unfold get2. destruct (get g u) as [row|] eqn:E; [|discriminate]. cbn [obind]. intros H. split; [now apply get_some_lt in E|]. rewrite (@nth_get _ _ _ _ [] E). now apply get_some_lt in H.
Qed.
Lemma get2_some {A} (g : list (list A)) u i : (u < length g)%nat -> (i < length (nth u g []))%nat -> exists x, get2 g u i = Some x.
Proof. intros H1 H2. unfold get2. rewrite (get_nth g u []) by auto. cbn [obind]. now apply get_lt. Qed.
Lemma get2_row {A} (g : list (list A)) u row i : get g u = Some row -> get2 g u i = get row i.
Proof. intros E. unfold get2. now rewrite E. Qed.

Arguments get2_set2 {A g g' u i x} v j _.
Arguments set2_some {A} g u i x {y} _.
Arguments set2_length {A g g' u i x} _.
Arguments set2_get {A g g' u i x v} _ _.
Arguments set2_row {A g g' u i x} v _.
Arguments get2_lt {A} g u i {x} _.
Arguments get2_row {A} g u {row} i _.

Definition rowcap (g : net) (v : nat) : Z := zsum cap (nth v g []).
Definition cap_at (g : net) (v j : nat) : Z := match get2 g v j with Some e => cap e | None => 0 end.
Lemma rowcap_at g v : rowcap g v = zsum (cap_at g v) (seq 0 (length (nth v g []))).
Proof.
  unfold rowcap. rewrite zsum_at. apply zsum_ext. intros j I. apply in_seq in I. unfold at_, cap_at. destruct (Nat.lt_ge_cases v (length g)) as [H|H].
  - unfold get2. now rewrite (get_nth g v []).
  - rewrite nth_overflow in I by auto. cbn in I. lia.
Qed.
Lemma rowcap_set2 g g' u i e e' v : get2 g u i = Some e -> set2 g u i e' = Some g' -> rowcap g' v = rowcap g v + (cap e' - cap e) * ind (v =? u)%nat.
Proof.
  intros E S. rewrite !rowcap_at, (set2_row v S). destruct (Nat.eqb_spec v u) as [->|N].
  - cbn [ind]. pose proof (get2_lt _ _ _ E) as [H1 H2]. rewrite <- (zsum_ind_at (fun _ => (cap e' - cap e) * 1) H2), <- zsum_add. apply zsum_ext. intros j _. unfold cap_at. rewrite (get2_set2 u j S), Nat.eqb_refl. cbn [andb]. rewrite Nat.eqb_sym. destruct (Nat.eqb_spec j i) as [->|]; [rewrite E|]; ring.
  - cbn [ind]. rewrite Z.mul_0_r, Z.add_0_r. apply zsum_ext. intros j _. unfold cap_at. rewrite (get2_set2 v j S). destruct (Nat.eqb_spec u v); [congruence|auto].
Qed.

Arguments rowcap_set2 {g g' u i e e'} v _ _.

(** ** Networks *)
Section Net.
Variable M : Z.
Record ok (g : net) : Prop := {
  ok_to : forall u i e, get2 g u i = Some e -> (to e < length g)%nat;
  ok_cap : forall u i e, get2 g u i = Some e -> 0 <= cap e;
  ok_rv : forall u i e, get2 g u i = Some e -> to e <> u -> exists r, get2 g (to e) (rv e) = Some r /\ to r = u /\ rv r = i /\ cap e + cap r <= M }.
Arguments ok_to {g} _ {u i e} _.
Arguments ok_cap {g} _ {u i e} _.
Arguments ok_rv {g} _ {u i e} _ _.
Record same (g g' : net) : Prop := {
  sm_len : length g' = length g;
  sm_row : forall v, length (nth v g' []) = length (nth v g []);
  sm_arc : forall u i e, get2 g u i = Some e -> exists e', get2 g' u i = Some e' /\ to e' = to e /\ rv e' = rv e /\ (to e = u -> cap e' = cap e) /\
    (to e <> u -> forall r r', get2 g (to e) (rv e) = Some r -> get2 g' (to e) (rv e) = Some r' -> cap e' + cap r' = cap e + cap r) }.
Arguments sm_arc {g g'} _ u i {e} _.
Lemma same_refl g : same g g.
Proof. split; auto. intros u i e E. exists e. repeat split; auto. intros _ r r' E1 E2. congruence. Qed.
Lemma same_trans a b c : same a b -> same b c -> same a c.
Proof.
  intros S1 S2. split; [now rewrite (sm_len S2), (sm_len S1)|intros v; now rewrite (sm_row S2), (sm_row S1)|]. intros u i e E. destruct (sm_arc S1 u i E) as (e1 & E1 & T1 & R1 & C1 & P1). destruct (sm_arc S2 u i E1) as (e2 & E2 & T2 & R2 & C2 & P2). exists e2. split; [auto|]. split; [congruence|]. split; [congruence|]. split.
  - intros H. rewrite C2, C1; congruence.
  - intros H r r2 Er Er2. destruct (@get2_some _ b (to e) (rv e)) as [r1 Er1]; [apply get2_lt in Er as [? ?]; now rewrite (sm_len S1)|apply get2_lt in Er as [? ?]; now rewrite (sm_row S1)|].
    rewrite <- (P1 H r r1 Er Er1). apply P2; congruence.
Qed.
Lemma same_back g g' u i e' : same g g' -> get2 g' u i = Some e' -> exists e, get2 g u i = Some e /\ to e' = to e /\ rv e' = rv e /\ (to e = u -> cap e' = cap e) /\
    (to e <> u -> forall r r', get2 g (to e) (rv e) = Some r -> get2 g' (to e) (rv e) = Some r' -> cap e' + cap r' = cap e + cap r).
Proof.
  intros S E. destruct (@get2_some _ g u i) as [e Ee]; [apply get2_lt in E; now rewrite <- (sm_len S)|apply get2_lt in E; now rewrite <- (sm_row S)|]. destruct (sm_arc S u i Ee) as (e1 & E1 & H). exists e. split; [auto|]. assert (e1 = e') by congruence. now subst.
Qed.

Arguments same_back {g g'} u i {e'} _ _.
Lemma ll_some x : - M - 1 <= x <= M -> ll M x = Some x.
Proof. intros H. unfold ll. destruct (Z.leb_spec (- M - 1) x), (Z.leb_spec x M); auto; lia. Qed.

Lemma push_ok g u i e d : ok g -> get2 g u i = Some e -> to e <> u -> 0 <= d <= cap e ->
  exists g', fl_push M g u i d = Some g' /\ same g g' /\ ok g' /\ (forall v, rowcap g' v = rowcap g v - d * (ind (v =? u)%nat - ind (v =? to e)%nat)) /\
    (forall v, v <> u -> v <> to e -> get g' v = get g v).
Proof.
  intros O E N Hd. destruct (ok_rv O E N) as (r & Er & Tr & Rr & Cr). pose proof (ok_cap O E) as Ce. pose proof (ok_cap O Er) as Ccr. unfold fl_push. rewrite E. cbn [obind]. rewrite ll_some by lia. cbn [obind].
  destruct (set2_some g u i (Arc (to e) (cap e - d) (rv e)) E) as [g1 E1]. rewrite E1. cbn [obind].
  assert (Er1 : get2 g1 (to e) (rv e) = Some r) by (rewrite (get2_set2 _ _ E1); destruct (Nat.eqb_spec u (to e)); [congruence|auto]). rewrite Er1. cbn [obind]. rewrite ll_some by lia. cbn [obind].
  destruct (set2_some g1 (to e) (rv e) (Arc (to r) (cap r + d) (rv r)) Er1) as [g2 E2]. exists g2. split; [auto|].
  assert (G : forall v j, get2 g2 v j = if (to e =? v)%nat && (rv e =? j)%nat then Some (Arc u (cap r + d) i) else if (u =? v)%nat && (i =? j)%nat then Some (Arc (to e) (cap e - d) (rv e)) else get2 g v j).
  { intros v j. rewrite (get2_set2 v j E2), (get2_set2 v j E1). now rewrite Tr, Rr. }
  assert (L : length g2 = length g) by (rewrite (set2_length E2), (set2_length E1); auto).
  assert (SM : forall v j x, get2 g v j = Some x -> exists x', get2 g2 v j = Some x' /\ to x' = to x /\ rv x' = rv x /\ 0 <= cap x' /\ (to x = v -> cap x' = cap x) /\
    (to x <> v -> forall y y', get2 g (to x) (rv x) = Some y -> get2 g2 (to x) (rv x) = Some y' -> cap x' + cap y' = cap x + cap y)).
  { intros v j x Ex. rewrite G. destruct (Nat.eqb_spec (to e) v) as [Ev|Nv]; cbn [andb]; [destruct (Nat.eqb_spec (rv e) j) as [Ej|Nj]|].
    - subst v j. assert (x = r) by congruence. subst x. eexists. split; [reflexivity|]. cbn [to rv cap]. split; [auto|]. split; [auto|]. split; [lia|]. split; [congruence|]. intros _ y y' Ey Ey'. rewrite G in Ey'. rewrite Tr, Rr in *. destruct (Nat.eqb_spec (to e) u); [congruence|]. cbn [andb] in Ey'. rewrite !Nat.eqb_refl in Ey'. cbn [andb] in Ey'. injection Ey' as <-. assert (y = e) by congruence. subst y. cbn [cap]. lia.
    - destruct (Nat.eqb_spec u v); [congruence|]. cbn [andb]. exists x. split; [auto|]. split; [auto|]. split; [auto|]. split; [eapply ok_cap; eauto|]. split; [auto|]. intros Hx y y' Ey Ey'. rewrite G in Ey'.
      destruct (ok_rv O Ex Hx) as (z & Ez & Tz & Rz & _). assert (y = z) by congruence. subst z.
      destruct (Nat.eqb_spec (to e) (to x)) as [A|A]; cbn [andb] in Ey'; [destruct (Nat.eqb_spec (rv e) (rv x)) as [B|B]; cbn [andb] in Ey'|].
      + exfalso. rewrite <- A, <- B in Ey. assert (y = r) by congruence. subst y. congruence.
      + destruct (Nat.eqb_spec u (to x)); [congruence|]. cbn [andb] in Ey'. congruence.
      + destruct (Nat.eqb_spec u (to x)) as [C|C]; cbn [andb] in Ey'; [destruct (Nat.eqb_spec i (rv x)) as [D|D]; cbn [andb] in Ey'|]; [|congruence|congruence]. exfalso. rewrite <- C, <- D in Ey. assert (y = e) by congruence. subst y. congruence.
    - destruct (Nat.eqb_spec u v) as [Eu|Nu]; cbn [andb]; [destruct (Nat.eqb_spec i j) as [Ej|Nj]|].
      + subst v j. assert (x = e) by congruence. subst x. eexists. split; [reflexivity|]. cbn [to rv cap]. split; [auto|]. split; [auto|]. split; [lia|]. split; [congruence|]. intros _ y y' Ey Ey'. rewrite G, !Nat.eqb_refl in Ey'. cbn [andb] in Ey'. injection Ey' as <-. assert (y = r) by congruence. subst y. cbn [cap]. lia.
      + exists x. split; [auto|]. split; [auto|]. split; [auto|]. split; [eapply ok_cap; eauto|]. split; [auto|]. intros Hx y y' Ey Ey'. rewrite G in Ey'. destruct (ok_rv O Ex Hx) as (z & Ez & Tz & Rz & _). assert (y = z) by congruence. subst z.
        destruct (Nat.eqb_spec (to e) (to x)) as [A|A]; cbn [andb] in Ey'; [destruct (Nat.eqb_spec (rv e) (rv x)) as [B|B]; cbn [andb] in Ey'|].
        * exfalso. rewrite <- A, <- B in Ey. assert (y = r) by congruence. subst y. congruence.
        * destruct (Nat.eqb_spec u (to x)); [congruence|]. cbn [andb] in Ey'. congruence.
        * destruct (Nat.eqb_spec u (to x)); [congruence|]. cbn [andb] in Ey'. congruence.
      + exists x. split; [auto|]. split; [auto|]. split; [auto|]. split; [eapply ok_cap; eauto|]. split; [auto|]. intros Hx y y' Ey Ey'. rewrite G in Ey'. destruct (ok_rv O Ex Hx) as (z & Ez & Tz & Rz & _). assert (y = z) by congruence. subst z.
        destruct (Nat.eqb_spec (to e) (to x)) as [A|A]; cbn [andb] in Ey'; [destruct (Nat.eqb_spec (rv e) (rv x)) as [B|B]; cbn [andb] in Ey'|].
        * exfalso. rewrite <- A, <- B in Ey. assert (y = r) by congruence. subst y. congruence.
        * destruct (Nat.eqb_spec u (to x)); [congruence|]. cbn [andb] in Ey'. congruence.
        * destruct (Nat.eqb_spec u (to x)) as [C|C]; cbn [andb] in Ey'; [destruct (Nat.eqb_spec i (rv x)) as [D|D]; cbn [andb] in Ey'|]; [|congruence|congruence]. exfalso. rewrite <- C, <- D in Ey. assert (y = e) by congruence. subst y. congruence. }
  assert (SG : same g g2).
  { split; [auto|intros v; now rewrite (set2_row v E2), (set2_row v E1)|]. intros v j x Ex. destruct (SM v j x Ex) as (x' & A & B & C & _ & D & F). exists x'. auto. }
  split; [exact SG|]. split; [|split].
  - split.
    + intros v j x' Ex. destruct (same_back v j SG Ex) as (x & E3 & -> & _). rewrite L. eapply ok_to; eauto.
    + intros v j x' Ex. destruct (same_back v j SG Ex) as (x & E3 & _). destruct (SM v j x E3) as (x2 & A & _ & _ & B & _). congruence.
    + intros v j x' Ex Hx. destruct (same_back v j SG Ex) as (x & E3 & T3 & R3 & _ & P3). rewrite T3 in *. destruct (ok_rv O E3 Hx) as (y & Ey & Ty & Ry & Cy). destruct (SM _ _ _ Ey) as (y' & Ey' & Ty' & Ry' & _). exists y'. rewrite R3. split; [auto|]. split; [congruence|]. split; [congruence|]. rewrite (P3 Hx y y' Ey Ey'). auto.
  - intros v. rewrite (rowcap_set2 v Er1 E2), (rowcap_set2 v E E1). cbn [cap]. ring.
  - intros v N1 N2. rewrite (set2_get E2 N2). apply (set2_get E1 N1).
Qed.

(** ** The depth-first search of Ford-Fulkerson *)
Definition unv (vis : list bool) : nat := length (filter negb vis).
Lemma unv_mono a : forall b, length b = length a -> (forall v, get a v = Some true -> get b v = Some true) -> (unv b <= unv a)%nat.
Proof.
  induction a as [|x a IH]; intros [|y b] L H; cbn in L; try discriminate; [auto|]. unfold unv in *. cbn [filter]. specialize (IH b ltac:(lia) (fun v E => H (S v) E)). destruct x; cbn [negb].
  - specialize (H 0%nat eq_refl). cbn in H. injection H as ->. cbn [negb]. exact IH.
  - destruct y; cbn [negb length]; lia.
Qed.
Lemma unv_set vis u : get vis u = Some false -> unv vis = S (unv (lset vis u true)).
Proof.
  unfold unv. revert u. induction vis as [|x vis IH]; intros [|u] E; try discriminate; cbn in E.
  - injection E as ->. reflexivity.
  - cbn [lset filter]. specialize (IH u E). destruct (negb x); cbn [length]; lia.
Qed.

Definition moved (g g' : net) (u t : nat) (d : Z) : Prop :=
  same g g' /\ ok g' /\ forall v, rowcap g' v = rowcap g v - d * (ind (v =? u)%nat - ind (v =? t)%nat).

Lemma ff_dfs_ok t : forall fuel u f vis g, ok g -> length vis = length g -> (u < length g)%nat -> 0 < f -> get vis t = Some false -> (unv vis < fuel)%nat ->
  exists flow vis' g', ff_dfs M fuel t u f vis g = Some (flow, vis', g') /\ 0 <= flow <= f /\ moved g g' u t flow /\ length vis' = length vis /\
    (forall v, get vis v = Some true -> get vis' v = Some true /\ get g' v = get g v) /\
    (flow = 0 -> g' = g /\ get vis' t = Some false /\ get vis' u = Some true /\
       forall x, get vis' x = Some true -> get vis x = Some false -> forall i e, get2 g x i = Some e -> cap e <> 0 -> get vis' (to e) = Some true).
Proof.
  induction fuel as [|fuel IH]; intros u f vis g O L Hu Hf Ht Hfu; [lia|]. cbn [ff_dfs]. destruct (@get_lt _ vis u) as [b Eb]; [lia|]. rewrite Eb. cbn [obind].
  assert (M0 : forall u, moved g g u t 0) by (intros; split; [apply same_refl|split; [auto|intros; ring]]).
  destruct b.
  - exists 0, vis, g. split; [auto|]. split; [lia|]. split; [apply M0|]. split; [auto|]. split; [auto|]. intros _. repeat split; auto. intros; congruence.
  - rewrite set_some by lia. cbn [obind]. set (vis1 := lset vis u true). assert (Eu1 : get vis1 u = Some true) by (apply get_lset_eq; lia). assert (E1 : forall v, v <> u -> get vis1 v = get vis v) by (intros; apply get_lset_neq; auto).
    assert (L1 : length vis1 = length vis) by apply lset_length.
    destruct (Nat.eqb_spec u t) as [->|Nt].
    { exists f, vis1, g. split; [auto|]. split; [lia|]. split; [split; [apply same_refl|split; [auto|intros; ring]]|]. split; [auto|]. split; [|lia]. intros v Ev. split; [|auto]. destruct (Nat.eq_dec v t) as [->|]; [auto|rewrite E1; auto]. }
    destruct (@get_lt _ g u Hu) as [row Er]. rewrite Er. cbn [obind]. pose proof (unv_set _ _ Eb) as Hun. fold vis1 in Hun.
    match goal with |- context [loop _ ?bd _] => set (body := bd) end.
    set (J := fun vis' : list bool => length vis' = length vis /\ get vis' t = Some false /\ (forall v, get vis1 v = Some true -> get vis' v = Some true) /\
      (forall x, get vis' x = Some true -> get vis1 x = Some false -> forall i e, get2 g x i = Some e -> cap e <> 0 -> get vis' (to e) = Some true)).
    assert (G : forall k i vis2, (length row - i < k)%nat -> (i <= length row)%nat -> J vis2 -> (forall j e, (j < i)%nat -> get row j = Some e -> cap e <> 0 -> get vis2 (to e) = Some true) ->
      exists flow vis' g', loop k body (i, vis2, g) = Some (flow, vis', g') /\ 0 <= flow <= f /\ moved g g' u t flow /\ length vis' = length vis /\
    (forall v, get vis v = Some true -> get vis' v = Some true /\ get g' v = get g v) /\
    (flow = 0 -> g' = g /\ get vis' t = Some false /\ get vis' u = Some true /\
       forall x, get vis' x = Some true -> get vis x = Some false -> forall i e, get2 g x i = Some e -> cap e <> 0 -> get vis' (to e) = Some true)).
    { induction k as [|k IHk]; intros i vis2 Hk Hi (J1 & J2 & J3 & J4) H5; [lia|]. cbn [loop]. unfold body at 1. rewrite Er. cbn [obind]. destruct (Nat.leb_spec (length row) i) as [Hle|Hlt].
      - exists 0, vis2, g. split; [auto|]. split; [lia|]. split; [apply M0|]. split; [auto|]. split.
        + intros v Ev. split; [|auto]. apply J3. destruct (Nat.eq_dec v u) as [->|]; [auto|rewrite E1; auto].
        + intros _. split; [auto|]. split; [auto|]. split; [auto|]. intros x Ex Ex0 j e Ee Ce. destruct (Nat.eq_dec x u) as [->|Nx].
          * rewrite (get2_row _ _ _ Er) in Ee. apply (H5 j e); auto. apply get_some_lt in Ee. lia.
          * apply (J4 x Ex) with j; auto. now rewrite E1.
      - destruct (@get_lt _ row i Hlt) as [e Ee]. rewrite Ee. cbn [obind]. assert (Ee2 : get2 g u i = Some e) by (now rewrite (get2_row _ _ _ Er)). pose proof (ok_cap O Ee2) as Ce. destruct (Z.eqb_spec (cap e) 0) as [C0|C0].
        + apply IHk; [lia|lia|repeat split; auto|]. intros j e' Hj E' C'. destruct (Nat.eq_dec j i) as [->|]; [congruence|]. apply (H5 j e'); auto. lia.
        + destruct (IH (to e) (Z.min f (cap e)) vis2 g) as (flow & vis3 & g3 & E3 & Hfl & (S3 & O3 & R3) & L3 & K3 & Z3); auto; [lia|eapply ok_to; eauto|lia| |].
          { assert (unv vis2 <= unv vis1)%nat; [|lia]. apply unv_mono; [lia|auto]. }
          rewrite E3. cbn [obind]. destruct (Z.eqb_spec flow 0) as [F0|F0].
          * destruct (Z3 F0) as (-> & Zt & Zu & Zc). apply IHk; [lia|lia| |].
            -- split; [lia|]. split; [auto|]. split; [intros v Ev; apply K3, J3, Ev|]. intros x Ex Ex0 j e' E' C'. destruct (@get_lt _ vis2 x) as [bx Ebx]; [apply get_some_lt in Ex; lia|]. destruct bx.
               ++ apply K3. now apply (J4 x Ebx Ex0 j e').
               ++ now apply (Zc x Ex Ebx j e').
            -- intros j e' Hj E' C'. destruct (Nat.eq_dec j i) as [->|]; [congruence|]. apply K3. apply (H5 j e'); auto. lia.
          * (* success *)
            assert (Eu2 : get vis2 u = Some true) by (apply J3; auto). assert (Nl : to e <> u).
            { intros El. rewrite El in E3. destruct fuel as [|fuel']; [discriminate|]. cbn [ff_dfs] in E3. rewrite Eu2 in E3. cbn [obind] in E3. injection E3 as <- _ _. congruence. }
            assert (Ee3 : get2 g3 u i = Some e) by (unfold get2; rewrite (proj2 (K3 u Eu2)), Er; auto).
            destruct (@push_ok g3 u i e flow O3 Ee3 Nl) as (g4 & E4 & S4 & O4 & R4 & K4); [lia|]. rewrite E4. cbn [obind]. exists flow, vis3, g4. split; [auto|]. split; [lia|]. split; [|split; [lia|split; [|lia]]].
            -- split; [eapply same_trans; eauto|]. split; [auto|]. intros v. rewrite R4, R3. ring.
            -- intros v Ev. assert (Nvu : v <> u) by congruence. assert (Ev2 : get vis2 v = Some true) by (apply J3; now rewrite E1). destruct (K3 v Ev2) as [Kv1 Kv2]. split; [auto|]. rewrite K4; auto. intros ->.
               destruct fuel as [|fuel']; [discriminate|]. cbn [ff_dfs] in E3. rewrite Ev2 in E3. cbn [obind] in E3. injection E3 as <- _ _. congruence. }
    apply G; [lia|lia| |intros; lia]. split; [auto|]. split; [rewrite E1; auto|]. split; [auto|]. intros x Ex Ex0. congruence.
Qed.
End Net.
Arguments ok_to {M g} _ {u i e} _.
Arguments ok_cap {M g} _ {u i e} _.
Arguments ok_rv {M g} _ {u i e} _ _.
Arguments sm_arc {g g'} _ u i {e} _.
Arguments same_back {g g'} u i {e'} _ _.
