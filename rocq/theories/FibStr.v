(** FibonacciHeap: the shape of the heap, its steps, and the Fibonacci bound. *)
From Verif Require Import FibModel FibRing FibLink BaseLemmas ListExtra.
Set Implicit Arguments.

Fixpoint fib (n : nat) : nat := match n with O => 0 | S m => match m with O => 1 | S k => fib m + fib k end end.
Lemma fib_SS n : fib (S (S n)) = fib (S n) + fib n. Proof. reflexivity. Qed.
Lemma fib_pos n : 1 <= n -> 1 <= fib n.
Proof. induction n as [n IH] using lt_wf_ind. intros L. destruct n as [|[|n]]; [lia|cbn; lia|]. rewrite fib_SS. specialize (IH (S n)). lia. Qed.
Lemma fib_lt a b : 2 <= a -> a < b -> fib a < fib b.
Proof.
  intros La Hab. assert (St : forall n, 2 <= n -> fib n < fib (S n)). { intros n Ln. destruct n as [|[|n]]; [lia|lia|]. rewrite (fib_SS (S n)). pose proof (fib_pos (n := S n) ltac:(lia)). lia. }
  induction Hab as [|b Hab IH]; [auto|]. specialize (St b). lia.
Qed.
Lemma fib_le a b : a <= b -> fib a <= fib b.
Proof. intros H. destruct (Nat.eq_dec a b) as [->|N]; [auto|]. destruct a as [|[|a]]; [cbn; lia|apply (fib_pos (n := b)); lia|]. pose proof (fib_lt (a := S (S a)) (b := b)). lia. Qed.

Section Fib.
Variables (T : Type) (cond : T -> T -> bool) (d0 : T).
Notation fh := (fh T).
Notation fn := (fn T).
Notation DN := (DN d0).
Notation rings := (rings d0).
Notation same_f := (same_f d0).
Implicit Types (h : fh).
Definition b2n (b : bool) : nat := if b then 1 else 0.
(** [X]: live trees that are in no list; [ex]: nodes whose order against the parent is not claimed *)
Record shape (h : fh) (L : slot -> list nat) (X : list nat) (ex : nat -> Prop) : Prop := {
  s_mem : forall o x, In x (L o) -> en (DN h x) = true;
  s_tab : forall d x, In x (L (Tab d)) -> par (DN h x) = None /\ dg (DN h x) = d /\ mk (DN h x) = false;
  s_chd : forall i x, In x (L (Chd i)) -> par (DN h x) = Some i /\ en (DN h i) = true;
  s_root : forall x, en (DN h x) = true -> par (DN h x) = None -> In x (L (Tab (dg (DN h x)))) \/ In x X;
  s_par : forall x p, en (DN h x) = true -> par (DN h x) = Some p -> In x (L (Chd p));
  s_X : forall x, In x X -> en (DN h x) = true /\ par (DN h x) = None /\ mk (DN h x) = false /\ forall o, ~ In x (L o);
  s_Xnd : NoDup X;
  s_dg : forall i, en (DN h i) = true -> dg (DN h i) = length (L (Chd i));
  s_ord : forall x p, en (DN h x) = true -> par (DN h x) = Some p -> ~ ex x -> cond (vl (DN h p)) (vl (DN h x)) = false;
  s_fib : forall p j c, get (L (Chd p)) j = Some c -> j <= dg (DN h c) + b2n (mk (DN h c));
  s_ht : exists ht : nat -> nat, forall x p, en (DN h x) = true -> par (DN h x) = Some p -> ht x < ht p }.
Definition str h L X ex : Prop := rings h L /\ shape h L X ex.
Lemma en_lt h x : en (DN h x) = true -> x < length (nds h).
Proof. intros E. destruct (Nat.lt_ge_cases x (length (nds h))) as [L|L]; [auto|]. unfold FibLink.DN in E. rewrite nth_overflow in E by auto. discriminate. Qed.
Lemma not_self h L X ex x : shape h L X ex -> en (DN h x) = true -> par (DN h x) <> Some x.
Proof. intros S E P. destruct (s_ht S) as (ht & H). specialize (H x x E P). lia. Qed.
(** pointer steps only *)
Lemma shape_same h h' L X ex : shape h L X ex -> same_f h h' -> shape h' L X ex.
Proof.
  intros [S2 S3 S4 S5 S6 S7 S8 S9 S10 S11 S12] F. destruct F as [F1 F2 F3 F4 Fp Fd Fm Fe Fv]. split; auto; intros *; rewrite ?Fp, ?Fd, ?Fm, ?Fe, ?Fv; eauto.
  destruct S12 as (ht & H). exists ht. intros x p. rewrite Fe, Fp. auto.
Qed.

(** ** The Fibonacci bound *)
Section Bound.
Variables (h : fh) (L : slot -> list nat) (X : list nat) (ex : nat -> Prop).
Hypothesis Rg : rings h L.
Hypothesis St : shape h L X ex.
Inductive anc (i : nat) : nat -> Prop := anc_refl : anc i i | anc_step x y : par (DN h x) = Some y -> anc i y -> anc i x.
Lemma anc_two i j x : anc i x -> anc j x -> anc i j \/ anc j i.
Proof.
  intros A. induction A as [|x y P A IH]; intros B; [auto|]. inversion B as [|x' y' P' B']; subst; [left; econstructor; eauto|]. rewrite P in P'. injection P' as <-. auto.
Qed.
Variable ht : nat -> nat.
Hypothesis Ht : forall x p, en (DN h x) = true -> par (DN h x) = Some p -> ht x < ht p.
Lemma anc_ht i x : anc i x -> en (DN h x) = true -> ht x <= ht i /\ en (DN h i) = true.
Proof.
  intros A. induction A as [|x y P A IH]; intros E; [auto|]. pose proof (Ht _ E P). destruct (s_chd St _ _ (s_par St _ E P)) as (_ & Ey). specialize (IH Ey). split; [lia|tauto].
Qed.
Lemma siblings p c1 c2 x : In c1 (L (Chd p)) -> In c2 (L (Chd p)) -> en (DN h x) = true -> anc c1 x -> anc c2 x -> c1 = c2.
Proof.
  intros I1 I2 E A1 A2. assert (H : forall a b, In a (L (Chd p)) -> In b (L (Chd p)) -> anc a b -> a = b).
  { intros a b Ia Ib A. inversion A as [|x' y P A']; subst; [auto|]. destruct (s_chd St _ _ Ib) as (Pb & Ep). rewrite Pb in P. injection P as <-. destruct (anc_ht A' Ep) as (Hl & Ea). destruct (s_chd St _ _ Ia) as (Pa & _). specialize (Ht _ Ea Pa). lia. }
  destruct (anc_two A1 A2) as [A|A]; [|symmetry]; eauto.
Qed.
(** 1 + fib 1 + ... + fib m *)
Fixpoint fsum (m : nat) : nat := match m with O => 1 | S k => fsum k + fib m end.
Lemma fsum_fib m : fsum m = fib (m + 2).
Proof. induction m as [|m IH]; [reflexivity|]. cbn [fsum]. rewrite IH. replace (S m + 2) with (S (S (m + 1))) by lia. rewrite fib_SS. replace (S (m + 1)) with (m + 2) by lia. replace (m + 1) with (S m) by lia. reflexivity. Qed.
Lemma size_bound : forall k i, ht i < k -> en (DN h i) = true -> exists l, NoDup l /\ (forall x, In x l -> en (DN h x) = true /\ anc i x) /\ fib (dg (DN h i) + 2) <= length l.
Proof.
  induction k as [|k IH]; intros i Hk Ei; [lia|].
  assert (P : forall m, m <= length (L (Chd i)) -> exists l, NoDup l /\ (forall x, In x l -> en (DN h x) = true /\ exists j c, j < m /\ get (L (Chd i)) j = Some c /\ anc c x) /\ fsum m <= S (length l)).
  { induction m as [|m IHm]; intros Hm; [exists []; split; [constructor|split; [intros x []|cbn; lia]]|]. destruct (IHm ltac:(lia)) as (l & Nl & Hl & Ll). destruct (@get_lt _ (L (Chd i)) m ltac:(lia)) as (c & Gc).
    pose proof (get_In _ _ Gc) as Ic. destruct (s_chd St _ _ Ic) as (Pc & _). assert (Ec := s_mem St _ _ Ic). pose proof (Ht _ Ec Pc) as Hc. destruct (IH c ltac:(lia) Ec) as (l' & Nl' & Hl' & Ll'). exists (l ++ l'). split; [|split].
    - apply NoDup_app_iff. split; [auto|]. split; [auto|]. intros x X1 X2. destruct (Hl x X1) as (Ex & j & c' & Lj & Gj & A1). destruct (Hl' x X2) as (_ & A2). assert (c' = c) by (apply (@siblings i c' c x); auto; eapply get_In; eauto). subst c'.
      assert (j = m) by (apply (proj1 (NoDup_nth_error _) (rg_nd Rg (Chd i))); [exact (get_some_lt _ _ Gj)|unfold get in *; congruence]). lia.
    - intros x X1. apply in_app_or in X1 as [X1|X1]; [destruct (Hl x X1) as (Ex & j & c' & Lj & R); split; [auto|]; exists j, c'; split; [lia|auto]|]. destruct (Hl' x X1) as (Ex & A). split; [auto|]. exists m, c. split; [lia|auto].
    - rewrite app_length. cbn [fsum]. pose proof (s_fib St _ _ Gc) as F. assert (fib (S m) <= fib (dg (DN h c) + 2)) by (apply fib_le; destruct (mk (DN h c)); cbn in F; lia). lia. }
  destruct (P (length (L (Chd i))) (le_n _)) as (l & Nl & Hl & Ll). exists (i :: l). split; [|split].
  - constructor; [|auto]. intros Ii. destruct (Hl i Ii) as (_ & j & c & _ & Gc & A). pose proof (get_In _ _ Gc) as Ic. destruct (s_chd St _ _ Ic) as (Pc & _). pose proof (Ht _ (s_mem St _ _ Ic) Pc). destruct (anc_ht A Ei). lia.
  - intros x [<-|X1]; [split; [auto|constructor]|]. destruct (Hl x X1) as (Ex & j & c & _ & Gc & A). split; [auto|]. pose proof (get_In _ _ Gc) as Ic. destruct (s_chd St _ _ Ic) as (Pc & _). clear - A Pc. induction A; [econstructor; [eauto|constructor]|econstructor; eauto].
  - rewrite (s_dg St _ Ei), <- fsum_fib. cbn [length]. exact Ll.
Qed.
End Bound.
Definition kok (h : fh) : Prop := 2 <= length (tab h) /\ length (nds h) <= fib (length (tab h)).
Lemma dg_bound h L X ex x : str h L X ex -> kok h -> en (DN h x) = true -> dg (DN h x) < length (tab h).
Proof.
  intros (R & S) (K1 & K2) E. destruct (s_ht S) as (ht & Ht). destruct (size_bound R S ht Ht (k := Datatypes.S (ht x)) x) as (l & Nl & Hl & Ll); [lia|auto|].
  assert (length l <= length (nds h)). { apply NoDup_bound; auto. intros y Y. apply en_lt. apply Hl, Y. }
  destruct (Nat.lt_ge_cases (dg (DN h x)) (length (tab h))) as [|G]; [auto|]. pose proof (fib_lt (a := length (tab h)) (b := dg (DN h x) + 2)). lia.
Qed.
Arguments dg_bound {h L X ex x} _ _ _.

(** ** Steps *)
Lemma X_notin h L X ex x : shape h L (x :: X) ex -> ~ In x X. Proof. intros S. pose proof (s_Xnd S) as N. now apply NoDup_cons_iff in N. Qed.
Lemma push_root h L X ex x : str h L (x :: X) ex -> kok h -> exists h', push_link h x (Tab (dg (DN h x))) = Some h' /\ same_f h h' /\ str h' (lupd L (Tab (dg (DN h x))) (L (Tab (dg (DN h x))) ++ [x])) X ex.
Proof.
  intros (R & S) K. destruct (s_X S x (or_introl eq_refl)) as (Ex & Px & Mx & Nx). pose proof (dg_bound (conj R S) K Ex) as Ld. set (d := dg (DN h x)) in *. destruct (@push_link_ok T d0 h L (Tab d) x) as (h' & E & R' & F); [auto|exact Ld|exact (en_lt _ _ Ex)|auto|].
  exists h'. split; [auto|]. split; [auto|]. split; [auto|]. refine (shape_same _ F). pose proof (X_notin S) as NxX.
  assert (LC : forall i, lupd L (Tab d) (L (Tab d) ++ [x]) (Chd i) = L (Chd i)) by (intros; apply lupd_neq; discriminate).
  assert (Mem : forall o y, In y (lupd L (Tab d) (L (Tab d) ++ [x]) o) <-> In y (L o) \/ o = Tab d /\ y = x).
  { intros o y. destruct (slot_eq_dec (Tab d) o) as [<-|No]; [rewrite lupd_eq, in_app_iff; cbn; intuition congruence|rewrite lupd_neq by auto; intuition congruence]. }
  destruct S as [S2 S3 S4 S5 S6 S7 S8 S9 S10 S11 S12]. split; [| | | | | | | |exact S10| |exact S12].
  - intros o y Y. apply Mem in Y as [Y|(-> & ->)]; eauto.
  - intros e y Y. apply Mem in Y as [Y|(Ee & ->)]; [auto|]. injection Ee as ->. auto.
  - intros i y. rewrite LC. auto.
  - intros y Ey Py. destruct (S5 y Ey Py) as [Y|[<-|Y]]; [left; apply Mem; auto|left; apply Mem; auto|auto].
  - intros y p Ey Py. rewrite LC. auto.
  - intros y Y. destruct (S7 y (or_intror Y)) as (Y1 & Y2 & Y3 & Y4). repeat split; auto. intros o Yo. apply Mem in Yo as [Yo|(_ & ->)]; [exact (Y4 _ Yo)|auto].
  - now apply NoDup_cons_iff in S8.
  - intros i Ei. rewrite LC. auto.
  - intros p j c. rewrite LC. eauto.
Qed.
Arguments push_root {h L X ex x} _ _.
Lemma pop_root h L X ex x d l1 l2 : str h L X ex -> L (Tab d) = l1 ++ x :: l2 -> exists h', pop_link h x (Tab d) = Some h' /\ same_f h h' /\ str h' (lupd L (Tab d) (l1 ++ l2)) (x :: X) ex.
Proof.
  intros (R & S) El. destruct (pop_link_ok R El) as (h' & E & R' & F). exists h'. split; [auto|]. split; [auto|]. split; [auto|]. refine (shape_same _ F).
  assert (Ix : In x (L (Tab d))) by (rewrite El; apply in_or_app; right; now left). destruct (s_tab S _ _ Ix) as (Px & Dx & Mx). assert (Ex := s_mem S _ _ Ix). pose proof (rg_nd R (Tab d)) as Nd. rewrite El in Nd. destruct (NoDup_remove _ _ _ Nd) as (Nd' & Nx).
  assert (LC : forall i, lupd L (Tab d) (l1 ++ l2) (Chd i) = L (Chd i)) by (intros; apply lupd_neq; discriminate).
  assert (Mem : forall o y, In y (lupd L (Tab d) (l1 ++ l2) o) <-> In y (L o) /\ y <> x).
  { intros o y. destruct (slot_eq_dec (Tab d) o) as [<-|No]; [rewrite lupd_eq, El; split; [intros Y; split; [apply in_app_or in Y; apply in_or_app; cbn; tauto|intros ->; auto]|intros (Y & N); apply in_app_or in Y; apply in_or_app; cbn in Y; intuition congruence]|]. rewrite lupd_neq by auto. split; [|tauto]. intros Y. split; [auto|]. intros ->. apply No. exact (rg_disj R _ _ _ Ix Y). }
  destruct S as [S2 S3 S4 S5 S6 S7 S8 S9 S10 S11 S12]. split; [| | | | | | | |exact S10| |exact S12].
  - intros o y Y. apply Mem in Y as (Y & _). eauto.
  - intros e y Y. apply Mem in Y as (Y & _). auto.
  - intros i y. rewrite LC. auto.
  - intros y Ey Py. destruct (Nat.eq_dec y x) as [->|N]; [right; now left|]. destruct (S5 y Ey Py) as [Y|Y]; [left; apply Mem; auto|right; now right].
  - intros y p Ey Py. rewrite LC. auto.
  - intros y [<-|Y]; [repeat split; auto; intros o Y; apply Mem in Y; tauto|]. destruct (S7 y Y) as (Y1 & Y2 & Y3 & Y4). repeat split; auto. intros o Yo. apply Mem in Yo as (Yo & _). exact (Y4 _ Yo).
  - constructor; [|auto]. intros Y. destruct (S7 x Y) as (_ & _ & _ & Y4). exact (Y4 _ Ix).
  - intros i Ei. rewrite LC. auto.
  - intros p j c. rewrite LC. eauto.
Qed.
Arguments pop_root {h L X ex x d l1 l2} _ _.
(** writing par, deg, marked, enabled, value *)
Definition keeps (f : fn -> fn) : Prop := forall d, nx (f d) = nx d /\ pv (f d) = pv d /\ chd (f d) = chd d.
Lemma fld_ok h L i f : rings h L -> i < length (nds h) -> keeps f -> exists h', upd_n h i f = Some h' /\ rings h' L /\ (forall j, DN h' j = if j =? i then f (DN h j) else DN h j) /\ length (nds h') = length (nds h) /\ length (tab h') = length (tab h) /\ rt h' = rt h /\ sz h' = sz h.
Proof.
  intros R Li Kf. destruct (upd_n_ok d0 h f Li) as (h' & E & D & O & Ln & Lt & Er & Es). exists h'. split; [auto|]. assert (Q : forall B (g : fn -> B), (forall d, g (f d) = g d) -> forall j, g (DN h' j) = g (DN h j)) by (intros B g Hg j; destruct (Nat.eq_dec j i) as [->|J]; [now rewrite D|now rewrite O]).
  split; [|split; [|split; [auto|split; [congruence|auto]]]].
  - apply (rings_ext R); auto; [congruence| | |]; [apply heads_of with (d0 := d0); auto|..]; intros j; apply Q; intros d; apply Kf.
  - intros j. destruct (Nat.eqb_spec j i) as [->|J]; auto.
Qed.
Arguments fld_ok {h L i} f _ _ _.
(** same values, sizes and live nodes *)
Record same_v (h h' : fh) : Prop := { sv_n : length (nds h') = length (nds h); sv_t : length (tab h') = length (tab h); sv_rt : rt h' = rt h; sv_sz : sz h' = sz h;
  sv_en : forall j, en (DN h' j) = en (DN h j); sv_vl : forall j, vl (DN h' j) = vl (DN h j) }.
Lemma same_fv h h' : same_f h h' -> same_v h h'. Proof. intros []. split; auto. Qed.
Lemma same_v_refl h : same_v h h. Proof. split; auto. Qed.
Lemma same_v_trans h1 h2 h3 : same_v h1 h2 -> same_v h2 h3 -> same_v h1 h3.
Proof. intros [] []. split; intros; etransitivity; eauto. Qed.
Arguments same_v_trans {h1 h2 h3} _ _.
Lemma kok_same h h' : same_v h h' -> kok h -> kok h'. Proof. intros V. unfold kok. now rewrite (sv_n V), (sv_t V). Qed.
Arguments kok_same {h h'} _ _.

(** ** Melding two loose trees *)
Lemma meld_shape h h' L X ex l r : shape h L (l :: r :: X) ex -> dg (DN h l) = dg (DN h r) -> cond (vl (DN h l)) (vl (DN h r)) = false ->
  (forall j, par (DN h' j) = if j =? r then Some l else par (DN h j)) -> (forall j, dg (DN h' j) = if j =? l then S (dg (DN h j)) else dg (DN h j)) ->
  (forall j, mk (DN h' j) = mk (DN h j)) -> (forall j, en (DN h' j) = en (DN h j)) -> (forall j, vl (DN h' j) = vl (DN h j)) -> shape h' (lupd L (Chd l) (L (Chd l) ++ [r])) (l :: X) ex.
Proof.
  intros S Ed Ec Hp Hd Hm He Hv. destruct (s_X S l (or_introl eq_refl)) as (El & Pl & Ml & Nl). destruct (s_X S r (or_intror (or_introl eq_refl))) as (Er & Pr & Mr & Nr).
  pose proof (s_Xnd S) as N. apply NoDup_cons_iff in N as (N1 & N). apply NoDup_cons_iff in N as (N2 & N). assert (Nlr : l <> r) by (intros ->; apply N1; now left). assert (NlX : ~ In l X) by (intros J; apply N1; now right).
  assert (LT : forall d, lupd L (Chd l) (L (Chd l) ++ [r]) (Tab d) = L (Tab d)) by (intros; apply lupd_neq; discriminate).
  assert (LC : forall i, i <> l -> lupd L (Chd l) (L (Chd l) ++ [r]) (Chd i) = L (Chd i)) by (intros; apply lupd_neq; congruence).
  assert (Mem : forall o y, In y (lupd L (Chd l) (L (Chd l) ++ [r]) o) <-> In y (L o) \/ o = Chd l /\ y = r).
  { intros o y. destruct (slot_eq_dec (Chd l) o) as [<-|No]; [rewrite lupd_eq, in_app_iff; cbn; intuition congruence|rewrite lupd_neq by auto; intuition congruence]. }
  assert (Hp' : forall j, j <> r -> par (DN h' j) = par (DN h j)) by (intros j J; rewrite Hp; apply Nat.eqb_neq in J; now rewrite J).
  assert (Hd' : forall j, j <> l -> dg (DN h' j) = dg (DN h j)) by (intros j J; rewrite Hd; apply Nat.eqb_neq in J; now rewrite J).
  destruct S as [S2 S3 S4 S5 S6 S7 S8 S9 S10 S11 S12]. split.
  - intros o y Y. rewrite He. apply Mem in Y as [Y|(-> & ->)]; eauto.
  - intros d y. rewrite LT. intros Y. assert (y <> r) by (intros ->; exact (Nr _ Y)). assert (y <> l) by (intros ->; exact (Nl _ Y)). rewrite Hp', Hd', Hm by auto. auto.
  - intros i y Y. apply Mem in Y as [Y|(Ei & ->)]; [assert (y <> r) by (intros ->; exact (Nr _ Y)); rewrite Hp', He by auto; auto|]. injection Ei as ->. rewrite Hp, Nat.eqb_refl, He. auto.
  - intros y. rewrite He. intros Ey Py. destruct (Nat.eq_dec y r) as [->|Ny]; [rewrite Hp, Nat.eqb_refl in Py; discriminate|]. rewrite Hp' in Py by auto. destruct (S5 y Ey Py) as [Y|[<-|[Y|Y]]]; [|right; now left|congruence|right; now right]. left. rewrite LT. assert (y <> l) by (intros ->; exact (Nl _ Y)). rewrite Hd' by auto. auto.
  - intros y p. rewrite He. intros Ey Py. apply Mem. destruct (Nat.eq_dec y r) as [->|Ny]; [rewrite Hp, Nat.eqb_refl in Py; injection Py as <-; auto|]. rewrite Hp' in Py by auto. auto.
  - intros y Y. assert (Y' : In y (l :: r :: X)) by (destruct Y; cbn; auto). assert (Ny : y <> r) by (intros ->; destruct Y; auto). destruct (S7 y Y') as (Y1 & Y2 & Y3 & Y4). rewrite He, Hp', Hm by auto. repeat split; auto. intros o Yo. apply Mem in Yo as [Yo|(_ & ->)]; [exact (Y4 _ Yo)|auto].
  - constructor; auto.
  - intros i. rewrite He. intros Ei. destruct (Nat.eq_dec i l) as [->|Ni]; [rewrite lupd_eq, Hd, Nat.eqb_refl, app_length, (S9 _ Ei); cbn; lia|]. rewrite LC, Hd' by auto. auto.
  - intros y p. rewrite He, !Hv. intros Ey Py Xy. destruct (Nat.eq_dec y r) as [->|Ny]; [rewrite Hp, Nat.eqb_refl in Py; injection Py as <-; auto|]. rewrite Hp' in Py by auto. auto.
  - intros p j c. rewrite Hm. destruct (Nat.eq_dec p l) as [->|Np].
    + rewrite lupd_eq. intros G. assert (Hc : c <> l). { intros ->. assert (Il : In l (L (Chd l) ++ [r])) by (eapply get_In; eauto). apply in_app_or in Il as [Il|[Il|[]]]; [exact (Nl _ Il)|congruence]. } rewrite Hd' by auto.
      destruct (Nat.lt_ge_cases j (length (L (Chd l)))) as [Lj|Lj]; [rewrite get_app_l in G by auto; eauto|]. assert (Hj : j < length (L (Chd l) ++ [r])) by exact (get_some_lt _ _ G). rewrite app_length in Hj. cbn in Hj. rewrite get_app_r in G by auto. replace (j - length (L (Chd l))) with 0 in G by lia. injection G as <-. rewrite <- Ed, (S9 _ El). lia.
    + rewrite LC by auto. intros G. pose proof (S11 _ _ _ G) as B. rewrite Hd. destruct (c =? l); lia.
  - destruct S12 as (ht & Ht). exists (fun x => if x =? l then Nat.max (ht l) (S (ht r)) else ht x). intros y p. rewrite He. intros Ey Py. destruct (Nat.eq_dec y r) as [->|Ny].
    + rewrite Hp, Nat.eqb_refl in Py. injection Py as <-. rewrite Nat.eqb_refl. apply Nat.neq_sym, Nat.eqb_neq in Nlr. rewrite Nlr. lia.
    + rewrite Hp' in Py by auto. assert (Nyl : y <> l) by (intros ->; congruence). apply Nat.eqb_neq in Nyl. rewrite Nyl. specialize (Ht _ _ Ey Py). destruct (Nat.eqb_spec p l) as [->|]; lia.
Qed.
(** number of roots *)
Definition rootp (h : fh) (x : nat) : bool := en (DN h x) && match par (DN h x) with None => true | Some _ => false end.
Definition rc (h : fh) : nat := length (filter (rootp h) (seq 0 (length (nds h)))).
Lemma filter_flip (f g : nat -> bool) r l : NoDup l -> In r l -> f r = true -> g r = false -> (forall j, j <> r -> g j = f j) -> S (length (filter g l)) = length (filter f l).
Proof.
  intros N I Fr Gr H. assert (Hn : forall l, ~ In r l -> filter g l = filter f l) by (intros k K; apply filter_ext_in; intros a Ka; apply H; intros ->; auto). induction l as [|a l IH]; [destruct I|]. apply NoDup_cons_iff in N as (Na & N). cbn [filter]. destruct I as [->|I].
  - rewrite Fr, Gr, Hn by auto. reflexivity.
  - assert (a <> r) by (intros ->; auto). rewrite (H a) by auto. destruct (f a); cbn [length]; rewrite <- (IH N I); reflexivity.
Qed.
Lemma rc_same h h' : same_f h h' -> rc h' = rc h.
Proof. intros F. unfold rc. rewrite (sf_n F). f_equal. apply filter_ext. intros x. unfold rootp. now rewrite (sf_en F), (sf_par F). Qed.
Lemma rc_le h : rc h <= length (nds h).
Proof. unfold rc. rewrite <- (seq_length (length (nds h)) 0) at 2. generalize (seq 0 (length (nds h))). intros l. induction l as [|a l IH]; cbn; [lia|]. destruct (rootp h a); cbn; lia. Qed.
Hypothesis WO : weak_order cond.
Lemma cond_asym x y : cond x y = true -> cond y x = false.
Proof. intros E. destruct (cond y x) eqn:E2; [|auto]. rewrite <- (wo_irr WO x). symmetry. apply (wo_trans WO x y x); auto. Qed.
Lemma cmp_ok h l r : l < length (nds h) -> r < length (nds h) -> cmp cond h l r = Some (cond (vl (DN h l)) (vl (DN h r))).
Proof. intros A B. unfold cmp. now rewrite !(dn_get d0) by auto. Qed.
Lemma shape_perm h L X X' ex : shape h L X ex -> (forall x, In x X' <-> In x X) -> NoDup X' -> shape h L X' ex.
Proof.
  intros [S2 S3 S4 S5 S6 S7 S8 S9 S10 S11 S12] H N. split; auto.
  - intros x E P. destruct (S5 x E P); [auto|right; now apply H].
  - intros x I. apply S7, H, I.
Qed.
Lemma meld_ok h L X ex l r : str h L (l :: r :: X) ex -> dg (DN h l) = dg (DN h r) -> exists h' w L', meld cond h l r = Some (h', w) /\ same_v h h' /\ str h' L' (w :: X) ex /\ (w = l \/ w = r) /\ dg (DN h' w) = S (dg (DN h l)) /\ (forall d, L' (Tab d) = L (Tab d)) /\ (forall i, i <> l -> i <> r -> L' (Chd i) = L (Chd i)) /\ S (rc h') = rc h.
Proof.
  intros (R & Sh) Ed. destruct (s_X Sh l (or_introl eq_refl)) as (El & Pl & Ml & Nl). destruct (s_X Sh r (or_intror (or_introl eq_refl))) as (Er & Pr & Mr & Nr). assert (Ll := en_lt _ _ El). assert (Lr := en_lt _ _ Er).
  unfold meld. rewrite !(dn_get d0) by auto. cbn [obind]. rewrite Ed, Nat.eqb_refl. cbn [guard obind]. rewrite cmp_ok by auto. cbn [obind].
  assert (Main : forall l r, shape h L (l :: r :: X) ex -> dg (DN h l) = dg (DN h r) -> cond (vl (DN h l)) (vl (DN h r)) = false -> l < length (nds h) -> r < length (nds h) -> exists h' L', (let* h := push_link h r (Chd l) in let* h := upd_n h r (w_par (Some l)) in let* h := upd_n h l (fun d => w_dg (S (dg d)) d) in Some (h, l)) = Some (h', l) /\ same_v h h' /\ str h' L' (l :: X) ex /\ dg (DN h' l) = S (dg (DN h l)) /\ (forall d, L' (Tab d) = L (Tab d)) /\ (forall i, i <> l -> L' (Chd i) = L (Chd i)) /\ S (rc h') = rc h).
  { clear dependent l. clear dependent r. intros l r Sh Ed Ec Ll Lr. destruct (s_X Sh l (or_introl eq_refl)) as (El & Pl & Ml & Nl). destruct (s_X Sh r (or_intror (or_introl eq_refl))) as (Er & Pr & Mr & Nr). pose proof (s_Xnd Sh) as N. apply NoDup_cons_iff in N as (N1 & N). assert (Nlr : l <> r) by (intros ->; apply N1; now left).
    destruct (@push_link_ok T d0 h L (Chd l) r) as (h1 & E1 & R1 & F1); auto. rewrite E1. cbn [obind]. destruct (@fld_ok h1 _ r (w_par (Some l)) R1) as (h2 & E2 & R2 & D2 & Ln2 & Lt2 & Rt2 & Sz2); [now rewrite (sf_n F1)|repeat split|]. rewrite E2. cbn [obind].
    destruct (@fld_ok h2 _ l (fun d => w_dg (S (dg d)) d) R2) as (h3 & E3 & R3 & D3 & Ln3 & Lt3 & Rt3 & Sz3); [now rewrite Ln2, (sf_n F1)|repeat split|]. rewrite E3. cbn [obind]. exists h3, (lupd L (Chd l) (L (Chd l) ++ [r])). split; [auto|].
    assert (Q : forall B (g : fn -> B), (forall d x, g (w_par x d) = g d) -> (forall d x, g (w_dg x d) = g d) -> (forall j, g (DN h1 j) = g (DN h j)) -> forall j, g (DN h3 j) = g (DN h j)) by (intros B g G1 G2 G3 j; rewrite D3, D2; destruct (j =? l), (j =? r); rewrite ?G2, ?G1; auto).
    assert (Hp : forall j, par (DN h3 j) = if j =? r then Some l else par (DN h j)). { intros j. rewrite D3, D2. destruct (j =? l), (j =? r); cbn; rewrite ?(sf_par F1); auto. }
    assert (Hd : forall j, dg (DN h3 j) = if j =? l then S (dg (DN h j)) else dg (DN h j)). { intros j. rewrite D3, D2. destruct (j =? l), (j =? r); cbn; rewrite ?(sf_dg F1); auto. }
    assert (He := Q _ (@en T) ltac:(reflexivity) ltac:(reflexivity) (sf_en F1)). assert (Hv := Q _ (@vl T) ltac:(reflexivity) ltac:(reflexivity) (sf_vl F1)). assert (Hm := Q _ (@mk T) ltac:(reflexivity) ltac:(reflexivity) (sf_mk F1)).
    split; [split; auto; [rewrite Ln3, Ln2; apply (sf_n F1)|rewrite Lt3, Lt2; apply (sf_t F1)|rewrite Rt3, Rt2; apply (sf_rt F1)|rewrite Sz3, Sz2; apply (sf_sz F1)]|]. split; [split; [exact R3|exact (meld_shape h3 Sh Ed Ec Hp Hd Hm He Hv)]|]. split; [now rewrite Hd, Nat.eqb_refl|]. split; [intros d; apply lupd_neq; discriminate|]. split; [intros i Hi; apply lupd_neq; congruence|].
    unfold rc. rewrite Ln3, Ln2, (sf_n F1). apply filter_flip with (r := r); [apply seq_NoDup|apply in_seq; lia| | |].
    - unfold rootp. now rewrite Er, Pr.
    - unfold rootp. now rewrite Hp, Nat.eqb_refl, andb_false_r.
    - intros j J. unfold rootp. apply Nat.eqb_neq in J. now rewrite Hp, He, J. }
  destruct (cond (vl (DN h l)) (vl (DN h r))) eqn:Ec.
  - destruct (Main r l) as (h' & L' & E & V & St & Hd & HL & HC & Hr); auto. { apply (shape_perm Sh); [cbn; tauto|]. pose proof (s_Xnd Sh) as N. apply NoDup_cons_iff in N as (N1 & N). apply NoDup_cons_iff in N as (N2 & N). constructor; [|constructor; [intros J; apply N1; now right|auto]]. intros [<-|J]; [apply N1; now left|auto]. } { now apply cond_asym. }
    exists h', r, L'. rewrite E. split; [auto|]. split; [auto|]. split; [auto|]. split; [auto|]. split; [congruence|auto].
  - destruct (Main l r) as (h' & L' & E & V & St & Hd & HL & HC & Hr); auto. exists h', l, L'. rewrite E. repeat (split; [auto; fail|]). split; [congruence|auto].
Qed.
End Fib.
Arguments dg_bound {T cond d0 h L X ex x} _ _ _.
Arguments push_root {T cond d0 h L X ex x} _ _.
Arguments pop_root {T cond d0 h L X ex x d l1 l2} _ _.
Arguments fld_ok {T d0 h L i} f _ _ _.
Arguments same_v_trans {T d0 h1 h2 h3} _ _.
Arguments kok_same {T d0 h h'} _ _.
Arguments shape_same {T cond d0 h h' L X ex} _ _.
Arguments shape_perm {T cond d0 h L X} X' {ex} _ _ _.
Arguments meld_ok {T cond d0} _ {h L X ex l r} _ _.
Arguments en_lt {T d0 h x} _.
