(** FibonacciHeap: the circular lists. *)
From Verif Require Import FibModel BaseLemmas ListExtra.
Set Implicit Arguments.

(** * Circular lists over next and prev *)
Section Links.
Fixpoint links (N P : nat -> option nat) (l : list nat) : Prop :=
  match l with
  | a :: r => match r with b :: _ => N a = Some b /\ P b = Some a /\ links N P r | [] => True end
  | [] => True
  end.
Definition ring N P (l : list nat) : Prop := match l with [] => True | x :: _ => links N P (l ++ [x]) end.
Lemma links_app N P l1 a l2 : links N P (l1 ++ a :: l2) <-> links N P (l1 ++ [a]) /\ links N P (a :: l2).
Proof.
  induction l1 as [|x l1 IH]; [cbn; tauto|]. destruct l1 as [|y l1]; [cbn [app links]; tauto|]. change (links N P (x :: (y :: l1) ++ a :: l2) <-> links N P (x :: (y :: l1) ++ [a]) /\ links N P (a :: l2)).
  cbn [app] in IH |- *. cbn [links] in *. tauto.
Qed.
Lemma links_ext N P N' P' l : (forall j, In j (removelast l) -> N' j = N j) -> (forall j, In j (tl l) -> P' j = P j) -> links N P l -> links N' P' l.
Proof.
  induction l as [|a l IH]; [auto|]. intros H1 H2. destruct l as [|b l]; [auto|]. intros (E1 & E2 & E3). cbn [links]. split; [rewrite H1; [auto|now left]|]. split; [rewrite H2; [auto|now left]|]. apply IH; auto.
  - intros j J. apply H1. right. exact J.
  - intros j J. apply H2. right. destruct l; [destruct J|exact J].
Qed.
Arguments links_ext {N P N' P' l} _ _ _.
Lemma removelast_app1 {A} (l : list A) x : removelast (l ++ [x]) = l.
Proof. apply removelast_last. Qed.
Lemma ring_ext N P N' P' l : (forall j, In j l -> N' j = N j /\ P' j = P j) -> ring N P l -> ring N' P' l.
Proof.
  unfold ring. destruct l as [|x l]; [auto|]. intros H. apply links_ext.
  - rewrite removelast_app1. intros j J. now apply H.
  - cbn [tl app]. intros j J. apply in_app_or in J as [J|[<-|[]]]; apply H; cbn; auto.
Qed.
Arguments ring_ext {N P N' P' l} _ _.
(** the last element is the prev of the first *)
Lemma ring_last N P l b : ring N P (l ++ [b]) -> P (hd b l) = Some b /\ N b = Some (hd b l).
Proof. unfold ring. destruct l as [|x l]; [cbn; tauto|]. cbn [app hd]. rewrite <- app_assoc. change (links N P ((x :: l) ++ b :: [x]) -> P x = Some b /\ N b = Some x). rewrite links_app. cbn. tauto. Qed.
(** a new last element *)
Lemma ring_push N P N' P' l b y : ring N P (l ++ [b]) -> NoDup (l ++ [b]) -> ~ In y (l ++ [b]) ->
  (forall j, N' j = if j =? b then Some y else if j =? y then Some (hd b l) else N j) -> (forall j, P' j = if j =? hd b l then Some y else if j =? y then Some b else P j) -> ring N' P' ((l ++ [b]) ++ [y]).
Proof.
  intros R Nd Ny HN HP. set (x := hd b l) in *. assert (R' : links N P (l ++ [b])). { unfold ring in R. destruct l as [|z l]; [exact I|]. cbn [app] in R. rewrite <- app_assoc in R. change (links N P ((z :: l) ++ b :: [z])) in R. apply links_app in R. apply R. }
  assert (Nyb : y <> b) by (intros ->; apply Ny, in_or_app; right; now left). assert (Hx : exists r, l ++ [b] = x :: r) by (unfold x; destruct l; cbn; eauto). destruct Hx as (r & Ex). assert (Nyx : y <> x) by (intros E; apply Ny; rewrite Ex, E; now left).
  unfold ring. rewrite Ex. cbn [app]. change (links N' P' (x :: (r ++ [y]) ++ [x])). replace (x :: (r ++ [y]) ++ [x]) with (l ++ b :: [y; x]) by (rewrite app_comm_cons, app_comm_cons, <- Ex; now rewrite <- !app_assoc).
  apply links_app. split.
  - apply (links_ext (N := N) (P := P)); auto.
    + rewrite removelast_app1. intros j J. rewrite HN. assert (j <> b) by (intros ->; apply NoDup_app_iff in Nd as (_ & _ & Nd); apply (Nd b J); now left). assert (j <> y) by (intros ->; apply Ny, in_or_app; auto). apply Nat.eqb_neq in H, H0. now rewrite H, H0.
    + rewrite Ex in *. cbn [tl]. intros j J. rewrite HP. apply NoDup_cons_iff in Nd as (Nd & _). assert (j <> x) by (intros ->; auto). assert (j <> y) by (intros ->; apply Ny; now right). apply Nat.eqb_neq in H, H0. now rewrite H, H0.
  - cbn [links]. rewrite !HN, !HP, Nat.eqb_refl, Nat.eqb_refl. rewrite (proj2 (Nat.eqb_neq _ _) Nyb), (proj2 (Nat.eqb_neq _ _) Nyx), !Nat.eqb_refl. auto.
Qed.
Arguments ring_push {N P N' P' l b y} _ _ _ _ _.
(** taking out an element *)
Lemma hd_app {A} (d : A) l1 l2 : l1 <> [] -> hd d (l1 ++ l2) = hd d l1. Proof. now destruct l1. Qed.
Lemma ring_neighbours N P l1 y l2 : ring N P (l1 ++ y :: l2) -> l1 ++ l2 <> [] -> exists n p, N y = Some n /\ P y = Some p /\ hd_error (l2 ++ l1) = Some n /\ hd_error (rev l1 ++ rev l2) = Some p.
Proof.
  intros R Hn. destruct l1 as [|x l1].
  - cbn [app] in *. destruct l2 as [|z l2]; [congruence|]. assert (El : exists l3 b, z :: l2 = l3 ++ [b]). { destruct (exists_last (l := z :: l2)) as (l3 & b & E); [discriminate|]. eauto. } destruct El as (l3 & b & El).
    exists z, b. pose proof R as R2. unfold ring in R2. cbn [app links] in R2. split; [tauto|]. change (y :: z :: l2) with ([y] ++ z :: l2) in R. rewrite El, app_assoc in R. apply ring_last in R. cbn [app hd] in R. split; [tauto|]. rewrite app_nil_r. split; [reflexivity|]. rewrite El. cbn [rev app]. rewrite rev_app_distr. reflexivity.
  - assert (El : exists l3 b, x :: l1 = l3 ++ [b]). { destruct (exists_last (l := x :: l1)) as (l3 & b & E); [discriminate|]. eauto. } destruct El as (l3 & b & El).
    unfold ring in R. cbn [app] in R. rewrite <- app_assoc in R. cbn [app] in R. rewrite app_comm_cons, El in R. rewrite <- app_assoc in R. cbn [app] in R. apply links_app in R as (_ & R). cbn [links] in R. destruct R as (R1 & R2 & R3).
    destruct l2 as [|z l2]; cbn [app] in R3.
    + exists x, b. rewrite El, rev_app_distr. cbn [app rev hd_error]. destruct R3 as (R3 & _). repeat split; auto. rewrite <- El. reflexivity.
    + exists z, b. rewrite El, rev_app_distr. cbn [app rev hd_error]. destruct R3 as (R3 & _). auto.
Qed.
Lemma ring_pop N P N' P' l1 y l2 n p : ring N P (l1 ++ y :: l2) -> NoDup (l1 ++ y :: l2) -> N y = Some n -> P y = Some p -> n <> y ->
  (forall j, j <> y -> N' j = if j =? p then Some n else N j) -> (forall j, j <> y -> P' j = if j =? n then Some p else P j) -> ring N' P' (l1 ++ l2).
Proof.
  intros R Nd En Ep Ny HN HP. assert (Nd' := NoDup_remove _ _ _ Nd). destruct Nd' as (Nd' & Nyl).
  destruct l1 as [|x l1].
  - cbn [app] in *. destruct l2 as [|z l2]; [unfold ring in R; cbn in R; destruct R as (R & _); congruence|].
    destruct (exists_last (l := z :: l2)) as (l3 & b & El); [discriminate|]. pose proof R as R2. change (y :: z :: l2) with ([y] ++ z :: l2) in R2. rewrite El, app_assoc in R2. apply ring_last in R2. cbn [app hd] in R2.
    unfold ring in R |- *. cbn [app] in R. cbn [links] in R. destruct R as (R1 & R3 & R4). assert (n = z) by congruence. subst n. assert (p = b) by (destruct R2; congruence). subst p.
    change (links N P ((z :: l2) ++ [y])) in R4. rewrite El in R4, Nd', Nyl |- *. rewrite <- app_assoc in R4 |- *. cbn [app] in R4 |- *. apply links_app in R4 as (R4 & _). apply links_app. split.
    + apply (links_ext (N := N) (P := P)); auto.
      * rewrite removelast_app1. intros j J. assert (j <> y) by (intros ->; apply Nyl, in_or_app; auto). rewrite HN by auto. assert (j <> b) by (intros ->; apply NoDup_app_iff in Nd' as (_ & _ & Nd'); apply (Nd' b J); now left). apply Nat.eqb_neq in H0. now rewrite H0.
      * rewrite <- El. cbn [tl]. rewrite <- El in Nd', Nyl. intros j J. assert (j <> y) by (intros ->; apply Nyl; now right). rewrite HP by auto. apply NoDup_cons_iff in Nd' as (Nd' & _). assert (j <> z) by (intros ->; auto). apply Nat.eqb_neq in H0. now rewrite H0.
    + assert (b <> y) by (intros ->; apply Nyl, in_or_app; right; now left). assert (z <> y) by (intros ->; apply Nyl; rewrite <- El; now left). cbn [links]. rewrite HN, HP, !Nat.eqb_refl by auto. auto.
  - destruct (exists_last (l := x :: l1)) as (l3 & b & El); [discriminate|]. unfold ring in R |- *. cbn [app] in R |- *. rewrite <- app_assoc in R |- *. cbn [app] in R.
    rewrite app_comm_cons, El in R. rewrite (app_comm_cons l1 _ x), El in *. rewrite <- app_assoc in R |- *. cbn [app] in R |- *. apply links_app in R as (R1 & R2). cbn [links] in R2. destruct R2 as (R2 & R3 & R4). assert (p = b) by congruence. subst p.
    assert (Hz : exists z r, l2 ++ [x] = z :: r /\ n = z). { destruct l2 as [|z l2]; cbn [app] in R4 |- *; destruct R4 as (R4 & _); do 2 eexists; split; try reflexivity; congruence. } destruct Hz as (z & r & Ez & ->). rewrite Ez in *. apply links_app.
    assert (Hx : exists l4, l3 ++ [b] = x :: l4) by (rewrite <- El; eauto). destruct Hx as (l4 & Ex).
    assert (Nb : ~ In b l3). { rewrite <- app_assoc in Nd'. apply NoDup_remove_2 in Nd'. intros J. apply Nd', in_or_app. auto. }
    assert (Zx : forall j, In j (tl (l3 ++ [b])) -> j <> z). { intros j J ->. rewrite Ex in J, Nd'. cbn [tl] in J. destruct l2 as [|z' l2]; cbn [app] in Ez; injection Ez as Ez _; subst.
      - cbn [app] in Nd'. apply NoDup_cons_iff in Nd' as (Nd' & _). apply Nd', in_or_app. auto.
      - apply NoDup_app_iff in Nd' as (_ & _ & Nd'). apply (Nd' z); [now right|now left]. }
    assert (Zy : z <> y) by auto. assert (By : b <> y) by (intros ->; apply Nyl, in_or_app; left; apply in_or_app; right; now left).
    split; [|cbn [links]; split; [rewrite HN, Nat.eqb_refl by auto; auto|split; [rewrite HP, Nat.eqb_refl by auto; auto|]]].
    + apply (links_ext (N := N) (P := P)); auto.
      * rewrite removelast_app1. intros j J. assert (j <> y) by (intros ->; apply Nyl, in_or_app; left; apply in_or_app; auto). rewrite HN by auto. assert (Hj : j <> b) by (intros ->; auto). apply Nat.eqb_neq in Hj. now rewrite Hj.
      * intros j J. assert (j <> y). { intros ->. apply Nyl, in_or_app. left. rewrite Ex in J |- *. now right. } rewrite HP by auto. assert (Hj : j <> z) by auto. apply Nat.eqb_neq in Hj. now rewrite Hj.
    + assert (R5 : links N P (z :: r)) by exact (proj2 (proj2 R4)). clear R4. change (links N' P' (z :: r)). rewrite <- Ez in R5 |- *. apply (links_ext (N := N) (P := P)); auto.
      * rewrite removelast_app1. intros j J. assert (j <> y) by (intros ->; apply Nyl, in_or_app; auto). rewrite HN by auto. assert (Hj : j <> b). { intros ->. apply NoDup_app_iff in Nd' as (_ & _ & Nd'). apply (Nd' b); [apply in_or_app; right; now left|auto]. } apply Nat.eqb_neq in Hj. now rewrite Hj.
      * intros j J. assert (Ij : In j l2 \/ j = x). { destruct l2 as [|z' l2]; cbn [app tl] in J; [destruct J|]. apply in_app_or in J as [J|[<-|[]]]; [left; now right|now right]. }
        assert (j <> y). { intros ->. apply Nyl, in_or_app. destruct Ij as [Ij|Ij]; [auto|]. left. rewrite Ex, Ij. now left. } rewrite HP by auto. assert (Hj : j <> z).
        { intros ->. destruct l2 as [|z' l2]; [destruct J|]. cbn [app] in Ez. injection Ez as <- Er. cbn [app tl] in J. apply NoDup_app_iff in Nd' as (_ & N2 & N3). apply in_app_or in J as [J|[<-|[]]]; [apply NoDup_cons_iff in N2; tauto|]. apply (N3 x); [rewrite Ex; now left|now left]. }
        apply Nat.eqb_neq in Hj. now rewrite Hj.
Qed.
End Links.
Arguments links_ext {N P N' P' l} _ _ _.
Arguments ring_ext {N P N' P' l} _ _.
Arguments ring_push {N P N' P' l b y} _ _ _ _ _.
Arguments ring_pop {N P N' P' l1 y l2 n p} _ _ _ _ _ _ _.
Arguments ring_neighbours {N P l1 y l2} _ _.
Arguments ring_last {N P l b} _.
