(** The adjacency lists of a [Network] made by [add_edge]. *)
From Verif Require Import Base BaseLemmas ListExtra NthExtra SearchModel.
From Verif Require NetModel GraphModel.
From Verif Require Import HldModel HldTree TreeGraph RerootModel.
Set Implicit Arguments.

Definition wboth (es : list (nat * nat * Z)) : list NetModel.nedge := map (fun '(a, b, c) => NetModel.NBoth a b c) es.
Definition ends (es : list (nat * nat * Z)) : list (nat * nat) := map fst es.
Definition int_weights (es : list (nat * nat * Z)) : Prop := forall a b c, In (a, b, c) es -> (- 2 ^ 31 <= c < 2 ^ 31)%Z.
Definition wnbrs (es : list (nat * nat * Z)) (v : nat) : list (nat * Z) :=
  flat_map (fun '(a, b, c) => (if a =? v then [(b, c)] else []) ++ (if b =? v then [(a, c)] else [])) es.
Lemma wnbrs_fst es v : map fst (wnbrs es v) = nbrs (ends es) v.
Proof.
  induction es as [|[[a b] c] es IH]; [reflexivity|]. unfold wnbrs, nbrs, ends in *. cbn [flat_map map fst]. rewrite <- IH, !map_app.
  destruct (a =? v), (b =? v); reflexivity.
Qed.
Lemma wnbrs_in es v t c : In (t, c) (wnbrs es v) -> In (v, t, c) es \/ In (t, v, c) es.
Proof.
  intros I. apply in_flat_map in I as ([[a b] x] & Ie & I). apply in_app_or in I as [I|I].
  - destruct (Nat.eqb_spec a v) as [->|]; [|destruct I]. destruct I as [[= -> ->]|[]]. auto.
  - destruct (Nat.eqb_spec b v) as [->|]; [|destruct I]. destruct I as [[= -> ->]|[]]. auto.
Qed.
Lemma to_int_fit c : (- 2 ^ 31 <= c < 2 ^ 31)%Z -> NetModel.to_int c = c.
Proof. intros H. unfold NetModel.to_int. rewrite Z.mod_small by lia. lia. Qed.
Lemma wbuild_ok n es : (forall a b, In (a, b) (ends es) -> a < n /\ b < n) -> int_weights es ->
  exists G, NetModel.nw_build n (wboth es) = Some G /\ NetModel.nw_n G = n /\ length (NetModel.nw_g G) = n /\ forall v, nth v (NetModel.nw_g G) [] = wnbrs es v.
Proof.
  intros Bd Iw. unfold NetModel.nw_build, wboth.
  assert (Dir : forall G a b c, NetModel.nw_n G = n -> length (NetModel.nw_g G) = n -> length (NetModel.nw_in G) = n -> a < n -> b < n -> (- 2 ^ 31 <= c < 2 ^ 31)%Z ->
    exists G', NetModel.nw_add_dir G a b c = Some G' /\ NetModel.nw_n G' = n /\ length (NetModel.nw_g G') = n /\ length (NetModel.nw_in G') = n /\
      forall v, nth v (NetModel.nw_g G') [] = nth v (NetModel.nw_g G) [] ++ if a =? v then [(b, c)] else []).
  { intros G a b c En L1 L2 Ha Hb Hc. unfold NetModel.nw_add_dir. rewrite (get_nth _ a []) by lia. cbn [obind]. rewrite set_some by lia. cbn [obind].
    destruct (@get_lt _ (NetModel.nw_in G) b ltac:(lia)) as (k & Ek). rewrite Ek. cbn [obind]. rewrite set_some by lia. cbn [obind]. eexists. split; [reflexivity|]. cbn [NetModel.nw_n NetModel.nw_g NetModel.nw_in]. rewrite !lset_length.
    split; [auto|]. split; [auto|]. split; [auto|]. intros v. rewrite (to_int_fit Hc), nth_lset, L1. replace (a <? n) with true by (symmetry; now apply Nat.ltb_lt). rewrite andb_true_r.
    destruct (Nat.eqb_spec a v) as [->|N]; [auto|now rewrite app_nil_r]. }
  assert (H : forall l G, (forall a b c, In (a, b, c) l -> a < n /\ b < n /\ (- 2 ^ 31 <= c < 2 ^ 31)%Z) -> NetModel.nw_n G = n -> length (NetModel.nw_g G) = n -> length (NetModel.nw_in G) = n ->
    exists G', for_each (map (fun '(a, b, c) => NetModel.NBoth a b c) l) (fun e G => match e with NetModel.NDir a b c => NetModel.nw_add_dir G a b c | NetModel.NBoth a b c => NetModel.nw_add G a b c end) G = Some G' /\
      NetModel.nw_n G' = n /\ length (NetModel.nw_g G') = n /\ forall v, nth v (NetModel.nw_g G') [] = nth v (NetModel.nw_g G) [] ++ wnbrs l v).
  { induction l as [|[[a b] c] l IH]; intros G Ok En L1 L2; cbn [map for_each].
    - exists G. split; [auto|]. split; [auto|]. split; [auto|]. intros v. now rewrite app_nil_r.
    - destruct (Ok a b c) as (Ha & Hb & Hc); [now left|]. unfold NetModel.nw_add at 1.
      destruct (Dir G a b c En L1 L2 Ha Hb Hc) as (G1 & E1 & N1 & L11 & L12 & R1). rewrite E1. cbn [obind].
      destruct (Dir G1 b a c N1 L11 L12 Hb Ha Hc) as (G2 & E2 & N2 & L21 & L22 & R2). rewrite E2. cbn [obind].
      destruct (IH G2) as (G3 & E3 & N3 & L3 & R3); auto; [intros; apply Ok; now right|]. exists G3. split; [exact E3|]. split; [auto|]. split; [auto|].
      intros v. rewrite R3, R2, R1. unfold wnbrs. cbn [flat_map]. now rewrite <- !app_assoc. }
  destruct (H es (NetModel.nw_new n)) as (G & E & N & L & R); auto; try apply repeat_length.
  - intros a b c I. destruct (Bd a b); [apply in_map_iff; exists (a, b, c); auto|]. split; [auto|]. split; [auto|]. now apply (Iw a b).
  - exists G. split; [exact E|]. split; [auto|]. split; [auto|]. intros v. rewrite R. cbn [NetModel.nw_new NetModel.nw_g]. now rewrite nth_repeat.
Qed.
