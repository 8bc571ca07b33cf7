(** Rooted trees and the adjacency lists of [Graph]: the link between [GraphModel] and the trees of
    [HldModel]; every rooted tree can be put in the order of the adjacency lists. *)
From Verif Require Import Base BaseLemmas ListExtra NthExtra.
From Verif Require GraphModel GraphProof.
From Verif Require Import HldModel HldTree HldSz HldFacts.
Set Implicit Arguments.

Definition both (es : list (nat * nat)) : list GraphModel.edge := map (fun '(a, b) => GraphModel.Both a b) es.
Lemma both_nbrs es u : map snd (filter (fun e => fst e =? u) (GraphModel.arcs (both es))) = nbrs es u.
Proof.
  induction es as [|[a b] es IH]; [reflexivity|]. unfold GraphModel.arcs, nbrs, both in *. cbn [map flat_map]. rewrite <- IH.
  cbn [filter app fst]. destruct (a =? u), (b =? u); cbn [map snd app fst]; reflexivity.
Qed.
Lemma both_arcs es a b : In (a, b) (GraphModel.arcs (both es)) <-> In (a, b) es \/ In (b, a) es.
Proof.
  unfold GraphModel.arcs, both. rewrite in_flat_map. split.
  - intros (e & He & H). apply in_map_iff in He as ([x y] & <- & He). destruct H as [H|[H|[]]]; injection H as <- <-; auto.
  - intros [H|H].
    + exists (GraphModel.Both a b). split; [apply in_map_iff; exists (a, b); auto|now left].
    + exists (GraphModel.Both b a). split; [apply in_map_iff; exists (b, a); auto|right; now left].
Qed.
(** The graph made by [add_edge] from the edges of a tree *)
Lemma tree_build n t es : tree_graph n t es -> exists G, GraphModel.build n (both es) = Some G /\
  GraphModel.gr_n G = n /\ length (GraphModel.gr_g G) = n /\ (forall v, nth v (GraphModel.gr_g G) [] = nbrs es v) /\ adj (GraphModel.gr_g G) None t.
Proof.
  intros TG. pose proof (tree_bound TG) as Bd. destruct (GraphProof.build_ok n (both es)) as (G & E & R).
  { intros a b I. apply both_arcs in I as [I|I]; apply Bd in I; tauto. }
  exists G. destruct R as (En & Lg & _ & Ad & _). split; auto. split; auto. split; auto.
  assert (N : forall v, nth v (GraphModel.gr_g G) [] = nbrs es v) by (intros v; rewrite <- both_nbrs; apply Ad).
  split; auto. apply (@tree_adj n t es (with_edge (hl_new n) (GraphModel.gr_g G)) TG Lg N).
Qed.

(** ** Trees in the order of the adjacency lists *)
Inductive oadj (E : list (list nat)) : option nat -> tree -> Prop :=
  oadj_node p v cs row : get E v = Some row -> filter (np p) row = map root cs -> Permutation row (opt p ++ map root cs) ->
    (forall c, In c cs -> oadj E (Some v) c) -> oadj E p (Node v cs).
Lemma np_self p x : np p x = false <-> p = Some x.
Proof.
  unfold np, oeq. destruct p as [q|]; [|split; discriminate]. rewrite negb_false_iff, Nat.eqb_eq. split; congruence.
Qed.
Lemma np_other p x : np p x = true <-> p <> Some x.
Proof. rewrite <- np_self. destruct (np p x); split; congruence. Qed.
Lemma filter_all {A} (f : A -> bool) l : (forall x, In x l -> f x = true) -> filter f l = l.
Proof. induction l as [|x l IH]; intros H; cbn; [auto|]. rewrite H by now left. f_equal. apply IH. intros; apply H; now right. Qed.
Lemma fverts_perm l r : Permutation l r -> Permutation (fverts l) (fverts r).
Proof. apply Permutation_flat_map. Qed.
Lemma fedges_perm v l r : Permutation l r -> Permutation (fedges v l) (fedges v r).
Proof. apply Permutation_flat_map. Qed.
Lemma equiv_refl t : equiv t t.
Proof. split; auto. Qed.
Lemma equiv_forest v cs cs' : Forall2 equiv cs cs' -> Permutation (fverts cs) (fverts cs') /\ Permutation (fedges v cs) (fedges v cs') /\ map root cs' = map root cs.
Proof.
  intros F. induction F as [|c c' cs cs' (E1 & E2 & E3) F (I1 & I2 & I3)]; [repeat split; constructor|]. unfold fverts, fedges in *. cbn [flat_map map]. rewrite E1. repeat split.
  - now apply Permutation_app.
  - cbn [app]. constructor. now apply Permutation_app.
  - now f_equal.
Qed.
Lemma equiv_node v cs cs' cs'' : Permutation cs cs' -> Forall2 equiv cs' cs'' -> equiv (Node v cs) (Node v cs'').
Proof.
  intros P F. destruct (equiv_forest v F) as (F1 & F2 & _). split; [auto|]. split.
  - cbn [verts]. constructor. fold (fverts cs) (fverts cs''). rewrite <- F1. now apply fverts_perm.
  - cbn [tedges]. fold (fedges v cs) (fedges v cs''). rewrite <- F2. now apply fedges_perm.
Qed.
Lemma row_children p row cs : (forall c q, In c cs -> p = Some q -> root c <> q) -> Permutation row (opt p ++ map root cs) -> Permutation (filter (np p) row) (map root cs).
Proof.
  intros H P. apply (Permutation_filter (np p)) in P. rewrite filter_app in P. rewrite (filter_all (np p) (map root cs)) in P.
  - destruct p as [q|]; cbn [opt filter] in P; [|auto]. rewrite (proj2 (np_self (Some q) q) eq_refl) in P. auto.
  - intros x I. apply in_map_iff in I as (c & <- & Ic). apply np_other. intros E. now apply (H c _ Ic E).
Qed.
Lemma order_tree E t : forall p, adj E p t -> NoDup (verts t) -> (forall q, p = Some q -> ~ In q (verts t)) -> exists t', equiv t t' /\ oadj E p t'.
Proof.
  induction t as [v cs IH] using tree_ind2. intros p A ND Hp. inversion A as [? ? ? row Er Pr Ac]; subst.
  assert (Pf : Permutation (filter (np p) row) (map root cs)).
  { apply row_children; auto. intros c q Ic Ep Eq. apply (Hp q Ep). right. rewrite <- Eq. now apply roots_in. }
  destruct (Permutation_map_inv _ _ Pf) as (cs' & E' & Pc).
  assert (Ex : exists cs'', Forall2 equiv cs' cs'' /\ forall c, In c cs'' -> oadj E (Some v) c).
  { assert (Hc : forall c, In c cs' -> exists c', equiv c c' /\ oadj E (Some v) c').
    { intros c Ic. apply (Permutation_in _ (Permutation_sym Pc)) in Ic. destruct (sub_nodup c ND Ic) as [N1 N2]. apply (IH c Ic); auto. intros q [= <-]. auto. }
    clear - Hc. induction cs' as [|c l IHl]; [exists []; split; [constructor|intros c []]|].
    destruct (Hc c) as (c' & E1 & O1); [now left|]. destruct IHl as (l' & F & O2); [intros; apply Hc; now right|]. exists (c' :: l'). split; [now constructor|]. intros x [<-|Ix]; auto. }
  destruct Ex as (cs'' & F & O). exists (Node v cs''). split; [now apply equiv_node with cs'|]. destruct (equiv_forest v F) as (_ & _ & E3). apply oadj_node with row; auto.
  - congruence.
  - rewrite E3. eapply perm_trans; [exact Pr|]. apply Permutation_app_head. now apply Permutation_map.
Qed.
Lemma equiv_graph n t t' es : equiv t t' -> tree_graph n t es -> tree_graph n t' es.
Proof. intros (E1 & E2 & E3) (P & es' & Pe & F). split; [now rewrite <- E2|]. exists es'. split; auto. now rewrite <- E3. Qed.
Lemma equiv_anc t t' x y : equiv t t' -> (anc t x y <-> anc t' x y).
Proof.
  intros (_ & _ & E). split; intros A; induction A as [|x p y A IH I]; try constructor; (eapply anc_step; [apply IH|]).
  - now apply (Permutation_in _ E).
  - now apply (Permutation_in _ (Permutation_sym E)).
Qed.
Lemma oadj_adj E t : forall p, oadj E p t -> adj E p t.
Proof. induction t as [v cs IH] using tree_ind2. intros p O. inversion O; subst. eapply adj_node; eauto. Qed.
