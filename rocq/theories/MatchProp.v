(** C55: [Matching] finds maximum matchings. C56: [PSP::solve] is the best value of a
    selection; [selections] does not return one. *)
From Verif Require Import Base BaseLemmas ListExtra NthExtra FlowModel FlowProof FlowNet FlowDinic FlowProp MatchProof.
Set Implicit Arguments.
Open Scope Z_scope.

(** After [add_edge] for every pair of [ps] (parallel edges included), [flow()] is the size
    of a maximum matching and [matches()] lists one. *)
Theorem C55_matching : forall M n m ps, 0 < M -> Z.of_nat n <= M -> (forall a b, In (a, b) ps -> (a < n)%nat /\ (b < m)%nat) ->
  exists r g L, mt_flow M n m ps = Some (r, g) /\ mt_matches n m g = Some L /\ matching ps L /\ Z.of_nat (length L) = r /\
    forall L', matching ps L' -> (length L' <= length L)%nat.
Proof. intros M n m ps HM Hn HP. apply mt_ok; auto. Qed.

Example C55_ex : exists g, mt_flow (2 ^ 63 - 1) 3 3 [(0, 0); (1, 0); (1, 1); (0, 0); (2, 1); (0, 2)]%nat = Some (3, g) /\ mt_matches 3 3 g = Some [(0, 2); (1, 0); (2, 1)]%nat.
Proof. eexists. split; vm_compute; reflexivity. Qed.

Definition profits (ops : list psp_op) : Z := zsum (fun op => match op with Profit _ p => Z.max p 0 | Loss _ _ _ => 0 end) ops.

Section Psp.
Variables (M : Z) (n : nat).
Definition psp_edge (op : psp_op) : list edge :=
  match op with Profit a p => if 0 <? p then [(a, (n + 1)%nat, p)] else if p <? 0 then [(n, a, - p)] else [] | Loss a b l => [(a, b, l)] end.
Lemma profits_nonneg ops : 0 <= profits ops.
Proof. apply zsum_nonneg. intros [a p|a b l] _; lia. Qed.
Lemma psp_build ops : forall es g ps, built M (n + 2) es g -> Forall (psp_ok M n) ops -> 0 <= ps -> ps + profits ops <= M ->
  exists g', for_each ops (psp_add M n) (g, ps) = Some (g', ps + profits ops) /\ built M (n + 2) (es ++ flat_map psp_edge ops) g'.
Proof.
  induction ops as [|op ops IH]; intros es g ps B F Hp Hb; cbn [for_each flat_map].
  - exists g. rewrite app_nil_r. unfold profits, zsum. cbn. rewrite Z.add_0_r. auto.
  - inversion_clear F as [|? ? F1 F2]. unfold profits in *. rewrite zsum_cons in Hb |- *. pose proof (profits_nonneg ops) as Pn. unfold profits in Pn. rewrite app_assoc. destruct op as [a p|a b l]; cbn [psp_add psp_edge psp_ok] in *.
    + destruct (Z.ltb_spec 0 p) as [H|H].
      * rewrite ll_some by lia. cbn [obind]. destruct (add_ok B (a := a) (b := (n + 1)%nat) (c := p)) as (g' & E & B'); try lia. rewrite E. cbn [obind]. destruct (IH _ g' (ps + p) B' F2) as (g2 & E2 & B2); try lia. exists g2. split; [|auto]. rewrite E2. do 2 f_equal; lia.
      * cbn [obind]. destruct (Z.ltb_spec p 0) as [H'|H'].
        -- destruct (add_ok B (a := n) (b := a) (c := - p)) as (g' & E & B'); try lia. rewrite E. cbn [obind]. destruct (IH _ g' ps B' F2) as (g2 & E2 & B2); try lia. exists g2. split; [|auto]. rewrite E2. do 2 f_equal; lia.
        -- cbn [obind]. rewrite app_nil_r. destruct (IH _ g ps B F2) as (g2 & E2 & B2); try lia. exists g2. split; [|auto]. rewrite E2. do 2 f_equal; lia.
    + destruct (add_ok B (a := a) (b := b) (c := l)) as (g' & E & B'); try lia. rewrite E. cbn [obind]. destruct (IH _ g' ps B' F2) as (g2 & E2 & B2); try lia. exists g2. split; [|auto]. rewrite E2. do 2 f_equal; lia.
Qed.
Lemma psp_edges_ok ops : Forall (psp_ok M n) ops -> edges_ok M (n + 2) (flat_map psp_edge ops).
Proof.
  intros F a b c I. apply in_flat_map in I as (op & Io & I). rewrite Forall_forall in F. specialize (F op Io). destruct op as [a' p|a' b' l]; cbn [psp_edge psp_ok] in *.
  - destruct (Z.ltb_spec 0 p); [destruct I as [[= <- <- <-]|[]]; lia|]. destruct (Z.ltb_spec p 0); [destruct I as [[= <- <- <-]|[]]; lia|destruct I].
  - destruct I as [[= <- <- <-]|[]]. lia.
Qed.
Lemma psp_cut S ops : is_cut n (n + 1) S -> cut_cap (flat_map psp_edge ops) S = profits ops - psp_value ops (fun v => negb (S v)).
Proof.
  intros [K1 K2]. unfold cut_cap, profits, psp_value. rewrite zsum_flat, <- zsum_sub. apply zsum_ext. intros op _. unfold zsum. destruct op as [a p|a b l]; cbn [psp_edge].
  - destruct (Z.ltb_spec 0 p); [cbn; rewrite K2; destruct (S a); cbn; lia|]. destruct (Z.ltb_spec p 0); [cbn; rewrite K1; destruct (S a); cbn; lia|]. cbn. destruct (S a); cbn; lia.
  - cbn. destruct (S a), (S b); cbn; lia.
Qed.
Lemma psp_ext ops f g : Forall (psp_ok M n) ops -> (forall v, (v < n)%nat -> f v = g v) -> psp_value ops f = psp_value ops g.
Proof.
  intros F H. apply zsum_ext. intros op I. rewrite Forall_forall in F. specialize (F op I). destruct op; cbn [psp_ok] in F; rewrite !H by lia; auto.
Qed.
End Psp.

(** [solve()] returns the largest value of a selection. *)
Theorem C56_solve : forall M n ops, 0 < M -> Forall (psp_ok M n) ops -> profits ops <= M ->
  exists r g, psp_solve M n ops = Some (r, g) /\ (exists sel, psp_value ops sel = r) /\ forall sel, psp_value ops sel <= r.
Proof.
  intros M n ops HM F HP. destruct (psp_build (built_nil M (n + 2)) F (Z.le_refl 0) HP) as (g0 & E0 & B). cbn [app] in B. set (es := flat_map (psp_edge n) ops) in *. pose proof (psp_edges_ok F) as HE. fold es in HE.
  unfold psp_solve. rewrite E0. cbn [obind]. rewrite Z.add_0_l. pose proof (profits_nonneg ops) as Pn.
  assert (K0 : is_cut n (n + 1) (fun v => negb (v =? n + 1)%nat)) by (split; [apply negb_true_iff, Nat.eqb_neq; lia|now rewrite Nat.eqb_refl]).
  assert (C0 : cut_cap es (fun v => negb (v =? n + 1)%nat) = profits ops).
  { unfold es. rewrite psp_cut by auto. rewrite (psp_ext (M := M) (n := n) _ (fun _ => false) F) by (intros v Hv; rewrite negb_involutive; apply Nat.eqb_neq; lia).
    assert (psp_value ops (fun _ => false) = 0); [|lia]. apply zsum_0. intros [a p|a b l] _; reflexivity. }
  assert (St : n <> (n + 1)%nat) by lia. assert (Hs : (n < n + 2)%nat) by lia. assert (Ht : (n + 1 < n + 2)%nat) by lia. assert (HC : cut_cap es (fun v => negb (v =? n + 1)%nat) <= M) by lia.
  pose proof (dn_run HM HE B St Hs Ht (fup := M) ltac:(lia) K0 HC) as O.
  destruct (outcome_ok HE B St Hs Ht K0 HC O) as (r & g & E & Hr & (xs & Fl & _) & Mx). destruct Mx as (_ & S & K & Ec); [auto|intros x Hx; apply Z.eqb_eq in Hx; lia|].
  rewrite E. cbn [obind]. pose proof (weak_duality Fl K0) as W. rewrite ll_some by lia. cbn [obind]. exists (profits ops - r), g. split; [auto|]. split.
  - exists (fun v => negb (S v)). pose proof (psp_cut ops K). fold es in H. lia.
  - intros sel. set (S' := fun v => if (v =? n)%nat then true else if (v =? n + 1)%nat then false else negb (sel v)).
    assert (K' : is_cut n (n + 1) S') by (unfold S'; split; [now rewrite Nat.eqb_refl|]; destruct (Nat.eqb_spec (n + 1) n); [lia|]; now rewrite Nat.eqb_refl).
    pose proof (psp_cut ops K') as C. fold es in C. rewrite (psp_ext (M := M) (n := n) _ sel F) in C; [pose proof (weak_duality Fl K'); lia|].
    intros v Hv. unfold S'. destruct (Nat.eqb_spec v n); [lia|]. destruct (Nat.eqb_spec v (n + 1)); [lia|]. apply negb_involutive.
Qed.

(** With one project of profit 5, [solve()] is 5 and [selections()] does not select it. *)
Theorem C56_selections_refuted : exists M n ops g sel, Forall (psp_ok M n) ops /\ psp_solve M n ops = Some (5, g) /\ psp_selections n g = Some sel /\
  psp_value ops (fun v => nth v sel false) = 0.
Proof.
  exists (2 ^ 63 - 1), 1%nat, [Profit 0 5]. eexists _, _. split; [repeat constructor; vm_compute; discriminate|]. split; [vm_compute; reflexivity|]. split; vm_compute; reflexivity.
Qed.

Example C56_ex : let ops := [Profit 0 10; Profit 1 (-4); Profit 2 (-8); Profit 3 3; Loss 1 0 100; Loss 2 3 2] in
  exists g, psp_solve (2 ^ 63 - 1) 4 ops = Some (7, g) /\ psp_value ops (fun v => negb (v =? 2)%nat) = 7.
Proof. eexists. split; vm_compute; reflexivity. Qed.

Print Assumptions C55_matching.
Print Assumptions C56_solve.
Print Assumptions C56_selections_refuted.
