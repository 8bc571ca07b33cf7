(** C45: Ford-Fulkerson and Dinic compute maximum flows; limits are not respected. *)
From Verif Require Import Base BaseLemmas ListExtra NthExtra FlowModel FlowProof FlowNet FlowDinic.
Set Implicit Arguments.
Open Scope Z_scope.

Lemma loop_ext {A R} (b1 b2 : A -> option (A + R)) : (forall s, b1 s = b2 s) -> forall k s, loop k b1 s = loop k b2 s.
Proof. intros H. induction k as [|k IH]; intros s; cbn [loop]; [auto|]. rewrite H. destruct (b2 s) as [[s'|r]|]; auto. Qed.
Lemma get_false n v : get (repeat false n) v <> Some true.
Proof. intros E. apply get_In, repeat_spec in E. discriminate. Qed.

Lemma unv_le vis : (unv vis <= length vis)%nat.
Proof. unfold unv. induction vis as [|[|] vis IH]; cbn; lia. Qed.

Section Run.
Variables (M : Z) (n : nat) (es : list edge) (g0 : net) (s t : nat) (fup : Z) (S0 : nat -> bool).
Hypothesis HM : 0 < M.
Hypothesis HE : edges_ok M n es.
Hypothesis B : built M n es g0.
Hypothesis St : s <> t.
Hypothesis Hs : (s < n)%nat.
Hypothesis Ht : (t < n)%nat.
Hypothesis Hf : 0 <= fup <= M.
Hypothesis K0 : is_cut s t S0.
Hypothesis HC : cut_cap es S0 <= M.

Lemma ff_run : outcome M es g0 s t fup (fun x => x <=? 0) (ff_flow M g0 s t fup).
Proof.
  unfold ff_flow. set (step := fun g => let* (f, _, g') := ff_dfs M (S (length g)) t s M (repeat false (length g)) g in Some (f, g')).
  erewrite loop_ext; [apply (@flow_loop M n es g0 s t HE B St Hs Ht step (fun x => x <=? 0) S0 fup HM Hf K0 HC)|].
  - intros g r T. unfold step. assert (Lg : length g = n) by (rewrite (sm_len (st_same T)); apply (bt_len B)).
    destruct (@ff_dfs_ok M t (S (length g)) s M (repeat false (length g)) g (st_ok T)) as (f & vis & g' & E & Hf0 & Mv & Lv & _ & Z); auto.
    + apply repeat_length.
    + lia.
    + apply get_repeat. lia.
    + pose proof (unv_le (repeat false (length g))) as U. rewrite repeat_length in U. lia.
    + rewrite E. cbn [obind]. exists f, g'. split; [auto|]. split; [lia|]. split; [auto|]. intros F0. destruct (Z F0) as (-> & Zt & Zs & Zc). set (S := fun v => match get vis v with Some true => true | _ => false end). exists S.
      assert (K : is_cut s t S) by (split; unfold S; [now rewrite Zs|now rewrite Zt]). split; [auto|]. apply (state_cut HE B St Hs Ht T K). intros u i e Su Ee Ce. unfold S in *. destruct (get vis u) as [[|]|] eqn:Eu; try discriminate.
      rewrite (Zc u Eu) with (i := i); auto. apply get_repeat. apply get_some_lt in Eu. rewrite Lv, repeat_length in Eu. auto.
  - intros [[flow fu] g]. destruct (fu <=? 0); [auto|]. unfold step. destruct (ff_dfs M (S (length g)) t s M (repeat false (length g)) g) as [[[f vis] g']|]; cbn [obind]; auto.
Qed.

Lemma dn_run : outcome M es g0 s t fup (fun x => x =? 0) (dn_flow M g0 s t fup).
Proof.
  unfold dn_flow. set (step := fun g => let* dist := dn_bfs g s t in let* (f, _, g') := dn_dfs M (S (dist_max dist)) dist t s M (repeat 0%nat (length g)) g in Some (f, g')).
  erewrite loop_ext; [apply (@flow_loop M n es g0 s t HE B St Hs Ht step (fun x => x =? 0) S0 fup HM Hf K0 HC)|].
  - intros g r T. unfold step. assert (Lg : length g = n) by (rewrite (sm_len (st_same T)); apply (bt_len B)). pose proof (st_ok T) as O.
    destruct (@bfs_ok M g s t O) as (dist & Ed & Ld & Ds & Dp & Dc); [lia|auto|]. rewrite Ed. cbn [obind].
    assert (Z0 : forall v k, get (repeat 0%nat (length g)) v = Some k -> k = 0%nat) by (intros v k E; now apply get_In, repeat_spec in E).
    destruct (@dfs_ok M dist t (S (dist_max dist)) s M (repeat 0%nat (length g)) g 0 O Ld) as (f & nxt & g' & E & Hf0 & Mv & Ln & _ & _ & _ & Z); auto; [apply repeat_length|intros v k Ek; rewrite (Z0 v k Ek); lia|lia|].
    rewrite E. cbn [obind]. exists f, g'. split; [auto|]. split; [lia|]. split; [auto|]. intros F0. destruct (Z F0) as (-> & _ & Zx). destruct Zx as (X1 & X2 & _); [intros v i e k Ek Hi; rewrite (Z0 v k Ek) in Hi; lia|].
    assert (FULL : forall x v, dv dist v = Some x -> v <> t /\ get nxt v = Some (length (nth v g []))).
    { induction x as [|x IH]; intros v Ev; (destruct (Dp v _ Ev) as [->|(u & i & e & Ee & <- & Ce & Nu & Eu & Hx)]; [auto|]); [lia|]. replace (S x - 1)%nat with x in Eu by lia. destruct (IH u Eu) as [_ Fu]. apply (X1 u i e _ Fu); [now apply get2_lt in Ee|auto|]. split; [auto|]. exists x. auto. }
    set (S := fun v => match dv dist v with Some _ => true | None => false end). exists S.
    assert (K : is_cut s t S) by (split; unfold S; [now rewrite Ds|]; destruct (dv dist t) as [x|] eqn:Et; [destruct (FULL x t Et); congruence|auto]). split; [auto|]. apply (state_cut HE B St Hs Ht T K). intros u i e Su Ee Ce. unfold S in *. destruct (dv dist u) as [x|] eqn:Eu; [|discriminate].
    destruct (Dc u i e x) as (y & Ey & _); auto; [apply (FULL x u Eu)|]. now rewrite Ey.
  - intros [[flow fu] g]. destruct (fu =? 0); [auto|]. unfold step. destruct (dn_bfs g s t) as [dist|]; cbn [obind]; auto. destruct (dn_dfs M (S (dist_max dist)) dist t s M (repeat 0%nat (length g)) g) as [[[f nx] g']|]; cbn [obind]; auto.
Qed.

Lemma outcome_ok stop res : outcome M es g0 s t fup stop res -> exists r g, res = Some (r, g) /\ 0 <= r /\ (exists xs, is_flow es s t xs r /\ shows g es xs) /\
  (stop (fup - r) = false \/ fup = M -> (forall x, stop x = true -> x <= 0) -> max_flow es s t r /\ exists S, is_cut s t S /\ cut_cap es S = r).
Proof.
  intros (r & g & E & Hr & T & D). exists r, g. split; [auto|]. split; [auto|]. pose proof (state_flow HE B St Hs Ht T) as F. split; [exists (flow_of es g); split; [auto|apply (state_shows HE B St Hs Ht T)]|].
  intros C Hstop. assert (X : exists S, is_cut s t S /\ cut_cap es S = r).
  { destruct D as [D|D]; [|auto]. destruct C as [C|C]; [congruence|]. exists S0. split; [auto|]. apply Hstop in D. pose proof (weak_duality F K0). lia. }
  split; [|auto]. destruct X as (S & K & Ec). apply (cut_max F K). lia.
Qed.
End Run.

(** If some cut separating [s] from [t] fits in a [long long], [flow(s,t,fup)] of
    [FordFulkerson] terminates; the returned value and the residual network describe a
    flow. The flow is maximum, with a minimum cut of the same size, if the result is below
    the limit or if there is no limit. *)
Theorem C45_ford_fulkerson : forall M n es s t fup S0,
  0 < M -> edges_ok M n es -> (s < n)%nat -> (t < n)%nat -> s <> t -> 0 <= fup <= M -> is_cut s t S0 -> cut_cap es S0 <= M ->
  exists g0 r g, fl_build n es = Some g0 /\ ff_flow M g0 s t fup = Some (r, g) /\ 0 <= r /\
    (exists xs, is_flow es s t xs r /\ shows g es xs) /\
    (r < fup \/ fup = M -> max_flow es s t r /\ exists S, is_cut s t S /\ cut_cap es S = r).
Proof.
  intros M n es s t fup S0 HM HE Hs Ht St Hf K0 HC. destruct (build_ok HE) as (g0 & E0 & B). destruct (outcome_ok HE B St Hs Ht K0 HC (ff_run HM HE B St Hs Ht Hf K0 HC)) as (r & g & E & Hr & F & Mx). exists g0, r, g. split; [auto|]. split; [auto|]. split; [auto|]. split; [auto|].
  intros C. apply Mx; [|intros x H; apply Z.leb_le in H; auto]. destruct C as [C|C]; [left; apply Z.leb_gt; lia|auto].
Qed.
(** The same for [Dinic], which stops early only when the result is exactly the limit. *)
Theorem C45_dinic : forall M n es s t fup S0,
  0 < M -> edges_ok M n es -> (s < n)%nat -> (t < n)%nat -> s <> t -> 0 <= fup <= M -> is_cut s t S0 -> cut_cap es S0 <= M ->
  exists g0 r g, fl_build n es = Some g0 /\ dn_flow M g0 s t fup = Some (r, g) /\ 0 <= r /\
    (exists xs, is_flow es s t xs r /\ shows g es xs) /\
    (r <> fup \/ fup = M -> max_flow es s t r /\ exists S, is_cut s t S /\ cut_cap es S = r).
Proof.
  intros M n es s t fup S0 HM HE Hs Ht St Hf K0 HC. destruct (build_ok HE) as (g0 & E0 & B). destruct (outcome_ok HE B St Hs Ht K0 HC (dn_run HM HE B St Hs Ht Hf K0 HC)) as (r & g & E & Hr & F & Mx). exists g0, r, g. split; [auto|]. split; [auto|]. split; [auto|]. split; [auto|].
  intros C. apply Mx; [|intros x H; apply Z.eqb_eq in H; lia]. destruct C as [C|C]; [left; apply Z.eqb_neq; lia|auto].
Qed.
(** No flow is larger than a cut. *)
Theorem C45_weak_duality : forall es s t xs r S, is_flow es s t xs r -> is_cut s t S -> r <= cut_cap es S.
Proof. intros es s t xs r S. apply weak_duality. Qed.

(** [flow(s, t, 1)] on a single edge of capacity 5 pushes 5. *)
Theorem C45_limit_refuted : exists M n es s t fup g0 g1 g2, 0 < fup /\ fup < M /\ edges_ok M n es /\ fl_build n es = Some g0 /\
  ff_flow M g0 s t fup = Some (5, g1) /\ dn_flow M g0 s t fup = Some (5, g2) /\ fup < 5.
Proof.
  exists (2 ^ 63 - 1), 2%nat, [(0%nat, 1%nat, 5)], 0%nat, 1%nat, 1. eexists _, _, _. split; [lia|]. split; [reflexivity|]. split; [intros a b c [[= <- <- <-]|[]]; lia|]. split; [vm_compute; reflexivity|]. split; [vm_compute; reflexivity|]. split; [vm_compute; reflexivity|reflexivity].
Qed.

(** The network of Ford and Fulkerson's book with an augmentation through a reverse arc *)
Example C45_ex : let es := [(0, 1, 3); (0, 2, 2); (1, 2, 5); (1, 3, 2); (2, 3, 3); (3, 3, 7)]%nat in
  let es := map (fun '(a, b, c) => (a, b, Z.of_nat c)) es in
  exists g0 g1 g2, fl_build 4 es = Some g0 /\ ff_flow 1000 g0 0 3 1000 = Some (5, g1) /\ dn_flow 1000 g0 0 3 1000 = Some (5, g2) /\ is_cut 0 3 (fun v => v =? 0)%nat /\ cut_cap es (fun v => v =? 0)%nat = 5.
Proof. eexists _, _, _. split; [vm_compute; reflexivity|]. split; [vm_compute; reflexivity|]. split; [vm_compute; reflexivity|]. split; [split; reflexivity|reflexivity]. Qed.

Print Assumptions C45_ford_fulkerson.
Print Assumptions C45_dinic.
Print Assumptions C45_weak_duality.
Print Assumptions C45_limit_refuted.
