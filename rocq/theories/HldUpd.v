(** Proofs about [HldModel]: [update]. *)
From Verif Require Import Base BaseLemmas ListExtra NthExtra HldModel HldTree HldSz HldDec HldFacts HldBuilt HldPath HldQuery.
Set Implicit Arguments.

Section Upd.
Variables (n : nat) (t : tree) (h : hld).
Hypothesis B : built n t h.
Notation I := (gv (tin h)). Notation O := (gv (tout h)). Notation H := (gv (head h)). Notation D := (gv (depth h)).
Notation es := (tedges t).
Variables (A : Type) (U : nat -> nat -> A -> option A) (U' : nat -> nat -> A -> A).
Hypothesis HU : forall l r st, l <= r -> r <= n -> U l r st = Some (U' l r st).
Definition run (rs : list (nat * nat)) (st : A) : A := fold_left (fun st '(l, r) => U' l r st) rs st.
Definition cover (rs : list (nat * nat)) : list nat := flat_map (fun '(l, r) => seg h l r) rs.
Definition ranges_ok (rs : list (nat * nat)) : Prop := Forall (fun '(l, r) => l <= r <= n) rs.

Lemma run_snoc rs l r st : run (rs ++ [(l, r)]) st = U' l r (run rs st).
Proof. unfold run. rewrite fold_left_app. reflexivity. Qed.
Lemma cover_snoc rs l r : cover (rs ++ [(l, r)]) = cover rs ++ seg h l r.
Proof. unfold cover. rewrite flat_map_app. cbn. now rewrite app_nil_r. Qed.
Lemma upd_up_ok v q st : v < n -> get (par h) (H v) = Some (Some q) -> upd_up U h v st = Some (q, U' (I (H v)) (S (I v)) st).
Proof.
  intros Hv E. pose proof (head_le B Hv) as Hl. destruct (head_ok B Hv) as (Hh & _). unfold upd_up. rewrite (b_head B Hv). cbn [obind]. rewrite (b_in B Hh), (b_in B Hv). cbn [obind]. rewrite HU by lia. cbn [obind]. rewrite E. cbn [obind]. now rewrite Nat.add_1_r.
Qed.

Record upd_inv (u0 v0 : nat) (st0 : A) (u v : nat) (st : A) (rs : list (nat * nat)) (l m : list nat) : Prop := {
  i_c : climb n t u0 v0 u v l m;
  i_st : st = run rs st0;
  i_ok : ranges_ok rs;
  i_cov : Permutation (cover rs) (l ++ m);
  i_len : length rs + D u + D v = D u0 + D v0 }.
Lemma inv_sym u0 v0 st0 u v st rs l m : upd_inv u0 v0 st0 u v st rs l m -> upd_inv v0 u0 st0 v u st rs m l.
Proof. intros [I1 I2 I3 I4 I5]. split; [now apply climb_sym|auto|auto|rewrite I4; apply Permutation_app_comm|lia]. Qed.
Lemma inv_right u0 v0 st0 u v st rs l m : upd_inv u0 v0 st0 u v st rs l m -> D u < D v \/ (D v = D u /\ H v <> H u) ->
  exists q st' rs' m', upd_up U h v st = Some (q, st') /\ S (D q) = D v /\ upd_inv u0 v0 st0 u q st' rs' l m'.
Proof.
  intros [I1 I2 I3 I4 I5] Hd. destruct (climb_right B I1 Hd) as (q & E1 & E2 & E3). pose proof (c_v I1) as Hv. pose proof (head_le B Hv) as Hle. exists q, (U' (I (H v)) (S (I v)) st), (rs ++ [(I (H v), S (I v))]), (m ++ rev (piece h v)). split; [apply upd_up_ok; auto|]. split; [auto|]. split.
  - auto.
  - now rewrite run_snoc, I2.
  - apply Forall_app. split; [auto|]. constructor; [lia|constructor].
  - rewrite cover_snoc, I4, app_assoc. apply Permutation_app_head, Permutation_rev.
  - rewrite app_length. cbn [length]. lia.
Qed.
Lemma update_ok u0 v0 (inc : bool) st0 : u0 < n -> v0 < n -> exists l w m rs, is_path es u0 v0 (l ++ w :: m) /\ is_lca t u0 v0 w /\
  ranges_ok rs /\ length rs <= D u0 + D v0 + 1 /\ Permutation (cover rs) (l ++ (if inc then [w] else []) ++ m) /\ hl_update U h u0 v0 inc st0 = Some (run rs st0).
Proof.
  intros Hu Hv. unfold hl_update. rewrite (b_dep B Hu), (b_dep B Hv). cbn [obind].
  assert (X : forall u0 v0, u0 < n -> v0 < n -> D u0 <= D v0 -> exists l w m rs, up t u0 l w /\ up t v0 m w /\ is_lca t u0 v0 w /\ ranges_ok rs /\ length rs <= D u0 + D v0 + 1 /\ Permutation (cover rs) (l ++ (if inc then [w] else []) ++ m) /\
    (let* (v, st) := loop (S (hn h)) (fun '(v, st) =>
       let* du := rd (depth h) u0 in
       let* dv := rd (depth h) v in
       if du <? dv then let* s := upd_up U h v st in Some (inl s) else Some (inr (v, st))) (v0, st0) in
     let* (u, v, st) := loop (S (hn h)) (fun '(u, v, st) =>
       let* hu := rd (head h) u in
       let* hv := rd (head h) v in
       if hu =? hv then Some (inr (u, v, st))
       else
         let* (u, st) := upd_up U h u st in
         let* (v, st) := upd_up U h v st in
         Some (inl (u, v, st))) (u0, v, st) in
     let* iu := rd (tin h) u in
     let* iv := rd (tin h) v in
     let '(iu, iv) := if iv <? iu then (iv, iu) else (iu, iv) in
     U (if inc then iu else iu + 1) (iv + 1) st) = Some (run rs st0)).
  { clear u0 v0 Hu Hv. intros u0 v0 Hu Hv Hd. match goal with |- context [loop _ ?bd (v0, st0)] => set (body := bd) end.
    destruct (@loop_rule _ _ (fun '(v, st) => D u0 <= D v /\ exists rs m, upd_inv u0 v0 st0 u0 v st rs [] m) (fun '(v, st) => D v) (fun '(v, st) => D v = D u0 /\ exists rs m, upd_inv u0 v0 st0 u0 v st rs [] m) body) with (fuel := S (hn h)) (s := (v0, st0)) as ([v st] & E & Dv & rs & m & C).
    { intros [v st] (Dv & rs & m & C). pose proof (c_v (i_c C)) as Hx. unfold body. rewrite (b_dep B Hu), (b_dep B Hx). cbn [obind]. destruct (Nat.ltb_spec (D u0) (D v)); [|eexists; split; [reflexivity|]; cbn; split; [lia|eauto]].
      destruct (inv_right C) as (q & st' & rs' & m' & E1 & E2 & E3); [auto|]. rewrite E1. cbn [obind]. eexists. split; [reflexivity|]. cbn. split; [|lia]. split; [lia|eauto]. }
    { split; [auto|]. exists [], []. split; [now apply climb_start|auto|constructor|constructor|auto]. } { rewrite (b_n B). pose proof (dep_lt B Hv). lia. }
    rewrite E. cbn [obind]. clear E body. match goal with |- context [loop _ ?bd (u0, v, st)] => set (body := bd) end.
    destruct (@loop_rule _ _ (fun '(u, v, st) => D v = D u /\ exists rs l m, upd_inv u0 v0 st0 u v st rs l m) (fun '(u, v, st) => D v) (fun '(u, v, st) => H u = H v /\ exists rs l m, upd_inv u0 v0 st0 u v st rs l m) body) with (fuel := S (hn h)) (s := (u0, v, st)) as ([[x y] s1] & E & EH & rs1 & l1 & m1 & C1).
    { intros [[x y] s1] (Dx & rs1 & l1 & m1 & C1). pose proof (c_u (i_c C1)) as Hx. pose proof (c_v (i_c C1)) as Hy. unfold body. rewrite (b_head B Hx), (b_head B Hy). cbn [obind]. destruct (Nat.eqb_spec (H x) (H y)); [eexists; split; [reflexivity|]; cbn; split; eauto|].
      destruct (inv_right (inv_sym C1)) as (q & st' & rs' & m' & E1 & E2 & E3); [auto|]. apply inv_sym in E3. destruct (inv_right E3) as (q' & st'' & rs'' & m'' & F1 & F2 & F3); [left; lia|]. rewrite E1. cbn [obind]. rewrite F1. cbn [obind]. eexists. split; [reflexivity|]. cbn. split; [|lia]. split; [lia|eauto]. }
    { split; [auto|eauto]. } { rewrite (b_n B). pose proof (dep_lt B (c_v (i_c C))). lia. }
    rewrite E. cbn [obind]. clear E body C st rs m Dv v. destruct C1 as [C1 -> Ok Cov Len]. pose proof (c_u C1) as Hx. pose proof (c_v C1) as Hy. rewrite (b_in B Hx), (b_in B Hy). cbn [obind]. pose proof (i_lt B Hx). pose proof (i_lt B Hy).
    assert (Fin : forall x y, x < n -> y < n -> I x <= I y -> exists rs, U (if inc then I x else I x + 1) (I y + 1) (run rs1 st0) = Some (run rs st0) /\ ranges_ok rs /\ length rs <= D u0 + D v0 + 1 /\ Permutation (cover rs) ((l1 ++ m1) ++ (if inc then [x] else []) ++ seg h (S (I x)) (S (I y)))).
    { intros a b Ha Hb Hab. pose proof (i_lt B Hb). exists (rs1 ++ [(if inc then I a else I a + 1, I b + 1)]). rewrite run_snoc, cover_snoc, app_length. cbn [length]. split; [apply HU; destruct inc; lia|]. split; [apply Forall_app; split; [auto|]; constructor; [destruct inc; lia|constructor]|]. split; [lia|].
      apply Permutation_app; [auto|]. rewrite !Nat.add_1_r. destruct inc; [|reflexivity]. rewrite seg_cons by lia. rewrite (v_in B Ha). reflexivity. }
    destruct (Nat.ltb_spec (I y) (I x)).
    - destruct (climb_end B (climb_sym C1) (eq_sym EH)) as ((K1 & K2 & K3) & U1 & U2); [lia|]. destruct (Fin y x) as (rs & F1 & F2 & F3 & F4); auto; [lia|]. exists (l1 ++ rev (seg h (S (I y)) (S (I x)))), y, m1, rs. split; [auto|]. split; [auto|]. split; [split; [auto|]; split; auto|]. split; [auto|]. split; [auto|]. split; [|auto].
      rewrite F4, <- !app_assoc. apply Permutation_app_head. rewrite (Permutation_app_comm m1), <- (Permutation_rev (seg h _ _)), !app_assoc. apply Permutation_app_tail, Permutation_app_comm.
    - destruct (climb_end B C1 EH) as (K & U1 & U2); [lia|]. destruct (Fin x y) as (rs & F1 & F2 & F3 & F4); auto. exists l1, x, (m1 ++ rev (seg h (S (I x)) (S (I y)))), rs. split; [auto|]. split; [auto|]. split; [auto|]. split; [auto|]. split; [auto|]. split; [|auto].
      rewrite F4, <- !app_assoc. apply Permutation_app_head. rewrite <- (Permutation_rev (seg h _ _)), !app_assoc. apply Permutation_app_tail, Permutation_app_comm. }
  destruct (Nat.ltb_spec (D v0) (D u0)).
  - destruct (X v0 u0) as (l & w & m & rs & U1 & U2 & (K1 & K2 & K3) & F1 & F2 & F3 & F4); auto; [lia|]. assert (K : is_lca t u0 v0 w) by (split; [auto|]; split; auto). exists m, w, (rev l), rs. split; [now apply (path_of B Hu Hv)|]. split; [auto|]. split; [auto|]. split; [lia|]. split; [|exact F4].
    rewrite F3, <- (Permutation_rev l), Permutation_app_comm, <- app_assoc. rewrite Permutation_app_comm, <- app_assoc. apply Permutation_app_head, Permutation_app_comm.
  - destruct (X u0 v0) as (l & w & m & rs & U1 & U2 & K & F1 & F2 & F3 & F4); auto. exists l, w, (rev m), rs. split; [now apply (path_of B Hu Hv)|]. split; [auto|]. split; [auto|]. split; [auto|]. split; [|exact F4]. now rewrite F3, <- (Permutation_rev m).
Qed.
End Upd.
