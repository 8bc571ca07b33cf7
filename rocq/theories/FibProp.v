(** C42: FibonacciHeap. *)
From Coq Require Import Sorting.Sorted.
From Verif Require Import FibModel FibLink FibStr FibHeap FibOps BaseLemmas ListExtra.
Set Implicit Arguments.

Section Spec.
Variables (T : Type) (cond : T -> T -> bool) (d0 : T).
(** The states of a heap made for the keys [0, n), with the map it stands for: push and update
    keep the better of the two priorities of a live key, pop removes the key that top shows, erase
    removes a live key. Erasing the key on top is left out: see [C42_erase_top_refuted]. *)
Inductive reach (n : nat) : fh T -> pmap T -> Prop :=
| r_new h : fh_new d0 n = Some h -> reach n h (fun _ => None)
| r_push h m k v h' : reach n h m -> k < n -> fh_push cond h k v = Some h' -> reach n h' (p_push cond m k v)
| r_update h m k v h' : reach n h m -> k < n -> fh_update cond h k v = Some h' -> reach n h' (p_push cond m k v)
| r_pop h m k v h' : reach n h m -> fh_top h = Some (k, v) -> fh_pop cond h = Some h' -> reach n h' (p_set m k None)
| r_erase h m k t h' : reach n h m -> m k <> None -> fh_top h = Some t -> fst t <> k -> fh_erase cond h k = Some h' -> reach n h' (p_set m k None).
(** top and pop, [c] times *)
Fixpoint drain (c : nat) (h : fh T) : option (list (nat * T)) :=
  match c with O => Some [] | S c => let* t := fh_top h in let* h := fh_pop cond h in let* r := drain c h in Some (t :: r) end.

Hypothesis WO : weak_order cond.
Lemma reach_inv n h m : reach n h m -> inv cond d0 n h m.
Proof.
  intros R. induction R as [h E|h m k v h' R IH Lk E|h m k v h' R IH Lk E|h m k v h' R IH Et E|h m k t h' R IH Em Et Nt E].
  - destruct (new_inv cond d0 n) as (h1 & E1 & I). congruence.
  - destruct (push_inv WO v IH Lk) as (h1 & E1 & I). congruence.
  - destruct (update_inv WO v IH Lk) as (h1 & E1 & I). congruence.
  - pose proof (inv_top IH) as H. rewrite Et in H. destruct H as (Er & _). destruct (pop_inv WO IH Er) as (h1 & E1 & I). congruence.
  - pose proof (inv_top IH) as H. rewrite Et in H. destruct t as [k' v']. destruct H as (Er & _). cbn in Nt. destruct (@erase_inv T cond d0 n h m k IH Em) as (h1 & E1 & I); [congruence|]. congruence.
Qed.
(** The constructor, push, update, pop of a nonempty heap and erase of a key that is not on top never fail (no assertion fails, no null pointer is followed, no table index is out of range). *)
Theorem C42_new n : exists h, fh_new d0 n = Some h /\ reach n h (fun _ => None).
Proof. destruct (new_inv cond d0 n) as (h & E & _). exists h. split; [auto|]. now constructor. Qed.
Theorem C42_push n h m k v : reach n h m -> k < n -> exists h', fh_push cond h k v = Some h' /\ reach n h' (p_push cond m k v).
Proof. intros R Lk. destruct (push_inv WO v (reach_inv R) Lk) as (h' & E & _). exists h'. split; [auto|]. eapply r_push; eauto. Qed.
Theorem C42_update n h m k v : reach n h m -> k < n -> exists h', fh_update cond h k v = Some h' /\ reach n h' (p_push cond m k v).
Proof. intros R Lk. destruct (update_inv WO v (reach_inv R) Lk) as (h' & E & _). exists h'. split; [auto|]. eapply r_update; eauto. Qed.
(** top shows a best live key, and fails only when no key is live *)
Theorem C42_top n h m : reach n h m -> match fh_top h with Some (k, v) => is_best cond m k v | None => forall k, m k = None end.
Proof. intros R. pose proof (inv_top (reach_inv R)) as H. destruct (fh_top h) as [(k, v)|]; tauto. Qed.
Theorem C42_pop n h m j : reach n h m -> m j <> None -> exists k v h', fh_top h = Some (k, v) /\ is_best cond m k v /\ fh_pop cond h = Some h' /\ reach n h' (p_set m k None).
Proof.
  intros R Ej. pose proof (inv_top (reach_inv R)) as H. destruct (fh_top h) as [(k, v)|] eqn:Et; [|rewrite H in Ej; congruence]. destruct H as (Er & B). destruct (pop_inv WO (reach_inv R) Er) as (h' & E & _). exists k, v, h'. repeat (split; [auto; fail|]). eapply r_pop; eauto.
Qed.
Theorem C42_erase n h m k : reach n h m -> m k <> None -> (forall v, fh_top h <> Some (k, v)) -> exists h', fh_erase cond h k = Some h' /\ reach n h' (p_set m k None).
Proof.
  intros R Ek Nt. pose proof (inv_top (reach_inv R)) as H. destruct (fh_top h) as [(k', v)|] eqn:Et; [|rewrite H in Ek; congruence]. destruct H as (Er & _). assert (Nk : k' <> k) by (intros ->; exact (Nt v eq_refl)). destruct (@erase_inv T cond d0 n h m k (reach_inv R) Ek) as (h' & E & _); [congruence|]. exists h'. split; [auto|]. eapply r_erase; eauto.
Qed.
Theorem C42_get n h m k : reach n h m -> k < n -> fh_get h k = option_map (pair k) (m k).
Proof. intros R. apply (inv_get (reach_inv R)). Qed.
Theorem C42_size n h m : reach n h m -> count_is m (fh_size h).
Proof. intros R. exact (i_sz (reach_inv R)). Qed.
(** popping everything gives the live pairs, best first *)
Theorem C42_drain n h m : reach n h m -> exists l, drain (fh_size h) h = Some l /\ length l = fh_size h /\ (forall k v, In (k, v) l <-> m k = Some v) /\ StronglySorted (fun a b => cond (snd a) (snd b) = false) l.
Proof.
  intros R. assert (C := C42_size R). assert (G : forall c h m, reach n h m -> count_is m c -> exists l, drain c h = Some l /\ length l = c /\ (forall k v, In (k, v) l <-> m k = Some v) /\ StronglySorted (fun a b => cond (snd a) (snd b) = false) l).
  { clear h m R C. induction c as [|c IH]; intros h m R C.
    - exists []. split; [reflexivity|]. split; [reflexivity|]. split; [|constructor]. destruct C as (ks & _ & L & H). destruct ks; [|discriminate]. intros k v. split; [intros []|]. intros E. apply (H k). congruence.
    - assert (Hj : exists j, m j <> None). { destruct C as (ks & _ & L & H). destruct ks as [|j ks]; [discriminate|]. exists j. apply H. now left. } destruct Hj as (j & Ej). destruct (C42_pop j R Ej) as (k & v & h' & Et & (Ek & B) & Ep & R'). cbn [drain]. rewrite Et, Ep. cbn [obind].
      destruct (@count_del T m (S c) k C) as (_ & C'); [congruence|]. replace (S c - 1) with c in C' by lia. destruct (IH h' _ R' C') as (l & El & Ll & Hl & Sl). rewrite El. cbn [obind]. exists ((k, v) :: l). split; [auto|]. split; [cbn; lia|]. split.
      + intros k' v'. cbn. rewrite Hl. unfold p_set. destruct (Nat.eqb_spec k' k) as [->|N]; [rewrite Ek; split; [intros [E|]; [congruence|discriminate]|intros E; left; congruence]|]. split; [intros [E|]; [congruence|auto]|auto].
      + constructor; [auto|]. apply Forall_forall. intros (k', v') I. apply Hl in I. unfold p_set in I. cbn. destruct (k' =? k); [discriminate|]. eauto. }
  apply G; auto.
Qed.
End Spec.

(** Erasing the key on top leaves the heap without a readable top although a key is live. *)
Theorem C42_erase_top_refuted : exists h h', (let* h := fh_new 0 2 in let* h := fh_push Nat.ltb h 0 5 in fh_push Nat.ltb h 1 3) = Some h /\ fh_erase Nat.ltb h 0 = Some h' /\
  fh_top h = Some (0, 5) /\ fh_get h' 1 = Some (1, 3) /\ fh_size h' = 1 /\ fh_top h' = None.
Proof.
  destruct (let* h := fh_new 0 2 in let* h := fh_push Nat.ltb h 0 5 in fh_push Nat.ltb h 1 3) as [h|] eqn:E; [|vm_compute in E; discriminate]. exists h. vm_compute in E. injection E as <-.
  destruct (fh_erase Nat.ltb (FH _ _ _ _) 0) as [h'|] eqn:E; [|vm_compute in E; discriminate]. exists h'. vm_compute in E. injection E as <-. vm_compute. repeat split.
Qed.

(** Examples. *)
Lemma ltb_weak : weak_order Nat.ltb.
Proof. split; intros *; rewrite ?Nat.ltb_lt, ?Nat.ltb_ge; lia. Qed.
(** push 4 raises a priority, the second push of 2 is worse and is ignored; the pop makes trees, so the later raise cuts *)
Example C42_ex_drain : (let* h := fh_new 0 8 in
  let* h := fh_push Nat.ltb h 0 5 in let* h := fh_push Nat.ltb h 1 9 in let* h := fh_push Nat.ltb h 2 4 in let* h := fh_push Nat.ltb h 3 7 in let* h := fh_push Nat.ltb h 4 1 in let* h := fh_push Nat.ltb h 5 2 in
  let* h := fh_pop Nat.ltb h in let* h := fh_push Nat.ltb h 4 6 in let* h := fh_update Nat.ltb h 2 3 in let* h := fh_erase Nat.ltb h 5 in drain Nat.ltb 4 h) = Some [(3, 7); (4, 6); (0, 5); (2, 4)].
Proof. vm_compute. reflexivity. Qed.
(** cascading cuts: three raises take two children and then a marked node off a tree of 8 *)
Example C42_ex_cascade : (let* h := fh_new 0 12 in
  let* h := fold_left (fun h k => let* h := h in fh_push Nat.ltb h k (20 - k)) (seq 0 9) (Some h) in
  let* h := fh_pop Nat.ltb h in
  let* h := fh_push Nat.ltb h 8 30 in let* h := fh_push Nat.ltb h 7 31 in let* h := fh_push Nat.ltb h 6 32 in let* h := fh_push Nat.ltb h 5 33 in let* h := fh_push Nat.ltb h 4 34 in drain Nat.ltb 8 h) =
  Some [(4, 34); (5, 33); (6, 32); (7, 31); (8, 30); (1, 19); (2, 18); (3, 17)].
Proof. vm_compute. reflexivity. Qed.

Print Assumptions C42_new.
Print Assumptions C42_push.
Print Assumptions C42_update.
Print Assumptions C42_top.
Print Assumptions C42_pop.
Print Assumptions C42_erase.
Print Assumptions C42_get.
Print Assumptions C42_size.
Print Assumptions C42_drain.
Print Assumptions C42_erase_top_refuted.
