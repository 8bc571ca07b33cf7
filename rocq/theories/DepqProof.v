From Coq Require Import Permutation.
From Verif Require Import Base BaseLemmas Order DepqModel.
Ltac Zify.zify_post_hook ::= idtac.

(** ** The tree of nodes and the order of positions *)
Inductive anc : nat -> nat -> Prop :=
| anc_refl a : anc a a
| anc_l a b : anc a b -> anc a (2 * b + 1)
| anc_r a b : anc a b -> anc a (2 * b + 2).

Lemma anc_le a b : anc a b -> a <= b.
Proof. induction 1; lia. Qed.
Lemma anc_trans a b c : anc a b -> anc b c -> anc a c.
Proof. intros H K. induction K; auto; constructor; auto. Qed.
Lemma anc_root b : anc 0 b.
Proof.
  induction b as [b IH] using lt_wf_ind. destruct (Nat.eq_dec b 0) as [->|N]; [constructor|].
  destruct (Nat.Even_or_Odd b) as [[k ->]|[k ->]].
  - replace (2 * k) with (2 * (k - 1) + 2) by lia. constructor. apply IH. lia.
  - constructor. apply IH. lia.
Qed.
Lemma anc_up a b c : anc a c -> a <> c -> c = 2 * b + 1 \/ c = 2 * b + 2 -> anc a b.
Proof. intros H N E. inversion H; subst; [congruence| |]; replace b with b0 by lia; auto. Qed.
Lemma anc_down a b : anc a b -> a <> b -> anc (2 * a + 1) b \/ anc (2 * a + 2) b.
Proof.
  induction 1 as [a|a b H IH|a b H IH]; intros N; [congruence| |].
  - destruct (Nat.eq_dec a b) as [->|N2]; [left; constructor|].
    destruct (IH N2); [left|right]; now constructor.
  - destruct (Nat.eq_dec a b) as [->|N2]; [right; constructor|].
    destruct (IH N2); [left|right]; now constructor.
Qed.
Lemma anc_linear a b c : anc a c -> anc b c -> anc a b \/ anc b a.
Proof.
  intros H. revert b. induction H as [a|a c H IH|a c H IH]; intros b K.
  - auto.
  - destruct (Nat.eq_dec b (2 * c + 1)) as [->|N]; [left; now constructor|].
    apply IH. apply (anc_up b c (2 * c + 1)); auto.
  - destruct (Nat.eq_dec b (2 * c + 2)) as [->|N]; [left; now constructor|].
    apply IH. apply (anc_up b c (2 * c + 2)); auto.
Qed.
Lemma anc_antisym a b : anc a b -> anc b a -> a = b.
Proof. intros H K. apply anc_le in H, K. lia. Qed.

(** A position is [2 a] (the maximum of node [a]) or [2 a + 1] (its minimum). *)
Lemma pos_cases i : exists a, i = 2 * a \/ i = 2 * a + 1.
Proof. destruct (Nat.Even_or_Odd i) as [[a H]|[a H]]; eauto. Qed.
Lemma div_e a : 2 * a / 2 = a. Proof. rewrite Nat.mul_comm. apply Nat.div_mul. lia. Qed.
Lemma div_o a : (2 * a + 1) / 2 = a.
Proof. rewrite Nat.mul_comm, Nat.div_add_l by lia. change (1 / 2) with 0. lia. Qed.
Lemma mod_e a : (2 * a) mod 2 = 0. Proof. rewrite Nat.mul_comm. apply Nat.mod_mul. lia. Qed.
Lemma mod_o a : (2 * a + 1) mod 2 = 1.
Proof. rewrite Nat.add_comm, Nat.mul_comm, Nat.mod_add by lia. reflexivity. Qed.
Lemma odd_e a : Nat.odd (2 * a) = false. Proof. rewrite Nat.odd_mul. reflexivity. Qed.
Lemma odd_o a : Nat.odd (2 * a + 1) = true.
Proof. rewrite Nat.odd_add, Nat.odd_mul. reflexivity. Qed.

Lemma left_e a : left (2 * a) = 2 * (2 * a + 1).
Proof. unfold left, index. rewrite div_e, mod_e. lia. Qed.
Lemma left_o a : left (2 * a + 1) = 2 * (2 * a + 1) + 1.
Proof. unfold left, index. rewrite div_o, mod_o. lia. Qed.
Lemma right_e a : right (2 * a) = 2 * (2 * a + 2).
Proof. unfold right, index. rewrite div_e, mod_e. lia. Qed.
Lemma right_o a : right (2 * a + 1) = 2 * (2 * a + 2) + 1.
Proof. unfold right, index. rewrite div_o, mod_o. lia. Qed.
Lemma even_of_e a : even_of (2 * a) = 2 * a. Proof. unfold even_of. rewrite div_e. lia. Qed.
Lemma even_of_o a : even_of (2 * a + 1) = 2 * a. Proof. unfold even_of. rewrite div_o. lia. Qed.
Lemma odd_of_e a : odd_of (2 * a) = 2 * a + 1. Proof. unfold odd_of. rewrite div_e. lia. Qed.
Lemma odd_of_o a : odd_of (2 * a + 1) = 2 * a + 1. Proof. unfold odd_of. rewrite div_o. lia. Qed.
Lemma sib_e a : sibling (2 * a) = 2 * a + 1. Proof. unfold sibling. rewrite odd_e. lia. Qed.
Lemma sib_o a : sibling (2 * a + 1) = 2 * a. Proof. unfold sibling. rewrite odd_o. lia. Qed.
(** the parent node *)
Definition par (c : nat) : nat := (c - 1) / 2.
Lemma par_eq c : 0 < c -> c = 2 * par c + 1 \/ c = 2 * par c + 2.
Proof.
  intros H. unfold par. destruct (pos_cases (c - 1)) as [a [E|E]]; rewrite E.
  - rewrite div_e. lia.
  - rewrite div_o. lia.
Qed.
Lemma parent_e c : parent (2 * c) = 2 * par c.
Proof. unfold parent, index. rewrite div_e, mod_e. unfold par. lia. Qed.
Lemma parent_o c : parent (2 * c + 1) = 2 * par c + 1.
Proof. unfold parent, index. rewrite div_o, mod_o. unfold par. lia. Qed.

(** [R x y]: the value at [x] must be at least the one at [y]. *)
Definition R (x y : nat) : Prop :=
  if Nat.odd x then if Nat.odd y then anc (y / 2) (x / 2) else False
  else if Nat.odd y then anc (x / 2) (y / 2) \/ anc (y / 2) (x / 2) else anc (x / 2) (y / 2).
Lemma R_ee a b : R (2 * a) (2 * b) <-> anc a b.
Proof. unfold R. now rewrite !odd_e, !div_e. Qed.
Lemma R_eo a b : R (2 * a) (2 * b + 1) <-> anc a b \/ anc b a.
Proof. unfold R. now rewrite odd_e, odd_o, div_e, div_o. Qed.
Lemma R_oo a b : R (2 * a + 1) (2 * b + 1) <-> anc b a.
Proof. unfold R. now rewrite !odd_o, !div_o. Qed.
Lemma R_oe a b : R (2 * a + 1) (2 * b) <-> False.
Proof. unfold R. now rewrite odd_e, odd_o. Qed.
Lemma R_trans x y z : R x y -> R y z -> R x z.
Proof.
  destruct (pos_cases x) as [a [->| ->]], (pos_cases y) as [b [->| ->]], (pos_cases z) as [c [->| ->]];
    rewrite ?R_ee, ?R_eo, ?R_oo, ?R_oe; try tauto.
  - apply anc_trans.
  - intros H [K|K]; [left; eapply anc_trans; eauto|]. apply (anc_linear a c b); auto.
  - intros [H|H] K; [|right; eapply anc_trans; eauto]. apply (anc_linear a c b); auto.
  - intros H K. eapply anc_trans; eauto.
Qed.

(** ** Sifting along an arbitrary transitive relation *)
Section Sift.
Variable T : Type.
Variable ltb : T -> T -> bool.
Hypothesis W : weak_order ltb.
Variable Q : nat -> nat -> Prop.
Hypothesis QT : forall x y z, Q x y -> Q y z -> Q x z.
Variable b : nat.  (* positions below [b] are ignored *)
Notation wle := (wle T ltb).

Definition valid (a : list T) : Prop :=
  forall x y u w, b <= x -> b <= y -> get a x = Some u -> get a y = Some w -> Q x y -> wle w u.
(** The order holds except that the value at [k] may be too small. *)
Definition hole (a : list T) (k : nat) : Prop :=
  (forall x y u w, b <= x -> b <= y -> x <> k -> y <> k -> get a x = Some u -> get a y = Some w -> Q x y -> wle w u) /\
  (forall x u v, b <= x -> x <> k -> get a x = Some u -> get a k = Some v -> Q x k -> wle v u).

Lemma valid_hole a k : b <= k -> valid a -> hole a k.
Proof. intros B V. split; [intros x y u w ? ? ? ? Gx Gy K|intros x u v ? ? Gx Gy K]; refine (V x _ u _ _ _ Gx Gy K); auto. Qed.

(** [k] is the greatest of the next positions after [i]. *)
Definition next (a : list T) (i k : nat) : Prop :=
  forall y w, b <= y -> y <> i -> get a y = Some w -> Q i y ->
    Q k y \/ exists k' u u', b <= k' /\ k' <> i /\ Q k' y /\ get a k' = Some u' /\ get a k = Some u /\ wle u' u.

Lemma sift_stop a i k u v : hole a i -> b <= k -> k <> i -> next a i k ->
  get a i = Some v -> get a k = Some u -> ltb v u = false -> valid a.
Proof.
  intros [H1 H2] Bk Nk Nx Gi Gk L x y s w Bx By Gx Gy Qxy.
  destruct (Nat.eq_dec x i) as [->|Nxi], (Nat.eq_dec y i) as [->|Nyi].
  - rewrite Gx in Gy. injection Gy as ->. apply wle_refl; auto.
  - rewrite Gi in Gx. injection Gx as <-.
    apply (wle_trans _ _ W w u v); [|exact L].
    destruct (Nx y w By Nyi Gy Qxy) as [K|(k' & u1 & u' & Bk' & Nk' & K & Gk' & Gk1 & L1)].
    + exact (H1 k y u w Bk By Nk Nyi Gk Gy K).
    + rewrite Gk in Gk1. injection Gk1 as <-. apply (wle_trans _ _ W w u' u); auto. exact (H1 k' y u' w Bk' By Nk' Nyi Gk' Gy K).
  - exact (H2 x s w Bx Nxi Gx Gy Qxy).
  - exact (H1 x y s w Bx By Nxi Nyi Gx Gy Qxy).
Qed.
Lemma sift_none a i : hole a i -> (forall y w, b <= y -> y <> i -> get a y = Some w -> Q i y -> False) -> valid a.
Proof.
  intros [H1 H2] No x y s w Bx By Gx Gy Qxy.
  destruct (Nat.eq_dec x i) as [->|Nxi], (Nat.eq_dec y i) as [->|Nyi].
  - rewrite Gx in Gy. injection Gy as ->. apply wle_refl; auto.
  - exfalso. eauto.
  - exact (H2 x s w Bx Nxi Gx Gy Qxy).
  - exact (H1 x y s w Bx By Nxi Nyi Gx Gy Qxy).
Qed.

Lemma swap_ok (a : list T) i k v u : get a i = Some v -> get a k = Some u -> i <> k ->
  exists a', swap a i k = Some a' /\ length a' = length a /\ Permutation a' a /\
    get a' i = Some u /\ get a' k = Some v /\ (forall x, x <> i -> x <> k -> get a' x = get a x).
Proof.
  intros Gi Gk N. unfold swap. rewrite Gi, Gk. cbn [obind].
  pose proof (get_some_lt _ _ Gi). pose proof (get_some_lt _ _ Gk).
  rewrite set_some by auto. cbn [obind]. rewrite set_some by (now rewrite lset_length).
  eexists; split; [reflexivity|]. rewrite !lset_length. split; auto. split; [|split; [|split]].
  - clear H H0. revert a k Gi Gk N. induction i as [|i IH]; intros [|z a] k Gi Gk N; try discriminate.
    + destruct k as [|k]; [congruence|]. cbn in Gi. injection Gi as ->. cbn [lset].
      clear N. revert k Gk. induction a as [|y a IHa]; intros [|k] Gk; try discriminate; cbn in Gk |- *.
      * injection Gk as ->. constructor.
      * etransitivity; [apply perm_swap|]. etransitivity; [apply perm_skip, (IHa k); auto|]. apply perm_swap.
    + destruct k as [|k].
      * cbn in Gk. injection Gk as ->. cbn [lset].
        clear IH N. revert i Gi. induction a as [|y a IHa]; intros [|i] Gi; try discriminate; cbn in Gi |- *.
        -- injection Gi as ->. constructor.
        -- etransitivity; [apply perm_swap|]. etransitivity; [apply perm_skip, (IHa i); auto|]. apply perm_swap.
      * cbn [lset]. constructor. apply IH; auto.
  - rewrite get_lset_neq by auto. now apply get_lset_eq.
  - apply get_lset_eq. now rewrite lset_length.
  - intros x N1 N2. rewrite !get_lset_neq; auto.
Qed.

Lemma sift_step a i k u v a' : hole a i -> b <= i -> b <= k -> k <> i -> Q i k -> next a i k ->
  get a i = Some v -> get a k = Some u -> ltb v u = true ->
  get a' i = Some u -> get a' k = Some v -> (forall x, x <> i -> x <> k -> get a' x = get a x) -> hole a' k.
Proof.
  intros [H1 H2] Bi Bk Nk Qik Nx Gi Gk L Gi' Gk' F. split.
  - intros x y s w Bx By Nxk Nyk Gx Gy Qxy.
    destruct (Nat.eq_dec x i) as [->|Nxi], (Nat.eq_dec y i) as [->|Nyi].
    + rewrite Gx in Gy. injection Gy as ->. apply wle_refl; auto.
    + rewrite Gi' in Gx. injection Gx as <-. rewrite F in Gy by auto.
      destruct (Nx y w By Nyi Gy Qxy) as [K|(k' & u1 & u' & Bk' & Nk' & K & Gkk & Gk1 & L1)].
      * exact (H1 k y u w Bk By Nk Nyi Gk Gy K).
      * rewrite Gk in Gk1. injection Gk1 as <-. apply (wle_trans _ _ W w u' u); auto. exact (H1 k' y u' w Bk' By Nk' Nyi Gkk Gy K).
    + rewrite Gi' in Gy. injection Gy as <-. rewrite F in Gx by auto. exact (H1 x k s u Bx Bk Nxi Nk Gx Gk (QT _ _ _ Qxy Qik)).
    + rewrite F in Gx, Gy by auto. exact (H1 x y s w Bx By Nxi Nyi Gx Gy Qxy).
  - intros x s w Bx Nxk Gx Gw Qxk. rewrite Gk' in Gw. injection Gw as <-.
    destruct (Nat.eq_dec x i) as [->|Nxi].
    + rewrite Gi' in Gx. injection Gx as <-. now apply wlt_le.
    + rewrite F in Gx by auto. apply (wle_trans _ _ W v u s); [now apply wlt_le|]. exact (H1 x k s u Bx Bk Nxi Nk Gx Gk Qxk).
Qed.
Lemma swap_step a i k u v : hole a i -> b <= i -> b <= k -> k <> i -> Q i k -> next a i k ->
  get a i = Some v -> get a k = Some u -> ltb v u = true ->
  exists a', swap a i k = Some a' /\ length a' = length a /\ Permutation a' a /\
    get a' k = Some v /\ (forall x, x <> i -> x <> k -> get a' x = get a x) /\ hole a' k.
Proof.
  intros H Bi Bk Nk Qik Nx Gi Gk L.
  destruct (swap_ok a i k v u Gi Gk ltac:(auto)) as (a' & E & Le & P & G1 & G2 & F).
  exists a'. split; [auto|]. split; [auto|]. split; [auto|]. split; [auto|]. split; [auto|].
  eapply (sift_step a i k u v a'); eauto.
Qed.
Lemma swap_step2 a i k u v : hole a i -> b <= i -> b <= k -> k <> i -> Q i k -> next a i k ->
  get a i = Some v -> get a k = Some u -> ltb v u = true ->
  exists a', swap a k i = Some a' /\ length a' = length a /\ Permutation a' a /\ hole a' k.
Proof.
  intros H Bi Bk Nk Qik Nx Gi Gk L.
  destruct (swap_ok a k i u v Gk Gi ltac:(auto)) as (a' & E & Le & P & G1 & G2 & F).
  exists a'. split; [auto|]. split; [auto|]. split; [auto|].
  eapply (sift_step a i k u v a'); eauto.
Qed.
End Sift.

(** ** The next positions in the two directions *)
Lemma R_refl x : R x x.
Proof. destruct (pos_cases x) as [a [->| ->]]; rewrite ?R_ee, ?R_oo; constructor. Qed.
Lemma R_down_e c y : R (2 * c) y -> y <> 2 * c ->
  R (2 * (2 * c + 1)) y \/ (R (2 * (2 * c + 2)) y /\ 2 * (2 * c + 2) <= y).
Proof.
  destruct (pos_cases y) as [d [->| ->]]; rewrite ?R_ee, ?R_eo.
  - intros H N. destruct (anc_down c d H) as [K|K]; [lia|auto|right; split; auto]. apply anc_le in K. lia.
  - intros [H|H] _.
    + destruct (Nat.eq_dec c d) as [->|N]; [left; right; do 2 constructor|].
      destruct (anc_down c d H N) as [K|K]; [auto|right; split; auto]. apply anc_le in K. lia.
    + left. right. now constructor.
Qed.
Lemma R_leaf_e c y : R (2 * c) y -> y <> 2 * c -> R (2 * c + 1) y \/ 2 * (2 * c + 1) <= y.
Proof.
  destruct (pos_cases y) as [d [->| ->]]; rewrite ?R_ee, ?R_eo, ?R_oo.
  - intros H N. right. destruct (anc_down c d H) as [K|K]; [lia| |]; apply anc_le in K; lia.
  - intros [H|H] _; [|auto].
    destruct (Nat.eq_dec c d) as [->|N]; [left; constructor|]. right.
    destruct (anc_down c d H N) as [K|K]; apply anc_le in K; lia.
Qed.
Lemma R_down_o c y : R y (2 * c + 1) -> y <> 2 * c + 1 ->
  R y (2 * (2 * c + 1) + 1) \/ (R y (2 * (2 * c + 2) + 1) /\ 2 * (2 * c + 2) <= y).
Proof.
  destruct (pos_cases y) as [d [->| ->]]; rewrite ?R_oo, ?R_eo.
  - intros [H|H] _.
    + left. left. now constructor.
    + destruct (Nat.eq_dec c d) as [->|N]; [left; left; do 2 constructor|].
      destruct (anc_down c d H N) as [K|K]; [auto|right; split; auto]. apply anc_le in K. lia.
  - intros H N. destruct (anc_down c d H) as [K|K]; [lia|auto|right; split; auto]. apply anc_le in K. lia.
Qed.
Lemma R_leaf_o c y : R y (2 * c + 1) -> y <> 2 * c + 1 -> R y (2 * c) \/ 2 * (2 * c + 1) <= y.
Proof.
  destruct (pos_cases y) as [d [->| ->]]; rewrite ?R_ee, ?R_eo, ?R_oo.
  - intros [H|H] _; [auto|].
    destruct (Nat.eq_dec c d) as [->|N]; [left; constructor|]. right.
    destruct (anc_down c d H N) as [K|K]; apply anc_le in K; lia.
  - intros H N. right. destruct (anc_down c d H) as [K|K]; [lia| |]; apply anc_le in K; lia.
Qed.
Lemma R_up_o c y : R (2 * c + 1) y -> y <> 2 * c + 1 -> 0 < c /\ R (2 * par c + 1) y /\ y <= 2 * par c + 1.
Proof.
  destruct (pos_cases y) as [d [->| ->]]; rewrite ?R_oe, ?R_oo; [tauto|].
  intros H N. pose proof (anc_le _ _ H). assert (0 < c) by lia.
  pose proof (anc_up d (par c) c H ltac:(lia) (par_eq c H1)) as K. pose proof (anc_le _ _ K). split; [auto|split; [auto|lia]].
Qed.
Lemma R_up_s c y : R (2 * c) y -> y < 2 * c + 1 -> y <> 2 * c -> 0 < c /\ R (2 * par c + 1) y /\ y <= 2 * par c + 1.
Proof.
  destruct (pos_cases y) as [d [->| ->]]; rewrite ?R_ee, ?R_eo, ?R_oo.
  - intros H. apply anc_le in H. lia.
  - intros [H|H] L _; pose proof (anc_le _ _ H) as B; [lia|]. assert (0 < c) by lia.
    pose proof (anc_up d (par c) c H ltac:(lia) (par_eq c H0)) as K. pose proof (anc_le _ _ K). split; [auto|split; [auto|lia]].
Qed.
Lemma R_up_e c y : R y (2 * c) -> y <> 2 * c -> 0 < c /\ R y (2 * par c) /\ y <= 2 * par c.
Proof.
  destruct (pos_cases y) as [d [->| ->]]; rewrite ?R_ee, ?R_oe; [|tauto].
  intros H N. pose proof (anc_le _ _ H). assert (0 < c) by lia.
  pose proof (anc_up d (par c) c H ltac:(lia) (par_eq c H1)) as K. pose proof (anc_le _ _ K). split; [auto|split; [auto|lia]].
Qed.
Lemma anc_par c : 0 < c -> anc (par c) c.
Proof. intros H. destruct (par_eq c H) as [E|E]; rewrite E at 2; do 2 constructor. Qed.
Lemma par_lt c : 0 < c -> par c < c.
Proof. intros H. destruct (par_eq c H); lia. Qed.

(** ** The loops *)
Section Heap.
Variable T : Type.
Variable ltb : T -> T -> bool.
Hypothesis W : weak_order ltb.
Notation wle := (wle T ltb).
Definition gtb (x y : T) : bool := ltb y x.
Definition R' (x y : nat) : Prop := R y x.
Lemma W' : weak_order gtb. Proof. apply (flip_order _ _ W). Qed.
Lemma R'_trans x y z : R' x y -> R' y z -> R' x z.
Proof. unfold R'. intros; eapply R_trans; eauto. Qed.
Notation valid := (valid T ltb R).
Notation hole := (hole T ltb R).
Notation hole' := (Verif.DepqProof.hole T gtb R').
Lemma valid_flip b a : Verif.DepqProof.valid T gtb R' b a <-> valid b a.
Proof.
  split; intros V x y u w Bx By Gx Gy K; exact (V y x w u By Bx Gy Gx K).
Qed.


Lemma down_e a b c : b <= 2 * c -> 2 * c < length a -> hole b a (2 * c) ->
  exists a' d, max_heap_down ltb a (2 * c) = Some (a', 2 * d) /\ length a' = length a /\ Permutation a' a /\
    b <= 2 * d /\ 2 * d < length a /\ hole b a' (2 * d) /\ (2 * (2 * d + 1) < length a -> valid b a').
Proof.
  intros B L H. unfold max_heap_down, heap_down.
  match goal with |- context [loop _ ?bd _] => set (body := bd) end.
  destruct (@loop_rule _ _
    (fun '(a1, i) => length a1 = length a /\ Permutation a1 a /\ exists d, i = 2 * d /\ b <= 2 * d /\
       2 * d < length a /\ hole b a1 (2 * d))
    (fun '(a1, i) => length a - i)
    (fun r => exists d, snd r = 2 * d /\ length (fst r) = length a /\ Permutation (fst r) a /\
    b <= 2 * d /\ 2 * d < length a /\ hole b (fst r) (2 * d) /\ (2 * (2 * d + 1) < length a -> valid b (fst r))) body)
    with (fuel := length a + 1) (s := (a, 2 * c)) as ([a' i] & E & d & Ei & K).
  - intros [a1 i] (Le & P & d & -> & Bd & Ld & Hd). unfold body. rewrite left_e, right_e, odd_e, Le. cbn [andb].
    destruct (Nat.ltb_spec (2 * (2 * d + 1)) (length a)) as [Lk|Lk].
    2:{ eexists; split; [reflexivity|]. cbn beta iota. exists d. repeat split; auto; try apply Hd. lia. }
    destruct (@get_lt _ a1 (2 * (2 * d + 1)) ltac:(lia)) as (ul & Gl).
    destruct (@get_lt _ a1 (2 * d) ltac:(lia)) as (v & Gv).
    assert (exists k u, (if 2 * (2 * d + 2) <? length a then let* x := get a1 (2 * (2 * d + 1)) in
       let* y := get a1 (2 * (2 * d + 2)) in Some (if ltb x y then 2 * (2 * d + 2) else 2 * (2 * d + 1))
       else Some (2 * (2 * d + 1))) = Some k /\ get a1 k = Some u /\
       (exists e, k = 2 * e /\ e > d /\ anc d e) /\ next T ltb R b a1 (2 * d) k) as (k & u & Ek & Gk & (e & -> & De & Ae) & Nk).
    { destruct (Nat.ltb_spec (2 * (2 * d + 2)) (length a)) as [Lr|Lr].
      - destruct (@get_lt _ a1 (2 * (2 * d + 2)) ltac:(lia)) as (ur & Gr).
        rewrite Gl, Gr. cbn [obind]. destruct (ltb ul ur) eqn:C.
        + exists (2 * (2 * d + 2)), ur. split; [auto|]. split; [auto|]. split; [exists (2 * d + 2); split; [auto|]; split; [lia|]; do 2 constructor|].
          intros y w By Ny Gy K. destruct (R_down_e d y K Ny) as [K1|[K1 _]]; [right|now left].
          exists (2 * (2 * d + 1)), ur, ul. split; [lia|]. split; [lia|]. split; [auto|]. split; [auto|]. split; [auto|].
          now apply wlt_le.
        + exists (2 * (2 * d + 1)), ul. split; [auto|]. split; [auto|]. split; [exists (2 * d + 1); split; [auto|]; split; [lia|]; do 2 constructor|].
          intros y w By Ny Gy K. destruct (R_down_e d y K Ny) as [K1|[K1 _]]; [now left|right].
          exists (2 * (2 * d + 2)), ul, ur. split; [lia|]. split; [lia|]. split; [auto|]. split; [auto|]. split; [auto|]. exact C.
      - exists (2 * (2 * d + 1)), ul. split; [auto|]. split; [auto|]. split; [exists (2 * d + 1); split; [auto|]; split; [lia|]; do 2 constructor|].
        intros y w By Ny Gy K. destruct (R_down_e d y K Ny) as [K1|[K1 K2]]; [now left|].
        apply get_some_lt in Gy. lia. }
    rewrite Ek. cbn [obind]. rewrite Gv, Gk. cbn [obind]. pose proof (get_some_lt _ _ Gk) as Lk2.
    destruct (ltb v u) eqn:C.
    + destruct (swap_step T ltb W R R_trans b a1 (2 * d) (2 * e) u v) as (a2 & E2 & Le2 & P2 & _ & _ & H2); auto; try lia.
      { now rewrite R_ee. }
      rewrite E2. cbn [obind]. eexists; split; [reflexivity|]. cbn beta iota. split; [|lia].
      split; [lia|]. split; [now rewrite P2|]. exists e. repeat split; auto; try lia; apply H2.
    + assert (V : valid b a1) by (apply (sift_stop T ltb W R b a1 (2 * d) (2 * e) u v); auto; lia).
      eexists; split; [reflexivity|]. cbn beta iota. exists d. repeat split; auto; apply Hd.
  - split; auto. split; auto. exists c. auto.
  - lia.
  - cbn [fst snd] in *. subst i. exists a', d. auto.
Qed.

Lemma down_o a b c : b <= 2 * c + 1 -> 2 * c + 1 < length a -> hole' b a (2 * c + 1) ->
  (forall f v s, length a = 4 * f + 3 -> get a (2 * c + 1) = Some v -> get a (length a - 1) = Some s -> wle v s) ->
  exists a' j, min_heap_down ltb a (2 * c + 1) = Some (a', j) /\ length a' = length a /\ Permutation a' a /\
    2 * c + 1 <= j /\ j < length a /\ hole' b a' j /\
    (valid b a' \/ (exists d, j = 2 * d + 1 /\ length a <= 2 * (2 * d + 1)) \/ (exists d, j = 2 * d /\ length a = 2 * d + 1)) /\
    (j = 2 * c + 1 -> a' = a).
Proof.
  intros B L H Hs. unfold min_heap_down, heap_down.
  match goal with |- context [loop _ ?bd _] => set (body := bd) end.
  destruct (@loop_rule _ _
    (fun '(a1, i) => length a1 = length a /\ Permutation a1 a /\ 2 * c + 1 <= i /\ i < length a /\ hole' b a1 i /\
       (i = 2 * c + 1 -> a1 = a) /\
       ((exists d, i = 2 * d + 1 /\ (forall f v s, length a = 4 * f + 3 -> get a1 i = Some v -> get a1 (length a - 1) = Some s -> wle v s)) \/
        (exists d, i = 2 * d /\ length a = 2 * d + 1)))
    (fun '(a1, i) => length a - i)
    (fun r => length (fst r) = length a /\ Permutation (fst r) a /\
    2 * c + 1 <= snd r /\ snd r < length a /\ hole' b (fst r) (snd r) /\
    (valid b (fst r) \/ (exists d, snd r = 2 * d + 1 /\ length a <= 2 * (2 * d + 1)) \/ (exists d, snd r = 2 * d /\ length a = 2 * d + 1)) /\
    (snd r = 2 * c + 1 -> fst r = a)) body)
    with (fuel := length a + 1) (s := (a, 2 * c + 1)) as ([a' j] & E & K).
  - intros [a1 i] (Le & P & Bi & Li & Hi & Ha & [(d & -> & Hd)|(d & -> & Hd)]); unfold body.
    2:{ rewrite left_e, Le. destruct (Nat.ltb_spec (2 * (2 * d + 1)) (length a)); [lia|].
        eexists; split; [reflexivity|]. cbn [fst snd]. split; [auto|]. split; [auto|]. split; [auto|]. split; [auto|]. split; [auto|].
        split; [|auto]. right. right. exists d. auto. }
    rewrite left_o, right_o, odd_o, Le. cbn [andb].
    destruct (@get_lt _ a1 (2 * d + 1) ltac:(lia)) as (v & Gv).
    destruct (Nat.ltb_spec (2 * (2 * d + 1) + 1) (length a)) as [Lk|Lk].
    2:{ eexists; split; [reflexivity|]. cbn [fst snd]. split; [auto|]. split; [auto|]. split; [auto|]. split; [auto|]. split; [auto|].
        split; [|auto].
        destruct (Nat.eq_dec (length a) (2 * (2 * d + 1) + 1)) as [En|En]; [|right; left; exists d; split; auto; lia].
        left. destruct (@get_lt _ a1 (length a - 1) ltac:(lia)) as (s & Gs).
        apply valid_flip. apply (sift_stop T gtb W' R' b a1 (2 * d + 1) (length a - 1) s v); auto; try lia.
        - intros y w By Ny Gy Ky. left. unfold R' in *.
          replace (length a - 1) with (2 * (2 * d + 1)) in * by lia.
          pose proof (get_some_lt _ _ Gy).
          destruct (pos_cases y) as [e [->| ->]].
          + rewrite R_eo in Ky. rewrite R_ee. destruct Ky as [Ky|Ky]; [now constructor|].
            destruct (Nat.eq_dec d e) as [<-|N]; [do 2 constructor|].
            destruct (anc_down d e Ky N) as [J|J]; pose proof (anc_le _ _ J); [|lia].
            replace e with (2 * d + 1) by lia. constructor.
          + rewrite R_oo in Ky. destruct (anc_down d e Ky ltac:(lia)) as [J|J]; pose proof (anc_le _ _ J); lia.
        - unfold gtb. apply (Hd d v s); auto. lia. }
    set (r := if 2 * (2 * d + 2) + 1 =? length a then 2 * (2 * d + 2) + 1 - 1 else 2 * (2 * d + 2) + 1).
    destruct (@get_lt _ a1 (2 * (2 * d + 1) + 1) ltac:(lia)) as (ul & Gl).
    assert (exists k u, (if r <? length a then let* x := get a1 (2 * (2 * d + 1) + 1) in
       let* y := get a1 r in Some (if ltb y x then r else 2 * (2 * d + 1) + 1)
       else Some (2 * (2 * d + 1) + 1)) = Some k /\ get a1 k = Some u /\
       2 * d + 1 < k /\ R k (2 * d + 1) /\
       ((exists e, k = 2 * e + 1) \/ (exists e, k = 2 * e /\ length a = 2 * e + 1 /\ length a <> 4 * d + 3)) /\ next T gtb R' b a1 (2 * d + 1) k)
       as (k & u & Ek & Gk & Lk2 & Rk & Ck & Nk).
    { assert (Rl : R (2 * (2 * d + 1) + 1) (2 * d + 1)) by (rewrite R_oo; do 2 constructor).
      assert (Rr : R r (2 * d + 1)).
      { unfold r. destruct (_ =? _); [replace (2 * (2 * d + 2) + 1 - 1) with (2 * (2 * d + 2)) by lia; rewrite R_eo; right|rewrite R_oo]; do 2 constructor. }
      assert (Cr : (exists e, r = 2 * e + 1) \/ (exists e, r = 2 * e /\ length a = 2 * e + 1 /\ length a <> 4 * d + 3)).
      { unfold r. destruct (Nat.eqb_spec (2 * (2 * d + 2) + 1) (length a)); [right; exists (2 * d + 2); lia|left; eauto]. }
      assert (Nr : 2 * d + 1 < r) by (unfold r; destruct (_ =? _); lia).
      assert (Cov : forall y w, b <= y -> y <> 2 * d + 1 -> get a1 y = Some w -> R y (2 * d + 1) ->
                R y (2 * (2 * d + 1) + 1) \/ (R y r /\ r < length a)).
      { intros y w By Ny Gy Ky. pose proof (get_some_lt _ _ Gy) as Ly. destruct (R_down_o d y Ky Ny) as [K1|[K1 K2]]; [now left|right].
        unfold r. destruct (Nat.eqb_spec (2 * (2 * d + 2) + 1) (length a)).
        - split; [|lia]. replace (2 * (2 * d + 2) + 1 - 1) with y by lia. apply R_refl.
        - split; [auto|]. lia. }
      destruct (Nat.ltb_spec r (length a)) as [Lr|Lr].
      - destruct (@get_lt _ a1 r ltac:(lia)) as (ur & Gr).
        rewrite Gl, Gr. cbn [obind]. destruct (ltb ur ul) eqn:C.
        + exists r, ur. split; [auto|]. split; [auto|]. split; [auto|]. split; [auto|]. split; [auto|].
          intros y w By Ny Gy Ky. destruct (Cov y w By Ny Gy Ky) as [K1|[K1 _]]; [right|now left].
          exists (2 * (2 * d + 1) + 1), ur, ul. split; [lia|]. split; [lia|]. split; [auto|]. split; [auto|]. split; [auto|].
          apply (wlt_le _ _ W'). exact C.
        + exists (2 * (2 * d + 1) + 1), ul. split; [auto|]. split; [auto|]. split; [lia|]. split; [auto|]. split; [eauto|].
          intros y w By Ny Gy Ky. destruct (Cov y w By Ny Gy Ky) as [K1|[K1 _]]; [now left|right].
          exists r, ul, ur. split; [lia|]. split; [lia|]. split; [auto|]. split; [auto|]. split; [auto|]. exact C.
      - exists (2 * (2 * d + 1) + 1), ul. split; [auto|]. split; [auto|]. split; [lia|]. split; [auto|]. split; [eauto|].
        intros y w By Ny Gy Ky. destruct (Cov y w By Ny Gy Ky) as [K1|[K1 K2]]; [now left|lia]. }
    rewrite Ek. cbn [obind]. rewrite Gv, Gk. cbn [obind]. pose proof (get_some_lt _ _ Gk) as Lk3.
    destruct (ltb u v) eqn:C.
    + destruct (swap_step T gtb W' R' R'_trans b a1 (2 * d + 1) k u v) as (a2 & E2 & Le2 & P2 & G2 & F2 & H2); auto; try lia.
      rewrite E2. cbn [obind]. eexists; split; [reflexivity|]. cbn beta iota. split; [|lia].
      split; [lia|]. split; [now rewrite P2|]. split; [lia|]. split; [lia|]. split; [auto|]. split; [lia|].
      destruct Ck as [(e & ->)|(e & -> & Ck & _)]; [left; exists e; split; [auto|]|right; eauto].
      intros f v1 s Ef Gv1 Gs. rewrite G2 in Gv1. injection Gv1 as <-. apply (Hd f v s); auto.
      rewrite <- F2; auto; lia.
    + assert (V : valid b a1) by (apply valid_flip; apply (sift_stop T gtb W' R' b a1 (2 * d + 1) k u v); auto; lia).
      eexists; split; [reflexivity|]. cbn [fst snd]. split; [auto|]. split; [auto|]. split; [auto|]. split; [auto|]. split; [auto|]. auto.
  - split; auto. split; auto. split; auto. split; auto. split; auto. split; auto. left. exists c. split; auto.
  - lia.
  - cbn [fst snd] in *. exists a', j. tauto.
Qed.

Lemma up_min a b i : b <= i -> i < length a -> hole b a i -> (exists c, i = 2 * c + 1) \/ length a <= i + 1 ->
  exists a', min_heap_up ltb a i b = Some a' /\ length a' = length a /\ Permutation a' a /\ valid b a'.
Proof.
  intros B L H C. unfold min_heap_up.
  match goal with |- context [loop _ ?bd _] => set (body := bd) end.
  apply (@loop_rule _ _
    (fun '(a1, i) => length a1 = length a /\ Permutation a1 a /\ b <= i /\ i < length a /\ hole b a1 i /\
        ((exists c, i = 2 * c + 1) \/ length a <= i + 1))
    (fun '(a1, i) => i)
    (fun a' => length a' = length a /\ Permutation a' a /\ valid b a') body);
    [|repeat split; auto; apply H|lia].
  clear i B L H C. intros [a1 i] (Le & P & B & L & H & C). unfold body.
  assert (U : exists c, i / 2 = c /\ odd_of (parent i) = 2 * par c + 1 /\ (0 < c -> R i (2 * par c + 1)) /\
            (i = 2 * c \/ i = 2 * c + 1) /\
            forall y, R i y -> y <> i -> y < length a -> 0 < c /\ R (2 * par c + 1) y /\ y <= 2 * par c + 1).
  { destruct (pos_cases i) as [c [->| ->]]; exists c.
    - rewrite div_e, parent_e, odd_of_e. split; [auto|]. split; [auto|]. split; [intros Pc; rewrite R_eo; right; now apply anc_par|]. split; [auto|].
      destruct C as [[e C]|C]; [lia|]. intros y Ky Ny Ly. apply (R_up_s c y); auto. lia.
    - rewrite div_o, parent_o, odd_of_o. split; [auto|]. split; [auto|]. split; [intros Pc; rewrite R_oo; now apply anc_par|]. split; [auto|].
      intros y Ky Ny Ly. apply (R_up_o c y); auto. }
  destruct U as (c & -> & -> & Rp & Ec & U). set (p := 2 * par c + 1) in *.
  destruct (pos_cases b) as [e Eb].
  assert (b / 2 = e) as -> by (destruct Eb as [->| ->]; [apply div_e|apply div_o]).
  destruct (Nat.ltb_spec e c) as [Lc|Lc].
  2:{ eexists; split; [reflexivity|]. cbn beta iota. split; [auto|]. split; [auto|].
      apply (sift_none T ltb W R b a1 i); auto. intros y w By Ny Gy Ky. apply get_some_lt in Gy.
      destruct (U y Ky Ny ltac:(lia)) as (Pc & _ & Ly). pose proof (par_lt c Pc). lia. }
  destruct (Nat.leb_spec b p) as [Lp|Lp].
  2:{ eexists; split; [reflexivity|]. cbn beta iota. split; [auto|]. split; [auto|].
      apply (sift_none T ltb W R b a1 i); auto. intros y w By Ny Gy Ky. apply get_some_lt in Gy.
      destruct (U y Ky Ny ltac:(lia)) as (Pc & _ & Ly). lia. }
  pose proof (par_lt c ltac:(lia)).
  destruct (@get_lt _ a1 i ltac:(lia)) as (v & Gv). destruct (@get_lt _ a1 p ltac:(lia)) as (u & Gu).
  rewrite Gv, Gu. cbn [obind].
  assert (Nx : next T ltb R b a1 i p).
  { intros y w By Ny Gy Ky. apply get_some_lt in Gy. left. now apply U; auto; rewrite <- Le. }
  destruct (ltb v u) eqn:Cm.
  - destruct (swap_step2 T ltb W R R_trans b a1 i p u v) as (a2 & E2 & Le2 & P2 & H2); auto; try lia.
    { apply Rp. lia. }
    rewrite E2. cbn [obind]. eexists; split; [reflexivity|]. cbn beta iota. split; [|lia].
    split; [lia|]. split; [now rewrite P2|]. split; [auto|]. split; [lia|]. split; [auto|]. left. exists (par c). auto.
  - eexists; split; [reflexivity|]. cbn beta iota. split; [auto|]. split; [auto|].
    apply (sift_stop T ltb W R b a1 i p u v); auto. lia.
Qed.

Lemma up_max a b c : b <= 2 * c -> 2 * c < length a -> hole' b a (2 * c) ->
  exists a', max_heap_up ltb a (2 * c) b = Some a' /\ length a' = length a /\ Permutation a' a /\ valid b a'.
Proof.
  intros B L H. unfold max_heap_up.
  match goal with |- context [loop _ ?bd _] => set (body := bd) end.
  apply (@loop_rule _ _
    (fun '(a1, i) => length a1 = length a /\ Permutation a1 a /\ b <= i /\ i < length a /\ hole' b a1 i /\
        exists c, i = 2 * c)
    (fun '(a1, i) => i)
    (fun a' => length a' = length a /\ Permutation a' a /\ valid b a') body);
    [|split; [auto|]; split; [auto|]; split; [auto|]; split; [auto|]; split; [auto|]; eauto|lia].
  clear c B L H. intros [a1 i] (Le & P & B & L & H & c & ->). unfold body.
  rewrite div_e, parent_e, even_of_e.
  destruct (pos_cases b) as [e Eb].
  assert (b / 2 = e) as -> by (destruct Eb as [->| ->]; [apply div_e|apply div_o]).
  destruct (Nat.ltb_spec e c) as [Lc|Lc].
  2:{ eexists; split; [reflexivity|]. cbn beta iota. split; [auto|]. split; [auto|].
      apply valid_flip. apply (sift_none T gtb W' R' b a1 (2 * c)); auto. intros y w By Ny Gy Ky.
      destruct (R_up_e c y Ky Ny) as (Pc & _ & Ly). pose proof (par_lt c Pc). lia. }
  destruct (Nat.leb_spec b (2 * par c)) as [Lp|Lp].
  2:{ eexists; split; [reflexivity|]. cbn beta iota. split; [auto|]. split; [auto|].
      apply valid_flip. apply (sift_none T gtb W' R' b a1 (2 * c)); auto. intros y w By Ny Gy Ky.
      destruct (R_up_e c y Ky Ny) as (Pc & _ & Ly). lia. }
  pose proof (par_lt c ltac:(lia)).
  destruct (@get_lt _ a1 (2 * c) ltac:(lia)) as (v & Gv). destruct (@get_lt _ a1 (2 * par c) ltac:(lia)) as (u & Gu).
  rewrite Gv, Gu. cbn [obind].
  assert (Nx : next T gtb R' b a1 (2 * c) (2 * par c)).
  { intros y w By Ny Gy Ky. left. now apply R_up_e. }
  destruct (ltb u v) eqn:Cm.
  - destruct (swap_step2 T gtb W' R' R'_trans b a1 (2 * c) (2 * par c) u v) as (a2 & E2 & Le2 & P2 & H2); auto; try lia.
    { unfold R'. rewrite R_ee. apply anc_par. lia. }
    rewrite E2. cbn [obind]. eexists; split; [reflexivity|]. cbn beta iota. split; [|lia].
    split; [lia|]. split; [now rewrite P2|]. split; [auto|]. split; [lia|]. split; [auto|]. eauto.
  - eexists; split; [reflexivity|]. cbn beta iota. split; [auto|]. split; [auto|].
    apply valid_flip. apply (sift_stop T gtb W' R' b a1 (2 * c) (2 * par c) u v); auto. lia.
Qed.

(** The upward loops do nothing when the neighbouring value is in order. *)
Lemma up_max_noop a b i : i < length a -> hole b a i -> max_heap_up ltb a i b = Some a.
Proof.
  intros L [_ H]. unfold max_heap_up. rewrite Nat.add_1_r. cbn [loop].
  destruct (pos_cases b) as [e Eb].
  assert (b / 2 = e) as -> by (destruct Eb as [->| ->]; [apply div_e|apply div_o]).
  assert (U : exists c, i / 2 = c /\ even_of (parent i) = 2 * par c /\ (0 < c -> R (2 * par c) i) /\
            (i = 2 * c \/ i = 2 * c + 1)).
  { destruct (pos_cases i) as [c [->| ->]]; exists c.
    - rewrite div_e, parent_e, even_of_e. split; [auto|]. split; [auto|]. split; [intros Pc; rewrite R_ee; now apply anc_par|auto].
    - rewrite div_o, parent_o, even_of_o. split; [auto|]. split; [auto|]. split; [intros Pc; rewrite R_eo; left; now apply anc_par|auto]. }
  destruct U as (c & -> & -> & Rp & Ec).
  destruct (Nat.ltb_spec e c) as [Lc|Lc]; [|reflexivity].
  destruct (Nat.leb_spec b (2 * par c)) as [Lp|Lp]; [|reflexivity].
  pose proof (par_lt c ltac:(lia)).
  destruct (@get_lt _ a i ltac:(lia)) as (v & Gv). destruct (@get_lt _ a (2 * par c) ltac:(lia)) as (u & Gu).
  rewrite Gv, Gu. cbn [obind].
  pose proof (H (2 * par c) u v Lp ltac:(lia) Gu Gv (Rp ltac:(lia))) as K. unfold Order.wle in K. rewrite K. reflexivity.
Qed.
Lemma up_min_noop a b i : i < length a -> b <= i -> valid b a -> min_heap_up ltb a i b = Some a.
Proof.
  intros L Bi H. unfold min_heap_up. rewrite Nat.add_1_r. cbn [loop].
  destruct (pos_cases b) as [e Eb].
  assert (b / 2 = e) as -> by (destruct Eb as [->| ->]; [apply div_e|apply div_o]).
  assert (U : exists c, i / 2 = c /\ odd_of (parent i) = 2 * par c + 1 /\ (0 < c -> R i (2 * par c + 1)) /\
            (i = 2 * c \/ i = 2 * c + 1)).
  { destruct (pos_cases i) as [c [->| ->]]; exists c.
    - rewrite div_e, parent_e, odd_of_e. split; [auto|]. split; [auto|]. split; [intros Pc; rewrite R_eo; right; now apply anc_par|auto].
    - rewrite div_o, parent_o, odd_of_o. split; [auto|]. split; [auto|]. split; [intros Pc; rewrite R_oo; now apply anc_par|auto]. }
  destruct U as (c & -> & -> & Rp & Ec).
  destruct (Nat.ltb_spec e c) as [Lc|Lc]; [|reflexivity].
  destruct (Nat.leb_spec b (2 * par c + 1)) as [Lp|Lp]; [|reflexivity].
  pose proof (par_lt c ltac:(lia)).
  destruct (@get_lt _ a i ltac:(lia)) as (v & Gv). destruct (@get_lt _ a (2 * par c + 1) ltac:(lia)) as (u & Gu).
  rewrite Gv, Gu. cbn [obind].
  pose proof (H i (2 * par c + 1) v u Bi Lp Gv Gu (Rp ltac:(lia))) as K. unfold Order.wle in K. rewrite K. reflexivity.
Qed.

Lemma heapify_e a (lim : bool) c : let b := if lim then 2 * c else 0 in
  2 * c < length a -> hole b a (2 * c) ->
  exists a', heapify ltb a (2 * c) lim = Some a' /\ length a' = length a /\ Permutation a' a /\ valid b a'.
Proof.
  intros b L H. unfold heapify. rewrite odd_e. fold b.
  assert (B : b <= 2 * c) by (unfold b; destruct lim; lia). clearbody b.
  destruct (down_e a b c B L H) as (a1 & d & -> & Le1 & P1 & Bd & Ld & H1 & V1). cbn [obind].
  unfold heap_leaf. rewrite odd_of_e, even_of_e, sib_e, Le1.
  destruct (Nat.ltb_spec (2 * d + 1) (length a)) as [Lo|Lo].
  2:{ cbn [obind]. rewrite (up_max_noop a1 b (2 * d)) by (auto; lia). cbn [obind].
      destruct (up_min a1 b (2 * d)) as (a2 & E2 & Le2 & P2 & V2); auto; try lia.
      exists a2. split; [auto|]. split; [lia|]. split; [now rewrite P2|auto]. }
  destruct (@get_lt _ a1 (2 * d) ltac:(lia)) as (v & Gv). destruct (@get_lt _ a1 (2 * d + 1) ltac:(lia)) as (u & Gu).
  rewrite Gv, Gu. cbn [obind].
  assert (Rd : R (2 * d) (2 * d + 1)) by (rewrite R_eo; left; constructor).
  destruct (Nat.ltb_spec (2 * (2 * d + 1)) (length a)) as [Lc|Lc].
  - specialize (V1 Lc). pose proof (V1 (2 * d) (2 * d + 1) v u ltac:(lia) ltac:(lia) Gv Gu Rd) as K. unfold Order.wle in K. rewrite K. cbn [obind].
    rewrite (up_max_noop a1 b (2 * d)) by (auto; lia). cbn [obind].
    rewrite (up_min_noop a1 b (2 * d)) by (auto; lia). exists a1. auto.
  - assert (Nx : next T ltb R b a1 (2 * d) (2 * d + 1)).
    { intros y w By Ny Gy Ky. apply get_some_lt in Gy. left. destruct (R_leaf_e d y Ky Ny); [auto|lia]. }
    destruct (ltb v u) eqn:C.
    + destruct (swap_step T ltb W R R_trans b a1 (2 * d) (2 * d + 1) u v) as (a2 & E2 & Le2 & P2 & _ & _ & H2); auto; try lia.
      rewrite E2. cbn [obind]. rewrite (up_max_noop a2 b (2 * d + 1)) by (auto; lia). cbn [obind].
      destruct (up_min a2 b (2 * d + 1)) as (a3 & E3 & Le3 & P3 & V3); auto; try lia; eauto.
      exists a3. split; [auto|]. split; [lia|]. split; [now rewrite P3, P2|auto].
    + cbn [obind]. rewrite (up_max_noop a1 b (2 * d)) by (auto; lia). cbn [obind].
      assert (V : valid b a1) by (apply (sift_stop T ltb W R b a1 (2 * d) (2 * d + 1) u v); auto; lia).
      rewrite (up_min_noop a1 b (2 * d)) by (auto; lia). exists a1. auto.
Qed.

Lemma heapify_o a (lim : bool) c : let b := if lim then 2 * c + 1 else 0 in
  2 * c + 1 < length a -> hole' b a (2 * c + 1) ->
  (forall f v s, length a = 4 * f + 3 -> get a (2 * c + 1) = Some v -> get a (length a - 1) = Some s -> wle v s) ->
  (lim = true -> forall x v, get a (2 * c) = Some x -> get a (2 * c + 1) = Some v -> wle v x) ->
  exists a', heapify ltb a (2 * c + 1) lim = Some a' /\ length a' = length a /\ Permutation a' a /\ valid b a'.
Proof.
  intros b L H Hs Hl. unfold heapify. rewrite odd_o. fold b.
  assert (B : b <= 2 * c + 1) by (unfold b; destruct lim; lia).
  destruct (down_o a b c B L H Hs) as (a1 & j & -> & Le1 & P1 & Bj & Lj & H1 & Cj & Ej). cbn [obind].
  assert (Cj' : valid b a1 \/ (exists d, j = 2 * d + 1 /\ length a <= 2 * (2 * d + 1) /\ b <= 2 * d) \/ (exists d, j = 2 * d /\ length a = 2 * d + 1)).
  { destruct Cj as [V|[(d & -> & Ld)|S1]]; [auto| |auto]. destruct (le_lt_dec b (2 * d)) as [Bd|Bd]; [right; left; eauto|].
    left. assert (d = c) as -> by lia. apply valid_flip. apply (sift_none T gtb W' R' b a1 (2 * c + 1)); auto.
    intros y w By Ny Gy Ky. apply get_some_lt in Gy. unfold R' in Ky.
    destruct (R_leaf_o c y Ky Ny) as [K|K]; [|lia]. destruct (pos_cases y) as [e [->| ->]]; [rewrite R_ee in K; apply anc_le in K; lia|now rewrite R_oe in K]. }
  clear Cj. destruct Cj' as [V|[(d & -> & Ld & Bd)|(d & -> & Ld)]].
  - exists a1. split; [|auto].
    assert (heap_leaf ltb a1 j = Some (a1, j)) as ->.
    { unfold heap_leaf. rewrite Le1. destruct (Nat.ltb_spec (odd_of j) (length a)) as [Lo|Lo]; [|reflexivity].
      assert (exists d, odd_of j = 2 * d + 1 /\ even_of j = 2 * d /\ (j = 2 * d \/ j = 2 * d + 1)) as (d & Eo & -> & Ed).
      { destruct (pos_cases j) as [d [->| ->]]; exists d; rewrite ?odd_of_e, ?even_of_e, ?odd_of_o, ?even_of_o; auto. }
      rewrite Eo in *.
      destruct (@get_lt _ a1 (2 * d) ltac:(lia)) as (v & Gv). destruct (@get_lt _ a1 (2 * d + 1) ltac:(lia)) as (u & Gu).
      rewrite Gv, Gu. cbn [obind].
      assert (ltb v u = false) as ->; [|reflexivity].
      destruct (Nat.eq_dec d c) as [->|N].
      - rewrite Ej in Gv, Gu by lia. destruct lim; [exact (Hl eq_refl _ _ Gv Gu)|].
        rewrite Ej in V by lia.
        refine (V (2 * c) (2 * c + 1) v u _ _ Gv Gu _); unfold b; try lia. rewrite R_eo. left. constructor.
      - refine (V (2 * d) (2 * d + 1) v u _ _ Gv Gu _); try lia. rewrite R_eo. left. constructor. }
    cbn [obind]. rewrite (up_max_noop a1 b j) by (try lia; apply valid_hole; auto; lia). cbn [obind]. apply up_min_noop; auto; lia.
  - unfold heap_leaf. rewrite odd_of_o, even_of_o, sib_o, Le1.
    destruct (Nat.ltb_spec (2 * d + 1) (length a)) as [Lo|Lo]; [|lia].
    destruct (@get_lt _ a1 (2 * d) ltac:(lia)) as (u & Gu). destruct (@get_lt _ a1 (2 * d + 1) ltac:(lia)) as (v & Gv).
    rewrite Gv, Gu. cbn [obind].
    assert (Nx : next T gtb R' b a1 (2 * d + 1) (2 * d)).
    { intros y w By Ny Gy Ky. apply get_some_lt in Gy. left. destruct (R_leaf_o d y Ky Ny); [auto|lia]. }
    destruct (ltb u v) eqn:C.
    + destruct (swap_step T gtb W' R' R'_trans b a1 (2 * d + 1) (2 * d) u v) as (a2 & E2 & Le2 & P2 & _ & _ & H2); auto; try lia.
      { unfold R'. rewrite R_eo. left. constructor. }
      rewrite E2. cbn [obind].
      destruct (up_max a2 b d) as (a3 & -> & Le3 & P3 & V3); auto; try lia. cbn [obind].
      rewrite (up_min_noop a3 b (2 * d)) by (auto; lia).
      exists a3. split; [auto|]. split; [lia|]. split; [now rewrite P3, P2|auto].
    + cbn [obind].
      assert (V : valid b a1) by (apply valid_flip; apply (sift_stop T gtb W' R' b a1 (2 * d + 1) (2 * d) u v); auto; lia).
      rewrite (up_max_noop a1 b (2 * d + 1)) by (try lia; apply valid_hole; auto; lia). cbn [obind].
      rewrite (up_min_noop a1 b (2 * d + 1)) by (auto; lia). exists a1. auto.
  - unfold heap_leaf. rewrite odd_of_e, Le1.
    destruct (Nat.ltb_spec (2 * d + 1) (length a)) as [Lo|Lo]; [lia|]. cbn [obind].
    destruct (up_max a1 b d) as (a3 & -> & Le3 & P3 & V3); auto; try lia. cbn [obind].
    rewrite (up_min_noop a3 b (2 * d)) by (auto; lia).
    exists a3. split; [auto|]. split; [lia|]. split; [now rewrite P3, P1|auto].
Qed.

(** ** The operations *)
Definition inv (a : list T) : Prop := valid 0 a.

Lemma R0 y : R 0 y.
Proof.
  change 0 with (2 * 0). destruct (pos_cases y) as [d [->| ->]]; rewrite ?R_ee, ?R_eo; [|left]; apply anc_root.
Qed.
Lemma R1 x : R x 1.
Proof.
  change 1 with (2 * 0 + 1). destruct (pos_cases x) as [d [->| ->]]; rewrite ?R_oo, ?R_eo; [right|]; apply anc_root.
Qed.

Lemma inv_max a : inv a -> 0 < length a -> exists x, dq_max a = Some x /\ greatest ltb x a.
Proof.
  intros V L. unfold dq_max. destruct (@get_lt _ a 0 L) as (x & G). exists x. split; [auto|]. split; [eapply nth_error_In; eauto|].
  intros y Hy. apply In_nth_error in Hy as (i & Gi). exact (V 0 i x y ltac:(lia) ltac:(lia) G Gi (R0 i)).
Qed.
Lemma inv_min a : inv a -> 0 < length a -> exists x, dq_min a = Some x /\ least ltb x a.
Proof.
  intros V L. unfold dq_min. destruct (Nat.ltb_spec 1 (length a)) as [L1|L1].
  - destruct (@get_lt _ a 1 L1) as (x & G). exists x. split; [auto|]. split; [eapply nth_error_In; eauto|].
    intros y Hy. apply In_nth_error in Hy as (i & Gi). exact (V i 1 y x ltac:(lia) ltac:(lia) Gi G (R1 i)).
  - destruct a as [|x [|z a]]; cbn in L, L1; try lia. exists x. split; [auto|]. split; [now left|].
    intros y [<-|[]]. apply (wo_irrefl _ W).
Qed.

Lemma get_app1 (a : list T) x i : i < length a -> get (a ++ [x]) i = get a i.
Proof. intros. unfold get. now rewrite nth_error_app1. Qed.
Lemma get_app_last (a : list T) x : get (a ++ [x]) (length a) = Some x.
Proof. unfold get. rewrite nth_error_app2, Nat.sub_diag; auto. Qed.

(** A fresh last element. *)
Lemma push_ve a x : inv a -> forall i j u w, i <> length a -> j <> length a ->
  get (a ++ [x]) i = Some u -> get (a ++ [x]) j = Some w -> R i j -> wle w u.
Proof.
  intros V i j u w Ni Nj Gi Gj K.
  pose proof (get_some_lt _ _ Gi) as Li. pose proof (get_some_lt _ _ Gj) as Lj. rewrite app_length in Li, Lj. cbn in Li, Lj.
  rewrite get_app1 in Gi, Gj by lia. exact (V i j u w ltac:(lia) ltac:(lia) Gi Gj K).
Qed.

Lemma push_ok a x : inv a -> exists a', dq_push ltb a x = Some a' /\ Permutation a' (x :: a) /\ inv a'.
Proof.
  intros V. unfold dq_push.
  assert (Pm : Permutation (a ++ [x]) (x :: a)) by (symmetry; apply Permutation_cons_append).
  pose proof (push_ve a x V) as Ve. pose proof (get_app_last a x) as Gx.
  set (a0 := a ++ [x]) in *. assert (La : length a0 = length a + 1) by (unfold a0; rewrite app_length; reflexivity).
  destruct (pos_cases (length a)) as [c [Ec|Ec]]; rewrite Ec in *.
  - (* the new element is alone in its node *)
    destruct (Nat.eq_dec c 0) as [->|N].
    + destruct (heapify_e a0 false 0) as (a' & E & Le & P & V'); cbn iota; [lia| |].
      * split; intros i; intros; [|]; repeat match goal with H : get _ i = Some _ |- _ => apply get_some_lt in H end; lia.
      * exists a'. split; [auto|]. split; [now rewrite P|auto].
    + unfold heapify. rewrite odd_e. unfold max_heap_down, heap_down. rewrite Nat.add_1_r. cbn [loop]. rewrite left_e, La.
      destruct (Nat.ltb_spec (2 * (2 * c + 1)) (2 * c + 1)); [lia|]. cbn [obind].
      unfold heap_leaf. rewrite odd_of_e, La. destruct (Nat.ltb_spec (2 * c + 1) (2 * c + 1)); [lia|]. cbn [obind].
      pose proof (par_lt c ltac:(lia)) as Pc. pose proof (anc_par c ltac:(lia)) as Ap.
      destruct (@get_lt _ a0 (2 * par c) ltac:(lia)) as (p & Gp).
      destruct (ltb p x) eqn:C.
      * assert (H' : hole' 0 a0 (2 * c)).
        { split.
          - intros i j u w _ _ Ni Nj Gi Gj K. exact (Ve j i w u Nj Ni Gj Gi K).
          - intros i u v _ Ni Gi Gv K. rewrite Gx in Gv. injection Gv as <-.
            change (wle u x). apply (wle_trans _ _ W u p x); [|now apply wlt_le].
            apply (Ve (2 * par c) i p u); auto; try lia.
            pose proof (get_some_lt _ _ Gi) as Li. unfold R' in K.
            destruct (pos_cases i) as [e [->| ->]]; [rewrite R_ee in K; apply anc_le in K; lia|].
            rewrite R_eo in *. destruct K as [K|K]; [apply anc_le in K; lia|].
            right. apply (anc_up e (par c) c K); [lia|]. apply par_eq. lia. }
        destruct (up_max a0 0 c) as (a1 & -> & Le1 & P1 & V1); auto; try lia. cbn [obind].
        rewrite (up_min_noop a1 0 (2 * c)) by (auto; lia). exists a1. split; [auto|]. split; [now rewrite P1|auto].
      * assert (H' : hole 0 a0 (2 * c)).
        { split.
          - intros i j u w _ _ Ni Nj Gi Gj K. exact (Ve i j u w Ni Nj Gi Gj K).
          - intros i u v _ Ni Gi Gv K. rewrite Gx in Gv. injection Gv as <-.
            destruct (R_up_e c i K Ni) as (_ & K1 & _).
            apply (wle_trans _ _ W x p u); [exact C|].
            destruct (Nat.eq_dec i (2 * par c)) as [->|Nn]; [rewrite Gp in Gi; injection Gi as <-; now apply wle_refl|].
            apply (Ve i (2 * par c) u p); auto; lia. }
        rewrite (up_max_noop a0 0 (2 * c)) by (auto; lia). cbn [obind].
        destruct (up_min a0 0 (2 * c)) as (a1 & E1 & Le1 & P1 & V1); auto; try lia.
        exists a1. split; [auto|]. split; [now rewrite P1|auto].
  - (* it completes a node *)
    unfold heapify. rewrite odd_o. unfold min_heap_down, heap_down. rewrite Nat.add_1_r. cbn [loop]. rewrite left_o, La.
    destruct (Nat.ltb_spec (2 * (2 * c + 1) + 1) (2 * c + 1 + 1)); [lia|]. cbn [obind].
    unfold heap_leaf. rewrite odd_of_o, even_of_o, sib_o, La. destruct (Nat.ltb_spec (2 * c + 1) (2 * c + 1 + 1)); [|lia].
    destruct (@get_lt _ a0 (2 * c) ltac:(lia)) as (p & Gp). rewrite Gp, Gx. cbn [obind].
    assert (Hlt : forall i u, get a0 i = Some u -> i <= 2 * c + 1) by (intros i u G; apply get_some_lt in G; lia).
    assert (Hu : forall i u, i <> 2 * c + 1 -> get a0 i = Some u -> R i (2 * c + 1) -> R i (2 * c)).
    { intros i u Ni Gi K. apply Hlt in Gi. destruct (R_leaf_o c i K Ni); [auto|lia]. }
    assert (Hd : forall i u, i <> 2 * c -> get a0 i = Some u -> R (2 * c) i -> R (2 * c + 1) i).
    { intros i u Ni Gi K. apply Hlt in Gi. destruct (R_leaf_e c i K Ni); [auto|lia]. }
    destruct (ltb p x) eqn:C.
    + destruct (swap_ok T a0 (2 * c + 1) (2 * c) x p Gx Gp ltac:(lia)) as (a1 & -> & Le1 & P1 & G1 & G2 & F). cbn [obind].
      assert (H' : hole' 0 a1 (2 * c)).
      { assert (Gu : forall i u, i <> 2 * c -> get a1 i = Some u -> (i = 2 * c + 1 /\ u = p) \/ (i <> 2 * c + 1 /\ get a0 i = Some u)).
        { intros i u Ni Gi. destruct (Nat.eq_dec i (2 * c + 1)) as [->|N]; [left; split; auto; congruence|right; split; auto]. rewrite <- F; auto. }
        split.
        - intros i j u w _ _ Ni Nj Gi Gj K. change (wle u w). unfold R' in K.
          destruct (Gu i u Ni Gi) as [[-> ->]|[Ni2 Gi2]], (Gu j w Nj Gj) as [[-> ->]|[Nj2 Gj2]].
          + now apply wle_refl.
          + apply (Ve j (2 * c) w p); auto; try lia. eapply Hu; eauto.
          + apply (Ve (2 * c) i p u); auto; try lia.
            apply (R_trans _ (2 * c + 1)); auto. rewrite R_eo. left. constructor.
          + apply (Ve j i w u); auto.
        - intros i u v _ Ni Gi Gv K. rewrite G2 in Gv. injection Gv as <-. change (wle u x). unfold R' in K.
          apply (wle_trans _ _ W u p x); [|now apply wlt_le].
          destruct (Gu i u Ni Gi) as [[-> ->]|[Ni2 Gi2]]; [now apply wle_refl|].
          apply (Ve (2 * c) i p u); auto; lia. }
      destruct (up_max a1 0 c) as (a2 & -> & Le2 & P2 & V2); auto; try lia. cbn [obind].
      rewrite (up_min_noop a2 0 (2 * c)) by (auto; lia). exists a2. split; [auto|]. split; [now rewrite P2, P1|auto].
    + assert (H' : hole 0 a0 (2 * c + 1)).
      { split.
        - intros i j u w _ _ Ni Nj Gi Gj K. exact (Ve i j u w Ni Nj Gi Gj K).
        - intros i u v _ Ni Gi Gv K. rewrite Gx in Gv. injection Gv as <-.
          apply (wle_trans _ _ W x p u); [exact C|].
          destruct (Nat.eq_dec i (2 * c)) as [->|Nn]; [rewrite Gp in Gi; injection Gi as <-; now apply wle_refl|].
          apply (Ve i (2 * c) u p); auto; try lia. eapply Hu; eauto. }
      cbn [obind]. rewrite (up_max_noop a0 0 (2 * c + 1)) by (auto; lia). cbn [obind].
      destruct (up_min a0 0 (2 * c + 1)) as (a1 & E1 & Le1 & P1 & V1); auto; try lia; eauto.
      exists a1. split; [auto|]. split; [now rewrite P1|auto].
Qed.

Lemma drop_last (a : list T) z : get a (length a - 1) = Some z -> exists r, a = r ++ [z] /\ removelast a = r.
Proof.
  intros G. destruct (@exists_last _ a) as (r & y & ->).
  - intros ->. discriminate.
  - exists r. rewrite app_length in G. cbn in G. replace (length r + 1 - 1) with (length r) in G by lia.
    rewrite get_app_last in G. injection G as ->. split; auto. apply removelast_last.
Qed.

Lemma pop_max_ok a : inv a -> 0 < length a ->
  exists x a', dq_pop_max ltb a = Some a' /\ greatest ltb x a /\ Permutation a (x :: a') /\ inv a'.
Proof.
  intros V L. unfold dq_pop_max. destruct (Nat.eqb_spec (length a) 0); [lia|]. cbn [negb guard obind].
  destruct (inv_max a V L) as (x & Gx & Mx). unfold dq_max in Gx.
  destruct (Nat.eq_dec (length a) 1) as [E1|E1].
  { destruct a as [|y [|z a]]; cbn in E1; try lia. cbn in Gx. injection Gx as ->. exists x, [].
    split; [reflexivity|]. split; [auto|]. split; [auto|]. intros i j u w _ _ G. destruct i; discriminate. }
  destruct (@get_lt _ a (length a - 1) ltac:(lia)) as (z & Gz).
  destruct (swap_ok T a 0 (length a - 1) x z Gx Gz ltac:(lia)) as (a1 & -> & Le1 & P1 & G1 & G2 & F). cbn [obind].
  rewrite <- Le1 in G2. destruct (drop_last a1 x G2) as (r & Er & ->).
  assert (Lr : length r + 1 = length a) by (rewrite <- Le1, Er, app_length; reflexivity).
  destruct (Nat.ltb_spec 0 (length r)) as [L0|L0]; [|lia].
  assert (Fr : forall i u, i <> 0 -> get r i = Some u -> get a i = Some u).
  { intros i u Ni G. pose proof (get_some_lt _ _ G). rewrite <- F by lia. rewrite Er. rewrite get_app1; auto. }
  change 0 with (2 * 0) at 1.
  destruct (heapify_e r false 0) as (a2 & E2 & Le2 & P2 & V2); [lia| |].
  { split.
    - intros i j u w _ _ Ni Nj Gi Gj K. apply (V i j u w); auto; lia.
    - intros i u v _ Ni Gi _ K. exfalso. destruct (pos_cases i) as [e [->| ->]].
      + rewrite R_ee in K. apply anc_le in K. lia.
      + now rewrite R_oe in K. }
  rewrite E2. exists x, a2. split; [auto|]. split; [auto|]. split; [|auto].
  rewrite <- P1, Er, P2. symmetry. apply Permutation_cons_append.
Qed.

Lemma pop_min_ok a : inv a -> 0 < length a ->
  exists x a', dq_pop_min ltb a = Some a' /\ least ltb x a /\ Permutation a (x :: a') /\ inv a'.
Proof.
  intros V L. unfold dq_pop_min. destruct (Nat.eqb_spec (length a) 0); [lia|]. cbn [negb guard obind].
  destruct (inv_min a V L) as (x & Gx & Mx). unfold dq_min in Gx.
  destruct (Nat.eqb_spec (length a) 1) as [E1|E1].
  { destruct a as [|y [|z a]]; cbn in E1; try lia. cbn in Gx. injection Gx as ->. exists x, [].
    split; [reflexivity|]. split; [auto|]. split; [auto|]. intros i j u w _ _ G. destruct i; discriminate. }
  destruct (Nat.ltb_spec 1 (length a)) as [L1|L1]; [|lia].
  destruct (Nat.eq_dec (length a) 2) as [E2|E2].
  { destruct a as [|y [|z [|? ?]]]; cbn in E2; try lia. cbn in Gx. injection Gx as ->. exists x, [y].
    split; [reflexivity|]. split; [auto|]. split; [apply perm_swap|].
    intros i j u w _ _ Gi Gj _. destruct i as [|[|i]]; try discriminate. destruct j as [|[|j]]; try discriminate.
    cbn in Gi, Gj. injection Gi as ->. injection Gj as ->. now apply wle_refl. }
  destruct (@get_lt _ a (length a - 1) ltac:(lia)) as (z & Gz).
  destruct (swap_ok T a 1 (length a - 1) x z Gx Gz ltac:(lia)) as (a1 & -> & Le1 & P1 & G1 & G2 & F). cbn [obind].
  rewrite <- Le1 in G2. destruct (drop_last a1 x G2) as (r & Er & ->).
  assert (Lr : length r + 1 = length a) by (rewrite <- Le1, Er, app_length; reflexivity).
  destruct (Nat.ltb_spec 1 (length r)) as [L0|L0]; [|lia].
  assert (Fr : forall i u, i <> 1 -> get r i = Some u -> get a i = Some u).
  { intros i u Ni G. pose proof (get_some_lt _ _ G). rewrite <- F by lia. rewrite Er. rewrite get_app1; auto. }
  assert (G1r : get r 1 = Some z) by (rewrite <- G1, Er, get_app1; auto).
  change 1 with (2 * 0 + 1) at 1.
  destruct (heapify_o r false 0) as (a2 & E3 & Le2 & P2 & V2); [lia| | |discriminate|].
  { split.
    - intros i j u w _ _ Ni Nj Gi Gj K. apply (V j i w u); auto; lia.
    - intros i u v _ Ni Gi _ K. exfalso. unfold R' in K. destruct (pos_cases i) as [e [->| ->]].
      + now rewrite R_oe in K.
      + rewrite R_oo in K. apply anc_le in K. lia. }
  { intros f v s Ef Gv Gs. change (2 * 0 + 1) with 1 in Gv. rewrite G1r in Gv. injection Gv as <-.
    apply Fr in Gs; [|lia]. replace (length a - 1) with (2 * (2 * f + 1) + 1) in Gz by lia.
    replace (length r - 1) with (2 * (2 * f + 1)) in Gs by lia.
    apply (V (2 * (2 * f + 1)) (2 * (2 * f + 1) + 1) s z); auto; try lia. rewrite R_eo. left. constructor. }
  rewrite E3. exists x, a2. split; [auto|]. split; [auto|]. split; [|auto].
  rewrite <- P1, Er, P2. symmetry. apply Permutation_cons_append.
Qed.

Lemma range_ok xs : length xs mod 4 <> 3 -> exists a, dq_range ltb xs = Some a /\ Permutation a xs /\ inv a.
Proof.
  intros M. unfold dq_range. destruct (Nat.leb_spec (length xs) 1) as [L1|L1].
  { exists xs. split; [auto|]. split; [auto|]. intros i j u w _ _ Gi Gj _.
    pose proof (get_some_lt _ _ Gi). pose proof (get_some_lt _ _ Gj). replace j with i in Gj by lia.
    rewrite Gi in Gj. injection Gj as ->. now apply wle_refl. }
  destruct (Nat.eqb_spec (length xs) 2) as [E2|E2].
  { destruct xs as [|x [|y [|? ?]]]; cbn in E2; try lia. cbn [get nth_error obind].
    assert (K : forall p q, ltb p q = false -> inv [p; q]).
    { intros p q C i j u w _ _ Gi Gj K. destruct i as [|[|[|i]]], j as [|[|[|j]]]; cbn in Gi, Gj; try discriminate;
        injection Gi as <-; injection Gj as <-; auto using wle_refl.
      change (R (2 * 0 + 1) (2 * 0)) in K. now rewrite R_oe in K. }
    destruct (ltb x y) eqn:C.
    - exists [y; x]. split; [reflexivity|]. split; [apply perm_swap|]. apply K. now apply wo_asym.
    - exists [x; y]. auto. }
  match goal with |- context [for_down _ _ ?bd _] => set (body := bd) end.
  destruct (@for_down_rule _ (fun i a => length a = length xs /\ Permutation a xs /\ valid i a) body 0 (length xs) xs) as (a & E & _ & P & V).
  - split; [auto|]. split; [auto|]. intros i j u w Bi _ Gi. apply get_some_lt in Gi. lia.
  - intros i a1 Hi (Le & P & V). unfold body. destruct (pos_cases i) as [c [->| ->]].
    + rewrite odd_e. cbn [obind].
      destruct (heapify_e a1 true c) as (a2 & E & Le2 & P2 & V2); [lia| |].
      { split.
        - intros x y u w Bx By Nx Ny Gx Gy K. apply (V x y u w); auto; lia.
        - intros x u v Bx Nx Gx _ K. exfalso. destruct (pos_cases x) as [e [->| ->]].
          + rewrite R_ee in K. apply anc_le in K. lia.
          + now rewrite R_oe in K. }
      exists a2. split; [auto|]. split; [lia|]. split; [now rewrite P2|auto].
    + rewrite odd_o. replace (2 * c + 1 - 1) with (2 * c) by lia.
      destruct (@get_lt _ a1 (2 * c) ltac:(lia)) as (p & Gp). destruct (@get_lt _ a1 (2 * c + 1) ltac:(lia)) as (q & Gq).
      rewrite Gp, Gq. cbn [obind].
      assert (exists a2 p' q', (if ltb p q then swap a1 (2 * c) (2 * c + 1) else Some a1) = Some a2 /\ length a2 = length a1 /\
        Permutation a2 a1 /\ get a2 (2 * c) = Some p' /\ get a2 (2 * c + 1) = Some q' /\ ltb p' q' = false /\
        (forall x, x <> 2 * c -> x <> 2 * c + 1 -> get a2 x = get a1 x)) as (a2 & p' & q' & -> & Le2 & P2 & Gp' & Gq' & C & F).
      { destruct (ltb p q) eqn:C.
        - destruct (swap_ok T a1 (2 * c) (2 * c + 1) p q Gp Gq ltac:(lia)) as (a2 & -> & Le2 & P2 & G1 & G2 & F).
          exists a2, q, p. repeat (split; [now auto|]). split; [now apply wo_asym|auto].
        - exists a1, p, q. repeat (split; [now auto|]). auto. }
      cbn [obind].
      destruct (heapify_o a2 true c) as (a3 & E & Le3 & P3 & V3); [lia| | | |].
      { split.
        - intros x y u w Bx By Nx Ny Gx Gy K. rewrite F in Gx, Gy by lia. apply (V y x w u); auto; lia.
        - intros x u v Bx Nx Gx _ K. exfalso. unfold R' in K. destruct (pos_cases x) as [e [->| ->]].
          + now rewrite R_oe in K.
          + rewrite R_oo in K. apply anc_le in K. lia. }
      { intros f v s Ef. exfalso. apply M. rewrite <- Le, <- Le2, Ef, Nat.add_comm, Nat.mul_comm, Nat.mod_add; [reflexivity|lia]. }
      { intros _ x v Gx Gv. rewrite Gp' in Gx. rewrite Gq' in Gv. injection Gx as <-. injection Gv as <-. exact C. }
      exists a3. split; [auto|]. split; [lia|]. split; [now rewrite P3, P2|auto].
  - exists a. auto.
Qed.

(** ** Whole programs *)
Lemma greatest_perm x l l' : Permutation l l' -> greatest ltb x l -> greatest ltb x l'.
Proof.
  intros P [H1 H2]. split; [now apply (Permutation_in _ P)|]. intros y Hy. apply H2. now apply (Permutation_in _ (Permutation_sym P)).
Qed.
Lemma least_perm x l l' : Permutation l l' -> least ltb x l -> least ltb x l'.
Proof.
  intros P [H1 H2]. split; [now apply (Permutation_in _ P)|]. intros y Hy. apply H2. now apply (Permutation_in _ (Permutation_sym P)).
Qed.

Lemma run_ok ops : forall a l, inv a -> Permutation a l -> legal (length l) ops ->
  exists rs a', run ltb a ops = Some (rs, a') /\ spec_run ltb l ops rs.
Proof.
  induction ops as [|o ops IH]; intros a l V P Lg; cbn [run].
  - exists [], a. split; [auto|constructor].
  - pose proof (Permutation_length P) as Len.
    assert (St : exists r a1 l1, step ltb a o = Some (r, a1) /\ inv a1 /\ Permutation a1 l1 /\ spec ltb l o r l1 /\ legal (length l1) ops).
    { destruct o; cbn [step legal] in *.
      - destruct (push_ok a x V) as (a1 & -> & P1 & V1). cbn [obind]. exists (ONone T), a1, (x :: l).
        split; [auto|]. split; [auto|]. split; [now rewrite P1, P|]. split; [constructor|]. cbn [length]. now rewrite <- Nat.add_1_r.
      - destruct Lg as [L0 Lg]. destruct (pop_min_ok a V ltac:(lia)) as (x & a1 & -> & Mx & P1 & V1). cbn [obind].
        assert (P2 : Permutation l (x :: a1)) by (now rewrite <- P).
        exists (ONone T), a1, a1. split; [auto|]. split; [auto|]. split; [auto|]. split; [econstructor; eauto using least_perm|].
        apply Permutation_length in P2. cbn in P2. now replace (length a1) with (length l - 1) by lia.
      - destruct Lg as [L0 Lg]. destruct (pop_max_ok a V ltac:(lia)) as (x & a1 & -> & Mx & P1 & V1). cbn [obind].
        assert (P2 : Permutation l (x :: a1)) by (now rewrite <- P).
        exists (ONone T), a1, a1. split; [auto|]. split; [auto|]. split; [auto|]. split; [econstructor; eauto using greatest_perm|].
        apply Permutation_length in P2. cbn in P2. now replace (length a1) with (length l - 1) by lia.
      - destruct Lg as [L0 Lg]. destruct (inv_min a V ltac:(lia)) as (x & -> & Mx). cbn [obind].
        exists (OVal x), a, l. split; [auto|]. split; [auto|]. split; [auto|]. split; [constructor; eauto using least_perm|auto].
      - destruct Lg as [L0 Lg]. destruct (inv_max a V ltac:(lia)) as (x & -> & Mx). cbn [obind].
        exists (OVal x), a, l. split; [auto|]. split; [auto|]. split; [auto|]. split; [constructor; eauto using greatest_perm|auto].
      - exists (ONum T (length l)), a, l. unfold dq_size. rewrite Len. split; [auto|]. split; [auto|]. split; [auto|]. split; [constructor|auto].
      - exists (OBool T (length l =? 0)), a, l. unfold dq_empty, dq_size. rewrite Len. split; [auto|]. split; [auto|]. split; [auto|]. split; [constructor|auto].
      - exists (ONone T), [], []. split; [auto|]. split; [|split; [auto|split; [constructor|auto]]].
        intros i j u w _ _ G. destruct i; discriminate. }
    destruct St as (r & a1 & l1 & -> & V1 & P1 & S1 & Lg1). cbn [obind].
    destruct (IH a1 l1 V1 P1 Lg1) as (rs & a2 & -> & S2). cbn [obind].
    exists (r :: rs), a2. split; [auto|]. econstructor; eauto.
Qed.
End Heap.
