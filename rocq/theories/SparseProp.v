(** Properties C09, C10 and C11: the sparse tables. *)
From Verif Require Import Base BaseLemmas Array2 SparseModel SparseSpec SparseProof DualSparseProof.

(** [sfold op xs] is [x_0 op x_1 op ...], [None] only for the empty list. *)
Theorem C09_sparse_table : forall A (op : A -> A -> A) (dflt : A),
  (forall x y z, op x (op y z) = op (op x y) z) -> (forall x, op x x = x) ->
  forall xs : list A, 0 < length xs ->
  exists t, sp_build op dflt xs = Some t /\
    forall l r, l < r -> r <= length xs ->
      exists v, sp_query op t l r = Some v /\ sfold op (slice l r xs) = Some v.
Proof.
  intros A op dflt assoc idem xs Hn.
  destruct (sp_build_ok op dflt assoc xs Hn) as (t & E & I).
  exists t. split; auto. intros l r Hl Hr.
  rewrite (sp_query_ok dflt assoc idem I Hl Hr).
  destruct (@sfold_some A op (slice l r xs)) as (v & Ev). { apply slice_nonempty; auto. }
  exists v. auto.
Qed.
Print Assumptions C09_sparse_table.

Example C09_case : (let* t := sp_build Nat.max 0 [3; 1; 4; 1; 5; 9; 2] in sp_query Nat.max t 0 5) = Some 5
  /\ sfold Nat.max (slice 0 5 [3; 1; 4; 1; 5; 9; 2]) = Some 5.
Proof. vm_compute. auto. Qed.

Theorem C10_disjoint_sparse_table : forall A (op : A -> A -> A) (dflt : A),
  (forall x y z, op x (op y z) = op (op x y) z) ->
  forall xs : list A, 0 < length xs ->
  exists t, dj_build op dflt xs = Some t /\
    forall l r, l < r -> r <= length xs ->
      exists v, dj_query op t l r = Some v /\ sfold op (slice l r xs) = Some v.
Proof.
  intros A op dflt assoc xs Hn.
  destruct (dj_query_ok op dflt assoc xs Hn) as (t & E & H).
  exists t. split; auto. intros l r Hl Hr. rewrite (H l r Hl Hr).
  destruct (@sfold_some A op (slice l r xs)) as (v & Ev). { apply slice_nonempty; auto. }
  exists v. auto.
Qed.
Print Assumptions C10_disjoint_sparse_table.

(** List concatenation: a non-commutative, non-idempotent operation. *)
Example C10_case : (let* t := dj_build (@app nat) [] [[3]; [1]; [4]; [1]; [5]] in dj_query (@app nat) t 1 5) = Some [1; 4; 1; 5].
Proof. vm_compute. auto. Qed.

(** [covering i h] is the list of the operators of the calls [(l, r, a)] of
    [h] with [l <= i < r]. *)
Theorem C11_dual_sparse_table : forall A (op : A -> A -> A) (e : A), cmonoid_laws op e ->
  (forall x, op x x = x) ->
  forall (xs : list A) (h : list (nat * nat * A)), 0 < length xs ->
  (forall l r a, In (l, r, a) h -> r <= length xs) ->
  exists t0 t1 t, ds_init e xs = Some t0 /\ ds_applies op t0 h = Some t1 /\ ds_build op (length xs) t1 = Some t /\
    forall i x, get xs i = Some x -> ds_get t i = Some (fold_left op (covering i h) x).
Proof.
  intros A op e C idem xs h Hn Hh.
  destruct (ds_init_ok C idem xs Hn) as (t0 & E0 & I0).
  destruct (ds_applies_ok C idem h I0 Hh) as (t1 & E1 & I1).
  destruct (@ds_build_ok A op e C idem xs t1 _ Hn I1) as (t & E & H).
  exists t0, t1, t. auto.
Qed.
Print Assumptions C11_dual_sparse_table.

Theorem C11_dual_sparse_table_sized : forall A (op : A -> A -> A) (e : A), cmonoid_laws op e ->
  (forall x, op x x = x) ->
  forall (n : nat) (h : list (nat * nat * A)), 0 < n ->
  (forall l r a, In (l, r, a) h -> r <= n) ->
  exists t0 t1 t, ds_new e n = Some t0 /\ ds_applies op t0 h = Some t1 /\ ds_build op n t1 = Some t /\
    forall i, i < n -> ds_get t i = Some (fold_left op (covering i h) e).
Proof.
  intros A op e C idem n h Hn Hh.
  destruct (@C11_dual_sparse_table A op e C idem (repeat e n) h) as (t0 & t1 & t & E0 & E1 & E & H);
    rewrite ?repeat_length in *; auto.
  exists t0, t1, t. rewrite (ds_new_init op e idem n). split; auto. split; auto. split; auto.
  intros i Hi. apply H. apply get_repeat; auto.
Qed.
Print Assumptions C11_dual_sparse_table_sized.

Example C11_case : let h := [(0, 3, 4); (1, 5, 7); (2, 2, 100); (4, 5, 9)] in
  (let* t := ds_new 0 5 in let* t := ds_applies Nat.max t h in let* t := ds_build Nat.max 5 t in
   Some (map (ds_get t) [0; 1; 3; 4])) = Some [Some 4; Some 7; Some 7; Some 9]
  /\ map (fun i => fold_left Nat.max (covering i h) 0) [0; 1; 3; 4] = [4; 7; 7; 9].
Proof. vm_compute. auto. Qed.

Theorem C11_dual_disjoint_sparse_table : forall A (op : A -> A -> A) (e : A), cmonoid_laws op e ->
  forall (xs : list A) (h : list (nat * nat * A)), 0 < length xs ->
  (forall l r a, In (l, r, a) h -> r <= length xs) ->
  exists t0 t1 t, dd_init e xs = Some t0 /\ dd_applies op t0 h = Some t1 /\
    dd_build op e (bitlen (length xs - 1)) t1 = Some t /\
    forall i x, get xs i = Some x -> dd_get t i = Some (fold_left op (covering i h) x).
Proof.
  intros A op e C xs h Hn Hh.
  destruct (dd_init_ok C xs Hn) as (t0 & E0 & I0).
  destruct (dd_applies_ok C h I0 Hh) as (t1 & E1 & I1).
  destruct (@dd_build_ok A op e C xs t1 _ Hn I1) as (t & E & H).
  exists t0, t1, t. auto.
Qed.
Print Assumptions C11_dual_disjoint_sparse_table.

Theorem C11_dual_disjoint_sparse_table_sized : forall A (op : A -> A -> A) (e : A), cmonoid_laws op e ->
  forall (n : nat) (h : list (nat * nat * A)), 0 < n ->
  (forall l r a, In (l, r, a) h -> r <= n) ->
  exists t0 t1 t, dd_new e n = Some t0 /\ dd_applies op t0 h = Some t1 /\
    dd_build op e (bitlen (n - 1)) t1 = Some t /\
    forall i, i < n -> dd_get t i = Some (fold_left op (covering i h) e).
Proof.
  intros A op e C n h Hn Hh.
  destruct (@C11_dual_disjoint_sparse_table A op e C (repeat e n) h) as (t0 & t1 & t & E0 & E1 & E & H);
    rewrite ?repeat_length in *; auto.
  exists t0, t1, t. rewrite (dd_new_init e n). split; auto. split; auto. split; auto.
  intros i Hi. apply H. apply get_repeat; auto.
Qed.
Print Assumptions C11_dual_disjoint_sparse_table_sized.

Example C11_disjoint_case : let h := [(0, 3, 4); (1, 5, 7); (2, 2, 100); (4, 5, 9)] in
  (let* t := dd_new 0 5 in let* t := dd_applies Nat.add t h in let* t := dd_build Nat.add 0 (bitlen 4) t in
   Some (map (dd_get t) [0; 1; 3; 4])) = Some [Some 4; Some 11; Some 7; Some 16].
Proof. vm_compute. auto. Qed.
