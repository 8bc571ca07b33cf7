(** Properties C03 and C04: fenwick_tree.hpp.
    The bound 2^61 on the size keeps [size_t] index arithmetic from wrapping. *)
From Verif Require Import Base BaseLemmas FenwickModel FenwickProof.
From Coq Require Import NArith ZifyN.

Theorem C03_fenwick_sums : forall A (plus minus : A -> A -> A) zero, agroup_laws plus minus zero ->
  forall (xs : list A) (h : list (nat * A)),
  (Z.of_nat (length xs) < 2^61)%Z ->
  (forall i x, In (i, x) h -> i < length xs) ->
  exists t0 t, fw_build plus zero xs = Some t0 /\ fw_adds plus t0 h = Some t /\
    (forall i, i < length xs ->
       fw_sum plus zero t i = Some (lsum plus zero (slice 0 (S i) (list_adds plus xs h)))) /\
    (forall l r, l <= r -> r <= length xs ->
       fw_range_sum plus minus zero t l r = Some (lsum plus zero (slice l r (list_adds plus xs h)))).
Proof.
  intros A plus minus zero G xs h Hn Hh.
  destruct (build_correct G xs) as (t0 & E0 & R0). { unfold small. lia. }
  destruct (adds_correct G h R0 Hh) as (t & E & R).
  exists t0, t. repeat split; auto.
  - intros i Hi. apply (sum_correct G R). rewrite list_adds_length. auto.
  - intros l r Hl Hr. apply (range_sum_correct G R); auto. rewrite list_adds_length. auto.
Qed.
Print Assumptions C03_fenwick_sums.

Theorem C03_fenwick_sized : forall A (plus minus : A -> A -> A) zero, agroup_laws plus minus zero ->
  forall n (h : list (nat * A)),
  (Z.of_nat n < 2^61)%Z ->
  (forall i x, In (i, x) h -> i < n) ->
  exists t, fw_adds plus (fw_new zero n) h = Some t /\
    (forall i, i < n ->
       fw_sum plus zero t i = Some (lsum plus zero (slice 0 (S i) (list_adds plus (repeat zero n) h)))) /\
    (forall l r, l <= r -> r <= n ->
       fw_range_sum plus minus zero t l r = Some (lsum plus zero (slice l r (list_adds plus (repeat zero n) h)))).
Proof.
  intros A plus minus zero G n h Hn Hh.
  destruct (adds_correct G h (rep_new G n ltac:(unfold small; lia))) as (t & E & R).
  { rewrite repeat_length. auto. }
  exists t. repeat split; auto.
  - intros i Hi. apply (sum_correct G R). rewrite list_adds_length, repeat_length. auto.
  - intros l r Hl Hr. apply (range_sum_correct G R); auto. rewrite list_adds_length, repeat_length. auto.
Qed.
Print Assumptions C03_fenwick_sized.

(** The linear-time constructor builds the very array that [n] calls of
    [add] on an empty tree build. *)
Theorem C03_fenwick_build_is_adds : forall A (plus minus : A -> A -> A) zero, agroup_laws plus minus zero ->
  forall xs : list A, (Z.of_nat (length xs) < 2^61)%Z ->
  exists t, fw_build plus zero xs = Some t /\
    fw_adds plus (fw_new zero (length xs)) (combine (seq 0 (length xs)) xs) = Some t.
Proof. intros. eapply build_is_adds; eauto. Qed.
Print Assumptions C03_fenwick_build_is_adds.

Theorem C04_fenwick_lower_bound : forall (xs : list Z) (h : list (nat * Z)) (target : Z),
  (Z.of_nat (length xs) < 2^61)%Z ->
  (forall i x, In (i, x) h -> i < length xs) ->
  (forall v, In v (list_adds Z.add xs h) -> (0 <= v)%Z) ->
  exists t0 t i, fw_build Z.add 0%Z xs = Some t0 /\ fw_adds Z.add t0 h = Some t /\
    fw_lower_bound Z.add 0%Z Z.ltb t target = Some i /\ i <= length xs /\
    (forall j, j < i -> (lsum Z.add 0 (slice 0 (S j) (list_adds Z.add xs h)) < target)%Z) /\
    (i < length xs -> (target <= lsum Z.add 0 (slice 0 (S i) (list_adds Z.add xs h)))%Z).
Proof.
  intros xs h x Hn Hh Pos.
  destruct (build_correct Z_group xs) as (t0 & E0 & R0). { unfold small. lia. }
  destruct (adds_correct Z_group h R0 Hh) as (t & E & R).
  destruct (lower_bound_correct x R Pos) as (i & Ei & Hi & H1 & H2).
  rewrite list_adds_length in Hi, H2.
  exists t0, t, i. auto 10.
Qed.
Print Assumptions C04_fenwick_lower_bound.

(** Non-vacuity. *)
Example C03_example :
  (let* t := fw_build Z.add 0%Z [3;1;4;1;5;9;2]%Z in
   let* t := fw_adds Z.add t [(2, 10%Z); (6, (-5)%Z)] in
   let* a := fw_sum Z.add 0%Z t 4 in
   let* b := fw_range_sum Z.add Z.sub 0%Z t 2 7 in Some (a, b)) = Some (24, 26)%Z.
Proof. reflexivity. Qed.
Example C04_example :
  (let* t := fw_build Z.add 0%Z [3;1;0;0;5]%Z in
   let* a := fw_lower_bound Z.add 0%Z Z.ltb t 4%Z in
   let* b := fw_lower_bound Z.add 0%Z Z.ltb t 5%Z in
   let* c := fw_lower_bound Z.add 0%Z Z.ltb t 10%Z in Some (a, b, c)) = Some (1, 4, 5).
Proof. reflexivity. Qed.
