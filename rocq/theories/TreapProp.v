(** Properties of the treap (treap.hpp): C40. *)
From Coq Require Import Sorting.Sorted.
From Verif Require Import TreapModel TreapRot TreapWalk TreapSearch TreapOps TreapWorld BaseLemmas ListExtra.

Lemma last_firstn {A} m : forall (l : list A) d, m < length l -> last (firstn (S m) l) d = nth m l d.
Proof.
  induction m as [|m IH]; intros [|a l] d Lm; cbn [length] in Lm; try lia; [reflexivity|]. specialize (IH l d ltac:(lia)). destruct l as [|b l]; [cbn in Lm; lia|]. change (nth (S m) (a :: b :: l) d) with (nth m (b :: l) d). rewrite <- IH. reflexivity.
Qed.

Section Treap.
Context {K : Type}.
Variable eqb ltb : K -> K -> bool.
Variable uniq : bool.
Notation th := (@th K).
Notation reach := (reach eqb ltb uniq).
Hypothesis OL : order_laws eqb ltb.
Variables (sp : bool) (H : th) (Ts : list tr) (i : nat) (T : tr).
Hypothesis (R : reach sp H Ts) (G : get Ts i = Some T).

(** Walking over a treap always ends and shows sorted keys, strictly sorted ones for a set. *)
Theorem C40_sorted : exists us xs, contents H T us xs /\ ordered ltb uniq xs /\ NoDup us /\ ~ In (t_end T) us.
Proof.
  destruct (reach_inv OL R) as (L & I). destruct (inv_at I G) as (t & xs & GL & Go). exists (ids t), xs. destruct T as [s z]. destruct Go as (O & S0 & _).
  split; [exact (contents_ok z (i_wf I) O)|]. split; [auto|]. split; [exact (nodup_t O)|exact (s_notin O)].
Qed.
Variables (us : list nat) (xs : list K).
Hypothesis C : contents H T us xs.
Theorem C40_unique us' xs' : contents H T us' xs' -> us' = us /\ xs' = xs.
Proof.
  intros C'. destruct (reach_inv OL R) as (L & I). destruct (at_contents I G C) as (t & GL & (O & _) & ->). destruct T as [s z]. exact (contents_inv (i_wf I) O C').
Qed.

(** insert: a new node at the place of its key, whatever the priority drawn; in a set an existing
    key is found instead. *)
Theorem C40_insert p x : (0 <= p)%Z -> exists H' T' v b, t_insert eqb ltb uniq H T p x = Some (H', T', v, b) /\ reach sp H' (lset Ts i T') /\ others H H' Ts i /\
  (let n := rank_le ltb x xs in
   if b then (uniq = true -> ~ In x xs) /\ ~ In v us /\ contents H' T' (firstn n us ++ v :: skipn n us) (firstn n xs ++ x :: skipn n xs)
   else uniq = true /\ T' = T /\ contents H' T us xs /\ exists n, get us n = Some v /\ get xs n = Some x).
Proof.
  intros Hp. destruct (reach_inv OL R) as (L & I). destruct (op_insert OL I G C x Hp) as (H' & T' & v & b & L' & E & I' & Ot & Hb). exists H', T', v, b. split; [exact E|]. split; [eapply reach_insert; eauto|]. split; [auto|]. cbv zeta. destruct b; tauto.
Qed.

(** erase(x): one element with that key disappears, or there was none. *)
Theorem C40_erase x : exists H' T' b, t_erase eqb ltb H T x = Some (H', T', b) /\ reach sp H' (lset Ts i T') /\ others H H' Ts i /\
  (if b then exists n, get xs n = Some x /\ contents H' T' (firstn n us ++ skipn (S n) us) (firstn n xs ++ skipn (S n) xs) else ~ In x xs /\ H' = H /\ T' = T).
Proof.
  destruct (reach_inv OL R) as (L & I). destruct (op_erase OL I G C x) as (H' & T' & b & L' & E & I' & Ot & Hb). exists H', T', b. split; [exact E|]. split; [eapply reach_erase; eauto|]. split; [auto|]. destruct b; [|auto]. destruct Hb as (n & A & B & _). eauto.
Qed.
(** erase(it): that element disappears and the next one is returned. *)
Theorem C40_erase_at n : n < length us -> exists H' T', t_erase_at H T (nth n us (t_end T)) = Some (H', T', nth (S n) us (t_end T)) /\ reach sp H' (lset Ts i T') /\ others H H' Ts i /\
  contents H' T' (firstn n us ++ skipn (S n) us) (firstn n xs ++ skipn (S n) xs).
Proof.
  intros Ln. destruct (reach_inv OL R) as (L & I). destruct (op_erase_at I G C Ln) as (H' & T' & L' & E & I' & Ot & C' & _). exists H', T'. split; [exact E|]. split; [|auto]. assert (Ln' : n <= length us) by lia. eapply reach_erase_at; eauto.
Qed.
Theorem C40_erase_end : t_erase_at H T (t_end T) = Some (H, T, t_end T).
Proof. unfold t_erase_at. now rewrite Nat.eqb_refl. Qed.
Theorem C40_clear : exists H' T', t_clear H T = Some (H', T') /\ reach sp H' (lset Ts i T') /\ others H H' Ts i /\ contents H' T' [] [] /\ t_size T' = 0%Z.
Proof.
  destruct (reach_inv OL R) as (L & I). destruct (op_clear I G C) as (H' & T' & L' & E & I' & Ot & C' & Z'). exists H', T'. split; [exact E|]. split; [eapply reach_clear; eauto|auto].
Qed.

(** The searches *)
Theorem C40_find x : exists v, t_find eqb ltb H T x = Some v /\ ((exists n, get us n = Some v /\ get xs n = Some x) \/ v = t_end T /\ ~ In x xs).
Proof. destruct (reach_inv OL R) as (L & I). exact (op_find OL I G C x). Qed.
Theorem C40_count x : exists c, t_count eqb ltb H T x = Some c /\ (c = 1 /\ In x xs \/ c = 0 /\ ~ In x xs).
Proof.
  destruct (reach_inv OL R) as (L & I). unfold t_count. destruct (C40_find x) as (v & -> & Hv). cbn [obind]. eexists. split; [reflexivity|]. destruct Hv as [(n & Ev & Ex)|[-> N]].
  - left. split; [|exact (get_In _ _ Ex)]. destruct (at_contents I G C) as (t & _ & (O & _) & E). assert (Nv : v <> t_end T) by (intros ->; apply (s_notin O); rewrite <- E; exact (get_In _ _ Ev)). apply Nat.eqb_neq in Nv. now rewrite Nv.
  - right. now rewrite Nat.eqb_refl.
Qed.
Theorem C40_lower_bound x : uniq = true -> t_lower_bound eqb ltb H T x = Some (nth (rank_lt ltb x xs) us (t_end T)).
Proof.
  intros U. destruct (reach_inv OL R) as (L & I). destruct (at_contents I G C) as (t & _ & (O & S0 & _) & ->). destruct T as [s z]. exact (lower_ok OL (i_wf I) O S0 x z U).
Qed.
Theorem C40_upper_bound x : t_upper_bound ltb H T x = Some (nth (rank_le ltb x xs) us (t_end T)).
Proof.
  destruct (reach_inv OL R) as (L & I). destruct (at_contents I G C) as (t & _ & (O & S0 & _) & ->). destruct T as [s z]. exact (upper_ok OL (i_wf I) O S0 x z).
Qed.
Theorem C40_predecessor x : t_predecessor ltb H T x = Some (if rank_lt ltb x xs =? 0 then t_end T else nth (rank_lt ltb x xs - 1) us (t_end T)).
Proof.
  destruct (reach_inv OL R) as (L & I). destruct (at_contents I G C) as (t & _ & (O & S0 & _) & ->). destruct T as [s z]. exact (pred_ok OL (i_wf I) O S0 x z).
Qed.
Theorem C40_empty : t_empty H T = Some (match xs with [] => true | _ => false end).
Proof.
  destruct (reach_inv OL R) as (L & I). destruct (at_contents I G C) as (t & _ & (O & S0 & _) & ->). destruct T as [s z]. cbn [sent] in O. unfold t_empty. rewrite (root_ok z O). cbn [obind]. pose proof (keys_len (o_keys O)) as Lk. destruct t as [|a v b]; cbn in Lk |- *; [destruct xs; [auto|discriminate]|]. rewrite app_length in Lk. cbn in Lk. destruct xs; [cbn in Lk; lia|auto].
Qed.

(** Walking: ++ and -- on the iterator of each position, -- on end(). *)
Theorem C40_iterate n : n <= length us ->
  t_begin H T = Some (nth 0 us (t_end T)) /\
  (n < length us -> t_next H (nth n us (t_end T)) = Some (nth (S n) us (t_end T)) /\ tkey_of H (nth n us (t_end T)) = get xs n) /\
  t_prev H (nth n us (t_end T)) = Some (match n with 0 => None | S m => get us m end).
Proof.
  intros Ln. destruct (reach_inv OL R) as (L & I). destruct (at_contents I G C) as (t & _ & (O & S0 & _) & E). destruct T as [s z]. cbn [sent] in O. unfold t_end. cbn [sent]. pose proof (i_wf I) as W.
  split; [rewrite (begin_ok z W O), <- E; now destruct us|]. split.
  - intros Ln'. destruct (@get_lt _ us n Ln') as [u Eu]. rewrite (nth_error_nth _ _ s Eu). pose proof Eu as Eu'. rewrite E in Eu'. destruct (nth_ctx O Eu') as (c & l & r & Et & E1 & E2). split.
    + rewrite (next_ok (xs := xs) W O Et), <- E2, hd_nth, <- E. reflexivity.
    + pose proof (o_keys O) as Ks. unfold keys in Ks. apply (f_equal (fun l => get l n)) in Ks. rewrite !get_map, Eu' in Ks. cbn in Ks. destruct (get xs n); cbn in Ks; congruence.
  - assert (Hl : forall m, m < length us -> last (firstn (S m) us) s = nth m us s) by (intros m; apply last_firstn).
    destruct (Nat.eq_dec n (length us)) as [->|N].
    + rewrite nth_overflow by auto. rewrite (prev_end W O), <- E. destruct us as [|u us'] eqn:Eus; [reflexivity|]. rewrite <- Eus in *. destruct (length us) as [|m] eqn:Em; [rewrite Eus in Em; discriminate|]. specialize (Hl m ltac:(lia)). rewrite <- Em, firstn_all in Hl. rewrite Hl. f_equal. symmetry. apply nth_error_nth'. lia.
    + destruct (@get_lt _ us n) as [u Eu]; [lia|]. rewrite (nth_error_nth _ _ s Eu). pose proof Eu as Eu'. rewrite E in Eu'. destruct (nth_ctx O Eu') as (c & l & r & Et & E1 & E2). rewrite (prev_ok (xs := xs) W O Et), <- E1, <- E. destruct n as [|m]; [reflexivity|]. specialize (Hl m ltac:(lia)). destruct (firstn (S m) us) eqn:Ef; [apply (f_equal (@length _)) in Ef; rewrite firstn_length in Ef; cbn [length] in Ef; lia|]. rewrite Hl. f_equal. symmetry. apply nth_error_nth'. lia.
Qed.

(** split: the elements before the iterator move to the treap returned. *)
Theorem C40_split n : sp = true -> n <= length us -> exists H' T' Q, t_split H T (nth n us (t_end T)) = Some (H', T', Q) /\ reach sp H' (lset Ts i T' ++ [Q]) /\ others H H' Ts i /\
  contents H' T' (skipn n us) (skipn n xs) /\ contents H' Q (firstn n us) (firstn n xs).
Proof.
  intros Sp Ln. destruct (reach_inv OL R) as (L & I). assert (Sp' : sp = false -> False) by congruence. destruct (op_split I G C Sp' Ln) as (H' & T' & Q & L' & E & I' & Ot & C1 & C2 & _). exists H', T', Q. split; [exact E|]. split; [eapply reach_split; eauto|auto].
Qed.
(** absorb: the smaller elements of another treap move to this one. *)
Theorem C40_absorb j Q vs ys : j <> i -> get Ts j = Some Q -> contents H Q vs ys -> (forall y x, In y ys -> In x xs -> ltb y x = true) ->
  exists H' T' Q', t_absorb ltb H T Q = Some (H', T', Q', hd (hd (t_end T) vs) us) /\ reach sp H' (lset (lset Ts i T') j Q') /\
  contents H' T' (vs ++ us) (ys ++ xs) /\ contents H' Q' [] [] /\ (forall k T0 us0 xs0, k <> i -> k <> j -> get Ts k = Some T0 -> contents H T0 us0 xs0 -> contents H' T0 us0 xs0).
Proof.
  intros N GQ CQ Lt. destruct (reach_inv OL R) as (L & I). assert (N' : i <> j) by auto. destruct (op_absorb OL I N' G GQ C CQ Lt) as (H' & T' & Q' & L' & E & I' & Ot & C1 & C2 & _). exists H', T', Q'. split; [rewrite E; destruct us; reflexivity|]. split; [eapply reach_absorb; eauto|auto].
Qed.
(** erase(begin, end): the elements between disappear; what is returned is the element after them,
    but begin() when none remains. *)
Theorem C40_erase_range n m : sp = true -> n <= m <= length us -> (forall y x, In y (firstn n xs) -> In x (skipn m xs) -> ltb y x = true) ->
  exists H' T', t_erase_range ltb H T (nth n us (t_end T)) (nth m us (t_end T)) = Some (H', T', if m =? length us then hd (t_end T) (firstn n us) else nth m us (t_end T)) /\
    reach sp H' (lset Ts i T') /\ others H H' Ts i /\ contents H' T' (firstn n us ++ skipn m us) (firstn n xs ++ skipn m xs).
Proof.
  intros Sp Ln Lt. destruct (reach_inv OL R) as (L & I). assert (Sp' : sp = false -> False) by congruence. destruct (op_erase_range OL I G C Sp' Ln Lt) as (H' & T' & L' & E & I' & Ot & C1 & _). exists H', T'. split; [exact E|]. split; [eapply reach_erase_range; eauto|auto].
Qed.
(** size(), in a program without split and erase(begin, end). *)
Theorem C40_size : sp = false -> t_size T = (Z.of_nat (length xs) mod 2 ^ 64)%Z.
Proof.
  intros Sp. destruct (reach_inv OL R) as (L & I). destruct (at_contents I G C) as (t & _ & (O & S0 & Z0) & _). exact (Z0 Sp).
Qed.
(** insertion with end() as hint is insertion. *)
Theorem C40_hint_end p x : t_insert_hint eqb ltb uniq H T (t_end T) p x = (let* (H, T, v, _) := t_insert eqb ltb uniq H T p x in Some (H, T, v)).
Proof.
  destruct (reach_inv OL R) as (L & I). destruct (at_contents I G C) as (t & _ & (O & S0 & Z0) & _). destruct T as [s z]. cbn [sent] in O. unfold t_insert_hint, t_insert, t_end. cbn [sent]. destruct (th_new H p (Some x)) as [H1 nw] eqn:En.
  assert (E : get (pp (tk H1)) s = Some None). { unfold th_new in En. injection En as <- <-. cbn. destruct (o_rep O) as ([C1 C2 C3] & _). rewrite get_app_l by exact (get_some_lt _ _ C3). exact C3. }
  rewrite E. cbn [obind]. reflexivity.
Qed.
End Treap.
(** The constructor gives an empty treap and leaves the others as they are. *)
Theorem C40_new {K} eqb ltb uniq (OL : order_laws eqb ltb) sp (H : @th K) Ts H' T : reach eqb ltb uniq sp H Ts -> tr_new H = (H', T) -> contents H' T [] [] /\ others H H' Ts (length Ts).
Proof.
  intros R E. destruct (reach_inv OL R) as (L & I). pose proof (inv_new I E) as I'. split.
  - destruct (@inv_at _ _ _ _ _ _ _ (length Ts) T I') as (t & xs & GL & Go); [rewrite get_app_r, Nat.sub_diag by lia; reflexivity|]. rewrite get_app_r, (i_len I), Nat.sub_diag in GL by (rewrite (i_len I); lia). injection GL as <- <-. exact (contents_of (i_wf I') Go).
  - intros j T0 us xs Nj Gj Cj. destruct (at_contents I Gj Cj) as (t & GL & (O & _) & ->). destruct (new_ok (i_wf I)) as (H1 & s & E1 & W' & X & _). rewrite E1 in E. injection E as <- <-. destruct T0 as [s0 z0]. apply contents_ok; [auto|]. apply (okt_ext (i_wf I) O X). intros x _ [].
Qed.

(** * What does not hold *)
Lemma Z_laws : order_laws Z.eqb Z.ltb.
Proof. split; intros; [apply Z.eqb_eq|apply Z.ltb_irrefl|apply Z.ltb_lt in H, H0; apply Z.ltb_lt; lia|apply Z.ltb_ge in H, H0; lia]. Qed.
Definition zins (uniq : bool) (pxs : list (Z * Z)) := let (H, T) := @tr_new Z th_empty in t_insert_all Z.eqb Z.ltb uniq H T pxs.
Definition show (H : @th Z) (T : tr) : option (list (nat * option Z)) :=
  let* b := t_begin H T in
  loop 50 (fun '(u, acc) => if u =? t_end T then Some (inr (rev acc)) else let* v := t_next H u in Some (inl (v, (u, tkey_of H u) :: acc))) (b, []).

(** treaps of integers built by insertions *)
Definition built (u : bool) (l : list (Z * Z)) (H : @th Z) (T : tr) : Prop := zins u l = Some (H, T).
Lemma built_reach sp u l H T : Forall (fun p => 0 <= fst p)%Z l -> built u l H T -> reach Z.eqb Z.ltb u sp H [T].
Proof.
  unfold built, zins. destruct (@tr_new Z th_empty) as [H0 T0] eqn:E0. intros F. assert (R0 : reach Z.eqb Z.ltb u sp H0 [T0]) by exact (reach_new (reach_start _ _ _ _) E0). clear E0. revert H0 T0 R0.
  unfold t_insert_all. induction F as [|[p x] l Hp F IH]; intros H0 T0 R0 E; cbn [for_each] in E; [injection E as <- <-; exact R0|].
  destruct (t_insert Z.eqb Z.ltb u H0 T0 p x) as [[[[H1 T1] v] b]|] eqn:Ei; cbn [obind] in E; [|discriminate]. refine (IH H1 T1 _ E). change [T1] with (lset [T0] 0 T1). eapply reach_insert; eauto. reflexivity.
Qed.
Ltac walk_tac := eexists; split; [vm_compute; reflexivity|split; [|vm_compute; reflexivity]]; repeat (eapply walk_step; [vm_compute; discriminate|vm_compute; reflexivity|]); exact (walk_end _ _).

(** A multiset's lower_bound stops at the first equal key it meets, which need not be the first in
    order. *)
Theorem C40_multi_lower_bound_refuted : exists H T us xs x, reach Z.eqb Z.ltb false false H [T] /\ contents H T us xs /\
  t_lower_bound Z.eqb Z.ltb H T x <> Some (nth (rank_lt Z.ltb x xs) us (t_end T)).
Proof.
  destruct (zins false [(5, 1); (1, 1)]%Z) as [[H T]|] eqn:E; [|exfalso; vm_compute in E; discriminate E]. exists H, T, [1; 2], [1; 1]%Z, 1%Z. split; [|split].
  - eapply built_reach; [|exact E]. repeat constructor; cbn; lia.
  - vm_compute in E. injection E as <- <-. walk_tac.
  - vm_compute in E. injection E as <- <-. vm_compute. discriminate.
Qed.
(** A multiset's count is 1 for a key that is there twice. *)
Theorem C40_multi_count_refuted : exists H T us xs x, reach Z.eqb Z.ltb false false H [T] /\ contents H T us xs /\
  t_count Z.eqb Z.ltb H T x <> Some (count_occ Z.eq_dec xs x).
Proof.
  destruct (zins false [(5, 1); (1, 1)]%Z) as [[H T]|] eqn:E; [|exfalso; vm_compute in E; discriminate E]. exists H, T, [1; 2], [1; 1]%Z, 1%Z. split; [|split].
  - eapply built_reach; [|exact E]. repeat constructor; cbn; lia.
  - vm_compute in E. injection E as <- <-. walk_tac.
  - vm_compute in E. injection E as <- <-. vm_compute. discriminate.
Qed.
(** After split neither size is right. *)
Theorem C40_split_size_refuted : exists H T us xs H' T' Q, reach Z.eqb Z.ltb true true H [T] /\ contents H T us xs /\ t_split H T (nth 1 us (t_end T)) = Some (H', T', Q) /\
  contents H' T' (skipn 1 us) (skipn 1 xs) /\ contents H' Q (firstn 1 us) (firstn 1 xs) /\ t_size T' = Z.of_nat (length xs) /\ t_size Q = 0%Z /\ length xs = 3.
Proof.
  destruct (zins true [(5, 10); (9, 30); (1, 20)]%Z) as [[H T]|] eqn:E; [|exfalso; vm_compute in E; discriminate E]. assert (R : reach Z.eqb Z.ltb true true H [T]) by (eapply built_reach; [|exact E]; repeat constructor; cbn; lia).
  exists H, T, [1; 3; 2], [10; 20; 30]%Z. destruct (t_split H T 3) as [[[H' T'] Q]|] eqn:E2; [|exfalso; vm_compute in E; injection E as <- <-; vm_compute in E2; discriminate E2]. exists H', T', Q. split; [exact R|]. clear R. vm_compute in E. injection E as <- <-. split; [walk_tac|]. split; [exact E2|]. vm_compute in E2. injection E2 as <- <- <-. split; [walk_tac|]. split; [walk_tac|]. repeat split.
Qed.
(** erase(it, end()) returns begin(), not end(), when something remains. *)
Theorem C40_erase_range_refuted : exists H T us xs H' T' r, reach Z.eqb Z.ltb true true H [T] /\ contents H T us xs /\ t_erase_range Z.ltb H T (nth 1 us (t_end T)) (t_end T) = Some (H', T', r) /\
  contents H' T' (firstn 1 us) (firstn 1 xs) /\ r <> t_end T' /\ t_size T' = 0%Z.
Proof.
  destruct (zins true [(5, 10); (9, 30); (1, 20)]%Z) as [[H T]|] eqn:E; [|exfalso; vm_compute in E; discriminate E]. assert (R : reach Z.eqb Z.ltb true true H [T]) by (eapply built_reach; [|exact E]; repeat constructor; cbn; lia).
  exists H, T, [1; 3; 2], [10; 20; 30]%Z. vm_compute in E. injection E as <- <-. match type of R with reach _ _ _ _ ?H [?T] => destruct (t_erase_range Z.ltb H T 3 0) as [[[H' T'] r]|] eqn:E2; [|exfalso; vm_compute in E2; discriminate E2] end.
  exists H', T', r. split; [exact R|]. clear R. split; [walk_tac|]. split; [exact E2|]. vm_compute in E2. injection E2 as <- <- <-. split; [walk_tac|]. split; vm_compute; [discriminate|reflexivity].
Qed.
(** In a multiset erase(begin, end) between equal keys fails the assertion of absorb. *)
Theorem C40_multi_erase_range_refuted : exists H T us xs, reach Z.eqb Z.ltb false true H [T] /\ contents H T us xs /\ ordered Z.ltb false xs /\ length us = 3 /\
  t_erase_range Z.ltb H T (nth 1 us (t_end T)) (nth 2 us (t_end T)) = None.
Proof.
  destruct (zins false [(5, 1); (1, 1); (7, 1)]%Z) as [[H T]|] eqn:E; [|exfalso; vm_compute in E; discriminate E]. exists H, T, [1; 2; 3], [1; 1; 1]%Z. split; [|split; [|split; [|split; [reflexivity|]]]].
  - eapply built_reach; [|exact E]. repeat constructor; cbn; lia.
  - vm_compute in E. injection E as <- <-. walk_tac.
  - repeat constructor.
  - vm_compute in E. injection E as <- <-. vm_compute. reflexivity.
Qed.
(** Insertion with a hint looks at the parent of the hint only, and can break the order. *)
Theorem C40_hint_refuted : exists H T us xs n H' T' v us' xs', reach Z.eqb Z.ltb true false H [T] /\ contents H T us xs /\ n < length us /\
  t_insert_hint Z.eqb Z.ltb true H T (nth n us (t_end T)) 9%Z 5%Z = Some (H', T', v) /\ contents H' T' us' xs' /\ ~ ordered Z.ltb true xs' /\ t_find Z.eqb Z.ltb H' T' 5%Z = Some (t_end T').
Proof.
  destruct (zins true [(0, 10); (1, 30); (2, 20)]%Z) as [[H T]|] eqn:E; [|exfalso; vm_compute in E; discriminate E]. assert (R : reach Z.eqb Z.ltb true false H [T]) by (eapply built_reach; [|exact E]; repeat constructor; cbn; lia).
  exists H, T, [1; 3; 2], [10; 20; 30]%Z, 1. vm_compute in E. injection E as <- <-. match type of R with reach _ _ _ _ ?H [?T] => destruct (t_insert_hint Z.eqb Z.ltb true H T 3 9%Z 5%Z) as [[[H' T'] r]|] eqn:E2; [|exfalso; vm_compute in E2; discriminate E2] end.
  exists H', T', r, [1; 4; 3; 2], [10; 5; 20; 30]%Z. split; [exact R|]. clear R. split; [walk_tac|]. split; [cbn; lia|]. split; [exact E2|]. vm_compute in E2. injection E2 as <- <- <-. split; [walk_tac|]. split; [|vm_compute; reflexivity].
  intros S0. apply StronglySorted_inv in S0 as [_ F]. inversion F as [|? ? A]. discriminate A.
Qed.

(** * Examples *)
Definition ex_l : list (Z * Z) := [(5, 10); (9, 30); (1, 20); (7, 5); (2, 25); (2, 15)]%Z.
Definition ex_s := match zins true ex_l with Some p => p | None => (th_empty, TR 0 0) end.
Example ex_shape : show (fst ex_s) (snd ex_s) = Some [(4, Some 5%Z); (1, Some 10%Z); (6, Some 15%Z); (3, Some 20%Z); (5, Some 25%Z); (2, Some 30%Z)] /\ t_size (snd ex_s) = 6%Z.
Proof. split; vm_compute; reflexivity. Qed.
Example ex_search : let (H, T) := ex_s in
  (t_find Z.eqb Z.ltb H T 20%Z, t_lower_bound Z.eqb Z.ltb H T 16%Z, t_upper_bound Z.ltb H T 15%Z, t_predecessor Z.ltb H T 10%Z, t_count Z.eqb Z.ltb H T 7%Z) = (Some 3, Some 3, Some 3, Some 4, Some 0).
Proof. vm_compute. reflexivity. Qed.
Example ex_ops : let (H, T) := ex_s in
  (let* (H, T, _) := t_erase Z.eqb Z.ltb H T 10%Z in let* (H, T, Q) := t_split H T 3 in let* a := show H T in let* b := show H Q in
   let* (H, T, _, r) := t_absorb Z.ltb H T Q in let* c := show H T in Some (a, b, map fst c, r)) =
  Some ([(3, Some 20%Z); (5, Some 25%Z); (2, Some 30%Z)], [(4, Some 5%Z); (6, Some 15%Z)], [4; 6; 3; 5; 2], 3).
Proof. vm_compute. reflexivity. Qed.

Print Assumptions C40_sorted.
Print Assumptions C40_unique.
Print Assumptions C40_new.
Print Assumptions C40_insert.
Print Assumptions C40_erase.
Print Assumptions C40_erase_at.
Print Assumptions C40_erase_end.
Print Assumptions C40_clear.
Print Assumptions C40_find.
Print Assumptions C40_count.
Print Assumptions C40_lower_bound.
Print Assumptions C40_upper_bound.
Print Assumptions C40_predecessor.
Print Assumptions C40_empty.
Print Assumptions C40_iterate.
Print Assumptions C40_split.
Print Assumptions C40_absorb.
Print Assumptions C40_erase_range.
Print Assumptions C40_size.
Print Assumptions C40_hint_end.
Print Assumptions C40_multi_lower_bound_refuted.
Print Assumptions C40_multi_count_refuted.
Print Assumptions C40_split_size_refuted.
Print Assumptions C40_erase_range_refuted.
Print Assumptions C40_multi_erase_range_refuted.
Print Assumptions C40_hint_refuted.
