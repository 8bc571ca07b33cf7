(** * C90, C91: orthogonal range search ([ORS] of ordinal_range_search.hpp) *)
From Coq Require Import Permutation Sorted.
From Verif Require Import Base BaseLemmas ListExtra StdAlgo BitModel BitProof BmapModel BmapProof BvModel BvProof BsetModel BsetProof BsetProp WmModel WmProof WmPath WmTree WmProp OrsModel OrsProof OrsSum OrsWt.
Set Implicit Arguments.

(** Fewer than [2^31] points whose coordinates fit [uint32_t]. *)
Definition points32 (ps : list point) : Prop :=
  (Z.of_nat (length ps) < 2 ^ 31)%Z /\ forall x y, In (x, y) ps -> (Z.of_nat x < 2 ^ 32)%Z /\ (Z.of_nat y < 2 ^ 32)%Z.
Definition box32 (xl xh yl yh : nat) : Prop :=
  xl <= xh /\ (Z.of_nat xh < 2 ^ 32)%Z /\ (Z.of_nat yl < 2 ^ 32)%Z /\ (Z.of_nat yh < 2 ^ 32)%Z.

(** [freq] counts the points of the rectangle, whatever the order of [add] and however often
    a point has been added. *)
Theorem C90_freq ps : points32 ps -> exists o, ors_build ps = Some o /\
  forall xl xh yl yh, box32 xl xh yl yh -> ors_freq o xl xh yl yh = Some (howmany (inside xl xh yl yh) ps).
Proof.
  intros (Ln & Sm). destruct (@build_ok ps Sm Ln) as (o & E & O). exists o. split; [exact E|]. intros xl xh yl yh (Hx & B). now apply freq_ok.
Qed.

Lemma ones_lay h w0 t : (forall q, In q w0 -> snd q = 1%Z) -> forall q, In q (wlay h w0 t) -> snd q = 1%Z.
Proof.
  intros H. induction t as [|t IH]; [exact H|]. cbn [wlay]. unfold wpart. intros q I. apply in_app_or in I. destruct I as [I|I]; apply filter_In in I; now apply IH.
Qed.
Lemma ones_sum l : (forall q, In q l -> snd q = 1%Z) -> wsum l = Z.of_nat (length l).
Proof. unfold wsum. induction l as [|q l IH]; intros H; [reflexivity|]. cbn [map fold_right length]. rewrite IH by (intros r I; apply H; now right). rewrite (H q) by now left. lia. Qed.

(** The rectangle is cut by [sum] into ranges of total length the number of its points: with
    [r - l] as [range_sum] the result is that number, whenever the traversal ends without an
    undefined shift. *)
Theorem C90_cut ps o : points32 ps -> ors_build ps = Some o -> forall fuel xl xh yl yh R, box32 xl xh yl yh ->
  ors_sum fuel o xl xh yl yh (fun l r => Z.of_nat (r - l)) = Some R -> R = Z.of_nat (howmany (inside xl xh yl yh) ps).
Proof.
  intros (Ln & Sm) E fuel xl xh yl yh R (Hx & B). destruct (@build_ok ps Sm Ln) as (o' & E' & O). assert (o' = o) by congruence. subst o'.
  set (one := fun p : point => (p, 1%Z)). set (ss := map one (std_sort point_lt ps)).
  assert (F : forall l, map fst (map one l) = l) by (intros l; rewrite map_map; apply map_id).
  assert (Pm : Permutation (map one ps) ss) by (apply Permutation_map, std_sort_perm).
  assert (St : StronglySorted (fun p q => point_lt (fst q) (fst p) = false) ss).
  { pose proof (std_sort_sorted point_lt_so ps) as S. unfold ss. clear - S. induction S as [|q l S IH F]; cbn [map]; constructor; auto. apply Forall_map. eapply Forall_impl; [|exact F]. intros r K. exact K. }
  intros K. pose proof (@sum_with (map one ps) ss Pm St ltac:(rewrite map_length; exact Ln) xl xh yl yh Hx B o (fun l r => Z.of_nat (r - l)) fuel R) as W. rewrite F in W.
  specialize (W O). rewrite W; auto.
  - unfold zsum. clear. induction ps as [|p ps IH]; [reflexivity|]. cbn [map filter]. unfold howmany in *. cbn [filter]. unfold one at 1. cbn [fst]. destruct (inside xl xh yl yh p); [|exact IH]. cbn [map fold_right length]. rewrite IH. unfold one. cbn [snd]. lia.
  - intros Es. destruct O as (_ & _ & E0 & _). unfold ss in Es. apply map_eq_nil in Es. rewrite Es in E0. cbn [map] in E0. destruct (@matrix_ok [] ltac:(cbn; lia)) as (m & Em & Me & _). cbn [map] in Em. assert (m = oW o) by congruence. subst m. now apply Me.
  - intros l. rewrite Nat.sub_diag. reflexivity.
  - intros h t l r _ Ht L1 L2 L3. rewrite ones_sum.
    + rewrite slice_length; [lia|lia|]. rewrite (@wl_len (length ss)) by apply map_length. lia.
    + intros q I. apply (@ones_lay h (map (lab ss) ss) t).
      * intros x Ix. apply in_map_iff in Ix. destruct Ix as (z & <- & Iz). unfold ss in Iz. apply in_map_iff in Iz. destruct Iz as (p & <- & _). reflexivity.
      * unfold slice in I. rewrite <- (firstn_skipn (l - length ss * t) (wlay h (map (lab ss) ss) t)). apply in_or_app. right. revert I. generalize (skipn (l - length ss * t) (wlay h (map (lab ss) ss) t)). intros L I. match type of I with In _ (firstn ?k _) => rewrite <- (firstn_skipn k L) end. apply in_or_app. now left.
Qed.

(** [enumerate] never reports a point: a range inside the rectangle is given to the callback
    for inner nodes, which does nothing, and a leaf is always inside or outside. *)
Theorem C90_enumerate_empty fuel o xl xh yl yh R : ors_enumerate fuel o xl xh yl yh = Some R -> R = [].
Proof. apply enumerate_nil. Qed.
Theorem C90_enumerate_refuted : let ps := [(1, 0); (2, 5)] in exists o, points32 ps /\ box32 0 9 0 9 /\ ors_build ps = Some o /\ ors_freq o 0 9 0 9 = Some 2 /\ ors_enumerate 9 o 0 9 0 9 = Some [].
Proof.
  cbv zeta. destruct (ors_build [(1, 0); (2, 5)]) as [o|] eqn:E; [|vm_compute in E; discriminate]. exists o. split; [|split; [|split; [reflexivity|]]].
  - split; [cbn; lia|]. intros x y [K|[K|[]]]; injection K as <- <-; split; cbn; lia.
  - unfold box32. cbn. lia.
  - vm_compute in E. injection E as <-. vm_compute. auto.
Qed.

(** With all points at one ordinate [sum] and [enumerate] shift by a negative number;
    without points they divide by zero. *)
Theorem C90_edges_refuted :
  (exists o, ors_build [(1, 0); (2, 0)] = Some o /\ ors_freq o 0 9 0 1 = Some 2 /\ (forall f, ors_sum 20 o 0 9 0 1 f = None) /\ ors_enumerate 20 o 0 9 0 1 = None) /\
  (exists o, ors_build [] = Some o /\ ors_freq o 0 9 0 9 = Some 0 /\ (forall f, ors_sum 20 o 0 9 0 9 f = None) /\ ors_enumerate 20 o 0 9 0 9 = None).
Proof.
  split.
  - destruct (ors_build [(1, 0); (2, 0)]) as [o|] eqn:E; [|vm_compute in E; discriminate]. exists o. vm_compute in E. injection E as <-. split; [reflexivity|]. split; [vm_compute; reflexivity|]. split; [intros f|]; vm_compute; reflexivity.
  - destruct (ors_build []) as [o|] eqn:E; [|vm_compute in E; discriminate]. exists o. vm_compute in E. injection E as <-. split; [reflexivity|]. split; [vm_compute; reflexivity|]. split; [intros f|]; vm_compute; reflexivity.
Qed.

(** [build] with weights calls [add] on indices below the argument of [resize], and with the array
    so filled behind [range_sum], [sum] is the total weight of the points of the rectangle,
    whenever the traversal ends without an undefined shift. [ss] is any order of the points that
    [std::sort] may choose. *)
Theorem C91_sum ps ss : Permutation ps ss -> StronglySorted (fun p q => point_lt (fst q) (fst p) = false) ss -> points32 (map fst ps) ->
  exists o size calls A, ors_wbuild ss = Some (o, size, calls) /\ apply_adds size calls = Some A /\
  (forall xl xh yl yh, box32 xl xh yl yh -> ors_freq o xl xh yl yh = Some (howmany (fun q => inside xl xh yl yh (fst q)) ps)) /\
  forall fuel xl xh yl yh R, box32 xl xh yl yh -> ors_sum fuel o xl xh yl yh (fun l r => zsum (slice l r A)) = Some R ->
    R = zsum (map snd (filter (fun q => inside xl xh yl yh (fst q)) ps)).
Proof.
  intros Pm St (Ln & Sm). assert (Ln' := Ln). rewrite map_length in Ln'. destruct (wbuild_ok Pm St Sm Ln') as (o & sz & calls & A & E & EA & O & Wn & HA). exists o, sz, calls, A. split; [exact E|]. split; [exact EA|]. split.
  - intros xl xh yl yh (Hx & B). rewrite (@freq_ok (map fst ps) o Ln O xl xh yl yh Hx B). f_equal. unfold howmany. clear. induction ps as [|q l IH]; [reflexivity|]. cbn [map filter]. destruct (inside xl xh yl yh (fst q)); cbn [length]; auto.
  - intros fuel xl xh yl yh R (Hx & B) K. refine (@sum_with ps ss Pm St Ln' xl xh yl yh Hx B o _ fuel R O Wn _ _ K).
    + intros l. unfold slice. rewrite Nat.sub_diag. reflexivity.
    + intros h t l r Bt Ht L1 L2 L3. rewrite (HA h Bt). rewrite (@slice_levels (length ss) h (map (lab ss) ss) (map_length _ _) t l r Ht L1 L2 L3). reflexivity.
Qed.

Theorem C91_sum_refuted : let ss := [((1, 0), 3%Z); ((2, 0), 4%Z)] in
  StronglySorted (fun p q => point_lt (fst q) (fst p) = false) ss /\ points32 (map fst ss) /\ box32 0 9 0 1 /\
  exists o size calls, ors_wbuild ss = Some (o, size, calls) /\ zsum (map snd (filter (fun q => inside 0 9 0 1 (fst q)) ss)) = 7%Z /\ forall f, ors_sum 20 o 0 9 0 1 f = None.
Proof.
  cbv zeta. split; [repeat constructor|]. split; [|split].
  - split; [cbn; lia|]. intros x y [K|[K|[]]]; injection K as <- <-; split; cbn; lia.
  - unfold box32. cbn. lia.
  - destruct (ors_wbuild [((1, 0), 3%Z); ((2, 0), 4%Z)]) as [((o & sz) & cs)|] eqn:E; [|vm_compute in E; discriminate]. exists o, sz, cs. vm_compute in E. injection E as <- <- <-. split; [reflexivity|]. split; [reflexivity|]. intros f. vm_compute. reflexivity.
Qed.

(** ** Concrete cases *)
Example C90_case : (let* o := ors_build [(5, 3); (2, 7); (5, 1); (2, 7)] in
  let* f := ors_freq o 2 6 2 8 in let* g := ors_freq o 2 5 0 9 in let* s := ors_sum 20 o 2 6 0 3 (fun l r => Z.of_nat (r - l)) in Some (f, g, s)) = Some (3, 2, 1%Z).
Proof. vm_compute. reflexivity. Qed.
Example C91_case : (let* (o, sz, cs) := ors_wbuild [((1, 0), 10%Z); ((2, 5), 7%Z); ((3, 5), 1%Z)] in let* A := apply_adds sz cs in
  let* s := ors_sum 20 o 0 3 5 9 (fun l r => zsum (slice l r A)) in let* t := ors_sum 20 o 0 4 0 6 (fun l r => zsum (slice l r A)) in Some (sz, s, t)) = Some (6, 7%Z, 18%Z).
Proof. vm_compute. reflexivity. Qed.

Print Assumptions C90_freq.
Print Assumptions C90_cut.
Print Assumptions C90_enumerate_empty.
Print Assumptions C90_enumerate_refuted.
Print Assumptions C90_edges_refuted.
Print Assumptions C91_sum.
Print Assumptions C91_sum_refuted.
