(** Power series: loops over entries, sparse sums, elementary operations, product. *)
From Coq Require Import Setoid Morphisms Znumtheory Sorted.
From Verif Require Import Base BaseLemmas NthExtra SearchModel BitModel NumTheory ModularModel ModularProof PrimRootModel NttModel NttSum NttRev NttProof NttCore ConvModel ConvSum ConvNtt PsAlg FpsModel.
Local Open Scope Z_scope.
Ltac Zify.zify_post_hook ::= idtac.

(** The series of a vector *)
Definition cf (f : list Z) : pser := fun k => nth k f 0.

Lemma nth_firstn_lt (f : list Z) n k : (k < n)%nat -> nth k (firstn n f) 0 = nth k f 0.
Proof. revert n k. induction f; intros [|n] [|k] H; cbn [firstn nth]; auto; try lia. apply IHf. lia. Qed.
Lemma nth_vresize f n k : nth k (vresize f n) 0 = if (k <? n)%nat then nth k f 0 else 0.
Proof.
  unfold vresize. destruct (Nat.ltb_spec k n) as [C|C].
  - destruct (Nat.lt_ge_cases k (length f)) as [D|D].
    + rewrite app_nth1 by (rewrite firstn_length; lia). now rewrite nth_firstn_lt by lia.
    + rewrite app_nth2 by (rewrite firstn_length; lia). rewrite (nth_overflow f) by lia. apply nth_repeat.
  - rewrite nth_overflow; auto. rewrite app_length, firstn_length, repeat_length. lia.
Qed.
Lemma len_vresize f n : length (vresize f n) = n.
Proof. unfold vresize. rewrite app_length, firstn_length, repeat_length. lia. Qed.
Lemma nth_ext0 (f g : list Z) : length f = length g -> (forall k, nth k f 0 = nth k g 0) -> f = g.
Proof. intros L K. apply (nth_ext _ _ 0 0); auto. Qed.

(** ** Sums over lists *)
Fixpoint lz {A} (F : A -> Z) (l : list A) : Z := match l with [] => 0 | x :: t => F x + lz F t end.
Lemma lz_app {A} (F : A -> Z) l m : lz F (l ++ m) = lz F l + lz F m.
Proof. induction l; cbn [lz app]; [ring|]. rewrite IHl. ring. Qed.
Lemma lz_ext {A} (F G : A -> Z) l : (forall x, In x l -> F x = G x) -> lz F l = lz G l.
Proof. induction l; intros H; cbn [lz]; auto. rewrite H, IHl; auto. - intros; apply H; now right. - now left. Qed.
Lemma lz_filter {A} (F : A -> Z) b l : lz F (filter b l) = lz (fun x => if b x then F x else 0) l.
Proof. induction l; cbn [lz filter]; auto. destruct (b a); cbn [lz]; rewrite IHl; ring. Qed.
Lemma lz_map {A B} (F : B -> Z) (g : A -> B) l : lz F (map g l) = lz (fun x => F (g x)) l.
Proof. induction l; cbn [lz map]; auto. now rewrite IHl. Qed.
Lemma lz_seq F n : forall lo, lz F (seq lo n) = zsum n (fun t => F (lo + t)%nat).
Proof.
  induction n; intros lo; auto. cbn [seq lz]. rewrite IHn, zsum_shift, Nat.add_0_r. f_equal. apply zsum_ext. intros; f_equal; lia.
Qed.

(** the non-zero entries with their indices *)
Definition ties (f : list Z) (lo n : nat) : list (nat * Z) :=
  map (fun i => (i, nth i f 0)) (filter (fun i => negb (nth i f 0 =? 0)) (seq lo n)).

Lemma ties_loop f n : forall lo acc, (lo + n <= length f)%nat ->
  for_up n lo (fun i ret => let* v := get f i in Some (if v =? 0 then ret else ret ++ [(i, v)])) acc = Some (acc ++ ties f lo n).
Proof.
  induction n; intros lo acc H; cbn [for_up].
  - unfold ties. cbn [seq filter map]. now rewrite app_nil_r.
  - rewrite (get_nth _ _ 0) by lia. cbn [obind]. rewrite IHn by lia. unfold ties. cbn [seq filter].
    destruct (nth lo f 0 =? 0); cbn [negb map]; auto. now rewrite <- app_assoc.
Qed.
Lemma fps_ties_ok f lo hi : (hi <= length f)%nat -> fps_ties f lo hi = Some (ties f lo (hi - lo)).
Proof.
  intros H. unfold fps_ties. destruct (Nat.le_gt_cases hi lo).
  - replace (hi - lo)%nat with 0%nat by lia. reflexivity.
  - rewrite ties_loop by lia. reflexivity.
Qed.
Lemma sp_of_ok f n : sp_of f n = Some (ties f 0 (Nat.min n (length f))).
Proof. unfold sp_of. rewrite ties_loop by lia. reflexivity. Qed.

Lemma lz_ties F f lo n : (forall i, F (i, 0) = 0) -> lz F (ties f lo n) = zsum n (fun t => F ((lo + t)%nat, nth (lo + t) f 0)).
Proof.
  intros H. unfold ties. rewrite lz_map, lz_filter, lz_seq. apply zsum_ext. intros t _.
  destruct (Z.eqb_spec (nth (lo + t) f 0) 0) as [->|]; cbn [negb]; auto.
Qed.
Lemma ties_In f lo n d v : In (d, v) (ties f lo n) <-> (lo <= d < lo + n)%nat /\ v = nth d f 0 /\ v <> 0.
Proof.
  unfold ties. rewrite in_map_iff. setoid_rewrite filter_In. setoid_rewrite in_seq. split.
  - intros (x & E & H & N). injection E as <- <-. destruct (Z.eqb_spec (nth x f 0) 0); [discriminate|]. auto.
  - intros (H & -> & N). exists d. split; auto. split; auto. destruct (Z.eqb_spec (nth d f 0) 0); [contradiction|auto].
Qed.

(** degrees strictly increasing *)
Definition incr (s : list (nat * Z)) : Prop := StronglySorted (fun x y => (fst x < fst y)%nat) s.
Lemma ties_incr f n : forall lo, incr (ties f lo n).
Proof.
  unfold incr. induction n; intros lo; unfold ties; cbn [seq filter map]; [constructor|].
  destruct (negb (nth lo f 0 =? 0)); cbn [map]; [|apply IHn]. constructor; [apply IHn|].
  apply Forall_forall. intros [d v] H. apply (ties_In f (S lo) n) in H. cbn [fst]. lia.
Qed.

(** the series of a sparse series *)
Definition spc (s : list (nat * Z)) : pser := fun k => lz (fun '(d, v) => if (d =? k)%nat then v else 0) s.
Lemma spc_ties f n k : spc (ties f 0 n) k = if (k <? n)%nat then nth k f 0 else 0.
Proof.
  unfold spc. rewrite lz_ties by (intros; destruct (_ =? _)%nat; auto). cbn [Nat.add].
  destruct (Nat.ltb_spec k n) as [C|C].
  - rewrite (zsum_single n _ k C); [now rewrite Nat.eqb_refl|]. intros i _ N. destruct (Nat.eqb_spec i k); [lia|auto].
  - rewrite (zsum_ext n _ (fun _ => 0)), zsum_0; auto. intros i Hi. destruct (Nat.eqb_spec i k); [lia|auto].
Qed.
Lemma spc_mul s (a : pser) i : lz (fun '(d, v) => if (i <? d)%nat then 0 else v * a (i - d)%nat) s = ps_mul (spc s) a i.
Proof.
  induction s as [|[d v] s IH].
  - cbn [lz]. unfold ps_mul, spc. cbn [lz]. rewrite (zsum_ext _ _ (fun _ => 0)), zsum_0; auto.
  - cbn [lz]. rewrite IH. unfold ps_mul, spc. cbn [lz].
    rewrite (zsum_ext (S i) (fun i0 => ((if (d =? i0)%nat then v else 0) + lz (fun '(d0, v0) => if (d0 =? i0)%nat then v0 else 0) s) * a (i - i0)%nat)
      (fun i0 => (if (d =? i0)%nat then v else 0) * a (i - i0)%nat + lz (fun '(d0, v0) => if (d0 =? i0)%nat then v0 else 0) s * a (i - i0)%nat))
      by (intros; ring).
    rewrite zsum_add. f_equal. destruct (Nat.ltb_spec i d) as [C|C].
    + rewrite (zsum_ext _ _ (fun _ => 0)), zsum_0; auto. intros j Hj. destruct (Nat.eqb_spec d j); [lia|ring].
    + rewrite (zsum_single (S i) _ d ltac:(lia)); [now rewrite Nat.eqb_refl|]. intros j _ N. destruct (Nat.eqb_spec d j); [lia|ring].
Qed.
Lemma spc_low s k : (forall d v, In (d, v) s -> (k < d)%nat) -> spc s k = 0.
Proof.
  intros H. unfold spc. induction s as [|[d v] s IH]; cbn [lz]; auto. rewrite IH by (intros; eapply H; right; eauto).
  specialize (H d v (or_introl eq_refl)). destruct (Nat.eqb_spec d k); [lia|ring].
Qed.

(** loops with [break] over increasing degrees *)
Lemma for_until_filter {A S} (l : list A) stop (body : A -> S -> option S) :
  StronglySorted (fun x y => stop x = true -> stop y = true) l ->
  forall s, for_until l stop body s = for_each (filter (fun x => negb (stop x)) l) body s.
Proof.
  induction 1 as [|x l H IH F]; intros s; cbn [for_until filter]; auto. destruct (stop x) eqn:E; cbn [negb].
  - replace (filter (fun x => negb (stop x)) l) with (@nil A); auto. symmetry. clear - F E.
    induction F as [|y l Hy F IH]; cbn [filter]; auto. rewrite Hy; auto.
  - cbn [for_each]. destruct (body x s); cbn [obind]; auto.
Qed.

Section P.
Variable p : Z.
Hypothesis M : 1 <= p < 2 ^ 31.
Local Notation "a == b" := (eqm p a b) (at level 70).

(** ** Entry by entry loops *)
Lemma res_lset f i v : residues p f -> 0 <= v < p -> residues p (lset f i v).
Proof.
  intros R Hv. apply res_i. intros k Hk. rewrite lset_length in Hk. destruct (Nat.eq_dec k i) as [->|N].
  - rewrite nth_lset_eq by lia. auto.
  - rewrite nth_lset_neq by auto. now apply (res_n p M).
Qed.
Lemma res_vresize f n : residues p f -> residues p (vresize f n).
Proof.
  intros R. apply res_i. intros k _. rewrite nth_vresize. destruct (k <? n)%nat; [now apply (res_n p M)|lia].
Qed.
Lemma res_app f g : residues p f -> residues p g -> residues p (f ++ g).
Proof. intros. apply Forall_app. auto. Qed.
Lemma res_skipn n f : residues p f -> residues p (skipn n f).
Proof.
  intros R. apply Forall_forall. intros x Hx. apply (proj1 (Forall_forall _ _) R). rewrite <- (firstn_skipn n f). apply in_or_app. auto.
Qed.
Lemma mod_r x : 0 <= x mod p < p. Proof. apply Z.mod_pos_bound. lia. Qed.

Lemma for_point (G : nat -> Z -> Z) (body : nat -> list Z -> option (list Z)) L : forall n lo h,
  (forall i h, (lo <= i < lo + n)%nat -> length h = L -> residues p h -> body i h = Some (lset h i (G i (nth i h 0)))) ->
  (forall i x, (lo <= i < lo + n)%nat -> 0 <= x < p -> 0 <= G i x < p) ->
  (lo + n <= L)%nat -> length h = L -> residues p h ->
  exists R, for_up n lo body h = Some R /\ length R = L /\ residues p R /\
    forall k, nth k R 0 = if (lo <=? k)%nat && (k <? lo + n)%nat then G k (nth k h 0) else nth k h 0.
Proof.
  induction n as [|n IH]; intros lo h B GR HL Lh Rh.
  - exists h. split; auto. split; auto. split; auto. intros k. destruct (Nat.leb_spec lo k); cbn [andb]; auto.
    destruct (Nat.ltb_spec k (lo + 0)); auto. lia.
  - cbn [for_up]. rewrite B by (auto; lia). cbn [obind].
    destruct (IH (S lo) (lset h lo (G lo (nth lo h 0)))) as (R & E & LR & RR & K).
    + intros; apply B; auto; lia.
    + intros; apply GR; auto; lia.
    + lia.
    + now rewrite lset_length.
    + apply res_lset; auto. apply GR; [lia|]. now apply (res_n p M).
    + exists R. split; auto. split; auto. split; auto. intros k. rewrite K.
      destruct (Nat.eq_dec k lo) as [->|N].
      * rewrite nth_lset_eq by lia. destruct (Nat.leb_spec (S lo) lo); [lia|]. destruct (Nat.leb_spec lo lo); [|lia].
        destruct (Nat.ltb_spec lo (lo + S n)); [auto|lia].
      * rewrite nth_lset_neq by auto.
        destruct (Nat.leb_spec (S lo) k), (Nat.leb_spec lo k); cbn [andb]; try lia; auto.
        replace (S lo + n)%nat with (lo + S n)%nat by lia. auto.
Qed.

(** the form used for a whole vector *)
Lemma for_point_all (G : nat -> Z -> Z) body h :
  (forall i h', (i < length h)%nat -> length h' = length h -> residues p h' -> body i h' = Some (lset h' i (G i (nth i h' 0)))) ->
  (forall i x, (i < length h)%nat -> 0 <= x < p -> 0 <= G i x < p) -> residues p h ->
  exists R, for_up (length h) 0 body h = Some R /\ length R = length h /\ residues p R /\
    forall k, (k < length h)%nat -> nth k R 0 = G k (nth k h 0).
Proof.
  intros B GR Rh. destruct (for_point G body (length h) (length h) 0 h) as (R & E & L & RR & K); auto.
  - intros; apply B; auto; lia.
  - intros; apply GR; auto; lia.
  - exists R. split; auto. split; auto. split; auto. intros k Hk. rewrite K. cbn [Nat.leb andb Nat.add].
    destruct (Nat.ltb_spec k (length h)); [auto|lia].
Qed.

(** ** Elementary operations *)
Lemma fps_mul_c_ok f x : residues p f -> 0 <= x < p ->
  exists R, fps_mul_c p f x = Some R /\ length R = length f /\ residues p R /\ forall k, nth k R 0 = (nth k f 0 * x) mod p.
Proof.
  intros Rf Hx. unfold fps_mul_c.
  destruct (for_point_all (fun _ v => (v * x) mod p) (fun i f => let* v := get f i in let* v := m_mul p v x in set f i v) f) as (R & E & L & RR & K); auto.
  - intros i h Hi Lh Rh. rewrite (get_nth _ _ 0) by lia. cbn [obind]. rewrite m_mul_ok by (auto; now apply (res_n p M)). cbn [obind].
    apply set_some. lia.
  - intros. apply mod_r.
  - exists R. split; [exact E|]. split; auto. split; auto. intros k. destruct (Nat.lt_ge_cases k (length f)) as [C|C]; [now apply K|].
    rewrite !nth_overflow by lia. now rewrite Z.mul_0_l, Z.mod_0_l by lia.
Qed.
Lemma fps_neg_ok f : residues p f ->
  exists R, fps_neg p f = Some R /\ length R = length f /\ residues p R /\ forall k, nth k R 0 = (- nth k f 0) mod p.
Proof.
  intros Rf. unfold fps_neg.
  destruct (for_point_all (fun _ v => (- v) mod p) (fun i f => let* v := get f i in set f i (m_neg p v)) f) as (R & E & L & RR & K); auto.
  - intros i h Hi Lh Rh. rewrite (get_nth _ _ 0) by lia. cbn [obind]. rewrite m_neg_ok by (auto; now apply (res_n p M)).
    apply set_some. lia.
  - intros. apply mod_r.
  - exists R. split; [exact E|]. split; auto. split; auto. intros k. destruct (Nat.lt_ge_cases k (length f)) as [C|C]; [now apply K|].
    rewrite !nth_overflow by lia. now rewrite Z.mod_0_l by lia.
Qed.
Lemma fps_zip_ok op (Op : Z -> Z -> Z) f r : (forall a b, 0 <= a < p -> 0 <= b < p -> op a b = Op a b mod p) -> (forall a, Op a 0 = a) ->
  residues p f -> residues p r ->
  exists R, fps_zip op f r = Some R /\ length R = Nat.max (length f) (length r) /\ residues p R /\
    forall k, nth k R 0 = Op (nth k f 0) (nth k r 0) mod p.
Proof.
  intros HO H0 Rf Rr. unfold fps_zip. set (f1 := if (length f <? length r)%nat then vresize f (length r) else f).
  assert (L1 : length f1 = Nat.max (length f) (length r)).
  { unfold f1. destruct (Nat.ltb_spec (length f) (length r)); [rewrite len_vresize|]; lia. }
  assert (K1 : forall k, nth k f1 0 = nth k f 0).
  { intros k. unfold f1. destruct (Nat.ltb_spec (length f) (length r)); auto. rewrite nth_vresize.
    destruct (Nat.ltb_spec k (length r)); auto. now rewrite nth_overflow by lia. }
  assert (R1 : residues p f1). { unfold f1. destruct (_ <? _)%nat; auto. now apply res_vresize. }
  destruct (for_point (fun i a => Op a (nth i r 0) mod p) (fun i f => let* a := get f i in let* b := get r i in set f i (op a b))
    (length f1) (length r) 0 f1) as (R & E & L & RR & K); auto.
  - intros i h Hi Lh Rh. rewrite (get_nth h _ 0), (get_nth r _ 0) by lia. cbn [obind]. rewrite HO by now apply (res_n p M).
    apply set_some. lia.
  - intros. apply mod_r.
  - lia.
  - exists R. split; [exact E|]. split; [lia|]. split; auto. intros k. rewrite K, K1. cbn [Nat.leb andb Nat.add].
    destruct (Nat.ltb_spec k (length r)); auto. rewrite (nth_overflow r) by lia. rewrite H0. symmetry. apply Z.mod_small. now apply (res_n p M).
Qed.
Lemma fps_add_ok f r : residues p f -> residues p r ->
  exists R, fps_add p f r = Some R /\ length R = Nat.max (length f) (length r) /\ residues p R /\
    forall k, nth k R 0 = (nth k f 0 + nth k r 0) mod p.
Proof. intros. apply fps_zip_ok; auto; [intros; now apply m_add_ok|intros; ring]. Qed.
Lemma fps_sub_ok f r : residues p f -> residues p r ->
  exists R, fps_sub p f r = Some R /\ length R = Nat.max (length f) (length r) /\ residues p R /\
    forall k, nth k R 0 = (nth k f 0 - nth k r 0) mod p.
Proof. intros. apply fps_zip_ok; auto; [intros; now apply m_sub_ok|intros; ring]. Qed.
Lemma fps_dot_ok f r : residues p f -> residues p r ->
  exists R, fps_dot p f r = Some R /\ length R = Nat.min (length f) (length r) /\ residues p R /\
    forall k, nth k R 0 = (nth k f 0 * nth k r 0) mod p.
Proof.
  intros Rf Rr. unfold fps_dot. set (f1 := if (length r <? length f)%nat then vresize f (length r) else f).
  assert (L1 : length f1 = Nat.min (length f) (length r)).
  { unfold f1. destruct (Nat.ltb_spec (length r) (length f)); [rewrite len_vresize|]; lia. }
  assert (K1 : forall k, (k < length r)%nat -> nth k f1 0 = nth k f 0).
  { intros k Hk. unfold f1. destruct (Nat.ltb_spec (length r) (length f)); auto. rewrite nth_vresize.
    destruct (Nat.ltb_spec k (length r)); auto. lia. }
  assert (R1 : residues p f1). { unfold f1. destruct (_ <? _)%nat; auto. now apply res_vresize. }
  destruct (for_point_all (fun i a => (a * nth i r 0) mod p)
    (fun i f => let* a := get f i in let* b := get r i in let* v := m_mul p a b in set f i v) f1) as (R & E & L & RR & K); auto.
  - intros i h Hi Lh Rh. rewrite (get_nth h _ 0), (get_nth r _ 0) by lia. cbn [obind].
    rewrite m_mul_ok by (auto; now apply (res_n p M)). cbn [obind]. apply set_some. lia.
  - intros. apply mod_r.
  - exists R. split; [exact E|]. split; [lia|]. split; auto. intros k. destruct (Nat.lt_ge_cases k (length f1)) as [C|C].
    + rewrite K, K1 by lia. auto.
    + rewrite nth_overflow by lia. destruct (Nat.le_gt_cases (length f) k).
      * rewrite (nth_overflow f) by lia. now rewrite Z.mul_0_l, Z.mod_0_l by lia.
      * rewrite (nth_overflow r) by lia. now rewrite Z.mul_0_r, Z.mod_0_l by lia.
Qed.
Lemma fps_add_c_ok f x : residues p f -> 0 <= x < p ->
  exists R, fps_add_c p f x = Some R /\ length R = Nat.max (length f) 1 /\ residues p R /\
    forall k, nth k R 0 = (nth k f 0 + ps_c x k) mod p.
Proof.
  intros Rf Hx. unfold fps_add_c. set (f1 := if (length f =? 0)%nat then vresize f 1 else f).
  assert (L1 : length f1 = Nat.max (length f) 1).
  { unfold f1. destruct (Nat.eqb_spec (length f) 0); [rewrite len_vresize|]; lia. }
  assert (K1 : forall k, nth k f1 0 = nth k f 0).
  { intros k. unfold f1. destruct (Nat.eqb_spec (length f) 0); auto. rewrite nth_vresize.
    destruct (Nat.ltb_spec k 1); auto. now rewrite nth_overflow by lia. }
  assert (R1 : residues p f1). { unfold f1. destruct (_ =? _)%nat; auto. now apply res_vresize. }
  rewrite (get_nth _ _ 0) by lia. cbn [obind]. rewrite m_add_ok by (auto; now apply (res_n p M)). rewrite set_some by lia.
  eexists. split; [reflexivity|]. rewrite lset_length. split; auto. split; [apply res_lset; auto; apply mod_r|].
  intros [|k].
  - rewrite nth_lset_eq by lia. rewrite K1. reflexivity.
  - rewrite nth_lset_neq by lia. rewrite K1. unfold ps_c. cbn [Nat.eqb]. rewrite Z.add_0_r. symmetry. apply Z.mod_small. now apply (res_n p M).
Qed.

Lemma fps_eq_ok f g : fps_eq p f g = Some (forallb (fun k => nth k f 0 =? nth k g 0) (seq 0 (Nat.max (length f) (length g)))).
Proof.
  unfold fps_eq. set (n := Nat.max (length f) (length g)).
  assert (A : forall h i, fps_at p h i = Some (nth i h 0)).
  { intros h i. unfold fps_at. destruct (Nat.ltb_spec i (length h)); [apply get_nth; auto|].
    rewrite m_signed_ok, Z.mod_0_l, nth_overflow by (auto; lia). auto. }
  match goal with |- loop _ ?b _ = _ => set (body := b) end.
  assert (K : forall m i, (i + m = n)%nat -> loop (S m) body i = Some (forallb (fun k => nth k f 0 =? nth k g 0) (seq i m))).
  { induction m as [|m IH]; intros i H.
    - cbn [loop]. unfold body at 1. destruct (Nat.ltb_spec i n); [lia|]. reflexivity.
    - remember (S m) as m1. cbn [loop]. unfold body at 1. destruct (Nat.ltb_spec i n); [|lia]. rewrite !A. cbn [obind].
      unfold m_eq. subst m1. cbn [seq forallb]. destruct (nth i f 0 =? nth i g 0); cbn [andb]; auto. apply IH. lia. }
  apply K. lia.
Qed.
Lemma fps_eq_spec f g : exists b, fps_eq p f g = Some b /\ (b = true <-> forall k, nth k f 0 = nth k g 0).
Proof.
  rewrite fps_eq_ok. eexists. split; [reflexivity|]. rewrite forallb_forall. split.
  - intros H k. destruct (Nat.lt_ge_cases k (Nat.max (length f) (length g))) as [C|C].
    + apply Z.eqb_eq, H, in_seq. lia.
    + rewrite !nth_overflow by lia. auto.
  - intros H k _. apply Z.eqb_eq. auto.
Qed.

Lemma fps_normalize_ok f : exists R, fps_normalize f = Some R /\ (forall k, nth k R 0 = nth k f 0) /\ (R = [] \/ nth (length R - 1) R 0 <> 0) /\
  R = firstn (length R) f.
Proof.
  unfold fps_normalize. match goal with |- context [loop _ ?b _] => set (body := b) end.
  assert (K : forall m, (m <= length f)%nat -> exists n, loop (S m) body m = Some n /\ (n <= m)%nat /\
    (forall k, (n <= k < m)%nat -> nth k f 0 = 0) /\ (n = 0%nat \/ nth (n - 1) f 0 <> 0)).
  { induction m as [|m IH]; intros H.
    - exists 0%nat. cbn [loop]. unfold body at 1. cbn [Nat.eqb]. split; auto. split; auto. split; [lia|auto].
    - remember (S m) as m1 eqn:E1. cbn [loop]. unfold body at 1. destruct (Nat.eqb_spec m1 0) as [|_]; [lia|]. rewrite (get_nth _ _ 0) by lia. cbn [obind].
      replace (m1 - 1)%nat with m by lia. subst m1. destruct (Z.eqb_spec (nth m f 0) 0) as [Z0|Z0].
      + destruct (IH ltac:(lia)) as (n & E & Hn & Q & B). exists n. split; auto. split; [lia|]. split; auto.
        intros k Hk. destruct (Nat.eq_dec k m) as [->|]; auto. apply Q. lia.
      + exists (S m). split; auto. split; [lia|]. split; [lia|]. right. now replace (S m - 1)%nat with m by lia. }
  destruct (K (length f) (le_n _)) as (n & E & Hn & Q & B). rewrite E. cbn [obind]. eexists. split; [reflexivity|].
  assert (V : vresize f n = firstn n f). { unfold vresize. replace (n - length f)%nat with 0%nat by lia. apply app_nil_r. }
  split; [|split].
  - intros k. rewrite nth_vresize. destruct (Nat.ltb_spec k n); auto. symmetry.
    destruct (Nat.lt_ge_cases k (length f)); [apply Q; lia|now apply nth_overflow].
  - destruct B as [->|B]; [left; now rewrite V|]. destruct (Nat.eq_dec n 0) as [->|Nz]; [left; now rewrite V|]. right.
    rewrite len_vresize, nth_vresize. destruct (Nat.ltb_spec (n - 1) n); [auto|lia].
  - rewrite len_vresize. auto.
Qed.
End P.
