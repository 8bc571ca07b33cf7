(** Power series: product, shifts, derivative, integral. *)
From Coq Require Import Setoid Morphisms Znumtheory Sorted.
From Verif Require Import Base BaseLemmas NthExtra SearchModel BitModel NumTheory ModularModel ModularProof PrimRootModel NttModel NttSum NttRev NttProof NttCore ConvModel ConvSum ConvNtt PsAlg FpsModel FpsBase.
Local Open Scope Z_scope.
Ltac Zify.zify_post_hook ::= idtac.

Lemma last_max (s : list (nat * Z)) dflt : incr s -> forall x, In x s -> (fst x <= fst (last s dflt))%nat.
Proof.
  intros H. induction H as [|y s H IH F]; intros x I; [destruct I|].
  destruct s as [|z s].
  - destruct I as [->|[]]. cbn. lia.
  - change (last (y :: z :: s) dflt) with (last (z :: s) dflt). destruct I as [->|I]; [|now apply IH].
    assert (fst x < fst z)%nat by (apply (proj1 (Forall_forall _ _) F); now left).
    specialize (IH z (or_introl eq_refl)). lia.
Qed.
Lemma last_In {A} (s : list A) d : s <> [] -> In (last s d) s.
Proof. induction s as [|x [|y s] IH]; intros H; [congruence|now left|]. right. apply IH. congruence. Qed.

Lemma nth_skipn_add (f : list Z) m k : nth k (skipn m f) 0 = nth (m + k) f 0.
Proof. revert m. induction f; intros [|m]; cbn [skipn Nat.add nth]; auto; destruct k; auto. Qed.
Lemma conv_cf f g k : conv f g k = ps_mul (cf f) (cf g) k.
Proof. reflexivity. Qed.

Section P.
Variable p : Z.
Hypothesis P : prime p.
Hypothesis H31 : p < 2 ^ 31.
Local Notation "a == b" := (eqm p a b) (at level 70).

Let p2 : 2 <= p. Proof. now apply prime_ge_2. Qed.
Let M : 1 <= p < 2 ^ 31. Proof. lia. Qed.

Lemma res_ties f lo n : residues p f -> Forall (fun x => 0 <= snd x < p) (ties f lo n).
Proof.
  intros R. apply Forall_forall. intros [d v] I. apply ties_In in I. destruct I as (_ & -> & _). cbn [snd]. now apply (res_n p M).
Qed.

Lemma adds_each {A} L (body : A -> list Z -> option (list Z)) d l : (forall x, In x l -> adds p L (body x) (d x)) ->
  adds p L (for_each l body) (fun k => lz (fun x => d x k) l).
Proof.
  induction l as [|x l IH]; intros H h Lh Rh.
  - exists h. split; auto. split; auto. split; auto. intros k _. cbn [lz]. apply eq_eqm. ring.
  - cbn [for_each]. destruct (H x (or_introl eq_refl) h Lh Rh) as (h1 & E1 & L1 & R1 & K1). rewrite E1. cbn [obind].
    destruct (IH ltac:(intros; apply H; now right) h1 L1 R1) as (h2 & E2 & L2 & R2 & K2).
    exists h2. split; auto. split; auto. split; auto. intros k Hk. rewrite (K2 k Hk), (K1 k Hk). cbn [lz]. apply eq_eqm. ring.
Qed.

(** [ret[i + j] += a * b] *)
Lemma mul_add_adds L a b x : 0 <= a < p -> 0 <= b < p -> (x < L)%nat ->
  adds p L (fun ret => let* v := m_mul p a b in let* c := get ret x in set ret x (m_add p c v))
    (fun k => if (x =? k)%nat then a * b else 0).
Proof.
  intros Ha Hb Hx h Lh Rh. rewrite m_mul_ok by auto. cbn [obind].
  destruct (adds_step p M L x ((a * b) mod p) Hx ltac:(apply Z.mod_pos_bound; lia) h Lh Rh) as (h' & E & L' & R' & K).
  exists h'. split; [exact E|]. split; auto. split; auto. intros k Hk. rewrite (K k Hk).
  destruct (x =? k)%nat; [rewrite eqm_mod|]; reflexivity.
Qed.

Lemma fps_mul_sparse_ok f r : residues p f -> residues p r ->
  exists R, fps_mul_sparse p f r = Some R /\ residues p R /\ (forall k, nth k R 0 == conv f r k) /\
    (length R <= length f + length r - 1)%nat /\
    ((forall k, nth k r 0 = 0) -> R = []) /\
    (forall d, nth d r 0 <> 0 -> (forall k, (d < k)%nat -> nth k r 0 = 0) -> length R = (length f + d)%nat).
Proof.
  intros Rf Rr. unfold fps_mul_sparse. rewrite fps_ties_ok by lia. cbn [obind]. rewrite Nat.sub_0_r.
  set (ri := ties r 0 (length r)).
  assert (Z0 : ri = [] -> forall k, nth k r 0 = 0).
  { intros E k. destruct (Z.eq_dec (nth k r 0) 0) as [|N]; auto. exfalso.
    assert (I : In (k, nth k r 0) ri).
    { apply ties_In. split; [|auto]. destruct (Nat.lt_ge_cases k (length r)); [lia|]. rewrite nth_overflow in N by lia. congruence. }
    rewrite E in I. destruct I. }
  assert (NE : ri <> [] -> forall k, (fst (last ri (0%nat, 0%Z)) < k)%nat -> nth k r 0 = 0).
  { intros _ k Hk. destruct (Z.eq_dec (nth k r 0) 0) as [|N]; auto. exfalso.
    assert (I : In (k, nth k r 0) ri).
    { apply ties_In. split; [|auto]. destruct (Nat.lt_ge_cases k (length r)); [lia|]. rewrite nth_overflow in N by lia. congruence. }
    apply (last_max ri (0%nat, 0%Z) (ties_incr _ _ _)) in I. cbn [fst] in I. lia. }
  destruct ri as [|x0 ri0] eqn:Eri.
  - exists []. split; auto. split; [constructor|]. specialize (Z0 eq_refl). split.
    + intros k. unfold conv. rewrite (zsum_ext _ _ (fun _ => 0)), zsum_0 by (intros; rewrite Z0; ring). destruct k; reflexivity.
    + split; [cbn; lia|]. split; auto. intros d Hd. rewrite Z0 in Hd. congruence.
  - rewrite <- Eri in *. assert (Hne : ri <> []) by (rewrite Eri; congruence). set (d := fst (last ri (0%nat, 0%Z))) in *.
    pose proof (last_In ri (0%nat, 0%Z) Hne) as IL. unfold ri in IL at 2. rewrite (surjective_pairing (last ri (0%nat, 0%Z))) in IL.
    apply ties_In in IL. fold d in IL. destruct IL as (Hd & Ed & Nd). rewrite Ed in Nd.
    assert (A : adds p (length f + d) (for_up (length f) 0 (fun i ret =>
        let* a := get f i in
        if a =? 0 then Some ret
        else for_each ri (fun '(j, b) ret =>
          let* v := m_mul p a b in
          let* c := get ret (i + j)%nat in
          set ret (i + j)%nat (m_add p c v)) ret)) (conv f r)).
    { eapply adds_ext.
      - apply (adds_for p (length f + d) _ (fun i k => lz (fun '(j, b) => if (i + j =? k)%nat then nth i f 0 * b else 0) ri)).
        intros i Hi h Lh Rh. rewrite (get_nth _ _ 0) by lia. cbn [obind]. destruct (Z.eqb_spec (nth i f 0) 0) as [E0|N0].
        + exists h. split; auto. split; auto. split; auto. intros k _. rewrite (lz_ext _ (fun _ => 0)).
          * replace (lz (fun _ => 0) ri) with 0; [apply eq_eqm; ring|]. clear. induction ri; cbn [lz]; auto.
          * intros [j b] _. rewrite E0. destruct (_ =? _)%nat; ring.
        + assert (B : adds p (length f + d) (for_each ri (fun '(j, b) ret =>
              let* v := m_mul p (nth i f 0) b in let* c := get ret (i + j)%nat in set ret (i + j)%nat (m_add p c v)))
            (fun k => lz (fun x => (fun x k => let '(j, b) := x in if (i + j =? k)%nat then nth i f 0 * b else 0) x k) ri)).
          { apply adds_each. intros [j b] I. pose proof (last_max ri (0%nat, 0%Z) (ties_incr _ _ _) _ I) as Lx. cbn [fst] in Lx. fold d in Lx.
            apply mul_add_adds; [now apply (res_n p M)| |lia].
            apply (proj1 (Forall_forall _ _) (res_ties r 0 (length r) Rr)) in I. exact I. }
          exact (B h Lh Rh).
      - intros k Hk. apply eq_eqm. rewrite conv_dbl. unfold dbl. apply zsum_ext. intros i Hi. cbn [Nat.add].
        unfold ri. rewrite lz_ties by (intros; destruct (_ =? _)%nat; ring). reflexivity. }
    destruct (A (repeat 0 (length f + d)) (repeat_length _ _) (res_repeat p M _)) as (h & E & Lh & Rh & K).
    exists h. split; [exact E|]. split; auto. split; [|split; [|split]].
    + intros k. destruct (Nat.lt_ge_cases k (length f + d)) as [C|C].
      * rewrite (K k C), nth_repeat. apply eq_eqm. ring.
      * rewrite nth_overflow by lia. unfold conv. rewrite (zsum_ext _ _ (fun _ => 0)), zsum_0; [reflexivity|]. intros i Hi.
        destruct (Nat.lt_ge_cases i (length f)).
        -- rewrite (NE Hne (k - i)%nat) by lia. ring.
        -- rewrite (nth_overflow f) by lia. ring.
    + lia.
    + intros Q. rewrite Q in Nd. congruence.
    + intros d' Nd' Hd'. rewrite Lh. f_equal. destruct (Nat.lt_total d d') as [C|[C|C]]; auto.
      * rewrite (NE Hne d' C) in Nd'. congruence.
      * rewrite (Hd' d C) in Nd. congruence.
Qed.

Lemma conv_ntt_len_le n m j : (n + m - 1 <= 2 ^ j)%nat -> (conv_ntt_len n m <= 2 ^ j)%nat.
Proof.
  intros H. unfold conv_ntt_len. cbn zeta. destruct (_ && _)%bool; auto. apply Nat.pow_le_mono_r; [lia|]. now apply ceil_pow2_min.
Qed.

Lemma count_pos r : (100 <= fps_count r (-1))%nat -> (0 < length r)%nat.
Proof. destruct r; cbn; lia. Qed.

(** the product of two series with at most [2^j] terms in the result *)
Lemma fps_mul_ok f r j : residues p f -> residues p r -> (0 < length f)%nat ->
  (length f + length r - 1 <= 2 ^ j)%nat -> (j <= info_log_n p)%nat ->
  exists R, fps_mul p f r = Some R /\ residues p R /\ (forall k, nth k R 0 == ps_mul (cf f) (cf r) k) /\ (length R <= 2 ^ j)%nat.
Proof.
  intros Rf Rr Hf HL Hj. unfold fps_mul. destruct (Nat.ltb_spec (fps_count r (-1)) 100) as [C|C].
  - destruct (fps_mul_sparse_ok f r Rf Rr) as (R & E & RR & K & L & _). exists R. split; auto. split; auto. split; auto. lia.
  - apply count_pos in C. unfold fps_mul_dense.
    destruct (conv_ntt_ok p P H31 (length f + length r) f r j Rf Rr Hf C ltac:(lia) Hj ltac:(lia)) as (R & E & L & RR & K).
    exists R. split; auto. split; auto. split; auto. rewrite L. now apply conv_ntt_len_le.
Qed.

(** ** Shifts *)
Lemma nth_shl f m k : nth k (fps_shl f m) 0 = ps_x m (cf f) k.
Proof.
  unfold fps_shl, ps_x, cf. destruct (Nat.ltb_spec k m).
  - rewrite app_nth1 by now rewrite repeat_length. apply nth_repeat.
  - rewrite app_nth2 by (rewrite repeat_length; lia). now rewrite repeat_length.
Qed.
Lemma nth_shr f m k : nth k (fps_shr f m) 0 = nth (m + k) f 0.
Proof.
  unfold fps_shr. destruct (Nat.leb_spec (length f) m).
  - rewrite (nth_overflow f) by lia. destruct k; auto.
  - apply nth_skipn_add.
Qed.
Lemma len_shr f m : length (fps_shr f m) = (length f - m)%nat.
Proof. unfold fps_shr. destruct (Nat.leb_spec (length f) m); [cbn; lia|]. now rewrite skipn_length. Qed.

Lemma fps_shl_set_ok f m : fps_shl_set f m = Some (fps_shl f m).
Proof.
  unfold fps_shl_set. set (s := length f).
  match goal with |- context [for_up s 0 ?b _] => set (body := b) end.
  destruct (@for_up_rule _ (fun i h => length h = (m + s)%nat /\
     forall k, nth k h 0 = if (m + s - i <=? k)%nat && (k <? m + s)%nat then nth (k - m) f 0 else nth k f 0) body s 0%nat (vresize f (m + s))) as (h & E & L & K).
  - split; [apply len_vresize|]. intros k. rewrite nth_vresize, Nat.sub_0_r.
    destruct (Nat.leb_spec (m + s) k), (Nat.ltb_spec k (m + s)); cbn [andb]; auto; try lia. rewrite nth_overflow; auto. unfold s in *. lia.
  - intros i h Hi [L K]. unfold body. rewrite (get_nth _ _ 0) by lia. cbn [obind]. rewrite set_some by lia.
    eexists. split; [reflexivity|]. rewrite lset_length. split; auto. intros k. destruct (Nat.eq_dec k (m + s - 1 - i)) as [->|N].
    + rewrite nth_lset_eq by lia. rewrite K.
      destruct (Nat.leb_spec (m + s - S i) (m + s - 1 - i)), (Nat.ltb_spec (m + s - 1 - i) (m + s)); cbn [andb]; try lia.
      destruct (Nat.leb_spec (m + s - i) (s - 1 - i)); cbn [andb]; [lia|]. f_equal. lia.
    + rewrite nth_lset_neq by auto. rewrite K.
      destruct (Nat.leb_spec (m + s - i) k), (Nat.leb_spec (m + s - S i) k); cbn [andb]; auto; try lia.
  - rewrite E. cbn [obind]. clear body E.
    match goal with |- for_up m 0 ?b _ = _ => set (body := b) end.
    destruct (@for_up_rule _ (fun i h => length h = (m + s)%nat /\
       forall k, nth k h 0 = if (k <? i)%nat then 0 else if (m <=? k)%nat then nth (k - m) f 0 else nth k f 0) body m 0%nat h) as (h' & E' & L' & K').
    + split; auto. intros k. rewrite K. destruct (Nat.ltb_spec k 0); [lia|]. replace (m + s - (0 + s))%nat with m by lia.
      destruct (Nat.leb_spec m k); cbn [andb]; auto. destruct (Nat.ltb_spec k (m + s)); auto.
      transitivity 0; [|symmetry]; apply nth_overflow; unfold s in *; lia.
    + intros i h0 Hi [L0 K0]. unfold body. rewrite set_some by lia. eexists. split; [reflexivity|]. rewrite lset_length. split; auto.
      intros k. destruct (Nat.eq_dec k i) as [->|N].
      * rewrite nth_lset_eq by lia. destruct (Nat.ltb_spec i (S i)); [auto|lia].
      * rewrite nth_lset_neq by auto. rewrite K0. destruct (Nat.ltb_spec k i), (Nat.ltb_spec k (S i)); auto; lia.
    + rewrite E'. f_equal. apply nth_ext0.
      * rewrite L'. unfold fps_shl. rewrite app_length, repeat_length. auto.
      * intros k. rewrite nth_shl, K'. unfold ps_x, cf. cbn [Nat.add]. destruct (Nat.ltb_spec k m); auto.
        destruct (Nat.leb_spec m k); [auto|lia].
Qed.

(** ** Derivative *)
Lemma fps_diff_ok f : residues p f ->
  exists R, fps_diff p f = Some R /\ length R = (length f - 1)%nat /\ residues p R /\ forall k, nth k R 0 = ps_d (cf f) k mod p.
Proof.
  intros Rf. unfold fps_diff. destruct (Nat.eqb_spec (length f) 0) as [E0|N0].
  - exists f. split; auto. split; [lia|]. split; auto. intros k. unfold ps_d, cf. rewrite !nth_overflow by lia.
    now rewrite Z.mul_0_r, Z.mod_0_l by lia.
  - match goal with |- context [for_up _ 1 ?b _] => set (body := b) end.
    destruct (@for_up_rule _ (fun i h => length h = length f /\ residues p h /\
       forall k, nth k h 0 = if (S k <? i)%nat then ps_d (cf f) k mod p else nth k f 0) body (length f - 1) 1%nat f) as (h & E & L & R & K).
    + split; [auto|]. split; [auto|]. intros k. destruct (Nat.ltb_spec (S k) 1); [lia|]. reflexivity.
    + intros i h Hi (L & R & K). unfold body. rewrite (get_nth _ _ 0) by lia. cbn [obind]. rewrite (m_unsigned_ok p M).
      rewrite (m_mul_ok p M) by (try apply (res_n p M); auto; apply (mod_r p M)). cbn [obind]. rewrite set_some by lia.
      eexists. split; [reflexivity|]. rewrite lset_length. split; auto. split; [apply (res_lset p M); auto; apply (mod_r p M)|].
      intros k. destruct (Nat.eq_dec k (i - 1)) as [->|N].
      * rewrite nth_lset_eq by lia. rewrite K. destruct (Nat.ltb_spec (S i) i); [lia|].
        destruct (Nat.ltb_spec (S (i - 1)) (S i)); [|lia]. unfold ps_d, cf. replace (S (i - 1)) with i by lia.
        rewrite Z.mul_mod_idemp_r by lia. f_equal. ring.
      * rewrite nth_lset_neq by auto. rewrite K. destruct (Nat.ltb_spec (S k) i), (Nat.ltb_spec (S k) (S i)); auto; lia.
    + rewrite E. cbn [obind]. eexists. split; [reflexivity|]. rewrite firstn_length. split; [lia|]. split; [now apply res_firstn|].
      intros k. destruct (Nat.lt_ge_cases k (length f - 1)) as [C|C].
      * rewrite nth_firstn_lt by lia. rewrite K. destruct (Nat.ltb_spec (S k) (1 + (length f - 1))); [auto|lia].
      * rewrite nth_overflow by (rewrite firstn_length; lia). unfold ps_d, cf. rewrite nth_overflow by lia.
        now rewrite Z.mul_0_r, Z.mod_0_l by lia.
Qed.

(** ** Integral *)
Lemma util_inv_ok tb i : inv_tab p tb -> (0 < i)%nat -> Z.of_nat i < p ->
  exists v tb', util_inv p tb i = Some (v, tb') /\ inv_tab p tb' /\ 0 <= v < p /\ Z.of_nat i * v == 1.
Proof.
  intros I Hi Hp. unfold util_inv. destruct (util_set_inv_ok p M P tb i I Hp) as (tb' & E & I' & L). rewrite E. cbn [obind].
  rewrite (get_nth _ _ 0) by lia. cbn [obind]. exists (nth i tb' 0), tb'. split; auto. split; auto.
  destruct I' as [_ I']. destruct (I' i (nth i tb' 0) ltac:(apply get_nth; lia)) as (R & V & _). split; auto.
  specialize (V Hi Hp). apply eqm_mod_eq; [lia|]. rewrite V. symmetry. apply Z.mod_small. lia.
Qed.

Lemma fps_inte_ok tb f : inv_tab p tb -> residues p f -> Z.of_nat (length f) + 1 < p ->
  exists R, fps_inte p tb f = Some R /\ length R = (if (length f =? 0)%nat then 0 else length f + 1)%nat /\ residues p R /\
    nth 0 R 0 = 0 /\ forall k, ps_d (cf R) k == nth k f 0.
Proof.
  intros I Rf Hp. unfold fps_inte. destruct (Nat.eqb_spec (length f) 0) as [E0|N0].
  - exists f. split; auto. split; auto. split; auto. split; [now rewrite nth_overflow by lia|]. intros k. unfold ps_d, cf.
    rewrite !nth_overflow by lia. apply eq_eqm. ring.
  - set (f1 := f ++ [m_signed p 0]).
    assert (L1 : length f1 = S (length f)) by (unfold f1; rewrite app_length; cbn; lia).
    assert (R1 : residues p f1).
    { apply (res_app p); auto. constructor; [|constructor]. rewrite (m_signed_ok p M). apply (mod_r p M). }
    assert (K1 : forall k, nth k f1 0 = nth k f 0).
    { intros k. unfold f1. destruct (Nat.lt_ge_cases k (length f)); [now rewrite app_nth1|]. rewrite app_nth2, (nth_overflow f) by lia.
      rewrite (m_signed_ok p M), Z.mod_0_l by lia. destruct (k - length f)%nat as [|[|]]; auto. }
    destruct (util_set_inv_ok p M P tb (length f1) I ltac:(lia)) as (tb1 & Et & I1 & _). rewrite Et. cbn [obind].
    match goal with |- context [for_down _ 1 ?b _] => set (body := b) end.
    destruct (@for_down_rule _ (fun i '(h, tb) => inv_tab p tb /\ length h = S (length f) /\ residues p h /\
       (forall k, (k < i)%nat -> nth k h 0 = nth k f 0) /\ (forall k, (i <= k <= length f)%nat -> Z.of_nat k * nth k h 0 == nth (k - 1) f 0))
       body 1%nat (length f1 - 1)%nat (f1, tb1)) as ([h tb2] & E & _ & Lh & Rh & _ & K).
    + split; auto. split; auto. split; auto. split; auto. intros k Hk. lia.
    + intros i [h tb2] Hi (I2 & Lh & Rh & Klo & Khi). unfold body. rewrite (get_nth _ _ 0) by lia. cbn [obind].
      destruct (util_inv_ok tb2 i I2 ltac:(lia) ltac:(lia)) as (v & tb3 & Ei & I3 & Rv & Ev). rewrite Ei. cbn [obind].
      rewrite (m_mul_ok p M) by (try apply (res_n p M); auto). cbn [obind]. rewrite set_some by lia. cbn [obind].
      eexists. split; [reflexivity|]. split; auto. rewrite lset_length. split; auto. split; [apply (res_lset p M); auto; apply (mod_r p M)|]. split.
      * intros k Hk. rewrite nth_lset_neq by lia. apply Klo. lia.
      * intros k Hk. destruct (Nat.eq_dec k i) as [->|N].
        -- rewrite nth_lset_eq by lia. rewrite eqm_mod. rewrite Klo by lia.
           transitivity ((Z.of_nat i * v) * nth (i - 1) f 0); [apply eq_eqm; ring|]. rewrite Ev. apply eq_eqm. ring.
        -- rewrite nth_lset_neq by auto. apply Khi. lia.
    + rewrite E. cbn [obind]. rewrite set_some by lia. eexists. split; [reflexivity|]. rewrite lset_length. split; [lia|].
      rewrite (m_signed_ok p M), Z.mod_0_l by lia. split; [apply (res_lset p M); auto; lia|]. split; [now rewrite nth_lset_eq by lia|].
      intros k. unfold ps_d, cf. rewrite nth_lset_neq by lia. destruct (Nat.lt_ge_cases k (length f)).
      * rewrite K by lia. replace (S k - 1)%nat with k by lia. reflexivity.
      * rewrite !nth_overflow by lia. apply eq_eqm. ring.
Qed.
End P.
