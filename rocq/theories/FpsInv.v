(** Power series: inverse and division. *)
From Coq Require Import Setoid Morphisms Znumtheory Sorted Ring.
From Verif Require Import Base BaseLemmas NthExtra SearchModel BitModel NumTheory ModularModel ModularProof PrimRootModel NttModel NttSum NttRev NttProof NttCore ConvModel ConvSum ConvNtt PsAlg FpsModel FpsBase FpsMul.
Local Open Scope Z_scope.
Ltac Zify.zify_post_hook ::= idtac.

(** ** Newton's step for the inverse *)
Section Newton.
Variable p : Z.
Variable n : nat.
Add Ring psr : (ps_ring p n) (setoid (eqs_equiv p n) (ps_ring_ext p n)).

Lemma newton_id f g : eqs p n (ps_mul f (ps_sub (ps_add g g) (ps_mul (ps_mul g g) f)))
  (ps_sub (ps_c 1) (ps_mul (ps_sub (ps_c 1) (ps_mul f g)) (ps_sub (ps_c 1) (ps_mul f g)))).
Proof. ring. Qed.
Lemma mul_gg f g : eqs p n (ps_mul (ps_mul g g) f) (ps_mul g (ps_mul f g)).
Proof. ring. Qed.
Lemma mul_1_r f : eqs p n (ps_mul f (ps_c 1)) f.
Proof. ring. Qed.
Lemma mul_1_l f : eqs p n (ps_mul (ps_c 1) f) f.
Proof. ring. Qed.
Lemma sub_0 f : eqs p n (ps_sub f (ps_c 0)) f.
Proof. ring. Qed.
Lemma mul_comm f g : eqs p n (ps_mul f g) (ps_mul g f).
Proof. ring. Qed.
Lemma mul_assoc f g h : eqs p n (ps_mul f (ps_mul g h)) (ps_mul (ps_mul f g) h).
Proof. ring. Qed.
End Newton.

Lemma cf_ext p n f g : (forall k, (k < n)%nat -> eqm p (nth k f 0) (nth k g 0)) -> eqs p n (cf f) (cf g).
Proof. auto. Qed.

Section P.
Variable p : Z.
Hypothesis P : prime p.
Hypothesis H31 : p < 2 ^ 31.
Local Notation "a == b" := (eqm p a b) (at level 70).
Let p2 : 2 <= p. Proof. now apply prime_ge_2. Qed.
Let M : 1 <= p < 2 ^ 31. Proof. lia. Qed.

Lemma newton_vec m nm (F : pser) (g t g1 : list Z) : length g = m -> eqs p m (ps_mul F (cf g)) (ps_c 1) -> (m <= nm <= 2 * m)%nat ->
  (forall k, (k < nm)%nat -> nth k t 0 == ps_mul (ps_mul (cf g) (cf g)) F k) ->
  (forall k, (k < nm)%nat -> nth k g1 0 = if (k <? m)%nat then nth k g 0 else (- nth k t 0) mod p) ->
  eqs p nm (ps_mul F (cf g1)) (ps_c 1).
Proof.
  intros Lg H1 Hm T G.
  assert (E : eqs p nm (cf g1) (ps_sub (ps_add (cf g) (cf g)) (ps_mul (ps_mul (cf g) (cf g)) F))).
  { intros k Hk. unfold cf at 1. rewrite (G k Hk). unfold ps_sub, ps_add. rewrite <- (T k Hk). destruct (Nat.ltb_spec k m) as [C|C].
    - rewrite (T k Hk), (mul_gg p m F (cf g) k C).
      assert (Q : ps_mul (cf g) (ps_mul F (cf g)) k == cf g k) by (apply (ps_mul_m p m (cf g) (cf g)) in H1; [rewrite (H1 k C); now apply mul_1_r with (n := m)|reflexivity]).
      rewrite Q. apply eq_eqm. unfold cf. ring.
    - rewrite eqm_mod. unfold cf. rewrite (nth_overflow g) by lia. apply eq_eqm. ring. }
  rewrite E, newton_id. apply (proj2 (van_eqs p nm _ _)).
  assert (V : van p m (ps_sub (ps_c 1) (ps_mul F (cf g)))). { apply (proj1 (van_eqs p m _ _)). symmetry. exact H1. }
  pose proof (van_mul p m m _ _ V V) as V2. intros k Hk. specialize (V2 k ltac:(lia)). unfold ps_sub at 1 2. rewrite V2. apply eq_eqm. ring.
Qed.

Lemma fps_set_neg_ok lo hi t g : residues p t -> residues p g -> (lo <= hi)%nat -> (hi <= length t)%nat -> (hi <= length g)%nat ->
  exists R, fps_set_neg p lo hi t g = Some R /\ length R = length g /\ residues p R /\
    forall k, nth k R 0 = if (lo <=? k)%nat && (k <? hi)%nat then (- nth k t 0) mod p else nth k g 0.
Proof.
  intros Rt Rg H1 H2 H3. unfold fps_set_neg.
  destruct (for_point p M (fun i _ => (- nth i t 0) mod p) (fun i g => let* v := get t i in set g i (m_neg p v)) (length g) (hi - lo) lo g)
    as (R & E & L & RR & K); auto.
  - intros i h Hi Lh Rh. rewrite (get_nth _ _ 0) by lia. cbn [obind]. rewrite (m_neg_ok p M) by now apply (res_n p M). apply set_some. lia.
  - intros. apply (mod_r p M).
  - lia.
  - exists R. split; [exact E|]. split; auto. split; auto. intros k. rewrite K. now replace (lo + (hi - lo))%nat with hi by lia.
Qed.
Lemma fps_load_ok f m nm fm : residues p f -> residues p fm -> length fm = nm ->
  exists R, fps_load f m nm fm = Some R /\ length R = nm /\ residues p R /\
    forall k, nth k R 0 = if (m <=? k)%nat && (k <? Nat.min nm (length f))%nat then nth k f 0 else nth k fm 0.
Proof.
  intros Rf Rm L0. unfold fps_load. destruct (Nat.le_gt_cases (Nat.min nm (length f)) m) as [C|C].
  { replace (Nat.min nm (length f) - m)%nat with 0%nat by lia. exists fm. split; auto. split; auto. split; auto. intros k.
    destruct (Nat.leb_spec m k), (Nat.ltb_spec k (Nat.min nm (length f))); cbn [andb]; auto; lia. }
  destruct (for_point p M (fun i _ => nth i f 0) (fun i fm => let* v := get f i in set fm i v) nm (Nat.min nm (length f) - m) m fm)
    as (R & E & L & RR & K); auto.
  - intros i h Hi Lh Rh. rewrite (get_nth _ _ 0) by lia. cbn [obind]. apply set_some. lia.
  - intros. now apply (res_n p M).
  - lia.
  - exists R. split; [exact E|]. split; auto. split; auto. intros k. rewrite K.
    now replace (m + (Nat.min nm (length f) - m))%nat with (Nat.min nm (length f)) by lia.
Qed.

Lemma len_pos (t : list Z) k : ~ (nth k t 0 == 0) -> (k < length t)%nat.
Proof. intros N. destruct (Nat.lt_ge_cases k (length t)); auto. exfalso. apply N. rewrite nth_overflow by auto. reflexivity. Qed.

Lemma unit_0 (F : pser) (g : list Z) m : (0 < m)%nat -> eqs p m (ps_mul F (cf g)) (ps_c 1) -> ~ (nth 0 g 0 == 0).
Proof.
  intros Hm E N. specialize (E 0%nat Hm). unfold ps_mul in E. cbn [zsum Nat.sub] in E. unfold cf, ps_c in E. cbn [Nat.eqb] in E.
  rewrite N in E. assert (p | 1).
  { apply eqm_0. etransitivity; [symmetry; exact E|]. apply eq_eqm. ring. }
  apply Z.divide_1_r in H. lia.
Qed.

(** [g] doubles: used by [inv_dense] and [exp_dense] *)
Lemma gg_ok m e (F g : list Z) N : length g = m -> residues p g -> residues p F -> m = (2 ^ e)%nat -> (length F <= 2 * m)%nat ->
  eqs p m (ps_mul (cf F) (cf g)) (ps_c 1) -> (N <= info_log_n p)%nat -> (e + 2 <= N)%nat ->
  exists t, (let* t := fps_mul p g g in fps_mul p t F) = Some t /\ residues p t /\
    forall k, nth k t 0 == ps_mul (ps_mul (cf g) (cf g)) (cf F) k.
Proof.
  intros Lg Rg RF Em LF H1 HN He. assert (P0 : (0 < m)%nat) by (subst m; pose proof (Nat.pow_nonzero 2 e ltac:(lia)); lia).
  assert (E2 : (2 ^ S e = 2 * m)%nat) by (rewrite Nat.pow_succ_r'; lia).
  assert (E4 : (2 ^ S (S e) = 4 * m)%nat) by (rewrite Nat.pow_succ_r'; lia).
  destruct (fps_mul_ok p P H31 g g (S e) Rg Rg ltac:(lia) ltac:(lia) ltac:(lia)) as (t & E & Rt & K & Lt). rewrite E. cbn [obind].
  assert (Pt : (0 < length t)%nat).
  { apply len_pos. intros Z0. pose proof (unit_0 _ _ _ P0 H1) as U. apply U. specialize (K 0%nat). rewrite Z0 in K.
    unfold ps_mul in K. cbn [zsum Nat.sub] in K. unfold cf in K. symmetry in K.
    assert (D : (p | nth 0 g 0 * nth 0 g 0)) by (apply eqm_0; etransitivity; [|exact K]; apply eq_eqm; ring).
    apply prime_mult in D; auto. apply eqm_0. tauto. }
  destruct (fps_mul_ok p P H31 t F (S (S e)) Rt RF Pt ltac:(lia) ltac:(lia)) as (t' & E' & Rt' & K' & _).
  exists t'. split; auto. split; auto. intros k. rewrite K'. apply (ps_mul_m p (S k)); [|reflexivity|lia].
  intros i _. apply K.
Qed.

Lemma inv_round_ok f n m e g fm N : residues p f -> m = (2 ^ e)%nat -> (m < n)%nat -> (2 * n <= 2 ^ N)%nat -> (N <= info_log_n p)%nat ->
  length g = m -> residues p g -> length fm = m -> residues p fm -> (forall k, (k < m)%nat -> nth k fm 0 = nth k f 0) ->
  eqs p m (ps_mul (cf f) (cf g)) (ps_c 1) ->
  exists g' fm', inv_round p f n m g fm = Some (g', fm') /\ length g' = Nat.min (2 * m) n /\ residues p g' /\
    length fm' = Nat.min (2 * m) n /\ residues p fm' /\ (forall k, (k < Nat.min (2 * m) n)%nat -> nth k fm' 0 = nth k f 0) /\
    eqs p (Nat.min (2 * m) n) (ps_mul (cf f) (cf g')) (ps_c 1).
Proof.
  intros Rf Em Hm Hn HN Lg Rg Lm Rm Km H1. unfold inv_round. rewrite (Nat.mul_comm m 2).
  set (nm := Nat.min (2 * m) n).
  assert (He : (e + 2 <= N)%nat).
  { assert (S e < N)%nat; [|lia]. apply (Nat.pow_lt_mono_r_iff 2); [lia|]. rewrite Nat.pow_succ_r'. lia. }
  destruct (fps_load_ok f m nm (vresize fm nm) Rf (res_vresize p M _ _ Rm) (len_vresize _ _)) as (fm' & E & L & R & K). rewrite E. cbn [obind].
  assert (Kf : forall k, (k < nm)%nat -> nth k fm' 0 = nth k f 0).
  { intros k Hk. rewrite K, nth_vresize. destruct (Nat.ltb_spec k nm); [|lia]. destruct (Nat.leb_spec m k) as [C|C]; cbn [andb].
    - destruct (Nat.ltb_spec k (Nat.min nm (length f))); auto. rewrite !nth_overflow by lia. auto.
    - apply Km. auto. }
  assert (H1' : eqs p m (ps_mul (cf fm') (cf g)) (ps_c 1)).
  { rewrite <- H1. apply ps_mul_m; [|reflexivity]. intros k Hk. unfold cf. rewrite Kf by (unfold nm; lia). reflexivity. }
  destruct (gg_ok m e fm' g N Lg Rg R Em ltac:(unfold nm in *; lia) H1' HN He) as (t & Et & Rt & Kt).
  destruct (fps_mul p g g) as [t1|]; [|discriminate]. cbn [obind] in Et |- *. rewrite Et. cbn [obind].
  destruct (fps_set_neg_ok m nm (fps_ipre t nm) (vresize g nm) (res_vresize p M _ _ Rt) (res_vresize p M _ _ Rg) ltac:(unfold nm; lia)
    ltac:(unfold fps_ipre; rewrite len_vresize; lia) ltac:(rewrite len_vresize; lia)) as (g' & Eg & Lg' & Rg' & Kg). rewrite Eg. cbn [obind].
  exists g', fm'. split; auto. rewrite len_vresize in Lg'. split; auto. split; auto. split; auto. split; auto. split; auto.
  assert (Q : eqs p nm (ps_mul (cf fm') (cf g')) (ps_c 1)).
  { apply (newton_vec m nm (cf fm') g t g'); auto.
    - unfold nm. lia.
    - intros k Hk. rewrite Kg. unfold fps_ipre. rewrite !nth_vresize. destruct (Nat.ltb_spec k nm); [|lia].
      destruct (Nat.leb_spec m k), (Nat.ltb_spec k m); cbn [andb]; auto; lia. }
  rewrite <- Q. apply ps_mul_m; [|reflexivity]. intros k Hk. unfold cf. rewrite Kf by auto. reflexivity.
Qed.

Lemma eqs_1_unit (f0 g0 : Z) (f g : pser) : f0 * g0 == 1 -> f 0%nat = f0 -> g 0%nat = g0 -> eqs p 1 (ps_mul f g) (ps_c 1).
Proof.
  intros E <- <- k Hk. assert (k = 0)%nat as -> by lia. unfold ps_mul, ps_c. cbn [zsum Nat.sub Nat.eqb]. rewrite Z.add_0_l. exact E.
Qed.

Lemma m_inv_eqm a : 0 <= a < p -> a <> 0 -> exists i, m_inv p a = Some i /\ 0 <= i < p /\ a * i == 1.
Proof.
  intros Ra Na. destruct (m_inv_ok p M P a Ra Na) as (i & E & Ri & V). exists i. split; auto. split; auto. apply eqm_mod_eq; [lia|].
  rewrite V. symmetry. apply Z.mod_small. lia.
Qed.

Lemma assert0_ok b f c v : get f 0%nat = Some v -> Bool.eqb (v =? c) b = true -> fps_assert0 b f c = Some tt.
Proof. intros E H. unfold fps_assert0. rewrite E. cbn [obind]. now rewrite H. Qed.

(** [inv_dense], with the number of terms [n] already determined *)
Lemma fps_inv_dense_ok f z n N : residues p f -> f <> [] -> nth 0 f 0 <> 0 -> fps_deg f z = Some n ->
  (2 * n <= 2 ^ N)%nat -> (N <= info_log_n p)%nat ->
  exists R, fps_inv_dense p f z = Some R /\ length R = n /\ residues p R /\ eqs p n (ps_mul (cf f) (cf R)) (ps_c 1).
Proof.
  intros Rf Nf N0 D Hn HN. unfold fps_inv_dense.
  assert (G0 : get f 0%nat = Some (nth 0 f 0)) by (apply get_nth; destruct f; [congruence|cbn; lia]).
  rewrite (assert0_ok false f 0 _ G0) by (destruct (Z.eqb_spec (nth 0 f 0) 0); [contradiction|auto]). cbn [obind]. rewrite D. cbn [obind].
  destruct (Nat.eqb_spec n 0) as [->|Nn].
  - exists []. split; auto. split; auto. split; [constructor|]. intros k Hk. lia.
  - rewrite G0. cbn [obind]. destruct (m_inv_eqm (nth 0 f 0) (res_n p M f 0 Rf) N0) as (i & Ei & Ri & Vi). rewrite Ei. cbn [obind].
    match goal with |- context [loop _ ?b _] => set (body := b) end.
    destruct (@loop_rule _ _ (fun '(m, g, fm) => (exists e, m = 2 ^ e)%nat /\ length g = Nat.min m n /\ residues p g /\ length fm = Nat.min m n /\ residues p fm /\
        (forall k, (k < Nat.min m n)%nat -> nth k fm 0 = nth k f 0) /\ eqs p (Nat.min m n) (ps_mul (cf f) (cf g)) (ps_c 1))
      (fun '(m, _, _) => n - m)%nat
      (fun R => length R = n /\ residues p R /\ eqs p n (ps_mul (cf f) (cf R)) (ps_c 1)) body) with (fuel := S n) (s := (1%nat, [i], [nth 0 f 0]))
      as (R & E & Q).
    + intros [[m g] fm] ((e & Em) & Lg & Rg & Lm & Rm & Km & H1). unfold body. destruct (Nat.ltb_spec m n) as [C|C].
      * rewrite (Nat.min_l m n) in * by lia.
        destruct (inv_round_ok f n m e g fm N Rf Em C Hn HN Lg Rg Lm Rm Km H1) as (g' & fm' & E & Q). rewrite E. cbn [obind].
        eexists. split; [reflexivity|]. cbn beta iota. rewrite (Nat.mul_comm m 2). split.
        -- split; [exists (S e); rewrite Nat.pow_succ_r'; lia|]. exact Q.
        -- assert (0 < m)%nat by (subst m; pose proof (Nat.pow_nonzero 2 e ltac:(lia)); lia). lia.
      * eexists. split; [reflexivity|]. cbn beta iota. rewrite (Nat.min_r m n) in * by lia. auto.
    + rewrite (Nat.min_l 1 n) by lia. split; [exists 0%nat; reflexivity|]. split; auto. split; [constructor; [exact Ri|constructor]|]. split; auto.
      split; [constructor; [now apply (res_n p M)|constructor]|]. split.
      * intros k Hk. assert (k = 0)%nat as -> by lia. auto.
      * apply (eqs_1_unit (nth 0 f 0) i); auto.
    + lia.
    + exists R. split; [exact E|]. exact Q.
Qed.
End P.
