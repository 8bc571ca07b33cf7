(** Loops that add to the entries of a vector, and double sums. *)
From Coq Require Import Setoid Morphisms.
From Verif Require Import Base BaseLemmas NthExtra SearchModel BitModel NumTheory ModularModel ModularProof NttModel NttSum NttPass NttProof ConvModel.
Local Open Scope Z_scope.
Ltac Zify.zify_post_hook ::= idtac.

(** ** Double sums *)
Definition dbl (n m : nat) (F G : nat -> Z) (k : nat) : Z :=
  zsum n (fun i => zsum m (fun j => if (i + j =? k)%nat then F i * G j else 0)).

Lemma zsum_if n (b : bool) f : zsum n (fun i => if b then f i else 0) = if b then zsum n f else 0.
Proof. destruct b; auto. apply zsum_0. Qed.

Lemma inner_sum m i k (a : Z) G : (forall j, (m <= j)%nat -> G j = 0) ->
  zsum m (fun j => if (i + j =? k)%nat then a * G j else 0) = if (i <=? k)%nat then a * G (k - i)%nat else 0.
Proof.
  intros GZ. destruct (Nat.leb_spec i k) as [H|H].
  - destruct (Nat.lt_ge_cases (k - i) m) as [C|C].
    + rewrite (zsum_single m _ (k - i) C).
      * replace (i + (k - i))%nat with k by lia. now rewrite Nat.eqb_refl.
      * intros j Hj Nj. destruct (Nat.eqb_spec (i + j) k); [lia|auto].
    + rewrite GZ by auto. rewrite (zsum_ext m _ (fun _ => 0)), zsum_0; [ring|].
      intros j Hj. destruct (Nat.eqb_spec (i + j) k); [lia|auto].
  - rewrite (zsum_ext m _ (fun _ => 0)), zsum_0; auto. intros j Hj. destruct (Nat.eqb_spec (i + j) k); [lia|auto].
Qed.

Lemma dbl_conv n m F G k : (forall j, (n <= j)%nat -> F j = 0) -> (forall j, (m <= j)%nat -> G j = 0) ->
  dbl n m F G k = zsum (S k) (fun i => F i * G (k - i)%nat).
Proof.
  intros FZ GZ. unfold dbl.
  rewrite (zsum_ext n _ (fun i => if (i <=? k)%nat then F i * G (k - i)%nat else 0)) by (intros; now apply inner_sum).
  set (t := fun i => if (i <=? k)%nat then F i * G (k - i)%nat else 0).
  rewrite <- (zsum_pad n (Nat.max n (S k)) t); [|lia|].
  2:{ intros i Hi. unfold t. destruct (i <=? k)%nat; auto. rewrite FZ by lia. ring. }
  rewrite (zsum_pad (S k) (Nat.max n (S k)) t); [|lia|].
  2:{ intros i Hi. unfold t. destruct (Nat.leb_spec i k); auto. lia. }
  apply zsum_ext. intros i Hi. unfold t. destruct (Nat.leb_spec i k); auto. lia.
Qed.
Lemma dbl_swap n m F G k : zsum m (fun j => zsum n (fun i => if (i + j =? k)%nat then F i * G j else 0)) = dbl n m F G k.
Proof. unfold dbl. apply zsum_swap. Qed.

(** The last entries of both vectors separated. *)
Lemma dbl_peel n m F G k : dbl (S n) (S m) F G k =
  (if (n + m =? k)%nat then F n * G m else 0) + zsum n (fun i => if (i + m =? k)%nat then F i * G m else 0) +
  zsum m (fun j => if (j + n =? k)%nat then G j * F n else 0) + dbl n m F G k.
Proof.
  unfold dbl. cbn [zsum].
  rewrite zsum_add. rewrite (zsum_ext m (fun j => if (n + j =? k)%nat then F n * G j else 0)
    (fun j => if (j + n =? k)%nat then G j * F n else 0)).
  - ring.
  - intros j _. rewrite Nat.add_comm. destruct (j + n =? k)%nat; ring.
Qed.

Lemma conv_dbl f g k : conv f g k = dbl (length f) (length g) (fun i => nth i f 0) (fun j => nth j g 0) k.
Proof. unfold conv. symmetry. apply dbl_conv; intros; now apply nth_overflow. Qed.

Lemma conv_high f g k : (length f + length g <= S k)%nat -> conv f g k = 0.
Proof.
  intros H. unfold conv. rewrite (zsum_ext _ _ (fun _ => 0)), zsum_0; auto. intros i Hi.
  destruct (Nat.lt_ge_cases i (length f)).
  - rewrite (nth_overflow g) by lia. ring.
  - rewrite (nth_overflow f) by lia. ring.
Qed.
Lemma conv_ext f g f' g' k : (forall i, (i <= k)%nat -> nth i f 0 = nth i f' 0) -> (forall i, (i <= k)%nat -> nth i g 0 = nth i g' 0) ->
  conv f g k = conv f' g' k.
Proof. intros A B. unfold conv. apply zsum_ext. intros i Hi. rewrite A, B by lia. auto. Qed.

(** ** Updates that add a vector *)
Section Adds.
Variable p : Z.
Hypothesis M : 1 <= p < 2 ^ 31.
Local Notation "a == b" := (eqm p a b) (at level 70).

Definition adds (L : nat) (F : list Z -> option (list Z)) (d : nat -> Z) : Prop :=
  forall h, length h = L -> residues p h ->
    exists h', F h = Some h' /\ length h' = L /\ residues p h' /\ forall k, (k < L)%nat -> nth k h' 0 == nth k h 0 + d k.

Lemma res_n f i : residues p f -> 0 <= nth i f 0 < p.
Proof.
  intros R. destruct (Nat.lt_ge_cases i (length f)) as [C|C]; [|rewrite nth_overflow by auto; lia].
  apply (proj1 (Forall_forall _ _) R). now apply nth_In.
Qed.
Lemma res_i f : (forall x, (x < length f)%nat -> 0 <= nth x f 0 < p) -> residues p f.
Proof. intros H. apply Forall_forall. intros y Hy. apply (In_nth _ _ 0) in Hy. destruct Hy as (n & Hn & <-). auto. Qed.
Lemma res_repeat n : residues p (repeat 0 n).
Proof. apply Forall_forall. intros x Hx. apply repeat_spec in Hx. lia. Qed.

(** The basic step [h[x] += v]. *)
Lemma adds_step L x v : (x < L)%nat -> 0 <= v < p ->
  adds L (fun h => let* c := get h x in set h x (m_add p c v)) (fun k => if (x =? k)%nat then v else 0).
Proof.
  intros Hx Hv h Lh Rh. rewrite (get_nth _ _ 0) by lia. cbn [obind].
  pose proof (res_n h x Rh) as B. rewrite m_add_ok by auto.
  rewrite set_some by lia. eexists. split; [reflexivity|]. rewrite lset_length. split; auto.
  assert (K : forall k, nth k (lset h x ((nth x h 0 + v) mod p)) 0 = if (x =? k)%nat then (nth x h 0 + v) mod p else nth k h 0).
  { intros k. destruct (Nat.eqb_spec x k) as [<-|N]; [rewrite nth_lset_eq by lia; auto|now rewrite nth_lset_neq]. }
  split.
  - apply res_i. intros k _. rewrite K. destruct (x =? k)%nat; [apply Z.mod_pos_bound; lia|now apply res_n].
  - intros k Hk. rewrite K. destruct (Nat.eqb_spec x k) as [<-|N]; [apply eqm_mod|]. apply eq_eqm. ring.
Qed.

Lemma adds_ext L F d d' : adds L F d -> (forall k, (k < L)%nat -> d k == d' k) -> adds L F d'.
Proof.
  intros A E h Lh Rh. destruct (A h Lh Rh) as (h' & E1 & L1 & R1 & K). exists h'. split; auto. split; auto. split; auto.
  intros k Hk. rewrite (K k Hk), (E k Hk). reflexivity.
Qed.

Lemma adds_bind L F G d e : adds L F d -> adds L G e -> adds L (fun h => let* h := F h in G h) (fun k => d k + e k).
Proof.
  intros A B h Lh Rh. destruct (A h Lh Rh) as (h1 & E1 & L1 & R1 & K1). destruct (B h1 L1 R1) as (h2 & E2 & L2 & R2 & K2).
  exists h2. rewrite E1. cbn [obind]. split; auto. split; auto. split; auto. intros k Hk.
  rewrite (K2 k Hk), (K1 k Hk). apply eq_eqm. ring.
Qed.

Lemma adds_for L body d n : forall lo, (forall i, (lo <= i < lo + n)%nat -> adds L (body i) (d i)) ->
  adds L (for_up n lo body) (fun k => zsum n (fun t => d (lo + t)%nat k)).
Proof.
  induction n as [|n IH]; intros lo H h Lh Rh.
  - exists h. split; auto. split; auto. split; auto. intros k _. cbn [zsum]. apply eq_eqm. ring.
  - cbn [for_up]. destruct (H lo ltac:(lia) h Lh Rh) as (h1 & E1 & L1 & R1 & K1). rewrite E1. cbn [obind].
    destruct (IH (S lo) ltac:(intros; apply H; lia) h1 L1 R1) as (h2 & E2 & L2 & R2 & K2).
    exists h2. split; auto. split; auto. split; auto. intros k Hk.
    rewrite (K2 k Hk), (K1 k Hk), zsum_shift, Nat.add_0_r. rewrite (zsum_ext n (fun i => d (lo + S i)%nat k) (fun t => d (S lo + t)%nat k)).
    + apply eq_eqm. ring.
    + intros t _. f_equal. lia.
Qed.

Lemma step_adds L f g i j : residues p f -> residues p g -> (i < length f)%nat -> (j < length g)%nat -> (i + j < L)%nat ->
  adds L (step_mod p f g i j) (fun k => if (i + j =? k)%nat then nth i f 0 * nth j g 0 else 0).
Proof.
  intros Rf Rg Hi Hj HL h Lh Rh. unfold step_mod. rewrite (get_nth f _ 0), (get_nth g _ 0) by auto. cbn [obind].
  rewrite m_mul_ok by (auto; now apply res_n). cbn [obind].
  destruct (adds_step L (i + j) ((nth i f 0 * nth j g 0) mod p) HL ltac:(apply Z.mod_pos_bound; lia) h Lh Rh) as (h' & E & L' & R' & K).
  exists h'. split; [exact E|]. split; auto. split; auto. intros k Hk. rewrite (K k Hk).
  destruct (i + j =? k)%nat; [rewrite eqm_mod|]; reflexivity.
Qed.

Lemma add_mul_adds L n f c d : residues p f -> 0 <= c < p -> (n <= length f)%nat -> (n + d <= L)%nat ->
  adds L (add_mul p n f c d) (fun k => zsum n (fun i => if (i + d =? k)%nat then nth i f 0 * c else 0)).
Proof.
  intros Rf Hc Hn HL. unfold add_mul.
  apply (adds_for L _ (fun i k => if (i + d =? k)%nat then nth i f 0 * c else 0) n 0).
  intros i Hi h Lh Rh. rewrite (get_nth f _ 0) by lia. cbn [obind].
  rewrite m_mul_ok by (auto; now apply res_n). cbn [obind].
  destruct (adds_step L (i + d) ((nth i f 0 * c) mod p) ltac:(lia) ltac:(apply Z.mod_pos_bound; lia) h Lh Rh) as (h' & E & L' & R' & K).
  exists h'. split; [exact E|]. split; auto. split; auto. intros k Hk. rewrite (K k Hk).
  destruct (i + d =? k)%nat; [rewrite eqm_mod|]; reflexivity.
Qed.

Lemma add_all_adds L n e d : residues p e -> (n <= length e)%nat -> (n + d <= L)%nat ->
  adds L (add_all p n e d) (fun k => if (d <=? k)%nat && (k - d <? n)%nat then nth (k - d) e 0 else 0).
Proof.
  intros Re Hn HL. unfold add_all.
  eapply adds_ext.
  - apply (adds_for L _ (fun i k => if (i + d =? k)%nat then nth i e 0 else 0) n 0).
    intros i Hi h Lh Rh. rewrite (get_nth e _ 0) by lia. cbn [obind].
    apply (adds_step L (i + d) (nth i e 0)); auto; [lia|now apply res_n].
  - intros k Hk. cbn [Nat.add]. apply eq_eqm. destruct (Nat.leb_spec d k) as [H|H]; cbn [andb].
    + destruct (Nat.ltb_spec (k - d) n) as [C|C].
      * rewrite (zsum_single n _ (k - d) C).
        -- replace (k - d + d)%nat with k by lia. now rewrite Nat.eqb_refl.
        -- intros i Hi Ni. destruct (Nat.eqb_spec (i + d) k); auto. lia.
      * rewrite (zsum_ext n _ (fun _ => 0)), zsum_0; auto. intros i Hi. destruct (Nat.eqb_spec (i + d) k); auto. lia.
    + rewrite (zsum_ext n _ (fun _ => 0)), zsum_0; auto. intros i Hi. destruct (Nat.eqb_spec (i + d) k); auto. lia.
Qed.

Lemma fma_adds L c d : residues p c -> residues p d -> (L <= length c)%nat -> (L <= length d)%nat ->
  adds L (fma_all p L c d) (fun k => nth k c 0 * nth k d 0).
Proof.
  intros Rc Rd Hc Hd. unfold fma_all. eapply adds_ext.
  - apply (adds_for L _ (fun i k => if (i =? k)%nat then nth i c 0 * nth i d 0 else 0) L 0).
    intros i Hi h Lh Rh. rewrite (get_nth c _ 0), (get_nth d _ 0) by lia. cbn [obind].
    rewrite m_mul_ok by (auto; now apply res_n). cbn [obind].
    destruct (adds_step L i ((nth i c 0 * nth i d 0) mod p) ltac:(lia) ltac:(apply Z.mod_pos_bound; lia) h Lh Rh) as (h' & E & L' & R' & K).
    exists h'. split; [exact E|]. split; auto. split; auto. intros k Hk. rewrite (K k Hk).
    destruct (i =? k)%nat; [rewrite eqm_mod|]; reflexivity.
  - intros k Hk. cbn [Nat.add]. apply eq_eqm. rewrite (zsum_single L _ k Hk); [now rewrite Nat.eqb_refl|].
    intros i Hi Ni. destruct (Nat.eqb_spec i k); auto. lia.
Qed.

(** [convolution_naive] *)
Lemma naive_ok f g : residues p f -> residues p g -> (0 < length f)%nat -> (0 < length g)%nat ->
  exists h, naive_mod p f g = Some h /\ length h = (length f + length g - 1)%nat /\ residues p h /\
    forall k, nth k h 0 == conv f g k.
Proof.
  intros Rf Rg Hf Hg. unfold naive_mod, naive.
  destruct (Nat.eqb_spec (length f) 0) as [?|_]; [lia|]. destruct (Nat.eqb_spec (length g) 0) as [?|_]; [lia|]. cbn [orb].
  set (n := length f) in *. set (m := length g) in *. set (L := (n + m - 1)%nat).
  assert (A : adds L (fun h => if (n <? m)%nat then for_up m 0 (fun j h => for_up n 0 (fun i h => step_mod p f g i j h) h) h
    else for_up n 0 (fun i h => for_up m 0 (fun j h => step_mod p f g i j h) h) h) (conv f g)).
  { destruct (n <? m)%nat.
    - eapply adds_ext.
      + apply (adds_for L (fun j h => for_up n 0 (fun i h => step_mod p f g i j h) h)
          (fun j k => zsum n (fun i => if (i + j =? k)%nat then nth i f 0 * nth j g 0 else 0)) m 0).
        intros j Hj. apply (adds_for L (fun i h => step_mod p f g i j h) (fun i k => if (i + j =? k)%nat then nth i f 0 * nth j g 0 else 0) n 0).
        intros i Hi. apply step_adds; auto; unfold L; lia.
      + intros k Hk. cbn [Nat.add]. rewrite (dbl_swap n m (fun i => nth i f 0) (fun j => nth j g 0) k), conv_dbl. reflexivity.
    - eapply adds_ext.
      + apply (adds_for L (fun i h => for_up m 0 (fun j h => step_mod p f g i j h) h)
          (fun i k => zsum m (fun j => if (i + j =? k)%nat then nth i f 0 * nth j g 0 else 0)) n 0).
        intros i Hi. apply (adds_for L (fun j h => step_mod p f g i j h) (fun j k => if (i + j =? k)%nat then nth i f 0 * nth j g 0 else 0) m 0).
        intros j Hj. apply step_adds; auto; unfold L; lia.
      + intros k Hk. cbn [Nat.add]. rewrite conv_dbl. reflexivity. }
  destruct (A (repeat 0 L) (repeat_length _ _) (res_repeat L)) as (h & E & Lh & Rh & K).
  exists h. split; [exact E|]. split; auto. split; auto. intros k. destruct (Nat.lt_ge_cases k L) as [C|C].
  - rewrite (K k C), nth_repeat. apply eq_eqm. ring.
  - rewrite nth_overflow by lia. rewrite conv_high; [reflexivity|]. fold n m. unfold L in C. lia.
Qed.
End Adds.
