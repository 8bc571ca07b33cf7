(** C74, continued: [SparseFps::pow]. *)
From Coq Require Import Setoid Morphisms Znumtheory Sorted.
From Verif Require Import Base BaseLemmas NthExtra SearchModel BitModel NumTheory ModularModel ModularProof ModularProp PrimRootModel NttModel NttSum NttRev NttProof NttCore ConvModel ConvSum ConvNtt PsAlg FpsModel FpsBase FpsMul FpsInv FpsSparse FpsLog FpsExp FpsExpD FpsPow FpsProp FpsProp2 FpsSpModel.
Local Open Scope Z_scope.
Ltac Zify.zify_post_hook ::= idtac.

Section P.
Variable p : Z.
Hypothesis P : prime p.
Hypothesis H31 : p < 2 ^ 31.
Local Notation "a == b" := (eqm p a b) (at level 70).
Let M : 1 <= p < 2 ^ 31.
Proof. pose proof (prime_ge_2 _ P). lia. Qed.

Lemma lz_zero {A} (f : A -> Z) l : (forall x, In x l -> f x = 0) -> lz f l = 0.
Proof. intros H. rewrite (lz_ext f (fun _ => 0)) by auto. induction l as [|x l IH]; auto. unfold lz in *. cbn [map fold_right] in *. rewrite IH; auto. intros y Hy. apply H. now right. Qed.
Lemma spc_low d v t j : incr ((d, v) :: t) -> (j <= d)%nat -> spc ((d, v) :: t) j = if (d =? j)%nat then v else 0.
Proof.
  intros I Hj. inversion I as [|? ? I' F]; subst. rewrite Forall_forall in F. unfold spc. change (lz ?f ((d, v) :: t)) with (f (d, v) + lz f t). rewrite lz_zero; [cbn beta iota; lia|].
  intros [d' v'] Hin. specialize (F _ Hin). cbn in F. destruct (Nat.eqb_spec d' j); auto. lia.
Qed.
Definition sh (k : nat) (ic : Z) (x : nat * Z) : nat * Z := ((fst x - k)%nat, (snd x * ic) mod p).
Lemma shift_ok k ic tf : sres p tf -> 0 <= ic < p -> Forall (fun x => (k <= fst x)%nat) tf -> forall acc,
  for_each tf (fun '(d, v) g =>
            let* _ := guard (k <=? d)%nat in
            let* v := m_mul p v ic in
            Some (g ++ [((d - k)%nat, v)])) acc = Some (acc ++ map (sh k ic) tf).
Proof.
  intros S Hi. induction tf as [|[d v] tf IH]; intros F acc; [cbn; now rewrite app_nil_r|]. inversion S as [|? ? S1 S2]; subst. inversion F as [|? ? F1 F2]; subst. cbn [for_each fst snd] in *.
  destruct (Nat.leb_spec k d); [|lia]. cbn [guard obind]. rewrite (m_mul_ok p M) by auto. cbn [obind]. rewrite IH by auto. rewrite <- app_assoc. reflexivity.
Qed.
Lemma shift_incr k ic tf : Forall (fun x => (k <= fst x)%nat) tf -> incr tf -> incr (map (sh k ic) tf).
Proof.
  intros F I. induction I as [|[d v] t I IH Ft]; [constructor|]. inversion F as [|? ? F1 F2]; subst. cbn [map]. constructor; [now apply IH|]. rewrite Forall_forall in *. intros y Hy. apply in_map_iff in Hy. destruct Hy as (x & <- & Hx).
  specialize (Ft x Hx). specialize (F2 x Hx). cbn [sh fst] in *. lia.
Qed.
Lemma shift_res k ic tf : sres p (map (sh k ic) tf).
Proof. apply Forall_forall. intros y Hy. apply in_map_iff in Hy. destruct Hy as (x & <- & Hx). cbn [sh snd]. apply Z.mod_pos_bound. lia. Qed.
Lemma shift_spc k ic tf j : Forall (fun x => (k <= fst x)%nat) tf -> spc (map (sh k ic) tf) j == spc tf (k + j)%nat * ic.
Proof.
  intros F. induction F as [|[d v] t F1 F2 IH]; [reflexivity|]. cbn [map]. unfold spc in *. change (lz ?f (?x :: ?t)) with (f x + lz f t). cbn [sh fst snd] in *. rewrite IH, Z.mul_add_distr_r.
  destruct (Nat.eqb_spec (d - k) j), (Nat.eqb_spec d (k + j)); try lia; [rewrite eqm_mod; reflexivity|reflexivity].
Qed.
Lemma spc_shift k tf : Forall (fun x => (k <= fst x)%nat) tf -> forall n, eqs p n (spc tf) (ps_x k (fun j => spc tf (k + j)%nat)).
Proof.
  intros F n j _. unfold ps_x. destruct (Nat.ltb_spec j k).
  - unfold spc. rewrite lz_zero; [reflexivity|]. intros [d v] Hin. rewrite Forall_forall in F. specialize (F _ Hin). cbn in F. destruct (Nat.eqb_spec d j); auto. lia.
  - now replace (k + (j - k))%nat with j by lia.
Qed.
Lemma nth_ipre f m j : nth j (fps_ipre f m) 0 = if (j <? m)%nat then nth j f 0 else 0.
Proof.
  unfold fps_ipre. apply nth_vresize.
Qed.

Lemma sp_pow_ok tb s n deg : inv_tab p tb -> incr s -> sres p s -> Forall (fun x => snd x <> 0) s -> 0 <= n < 2 ^ 63 -> (1 <= deg)%nat -> Z.of_nat deg <= p ->
  exists R, sp_pow p tb s n deg = Some R /\ residues p R /\ eqs p deg (cf R) (ps_pow (spc s) (Z.to_nat n)).
Proof.
  intros T I S NZ Hn Hd Hp. unfold sp_pow. destruct (Z.eqb_spec n 0) as [->|N0].
  { rewrite (m_signed_ok p M), Z.mod_1_l by (pose proof (prime_ge_2 _ P); lia). exists [1]. split; auto. split; [constructor; [pose proof (prime_ge_2 _ P); lia|constructor]|]. intros j _. destruct j as [|[|j]]; reflexivity. }
  set (m := Z.to_nat n). assert (En : n = Z.of_nat m) by (unfold m; lia). assert (Pm : (0 < m)%nat) by (unfold m; lia). clearbody m.
  destruct s as [|[k c] t].
  { cbn [sp_first]. exists []. split; auto. split; [constructor|]. destruct m as [|m]; [lia|]. cbn [ps_pow]. intros j _. unfold ps_mul. rewrite (zsum_ext _ _ (fun _ => 0)) by (intros; unfold spc; cbn; ring).
    assert (Z0 : forall a, zsum a (fun _ => 0) = 0) by (induction a; cbn [zsum]; lia). rewrite Z0. unfold cf. destruct j; reflexivity. }
  inversion NZ as [|? ? NZ1 NZ2]; subst. inversion S as [|? ? S1 S2]; subst. cbn [snd] in *. cbn [sp_first]. destruct (Z.eqb_spec c 0); [lia|].
  set (s := (k, c) :: t) in *. assert (F : Forall (fun x => (k <= fst x)%nat) s).
  { constructor; [cbn; lia|]. inversion I as [|? ? _ Ft]; subst. eapply Forall_impl; [|exact Ft]. cbn. intros; lia. }
  destruct (negb (k =? 0)%nat && (Z.of_nat ((deg + k - 1) / k) <=? Z.of_nat m)) eqn:Eb.
  { apply Bool.andb_true_iff in Eb. destruct Eb as [B1 B2]. apply Z.leb_le in B2. destruct (Nat.eqb_spec k 0); [discriminate|]. exists []. split; auto. split; [constructor|].
    rewrite (ps_pow_m p deg _ _ (spc_shift k s F _) m m eq_refl), ps_pow_x. intros j Hj. unfold ps_x.
    assert (deg <= k * m)%nat. { pose proof (Nat.div_mod (deg + k - 1) k ltac:(lia)). pose proof (Nat.mod_upper_bound (deg + k - 1) k ltac:(lia)). assert ((deg + k - 1) / k <= m)%nat by lia. nia. }
    destruct (Nat.ltb_spec j (k * m)); [|lia]. unfold cf. destruct j; reflexivity. }
  rewrite (m_signed_ok p M 1), Z.mod_1_l by (pose proof (prime_ge_2 _ P); lia).
  destruct ((k =? 0)%nat && (c =? 1)) eqn:Ec.
  { apply Bool.andb_true_iff in Ec. destruct Ec as [B1 B2]. apply Nat.eqb_eq in B1. apply Z.eqb_eq in B2. subst k c.
    assert (S0 : spc s 0%nat = 1) by (unfold s; rewrite spc_low by (auto; lia); reflexivity).
    destruct (pow1_sparse_impl_ok p P H31 tb s (Z.of_nat m) deg T I S S0 Hd Hp) as (R & E & L & RR & K). exists R. split; auto. split; auto.
    apply (is_pow_uniq p deg (Z.of_nat m) (spc s)); auto. now apply is_pow_pow. }
  destruct (m_inv_eqm p P H31 c S1 NZ1) as (ic & Ei & Ri & Vi). rewrite Ei. cbn [obind]. rewrite (shift_ok k ic s S Ri F []). cbn [obind app]. set (g := map (sh k ic) s).
  assert (G0 : spc g 0%nat = 1).
  { pose proof (shift_incr k ic s F I) as Ig. unfold g. assert (Em : map (sh k ic) s = (0%nat, (c * ic) mod p) :: map (sh k ic) t) by (unfold s, sh; cbn [map fst snd]; now rewrite Nat.sub_diag). rewrite Em in *. rewrite spc_low by (auto; lia). cbn [Nat.eqb].
    rewrite (proj1 (eqm_mod_eq p _ 1 ltac:(lia)) Vi). apply Z.mod_1_l. pose proof (prime_ge_2 _ P). lia. }
  destruct (pow1_sparse_impl_ok p P H31 tb g (Z.of_nat m) deg T (shift_incr k ic s F I) (shift_res k ic s) G0 Hd Hp) as (G & EG & LG & RG & KG). rewrite EG. cbn [obind].
  destruct (Z.leb_spec 0 (Z.of_nat m)); [|lia]. cbn [guard obind]. rewrite (m_pow_ok p M) by (auto; lia). cbn [obind].
  destruct (place p P H31 G (k * m) (c ^ Z.of_nat m mod p) RG (mod_r p M _)) as (R & ER & LR & RR & KR). rewrite ER. cbn [obind].
  exists (fps_ipre R deg). split; auto. split.
  { unfold fps_ipre. now apply (res_vresize p M). }
  transitivity (ps_x (k * m) (ps_mul (ps_c (c ^ Z.of_nat m)) (cf G))).
  { intros j Hj. unfold cf at 1. rewrite nth_ipre. destruct (Nat.ltb_spec j deg); [|lia]. etransitivity; [apply KR|]. unfold ps_x. destruct (_ <? _)%nat; [reflexivity|]. rewrite !ps_mul_c_e. rewrite eqm_mod. reflexivity. }
  rewrite (ps_pow_m p deg _ _ (spc_shift k s F _) m m eq_refl), ps_pow_x. apply ps_x_m.
  assert (Es : eqs p deg (fun j => spc s (k + j)%nat) (ps_mul (ps_c c) (spc g))).
  { intros i Hi'. rewrite ps_mul_c_e. unfold g. rewrite shift_spc by auto. transitivity (spc s (k + i)%nat * (c * ic)); [rewrite Vi; apply eq_eqm; ring|apply eq_eqm; ring]. }
  rewrite (ps_pow_m p deg _ _ Es m m eq_refl), ps_pow_mul, ps_pow_c. apply ps_mul_m; [reflexivity|].
  apply (is_pow_uniq p deg (Z.of_nat m) (spc g)); auto. now apply is_pow_pow.
Qed.
End P.

(** [pow] of a sparse series without stored zeros: [f^n] up to [x^deg] *)
Theorem C74_sparse_pow : forall p tb s f n deg, prime p -> p < 2 ^ 31 -> table p tb -> sparse p s -> Forall (fun x => snd x <> 0) s -> plain s f ->
  0 <= n < 2 ^ 63 -> (1 <= deg)%nat -> Z.of_nat deg <= p ->
  exists R, sp_pow p tb s n deg = Some R /\ residues p R /\ forall k, (k < deg)%nat -> nth k R 0 = power f (Z.to_nat n) k mod p.
Proof.
  intros p tb s f n deg P H31 T S NZ F Hn Hd Hp. apply (table_inv p _ P H31) in T. pose proof S as [S1 S2].
  destruct (sp_pow_ok p P H31 tb s n deg T S1 S2 NZ Hn Hd Hp) as (R & E & RR & K). exists R. split; auto. split; auto. intros k Hk. apply (to_mod p P H31); auto. rewrite power_ps.
  etransitivity; [exact (K k Hk)|]. apply (ps_pow_m p deg (spc s) (cf f)); auto. intros j _. rewrite (plain_spc p s f S F). reflexivity.
Qed.
(** Modulo 17: (2x + 3x^3)^2 and (1 + x^2)^3 *)
Example C74_sparse_ex : sp_pow 17 (util_init 17) [(1%nat, 2); (3%nat, 3)] 2 6 = Some [0; 0; 4; 0; 12; 0] /\
  sp_pow 17 (util_init 17) [(0%nat, 1); (2%nat, 1)] 3 5 = Some [1; 0; 3; 0; 3] /\ map (power [0; 2; 0; 3] 2) (seq 0 6) = [0; 0; 4; 0; 12; 0].
Proof. vm_compute. auto. Qed.
Print Assumptions C74_sparse_pow.
