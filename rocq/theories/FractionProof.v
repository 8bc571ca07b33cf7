From Coq Require Import Lia QArith Znumtheory.
From Verif Require Import Base BaseLemmas FractionModel.
Open Scope Z_scope.

Lemma ck_inv x y : ck x = Some y -> y = x /\ - 2 ^ 63 <= x < 2 ^ 63.
Proof. unfold ck. destruct (Z.leb_spec (- 2 ^ 63) x), (Z.ltb_spec x (2 ^ 63)); cbn [andb]; intros E; try discriminate. injection E as <-. lia. Qed.
Lemma ck_some x : - 2 ^ 63 <= x < 2 ^ 63 -> ck x = Some x.
Proof. intros H. unfold ck. destruct (Z.leb_spec (- 2 ^ 63) x), (Z.ltb_spec x (2 ^ 63)); cbn [andb]; auto; lia. Qed.
Ltac inv1 H := match type of H with
  | obind ?e _ = Some _ => let E := fresh "E" in destruct e eqn:E; cbn [obind] in H; [|discriminate]
  end.
Lemma gcd_inv x y g : gcd64 x y = Some g -> g = Z.gcd x y.
Proof. unfold gcd64. intros H. inv1 H. inv1 H. congruence. Qed.
Lemma div_inv x y z : div64 x y = Some z -> y <> 0 /\ z = Z.quot x y /\ - 2 ^ 63 <= z < 2 ^ 63.
Proof. unfold div64. destruct (Z.eqb_spec y 0); cbn; [discriminate|]. intros H. apply ck_inv in H as [-> H]. auto. Qed.
Lemma quot_exact x g : g <> 0 -> (g | x) -> exists k, x = k * g /\ Z.quot x g = k.
Proof. intros H [k ->]. exists k. split; auto. now apply Z.quot_mul. Qed.

Lemma value_eq f g : 0 < fden f -> 0 < fden g -> (value f == value g)%Q <-> fnum f * fden g = fnum g * fden f.
Proof. intros Hf Hg. unfold Qeq, value. cbn. now rewrite !Z2Pos.id by auto. Qed.

Lemma guard_inv (b : bool) {X} (k : unit -> option X) y : obind (guard b) k = Some y -> b = true /\ k tt = Some y.
Proof. destruct b; cbn; [auto|discriminate]. Qed.
Lemma make_ok u v f : - 2 ^ 63 <= u < 2 ^ 63 -> - 2 ^ 63 <= v < 2 ^ 63 -> f_make u v = Some f ->
  good f /\ v <> 0 /\ fnum f * v = u * fden f /\ (Z.gcd u v = 1 -> Z.gcd (fnum f) (fden f) = 1).
Proof.
  unfold f_make. intros Hu Hv E. apply guard_inv in E as [G E]. apply negb_true_iff, Z.eqb_neq in G. destruct (Z.eqb_spec u 0) as [->|Nu].
  - injection E as <-. unfold good. cbn [fnum fden]. split; [lia|]. split; [assumption|]. split; [ring|]. intros _. now rewrite Z.gcd_1_r.
  - destruct (Z.ltb_spec v 0).
    + inv1 E. inv1 E. injection E as <-. apply ck_inv in E0 as [-> ?], E1 as [-> ?]. unfold good. cbn [fnum fden]. split; [lia|]. split; [assumption|]. split; [ring|].
      now rewrite Z.gcd_opp_l, Z.gcd_opp_r.
    + injection E as <-. unfold good. cbn [fnum fden]. split; [lia|]. split; [assumption|]. split; [ring|auto].
Qed.
Lemma make_some u v : - 2 ^ 63 < u < 2 ^ 63 -> - 2 ^ 63 < v < 2 ^ 63 -> v <> 0 -> exists f, f_make u v = Some f.
Proof.
  intros Hu Hv N. unfold f_make. destruct (Z.eqb_spec v 0); [easy|]. cbn [negb guard obind]. destruct (u =? 0); [eauto|]. destruct (v <? 0); [|eauto].
  unfold neg64. rewrite !ck_some by lia. cbn [obind]. eauto.
Qed.
Lemma gcd_pos u v : v <> 0 -> 0 < Z.gcd u v.
Proof. intros N. pose proof (Z.gcd_nonneg u v). assert (Z.gcd u v <> 0); [|lia]. intros E. apply Z.gcd_eq_0_r in E. lia. Qed.
Lemma gcd_parts u v : v <> 0 -> exists a b, u = a * Z.gcd u v /\ v = b * Z.gcd u v /\ Z.quot u (Z.gcd u v) = a /\ Z.quot v (Z.gcd u v) = b /\ Z.gcd a b = 1.
Proof.
  intros N. pose proof (gcd_pos u v N) as P. destruct (quot_exact u (Z.gcd u v)) as (a & Ea & Qa); [lia|apply Z.gcd_divide_l|].
  destruct (quot_exact v (Z.gcd u v)) as (b & Eb & Qb); [lia|apply Z.gcd_divide_r|]. exists a, b. repeat (split; [auto|]).
  set (g := Z.gcd u v) in *. assert (E : Z.gcd (a * g) (b * g) = g) by (rewrite <- Ea, <- Eb; reflexivity). rewrite Z.gcd_mul_mono_r_nonneg in E by lia. nia.
Qed.
Lemma to_int_id x : 0 <= x < 2 ^ 31 -> to_int x = x.
Proof. intros H. unfold to_int. rewrite Z.mod_small by lia. lia. Qed.
Lemma quot_range x g : 0 < g -> - 2 ^ 63 < x < 2 ^ 63 -> - 2 ^ 63 < Z.quot x g < 2 ^ 63.
Proof.
  intros G H. assert (A : Z.abs (Z.quot x g) <= Z.abs x); [|lia]. rewrite <- Z.quot_abs by lia. rewrite Z.quot_div_nonneg by lia. apply Z.div_le_upper_bound; [lia|]. nia.
Qed.
Lemma reduct_ok u v h : - 2 ^ 63 <= u < 2 ^ 63 -> - 2 ^ 63 <= v < 2 ^ 63 -> v <> 0 -> Z.gcd u v < 2 ^ 31 -> f_reduct (Frac u v) = Some h ->
  good h /\ fnum h * v = u * fden h /\ Z.gcd (fnum h) (fden h) = 1.
Proof.
  intros Hu Hv N G H. unfold f_reduct in H. cbn [fnum fden] in H. inv1 H. apply gcd_inv in E. subst z. pose proof (gcd_pos u v N) as P.
  rewrite to_int_id in H by lia. inv1 H. inv1 H. apply div_inv in E as (_ & -> & Ra), E0 as (_ & -> & Rb).
  destruct (gcd_parts u v N) as (a & b & Ea & Eb & Qa & Qb & Gab). rewrite Qa, Qb in *. apply make_ok in H as (Gd & Nb & E & L); auto. split; [auto|]. split; [|auto].
  rewrite Ea, Eb at 1. rewrite (Z.mul_assoc (fnum h)), E. ring.
Qed.
Lemma reduct_some u v : - 2 ^ 63 < u < 2 ^ 63 -> - 2 ^ 63 < v < 2 ^ 63 -> v <> 0 -> Z.gcd u v < 2 ^ 31 -> exists h, f_reduct (Frac u v) = Some h.
Proof.
  intros Hu Hv N G. pose proof (gcd_pos u v N) as P. unfold f_reduct. cbn [fnum fden]. unfold gcd64. rewrite !ck_some by lia. cbn [obind]. rewrite to_int_id by lia.
  pose proof (quot_range u _ P Hu). pose proof (quot_range v _ P Hv). unfold div64. destruct (Z.eqb_spec (Z.gcd u v) 0); [lia|]. cbn [negb guard obind].
  rewrite !ck_some by lia. cbn [obind]. apply make_some; auto. destruct (gcd_parts u v N) as (a & b & Ea & Eb & Qa & Qb & Gab). rewrite Qb. intros ->. lia.
Qed.
Lemma add_ok f r h : good f -> good r -> f_add f r = Some h -> good h /\ (value h == value f + value r)%Q.
Proof.
  intros [Hf Df] [Hr Dr] H. unfold f_add in H. inv1 H. apply gcd_inv in E. subst.
  do 6 (inv1 H). injection H as <-. apply div_inv in E as (_ & -> & _), E2 as (_ & -> & _). apply ck_inv in E0 as [-> H0], E1 as [-> H1], E3 as [-> H3], E4 as [-> H4].
  destruct (gcd_parts (fden f) (fden r)) as (kf & kr & Ekf & Ekr & Qf & Qr & _); [lia|]. pose proof (gcd_pos (fden f) (fden r) ltac:(lia)) as P. set (g := Z.gcd (fden f) (fden r)) in *.
  rewrite Qf, Qr in *. assert (Kr : 0 < kr) by nia. assert (Kf : 0 < kf) by nia. assert (Pn : 0 < fden f * kr) by nia.
  split; [unfold good; cbn [fnum fden]; lia|]. unfold Qeq, value. cbn [fnum fden Qnum Qden Qplus]. rewrite Pos2Z.inj_mul, !Z2Pos.id by lia.
  rewrite Ekf, Ekr. ring.
Qed.
Lemma neg_ok f h : good f -> f_neg f = Some h -> good h /\ (value h == - value f)%Q.
Proof.
  intros [Hf Df] H. unfold f_neg in H. inv1 H. apply ck_inv in E as [-> R]. apply make_ok in H as (G & _ & E & _); auto; [|lia]. split; auto. destruct G as [_ G].
  unfold Qeq, value, Qopp. cbn [Qnum Qden]. rewrite !Z2Pos.id by lia. exact E.
Qed.
Lemma sub_ok f r h : good f -> good r -> f_sub f r = Some h -> good h /\ (value h == value f - value r)%Q.
Proof. intros Gf Gr H. unfold f_sub in H. inv1 H. apply neg_ok in E as [G E]; auto. apply add_ok in H as [Gh Eh]; auto. split; auto. rewrite Eh, E. reflexivity. Qed.
Lemma mul_ok f r h : good f -> good r -> f_mul f r = Some h -> good h /\ (value h == value f * value r)%Q /\ Z.gcd (fnum h) (fden h) = 1.
Proof.
  intros [Hf Df] [Hr Dr] H. unfold f_mul in H. do 2 (inv1 H). apply ck_inv in E as [-> H0], E0 as [-> H1]. inv1 H. apply gcd_inv in E. subst z. do 2 (inv1 H). injection H as <-.
  apply div_inv in E as (_ & -> & Ra), E0 as (_ & -> & Rb). assert (Np : 0 < fden f * fden r) by nia.
  destruct (gcd_parts (fnum f * fnum r) (fden f * fden r)) as (a & b & Ea & Eb & Qa & Qb & Gab); [lia|]. pose proof (gcd_pos (fnum f * fnum r) (fden f * fden r) ltac:(lia)) as P.
  set (g := Z.gcd _ _) in *. rewrite Qa, Qb in *. assert (0 < b) by nia. split; [unfold good; cbn [fnum fden]; lia|]. split; [|auto].
  unfold Qeq, value. cbn [fnum fden Qnum Qden Qmult]. rewrite Pos2Z.inj_mul, !Z2Pos.id by lia. rewrite Eb, Ea. ring.
Qed.
Lemma value_nz f : fnum f <> 0 -> ~ (value f == 0)%Q.
Proof. intros N E. unfold Qeq, value in E. cbn [Qnum Qden] in E. lia. Qed.
Lemma value_mul f : 0 < fden f -> (value f == inject_Z (fnum f) / inject_Z (fden f))%Q.
Proof. intros H. unfold value. rewrite Qmake_Qdiv. rewrite Z2Pos.id by lia. reflexivity. Qed.
(** Cross-multiplication *)
Lemma cross u v h : v <> 0 -> 0 < fden h -> fnum h * v = u * fden h -> (value h == inject_Z u / inject_Z v)%Q.
Proof.
  intros N D E. rewrite (value_mul h D). assert (Hv : ~ (inject_Z v == 0)%Q) by (intros F; apply N; unfold Qeq in F; cbn in F; lia).
  assert (Hd : ~ (inject_Z (fden h) == 0)%Q) by (intros F; unfold Qeq in F; cbn in F; lia).
  apply Qmult_inj_r with (z := (inject_Z v * inject_Z (fden h))%Q); [intros F; apply Qmult_integral in F as [F|F]; auto|].
  transitivity (inject_Z (fnum h * v)); [rewrite inject_Z_mult; field; auto|]. rewrite E, inject_Z_mult. field. auto.
Qed.
Lemma inj_nz x : x <> 0 -> ~ (inject_Z x == 0)%Q.
Proof. intros N F. apply N. unfold Qeq in F. cbn in F. lia. Qed.
Lemma inv_ok f h : good f -> f_inv f = Some h -> good h /\ fnum f <> 0 /\ (value h == / value f)%Q.
Proof.
  intros [Hf Df] H. unfold f_inv in H. apply guard_inv in H as [G H]. apply negb_true_iff, Z.eqb_neq in G. apply make_ok in H as (Gh & _ & E & _); auto; [|lia].
  split; auto. split; auto. rewrite (cross (fden f) (fnum f) h); auto; [|apply Gh]. rewrite (value_mul f (proj1 Df)). field. split; apply inj_nz; lia.
Qed.
Lemma div_ok f r h : good f -> good r -> f_div f r = Some h -> good h /\ fnum r <> 0 /\ (value h == value f / value r)%Q /\ Z.gcd (fnum h) (fden h) = 1.
Proof.
  intros Gf Gr H. unfold f_div in H. inv1 H. apply inv_ok in E as (G & N & E); auto. apply mul_ok in H as (Gh & Eh & L); auto. split; auto. split; auto. split; auto.
  rewrite Eh, E. reflexivity.
Qed.
Definition lowest (h : frac) : Prop := Z.gcd (fnum h) (fden h) = 1.
Lemma add_int_ok f x h : good f -> Z.gcd (fnum f) (fden f) < 2 ^ 31 -> f_add_int f x = Some h -> good h /\ lowest h /\ (value h == value f + inject_Z x)%Q.
Proof.
  intros [Hf Df] G H. unfold f_add_int in H. do 2 (inv1 H). apply ck_inv in E as [-> H0], E0 as [-> H1].
  assert (Eg : Z.gcd (fnum f + x * fden f) (fden f) = Z.gcd (fnum f) (fden f)) by (rewrite Z.gcd_comm, Z.gcd_add_mult_diag_r; apply Z.gcd_comm).
  apply reduct_ok in H as (Gh & E & L); auto; try lia. split; auto. split; auto. rewrite (cross _ (fden f) h ltac:(lia) (proj1 (proj2 Gh)) E).
  rewrite (value_mul f (proj1 Df)). rewrite inject_Z_plus, inject_Z_mult. field. apply inj_nz. lia.
Qed.
Lemma sub_int_ok f x h : good f -> Z.gcd (fnum f) (fden f) < 2 ^ 31 -> f_sub_int f x = Some h -> good h /\ lowest h /\ (value h == value f - inject_Z x)%Q.
Proof.
  intros [Hf Df] G H. unfold f_sub_int in H. do 2 (inv1 H). apply ck_inv in E as [-> H0], E0 as [-> H1].
  assert (Eg : Z.gcd (fnum f - x * fden f) (fden f) = Z.gcd (fnum f) (fden f)).
  { replace (fnum f - x * fden f) with (fnum f + (- x) * fden f) by ring. rewrite Z.gcd_comm, Z.gcd_add_mult_diag_r. apply Z.gcd_comm. }
  apply reduct_ok in H as (Gh & E & L); auto; try lia. split; auto. split; auto. rewrite (cross _ (fden f) h ltac:(lia) (proj1 (proj2 Gh)) E).
  rewrite (value_mul f (proj1 Df)). unfold Z.sub. rewrite inject_Z_plus, inject_Z_opp, inject_Z_mult. field. apply inj_nz. lia.
Qed.
Lemma mul_int_ok f x h : good f -> Z.gcd (fnum f * x) (fden f) < 2 ^ 31 -> f_mul_int f x = Some h -> good h /\ lowest h /\ (value h == value f * inject_Z x)%Q.
Proof.
  intros [Hf Df] G H. unfold f_mul_int in H. inv1 H. apply ck_inv in E as [-> H0].
  apply reduct_ok in H as (Gh & E & L); auto; try lia. split; auto. split; auto. rewrite (cross _ (fden f) h ltac:(lia) (proj1 (proj2 Gh)) E).
  rewrite (value_mul f (proj1 Df)). rewrite inject_Z_mult. field. apply inj_nz. lia.
Qed.
Lemma div_int_ok f x h : good f -> Z.gcd (fnum f) (fden f * x) < 2 ^ 31 -> f_div_int f x = Some h -> good h /\ x <> 0 /\ lowest h /\ (value h == value f / inject_Z x)%Q.
Proof.
  intros [Hf Df] G H. unfold f_div_int in H. inv1 H. apply ck_inv in E as [-> H0].
  assert (N : x <> 0). { intros ->. rewrite Z.mul_0_r in H. unfold f_reduct in H. cbn [fnum fden] in H. do 3 (inv1 H). apply div_inv in E1 as (Nz & -> & _). rewrite Z.quot_0_l in H by auto. discriminate. }
  apply reduct_ok in H as (Gh & E & L); auto; try nia. split; auto. split; auto. split; auto. rewrite (cross _ (fden f * x) h ltac:(nia) (proj1 (proj2 Gh)) E).
  rewrite (value_mul f (proj1 Df)). rewrite inject_Z_mult. field. split; apply inj_nz; lia.
Qed.
Lemma int_sub_ok x f h : good f -> Z.gcd (fnum f) (fden f) < 2 ^ 31 -> f_int_sub x f = Some h -> good h /\ lowest h /\ (value h == inject_Z x - value f)%Q.
Proof.
  intros G Hg H. unfold f_int_sub in H. inv1 H. pose proof E as E'. apply neg_ok in E' as [Gz Ez]; auto.
  assert (Hz : Z.gcd (fnum f0) (fden f0) < 2 ^ 31).
  { unfold f_neg in E. inv1 E. apply ck_inv in E0 as [-> R]. unfold f_make in E. apply guard_inv in E as [_ E]. destruct (Z.eqb_spec (- fnum f) 0).
    - injection E as <-. cbn [fnum fden]. rewrite Z.gcd_1_r. lia.
    - destruct G as [_ G]. destruct (Z.ltb_spec (fden f) 0); [lia|]. injection E as <-. cbn [fnum fden]. now rewrite Z.gcd_opp_l. }
  apply add_int_ok in H as (Gh & L & Eh); auto. split; auto. split; auto. rewrite Eh, Ez. ring.
Qed.
Lemma inv_shape f h : good f -> f_inv f = Some h -> (fnum h = fden f /\ fden h = fnum f) \/ (fnum h = - fden f /\ fden h = - fnum f).
Proof.
  intros [_ G] E. unfold f_inv in E. apply guard_inv in E as [_ E]. unfold f_make in E. apply guard_inv in E as [_ E]. destruct (Z.eqb_spec (fden f) 0); [lia|].
  destruct (fnum f <? 0); [|injection E as <-; auto]. inv1 E. inv1 E. injection E as <-. apply ck_inv in E0 as [-> _], E1 as [-> _]. auto.
Qed.
Lemma int_div_ok x f h : good f -> Z.gcd (fden f * x) (fnum f) < 2 ^ 31 -> f_int_div x f = Some h ->
  good h /\ fnum f <> 0 /\ lowest h /\ (value h == inject_Z x / value f)%Q.
Proof.
  intros G Hg H. unfold f_int_div in H. inv1 H. pose proof E as E'. apply inv_ok in E' as (Gz & N & Ez); auto.
  assert (Hz : Z.gcd (fnum f0 * x) (fden f0) < 2 ^ 31).
  { destruct (inv_shape f f0 G E) as [[-> ->]|[-> ->]]; auto. now rewrite Z.mul_opp_l, Z.gcd_opp_l, Z.gcd_opp_r. }
  apply mul_int_ok in H as (Gh & L & Eh); auto. split; auto. split; auto. split; auto. rewrite Eh, Ez. unfold Qdiv. ring.
Qed.
Lemma fo_make_ok u v f : - 2 ^ 63 <= u < 2 ^ 63 -> - 2 ^ 63 <= v < 2 ^ 63 -> fo_make u v = Some f -> good f /\ v <> 0 /\ fnum f * v = u * fden f.
Proof.
  intros Hu Hv H. unfold fo_make in H. inv1 H. inv1 H. apply ck_inv in E0 as [-> R]. destruct (Z.leb_spec 0 v).
  - injection E as <-. rewrite Z.abs_eq in * by lia. apply make_ok in H as (G & N & E & _); auto.
  - apply ck_inv in E as [-> R2]. rewrite Z.abs_neq in * by lia. apply make_ok in H as (G & N & E & _); auto. split; auto. split; lia.
Qed.
Lemma cmp_ok f r c : good f -> good r -> f_cmp f r = Some c -> c = (value f ?= value r)%Q.
Proof.
  intros [_ Df] [_ Dr] H. unfold f_cmp in H. inv1 H. inv1 H. injection H as <-. apply ck_inv in E as [-> _], E0 as [-> _].
  unfold Qcompare, value. cbn [Qnum Qden]. rewrite !Z2Pos.id by lia. now rewrite (Z.mul_comm (fden f)).
Qed.
Lemma eq_ok f r b : good f -> good r -> f_eq f r = Some b -> (b = true <-> (value f == value r)%Q).
Proof.
  intros [_ Df] [_ Dr] H. unfold f_eq in H. inv1 H. inv1 H. injection H as <-. apply ck_inv in E as [-> _], E0 as [-> _].
  unfold Qeq, value. cbn [Qnum Qden]. rewrite !Z2Pos.id by lia. rewrite (Z.mul_comm (fden f)). apply Z.eqb_eq.
Qed.
Lemma lt_ok f r b : good f -> good r -> f_lt f r = Some b -> (b = true <-> (value f < value r)%Q).
Proof.
  intros [_ Df] [_ Dr] H. unfold f_lt in H. inv1 H. inv1 H. injection H as <-. apply ck_inv in E as [-> _], E0 as [-> _].
  unfold Qlt, value. cbn [Qnum Qden]. rewrite !Z2Pos.id by lia. rewrite (Z.mul_comm (fden f)). apply Z.ltb_lt.
Qed.
Lemma le_ok f r b : good f -> good r -> f_le f r = Some b -> (b = true <-> (value f <= value r)%Q).
Proof.
  intros [_ Df] [_ Dr] H. unfold f_le in H. inv1 H. inv1 H. injection H as <-. apply ck_inv in E as [-> _], E0 as [-> _].
  unfold Qle, value. cbn [Qnum Qden]. rewrite !Z2Pos.id by lia. rewrite (Z.mul_comm (fden f)). apply Z.leb_le.
Qed.
Lemma cmp_int_ok f x c : good f -> f_cmp_int f x = Some c -> c = (value f ?= inject_Z x)%Q.
Proof.
  intros [_ Df] H. unfold f_cmp_int in H. inv1 H. injection H as <-. apply ck_inv in E as [-> _].
  unfold Qcompare, value, inject_Z. cbn [Qnum Qden]. rewrite !Z2Pos.id by lia. now rewrite Z.mul_1_r, (Z.mul_comm (fden f)).
Qed.

(** ** No overflow on 31-bit operands *)
Definition small (f : frac) : Prop := - 2 ^ 31 < fnum f < 2 ^ 31 /\ 0 < fden f < 2 ^ 31.
Lemma small_good f : small f -> good f.
Proof. unfold small, good. lia. Qed.
Lemma mul_small x y : - 2 ^ 31 < x < 2 ^ 31 -> - 2 ^ 31 < y < 2 ^ 31 -> - 2 ^ 62 < x * y < 2 ^ 62.
Proof. intros. nia. Qed.
Lemma gcd_small u v : v <> 0 -> Z.gcd u v <= Z.abs v.
Proof. intros N. apply Z.divide_pos_le; [lia|]. apply Z.divide_abs_r, Z.gcd_divide_r. Qed.
Lemma gcd_small_l u v : u <> 0 -> Z.gcd u v <= Z.abs u.
Proof. intros N. rewrite Z.gcd_comm. now apply gcd_small. Qed.
Lemma div_small x g : 0 < g -> - 2 ^ 63 < x < 2 ^ 63 -> div64 x g = Some (Z.quot x g).
Proof. intros G H. unfold div64. destruct (Z.eqb_spec g 0); [lia|]. cbn [negb guard obind]. pose proof (quot_range x g G H). apply ck_some. lia. Qed.
Lemma add_some f r : small f -> small r -> exists h, f_add f r = Some h.
Proof.
  intros [Hf Df] [Hr Dr]. unfold f_add, gcd64. rewrite !ck_some by lia. cbn [obind]. pose proof (gcd_pos (fden f) (fden r) ltac:(lia)) as P.
  destruct (gcd_parts (fden f) (fden r)) as (a & b & Ea & Eb & Qa & Qb & _); [lia|]. rewrite !div_small by lia. rewrite Qa, Qb. set (g := Z.gcd _ _) in *. cbn [obind].
  assert (0 < a <= fden f) by nia. assert (0 < b <= fden r) by nia. unfold mul64, add64.
  pose proof (mul_small (fden f) b). pose proof (mul_small (fnum f) b). pose proof (mul_small (fnum r) a).
  rewrite (ck_some (fden f * b)) by lia. cbn [obind]. rewrite (ck_some (fnum f * b)) by lia. cbn [obind]. rewrite (ck_some (fnum r * a)) by lia. cbn [obind].
  rewrite ck_some by lia. cbn [obind]. eauto.
Qed.
Lemma neg_some f : small f -> exists h, f_neg f = Some h /\ small h.
Proof.
  intros [Hf Df]. unfold f_neg, neg64. rewrite ck_some by lia. cbn [obind]. unfold f_make. destruct (Z.eqb_spec (fden f) 0); [lia|]. cbn [negb guard obind].
  destruct (Z.eqb_spec (- fnum f) 0); [eexists; split; [reflexivity|]; unfold small; cbn [fnum fden]; lia|]. destruct (Z.ltb_spec (fden f) 0); [lia|].
  eexists; split; [reflexivity|]; unfold small; cbn [fnum fden]; lia.
Qed.
Lemma sub_some f r : small f -> small r -> exists h, f_sub f r = Some h.
Proof. intros Sf Sr. unfold f_sub. destruct (neg_some r Sr) as (h & -> & Sh). cbn [obind]. now apply add_some. Qed.
Lemma mul_some f r : small f -> small r -> exists h, f_mul f r = Some h.
Proof.
  intros [Hf Df] [Hr Dr]. unfold f_mul, mul64. pose proof (mul_small (fden f) (fden r)). pose proof (mul_small (fnum f) (fnum r)).
  rewrite (ck_some (fden f * fden r)) by lia. cbn [obind]. rewrite (ck_some (fnum f * fnum r)) by lia. cbn [obind]. unfold gcd64. rewrite !ck_some by lia. cbn [obind].
  pose proof (gcd_pos (fnum f * fnum r) (fden f * fden r) ltac:(nia)). rewrite !div_small by lia. cbn [obind]. eauto.
Qed.
Lemma inv_some f : small f -> fnum f <> 0 -> exists h, f_inv f = Some h /\ small h.
Proof.
  intros [Hf Df] N. unfold f_inv. destruct (Z.eqb_spec (fnum f) 0); [easy|]. cbn [negb guard obind]. unfold f_make. destruct (Z.eqb_spec (fnum f) 0); [easy|]. cbn [negb guard obind].
  destruct (Z.eqb_spec (fden f) 0); [lia|]. destruct (Z.ltb_spec (fnum f) 0).
  - unfold neg64. rewrite !ck_some by lia. cbn [obind]. eexists; split; [reflexivity|]. unfold small. cbn [fnum fden]. lia.
  - eexists; split; [reflexivity|]. unfold small. cbn [fnum fden]. lia.
Qed.
Lemma div_some f r : small f -> small r -> fnum r <> 0 -> exists h, f_div f r = Some h.
Proof. intros Sf Sr N. unfold f_div. destruct (inv_some r Sr N) as (h & -> & Sh). cbn [obind]. now apply mul_some. Qed.
Lemma int_some f x : small f -> - 2 ^ 31 < x < 2 ^ 31 ->
  (exists h, f_add_int f x = Some h) /\ (exists h, f_sub_int f x = Some h) /\ (exists h, f_mul_int f x = Some h).
Proof.
  intros [Hf Df] Hx. pose proof (mul_small x (fden f)). pose proof (mul_small (fnum f) x).
  assert (G : forall u, Z.gcd u (fden f) < 2 ^ 31) by (intros u; pose proof (gcd_small u (fden f)); lia).
  unfold f_add_int, f_sub_int, f_mul_int, mul64, add64, sub64. rewrite (ck_some (x * fden f)) by lia. cbn [obind]. rewrite (ck_some (fnum f + _)), (ck_some (fnum f - _)), (ck_some (fnum f * x)) by lia.
  cbn [obind]. repeat split; apply reduct_some; try apply G; lia.
Qed.
Lemma div_int_some f x : small f -> fnum f <> 0 -> - 2 ^ 31 < x < 2 ^ 31 -> x <> 0 -> exists h, f_div_int f x = Some h.
Proof.
  intros [Hf Df] N Hx Nx. pose proof (mul_small (fden f) x). unfold f_div_int, mul64. rewrite ck_some by lia. cbn [obind].
  apply reduct_some; [lia|lia|nia|]. pose proof (gcd_small_l (fnum f) (fden f * x)). lia.
Qed.
Lemma cmp_some f r : small f -> small r -> (exists c, f_cmp f r = Some c) /\ (exists c, f_eq f r = Some c) /\ (exists c, f_lt f r = Some c) /\ (exists c, f_le f r = Some c).
Proof.
  intros [Hf Df] [Hr Dr]. pose proof (mul_small (fnum f) (fden r)). pose proof (mul_small (fden f) (fnum r)). unfold f_cmp, f_eq, f_lt, f_le, mul64.
  rewrite !(ck_some (fnum f * fden r)), !(ck_some (fden f * fnum r)) by lia. cbn [obind]. eauto 8.
Qed.
