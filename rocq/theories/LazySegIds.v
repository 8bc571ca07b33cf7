(** Facts about [set_ids] and [walk] (no trees here). *)
From Verif Require Import Base BaseLemmas Array2 FenwickModel FenwickProof LazySegModel.
Set Implicit Arguments.
Ltac Zify.zify_post_hook ::= Z.div_mod_to_equations.

(* [lia] without the hypotheses on powers *)
Ltac lia2 := repeat match goal with H : context [Nat.pow] |- _ => clear H end; lia.

Lemma odd_mod2 a : a mod 2 = Nat.b2n (Nat.odd a).
Proof. rewrite <- Nat.bit0_mod, Nat.bit0_odd. auto. Qed.

Lemma div_pow_S a j : a / 2^j / 2 = a / 2^(S j).
Proof. rewrite Nat.div_div by (try apply Nat.pow_nonzero; lia). f_equal. rewrite Nat.pow_succ_r'. lia. Qed.

(** Nodes strictly above the boundary leaf [l] or [r]. *)
Definition edge (l r y : nat) := exists j, (l / 2^j = y /\ l mod 2^j <> 0) \/ (r / 2^j = y /\ r mod 2^j <> 0).

Lemma mod_pow_S a j : a mod 2^j <> 0 -> a mod 2^(S j) <> 0.
Proof.
  intros H E. apply H. apply Nat.mod_divide in E; [|apply Nat.pow_nonzero; lia].
  apply Nat.mod_divide; [apply Nat.pow_nonzero; lia|].
  destruct E as (c & ->). exists (c*2). rewrite Nat.pow_succ_r'. lia.
Qed.

Lemma edge_half l r y : edge l r y -> edge l r (y/2).
Proof.
  intros (j & [(E & H)|(E & H)]); exists (S j); [left|right]; rewrite <- div_pow_S, E; split; auto; now apply mod_pow_S.
Qed.

(** A node covering only leaves of [l..r). *)
Definition inner (l r k x : nat) := l <= x * 2^k /\ (x+1) * 2^k <= r.

Lemma pow_gap a b : a < b -> 2 * 2^a <= 2^b.
Proof. intros. rewrite <- Nat.pow_succ_r'. apply Nat.pow_le_mono_r; lia. Qed.

Lemma inner_height n l r k x p j : n <= l -> r <= 2*n -> inner l r k x -> n <= p < 2*n -> p / 2^j = x -> j = k.
Proof.
  intros Hl Hr (H1 & H2) Hp E.
  pose proof (pow2_pos j). pose proof (pow2_pos k).
  pose proof (Nat.div_mod_eq p (2^j)) as D. pose proof (Nat.mod_upper_bound p (2^j) ltac:(lia)) as B.
  rewrite E in D.
  destruct (Nat.lt_total j k) as [G|[G|G]]; auto; exfalso; apply pow_gap in G; nia.
Qed.

Lemma inner_not_edge n l r k x : 1 <= n -> n <= l -> r <= 2*n -> inner l r k x -> ~ edge l r x.
Proof.
  intros Hn Hl Hr (H1 & H2) (j & HE).
  pose proof (pow2_pos j) as Pj. pose proof (pow2_pos k) as Pk.
  assert (l < r) by nia.
  destruct HE as [(E & Hm)|(E & Hm)].
  - pose proof (Nat.div_mod_eq l (2^j)) as D. pose proof (Nat.mod_upper_bound l (2^j) ltac:(lia)) as B. rewrite E in D.
    destruct (Nat.lt_total j k) as [G|[G|G]]; [apply pow_gap in G; nia| |apply pow_gap in G; nia].
    subst j. nia.
  - pose proof (Nat.div_mod_eq r (2^j)) as D. pose proof (Nat.mod_upper_bound r (2^j) ltac:(lia)) as B. rewrite E in D.
    destruct (Nat.lt_total j k) as [G|[G|G]]; [apply pow_gap in G; nia| |apply pow_gap in G; nia].
    subst j. nia.
Qed.

Lemma inner_child l r k x b : b <= 1 -> inner l r (S k) x -> inner l r k (2*x+b).
Proof. unfold inner. rewrite Nat.pow_succ_r'. intros. nia. Qed.

Lemma leaf_edge p j : 1 <= j -> edge p (p+1) (p / 2^j).
Proof.
  intros Hj. exists j. pose proof (pow2_pos j) as P. 
  destruct (Nat.eq_dec (p mod 2^j) 0) as [E|E]; [right|left; auto].
  assert (1 < 2^j). { apply (Nat.pow_lt_mono_r 2 0 j); lia. }
  pose proof (Nat.div_mod_eq p (2^j)) as D. split.
  - symmetry. apply Nat.div_unique with 1; lia.
  - replace (p+1) with (1 + (p/2^j) * 2^j) by lia. rewrite Nat.mod_add by lia. rewrite Nat.mod_small by lia. lia.
Qed.

(** ** The walk *)
Section Walk.
  Variables (S : Type) (fl fr : nat -> S -> option S) (l r : nat) (I : nat -> nat -> nat -> S -> Prop).

  Lemma walk_rule s :
    l <= r ->
    I 0 l r s ->
    (forall k a b s, I k a b s -> Nat.odd a = true -> a < b -> inner l r k a -> edge l r (a/2) ->
        (b <= r / 2^k) ->
        exists s', fl a s = Some s' /\ I k (a+1) b s') ->
    (forall k a b s, I k a b s -> Nat.odd b = true -> a < b -> inner l r k (b-1) -> edge l r ((b-1)/2) ->
        exists s', fr (b-1) s = Some s' /\ I k a (b-1) s') ->
    (forall k a b s, I k (2*a) (2*b) s -> I (Datatypes.S k) a b s) ->
    exists s' k a, walk fl fr l r s = Some s' /\ I k a a s'.
  Proof.
    intros Hlr H0 HL HR HS. unfold walk.
    match goal with |- exists _ _ _, loop _ ?b _ = _ /\ _ => set (body := b) end.
    destruct (@loop_rule2 _ _ (fun f '(s, a, b) => exists k, b < f /\ a <= b /\ I k a b s /\
         l <= a * 2^k /\ (a * 2^k < l + 2^k) /\ b = r / 2^k)
       (fun s' => exists k a, I k a a s') body ltac:(intros ((?&?)&?) (?&?&_); lia) (Datatypes.S r) (s, l, r)) as (s' & E & k & a & HI).
    - exists 0. rewrite Nat.pow_0_r, Nat.div_1_r. repeat split; auto; lia.
    - intros f ((s1 & a) & b) (k & Hb & Hab & HI & A1 & A2 & EB). unfold body.
      destruct (Nat.ltb_spec a b).
      2:{ right. eexists; split; [reflexivity|]. assert (a = b) by lia. subst b. exists k, a. congruence. }
      left. pose proof (pow2_pos k) as Pk.
      pose proof (Nat.div_mod_eq r (2^k)) as D. pose proof (Nat.mod_upper_bound r (2^k) ltac:(lia)) as B. rewrite <- EB in D.
      assert (HA : exists s2, (if Nat.odd a then let* s := fl a s1 in Some (s, a + 1) else Some (s1, a)) = Some (s2, 2 * ((a+1)/2)) /\ I k (2 * ((a+1)/2)) b s2).
      { destruct (Nat.odd a) eqn:O.
        - pose proof (odd_mod2 a) as Oa; rewrite O in Oa; cbn [Nat.b2n] in Oa.
          destruct (HL k a b s1) as (s2 & E2 & I2); auto.
          + split; auto. nia.
          + destruct (Nat.eq_dec (a * 2^k) l) as [El|Nl].
            * exists (Datatypes.S k). left. rewrite <- div_pow_S, <- El, Nat.div_mul by lia. split; auto.
              intros Q. apply Nat.mod_divide in Q; [|apply Nat.pow_nonzero; lia]. destruct Q as (c & Q). rewrite Nat.pow_succ_r' in Q. assert (a = c*2) by (apply (Nat.mul_cancel_r _ _ (2^k)); lia). lia.
            * exists (Datatypes.S k). left. rewrite <- div_pow_S. 
              assert (Q : l / 2^k = a - 1) by (symmetry; apply Nat.div_unique with (l - (a-1)*2^k); nia).
              rewrite Q. split; [lia|]. apply mod_pow_S. intros Z.
              pose proof (Nat.div_mod_eq l (2^k)) as Dl. rewrite Q, Z in Dl. assert (a * 2^k = 2^k * (a-1) + 2^k) by (destruct a; [lia|]; rewrite Nat.sub_succ, Nat.sub_0_r; lia). lia.
          + lia.
          + rewrite E2. cbn [obind]. exists s2. replace (2 * ((a+1)/2)) with (a+1) by lia. auto.
        - exists s1. pose proof (odd_mod2 a) as Oa; rewrite O in Oa; cbn [Nat.b2n] in Oa.
          replace (2 * ((a+1)/2)) with a by lia. auto. }
      destruct HA as (s2 & E2 & I2). rewrite E2. cbn [obind]. set (a' := 2 * ((a+1)/2)) in *.
      assert (a' <= b \/ Nat.odd b = true /\ a' < b \/ a' = b + 1).
      { destruct (Nat.odd b); lia. }
      assert (HB : exists s3, (if Nat.odd b then let* s := fr (b-1) s2 in Some (s, b - 1) else Some (s2, b)) = Some (s3, 2 * (b/2)) /\ I k a' (2*(b/2)) s3 /\ a' <= 2*(b/2)).
      { destruct (Nat.odd b) eqn:O.
        - pose proof (odd_mod2 b) as Ob; rewrite O in Ob; cbn [Nat.b2n] in Ob.
          assert (a' < b) by (unfold a' in *; lia).
          destruct (HR k a' b s2) as (s3 & E3 & I3); auto.
          + split; [|replace (b-1+1) with b by lia; nia]. unfold a' in *. assert (a <= b - 1) by lia. nia.
          + exists (Datatypes.S k). right. rewrite <- div_pow_S, <- EB. split; [lia|].
            intros Q. apply Nat.mod_divide in Q; [|apply Nat.pow_nonzero; lia]. destruct Q as (c & Q). rewrite Nat.pow_succ_r' in Q. assert (b = c*2) by (rewrite EB, Q, Nat.mul_assoc; apply Nat.div_mul; lia). lia.
          + rewrite E3. cbn [obind]. exists s3. replace (2 * (b/2)) with (b-1) by lia. split; auto. split; auto. lia.
        - exists s2. pose proof (odd_mod2 b) as Ob; rewrite O in Ob; cbn [Nat.b2n] in Ob.
          replace (2 * (b/2)) with b by lia. split; auto. split; auto. unfold a'. lia. }
      destruct HB as (s3 & E3 & I3 & Hab'). rewrite E3. cbn [obind]. eexists; split; [reflexivity|].
      exists (Datatypes.S k). replace (2 * (b/2) / 2) with (b/2) by lia. replace (a'/2) with ((a+1)/2) by (unfold a'; lia).
      split; [lia|]. split; [unfold a' in *; lia|]. split; [apply HS; auto|].
      rewrite Nat.pow_succ_r'. split; [|split].
      + assert (2 * ((a+1)/2) >= a) by lia. nia.
      + assert (2 * ((a+1)/2) <= a + 1) by lia. nia.
      + rewrite EB. replace (2 * 2^k) with (2^(Datatypes.S k)) by apply Nat.pow_succ_r'. apply div_pow_S.
    - exists s', k, a. auto.
  Qed.
End Walk.

(** ** set_ids *)
Record ids_ok (n l r : nat) (ids : list nat) : Prop := {
  ids_closed : forall x, In x ids -> x / 2 = 0 \/ In (x/2) ids;
  ids_order : forall P x Q, ids = P ++ x :: Q -> 1 <= x -> forall y, In y P -> x / 2 < y;
  ids_edge : forall y, 1 <= y -> edge l r y -> In y ids;
  ids_lt : forall x, In x ids -> x < n
}.

Lemma lowbit_div_th a j : 0 < a -> small a -> a mod 2^j <> 0 -> a / 2^j <= a / lowbit a / 2.
Proof.
  intros Ha Hs H. destruct (decompose Ha) as (c & m & E). rewrite E in *. rewrite lowbit_val by auto.
  pose proof (pow2_pos c) as Pc.
  assert (c < j).
  { destruct (Nat.lt_ge_cases c j); auto. exfalso. apply H. apply Nat.mod_divide; [apply Nat.pow_nonzero; lia|].
    exists (2^(c-j) * (2*m+1)). replace c with ((c-j)+j) at 1 by lia. rewrite Nat.pow_add_r. ring. }
  rewrite (div_pow_S _ c). apply Nat.div_le_compat_l. split; [apply Nat.neq_0_lt_0, Nat.pow_nonzero; lia|]. apply Nat.pow_le_mono_r; lia.
Qed.

Lemma th_bound n a : 1 <= n -> 0 < a <= 2 * n -> small a -> a / lowbit a / 2 < n.
Proof.
  intros Hn Ha Hs. destruct (decompose (proj1 Ha)) as (c & m & E). rewrite E in *. rewrite lowbit_val by auto.
  pose proof (pow2_pos c) as Pc. rewrite (Nat.mul_comm (2^c)), Nat.div_mul by lia.
  replace ((2*m+1)/2) with m by lia. nia.
Qed.

Definition Ord (ids : list nat) := forall P z Q, ids = P ++ z :: Q -> 1 <= z -> forall y, In y P -> z / 2 < y.

Lemma order_snoc (ids : list nat) x : Ord ids ->
  (1 <= x -> forall y, In y ids -> x / 2 < y) -> Ord (ids ++ [x]).
Proof.
  intros H1 H2 P z Q E Hz y Hy.
  destruct Q as [|q Q] using rev_ind.
  - apply app_inj_tail in E. destruct E as (-> & ->). auto.
  - clear IHQ. rewrite app_comm_cons, app_assoc in E. apply app_inj_tail in E. destruct E as (E & _). eapply H1; eauto.
Qed.

Lemma set_ids_ok n l r : 1 <= n -> n <= l -> l < r -> r <= 2*n -> small (2*n) ->
  exists ids, set_ids l r = Some ids /\ ids_ok n l r ids.
Proof.
  intros Hn Hl Hlr Hr Hs. unfold set_ids. set (lth := l / lowbit l / 2). set (rth := r / lowbit r / 2).
  assert (Sl : small l) by (unfold small in *; lia). assert (Sr : small r) by (unfold small in *; lia).
  assert (TL : lth < n) by (apply th_bound; auto; lia). assert (TR : rth < n) by (apply th_bound; auto; lia).
  match goal with |- exists _, obind (loop _ ?b _) _ = _ /\ _ => set (body := b) end.
  (* the state of the first loop after k steps *)
  set (Inv := fun k (ids : list nat) a b =>
     a = l / 2^k /\ b = r / 2^k /\ a <= b /\ b <= 2*a+1 /\
     (forall y, In y ids -> b <= y) /\ Ord ids /\ (forall y, In y ids -> y < n) /\
     (forall j, j < k -> l/2^j <= lth -> In (l/2^j) ids) /\ (forall j, j < k -> r/2^j <= rth -> In (r/2^j) ids) /\
     (forall x, In x ids -> In (x/2) ids \/ (x/2 = a /\ x/2 <= lth) \/ (x/2 = b /\ x/2 <= rth))).
  destruct (@loop_rule2 _ _ (fun f '(ids, a, b) => exists k, b < f /\ Inv k ids a b)
     (fun '(ids, a) => exists k, 1 <= k /\ Inv k ids a a) body ltac:(intros ((?&?)&?) (?&?&_); lia) (S r) ([], l, r)) as ((ids & a) & E & k & Hk & HI).
  - exists 0. split; [lia|]. unfold Inv. rewrite !Nat.pow_0_r, !Nat.div_1_r.
    split; auto. split; auto. split; [lia|]. split; [lia|]. split; [intros ? []|]. split; [intros P z Q EE; now apply app_cons_not_nil in EE|].
    split; [intros ? []|]. split; [intros; lia|]. split; [intros; lia|]. intros ? [].
  - intros f ((ids & a) & b) (k & Hf & EA & EB & Hab & Hba & Hge & HO & Hlt & HcL & HcR & Hcl). unfold body.
    destruct (Nat.ltb_spec a b).
    2:{ right. eexists; split; [reflexivity|]. assert (a = b) by lia. exists k. split.
        - destruct k; [|lia]. rewrite Nat.pow_0_r, Nat.div_1_r in EA, EB. lia.
        - unfold Inv. subst b. rewrite <- H0 in *. repeat (split; auto). }
    left. eexists; split; [reflexivity|]. exists (S k).
    set (ids1 := if b <=? rth then ids ++ [b] else ids). set (ids2 := if a <=? lth then ids1 ++ [a] else ids1).
    split; [lia|]. unfold Inv. rewrite <- (div_pow_S l k), <- (div_pow_S r k), <- EA, <- EB.
    split; auto. split; auto. split; [lia|]. split; [lia|].
    assert (In1 : forall y, In y ids1 <-> In y ids \/ (y = b /\ b <= rth)).
    { intros y. unfold ids1. destruct (Nat.leb_spec b rth); [rewrite in_app_iff; simpl|]; intuition (auto; lia). }
    assert (In2 : forall y, In y ids2 <-> In y ids \/ (y = b /\ b <= rth) \/ (y = a /\ a <= lth)).
    { intros y. unfold ids2. destruct (Nat.leb_spec a lth); [rewrite in_app_iff; simpl|]; rewrite In1; intuition (auto; lia). }
    split; [|split; [|split; [|split; [|split]]]].
    + intros y Hy. apply In2 in Hy. destruct Hy as [Hy|[(-> & _)|(-> & _)]]; [apply Hge in Hy|..]; lia.
    + assert (O1 : Ord ids1).
      { unfold ids1. destruct (b <=? rth); auto. apply order_snoc; auto. intros _ y Hy. apply Hge in Hy. lia. }
      unfold ids2. destruct (a <=? lth); auto. apply order_snoc; auto. intros Ha y Hy. apply In1 in Hy.
      destruct Hy as [Hy|(-> & _)]; [apply Hge in Hy|]; lia.
    + intros y Hy. apply In2 in Hy. destruct Hy as [Hy|[(-> & ?)|(-> & ?)]]; auto; lia.
    + intros j Hj Hle. apply In2. destruct (Nat.eq_dec j k) as [->|]; [|left; apply HcL; auto; lia].
      right; right. lia.
    + intros j Hj Hle. apply In2. destruct (Nat.eq_dec j k) as [->|]; [|left; apply HcR; auto; lia].
      right; left. lia.
    + intros x Hx. apply In2 in Hx. destruct Hx as [Hx|[(-> & Hb)|(-> & Ha)]].
      * destruct (Hcl x Hx) as [?|[(Ex & ?)|(Ex & ?)]].
        -- left. apply In2. auto.
        -- left. apply In2. right; right. lia.
        -- left. apply In2. right; left. lia.
      * right; right. lia.
      * right; left. lia.
  - rewrite E. cbn [obind]. clear body E.
    destruct HI as (EA & EB & _ & _ & Hge & HO & Hlt & HcL & HcR & Hcl).
    assert (Han : a < n).
    { rewrite EA. destruct k; [lia|]. rewrite <- (Nat.mul_1_r n). apply Nat.div_lt_upper_bound; [apply Nat.pow_nonzero; lia|].
      pose proof (pow2_pos k). rewrite Nat.pow_succ_r'. nia. }
    match goal with |- exists _, loop _ ?b _ = _ /\ _ => set (body := b) end.
    destruct (@loop_rule2 _ _ (fun f '(ids', c) => c < f /\ exists k, c = l / 2^k /\ c = r/2^k /\
          (forall y, In y ids' -> c <= y) /\ Ord ids' /\ (forall y, In y ids' -> y < n) /\ c < n /\
          (forall j, j < k -> 1 <= l/2^j -> l/2^j <= lth -> In (l/2^j) ids') /\ (forall j, j < k -> 1 <= r/2^j -> r/2^j <= rth -> In (r/2^j) ids') /\
          (forall x, In x ids' -> In (x/2) ids' \/ x/2 = c)) 
        (fun ids' => Ord ids' /\ (forall y, In y ids' -> y < n) /\
          (forall j, 1 <= l/2^j -> l/2^j <= lth -> In (l/2^j) ids') /\ (forall j, 1 <= r/2^j -> r/2^j <= rth -> In (r/2^j) ids') /\
          (forall x, In x ids' -> x/2 = 0 \/ In (x/2) ids')) body ltac:(intros (?&?) (?&_); lia) (S a) (ids, a)) as (ids' & E & HO' & Hlt' & HcL' & HcR' & Hcl').
    + split; [lia|]. exists k. repeat (split; auto). intros x Hx. destruct (Hcl x Hx) as [?|[(?&?)|(?&?)]]; auto.
    + intros f (ids1 & c) (Hf & k1 & EC1 & EC2 & Hge1 & HO1 & Hlt1 & Hcn & HcL1 & HcR1 & Hcl1). unfold body.
      destruct (Nat.ltb_spec 0 c).
      * left. eexists; split; [reflexivity|]. split; [lia2|]. exists (S k1). rewrite <- (div_pow_S l k1), <- (div_pow_S r k1), <- EC1, <- EC2.
        split; auto. split; auto. split; [|split; [|split; [|split; [|split; [|split]]]]].
        -- intros y Hy. apply in_app_iff in Hy. destruct Hy as [Hy|[<-|[]]]; [apply Hge1 in Hy|]; lia2.
        -- apply order_snoc; auto. intros _ y Hy. apply Hge1 in Hy. lia2.
        -- intros y Hy. apply in_app_iff in Hy. destruct Hy as [Hy|[<-|[]]]; auto.
        -- lia2.
        -- intros j Hj H1 H2. apply in_app_iff. destruct (Nat.eq_dec j k1) as [->|]; [right; left; auto|left; apply HcL1; auto; lia2].
        -- intros j Hj H1 H2. apply in_app_iff. destruct (Nat.eq_dec j k1) as [->|]; [right; left; auto|left; apply HcR1; auto; lia2].
        -- intros x Hx. rewrite in_app_iff. apply in_app_iff in Hx. destruct Hx as [Hx|[<-|[]]]; auto.
           destruct (Hcl1 x Hx) as [|Q]; auto. left. right. left. auto.
      * right. eexists; split; [reflexivity|]. assert (c = 0) by lia2.
        assert (Zl : forall a0 j, 0 = a0 / 2^k1 -> k1 <= j -> a0 / 2^j = 0).
        { intros a0 j E0 Hj. pose proof (Nat.div_le_compat_l a0 (2^k1) (2^j)) as Q.
          specialize (Q (conj (pow2_pos k1) (Nat.pow_le_mono_r 2 _ _ ltac:(lia2) Hj))). rewrite <- E0 in Q. now apply Nat.le_0_r. }
        split; auto. split; auto. split; [|split].
        -- intros j H1 H2. destruct (Nat.lt_ge_cases j k1); [apply HcL1; auto|]. rewrite Zl in H1; [lia|congruence|auto].
        -- intros j H1 H2. destruct (Nat.lt_ge_cases j k1); [apply HcR1; auto|]. rewrite Zl in H1; [lia|congruence|auto].
        -- intros x Hx. destruct (Hcl1 x Hx); auto. left. lia2.
    + exists ids'. split; auto. split; auto.
      intros y Hy (j & [(Ej & Hm)|(Ej & Hm)]); rewrite <- Ej in *; [apply HcL'|apply HcR']; auto; apply lowbit_div_th; auto; lia2.
Qed.
