From Coq Require Import Permutation Ring_theory.
From Verif Require Import Base BaseLemmas ListExtra NthExtra RSum DirichletModel DirichletProof.

(** ** Prime powers and smooth divisors *)
Lemma prime_gcd p x : is_prime p -> ~ Nat.divide p x -> Nat.gcd p x = 1.
Proof.
  intros [H2 P] N. destruct (P (Nat.gcd p x)) as [|E]; auto; [apply Nat.gcd_divide_l|].
  exfalso. apply N. rewrite <- E. apply Nat.gcd_divide_r.
Qed.
Lemma prime_mul p x y : is_prime p -> Nat.divide p (x * y) -> Nat.divide p x \/ Nat.divide p y.
Proof.
  intros P D. destruct (Nat.eq_dec (x mod p) 0) as [E|N].
  - left. apply Nat.mod_divide; auto. destruct P. lia.
  - right. apply (Nat.gauss p x y); auto. apply prime_gcd; auto. intros Q. apply N. apply Nat.mod_divide; auto. destruct P. lia.
Qed.
Lemma prime_pow p q k : is_prime p -> is_prime q -> Nat.divide p (q ^ k) -> p = q.
Proof.
  intros P Q. induction k as [|k IH]; cbn [Nat.pow]; intros D.
  - apply Nat.divide_1_r in D. destruct P. lia.
  - apply prime_mul in D as [D|D]; auto. destruct Q as [_ Q]. destruct (Q p D); auto. destruct P. lia.
Qed.
Lemma pow_gt p k : 2 <= p -> k < p ^ k.
Proof. intros H. apply Nat.pow_gt_lin_r. lia. Qed.
Lemma pow_pos p k : 2 <= p -> 0 < p ^ k.
Proof. intros H. pose proof (pow_gt p k H). lia. Qed.
Lemma prime_div x : 2 <= x -> exists p, is_prime p /\ Nat.divide p x.
Proof.
  intros Hx. assert (H : forall m d, d + m = x -> 2 <= d -> (forall e, 2 <= e < d -> ~ Nat.divide e x) -> exists p, lpf x p).
  { induction m as [|m IH]; intros d E H2 N.
    - exists x. split; auto. split; [apply Nat.divide_refl|]. intros e He De. destruct (Nat.le_gt_cases x e); auto. exfalso. apply (N e); auto. lia.
    - destruct (Nat.eq_dec (x mod d) 0) as [Em|Nm].
      + exists d. split; auto. split; [apply Nat.mod_divide; auto; lia|]. intros e He De. destruct (Nat.le_gt_cases d e); auto. exfalso. apply (N e); auto. 
      + apply (IH (S d)); try lia. intros e He De. destruct (Nat.eq_dec e d) as [->|]; [|apply (N e); auto; lia].
        apply Nm. apply Nat.mod_divide; auto. lia. }
  destruct (H (x - 2) 2 ltac:(lia) ltac:(lia)) as (p & L); [intros; lia|]. exists p. split; [apply (lpf_prime x p); auto; lia|apply L].
Qed.
Lemma coprime_pow p k e : is_prime p -> ~ Nat.divide p e -> Nat.gcd (p ^ k) e = 1.
Proof.
  intros P N. destruct (Nat.eq_dec (Nat.gcd (p ^ k) e) 1) as [|G]; auto. exfalso.
  destruct (Nat.eq_dec (Nat.gcd (p ^ k) e) 0) as [Z|Z].
  - apply Nat.gcd_eq_0 in Z as [Z _]. pose proof (pow_pos p k ltac:(destruct P; lia)). lia.
  - destruct (prime_div (Nat.gcd (p ^ k) e) ltac:(lia)) as (q & Pq & Dq).
    assert (q = p) by (apply (prime_pow q p k); auto; eapply div_trans; [exact Dq|apply Nat.gcd_divide_l]). subst q.
    apply N. eapply div_trans; [exact Dq|apply Nat.gcd_divide_r].
Qed.
(** The exponents of [p] in [u]. *)
Definition ks (p u : nat) : list nat := filter (fun k => u mod p ^ k =? 0) (seq 0 (u + 1)).
Lemma ks_in p u k : 2 <= p -> 0 < u -> (In k (ks p u) <-> Nat.divide (p ^ k) u).
Proof.
  intros Hp Hu. unfold ks. rewrite filter_In, in_seq, Nat.eqb_eq, Nat.mod_divide by (pose proof (pow_pos p k Hp); lia). split; [tauto|].
  intros D. split; auto. pose proof (div_le _ _ D Hu). pose proof (pow_gt p k Hp). lia.
Qed.
Lemma filter_false {X} (f : X -> bool) l : (forall x, In x l -> f x = false) -> filter f l = [].
Proof. induction l as [|x l IH]; intros H; auto. cbn [filter]. rewrite (H x) by now left. apply IH. intros y Hy. apply H. now right. Qed.
Lemma filter_true {X} (f : X -> bool) l : (forall x, In x l -> f x = true) -> filter f l = l.
Proof. induction l as [|x l IH]; intros H; auto. cbn [filter]. rewrite (H x) by now left. f_equal. apply IH. intros y Hy. apply H. now right. Qed.
Lemma ks_exact p u k j : 2 <= p -> u = p ^ k * j -> 0 < j -> ~ Nat.divide p j -> ks p u = seq 0 (k + 1).
Proof.
  intros Hp E Hj N. assert (Hk : k < u) by (pose proof (pow_gt p k Hp); nia).
  unfold ks. replace (u + 1) with ((k + 1) + (u - k)) by lia. rewrite seq_app, filter_app, filter_true, filter_false, app_nil_r; auto.
  - intros x Hx. apply in_seq in Hx. apply Nat.eqb_neq. intros Z. apply Nat.mod_divide in Z; [|pose proof (pow_pos p x Hp); lia].
    apply N. destruct Z as (c & Ec). rewrite E in Ec. replace x with (k + (1 + (x - k - 1))) in Ec by lia.
    rewrite !Nat.pow_add_r, Nat.pow_1_r in Ec. pose proof (pow_pos p k Hp). exists (c * p ^ (x - k - 1)). nia.
  - intros x Hx. apply in_seq in Hx. apply Nat.eqb_eq. apply Nat.mod_divide; [pose proof (pow_pos p x Hp); lia|].
    exists (p ^ (k - x) * j). rewrite E. replace k with ((k - x) + x) at 1 by lia. rewrite Nat.pow_add_r. lia.
Qed.
(** The divisors of [n] whose prime factors lie in [P]. *)
Fixpoint smooth (P : list nat) (n : nat) : list nat :=
  match P with
  | [] => [1]
  | p :: P => flat_map (fun k => map (fun e => p ^ k * e) (smooth P (n / p ^ k))) (ks p n)
  end.
Lemma divide_div a b n : a <> 0 -> Nat.divide a n -> (Nat.divide b (n / a) <-> Nat.divide (a * b) n).
Proof.
  intros Ha (c & ->). rewrite Nat.div_mul by auto. split; intros (d & E).
  - exists d. subst. lia.
  - exists d. nia.
Qed.
Lemma div_pos a n : 0 < n -> Nat.divide a n -> 0 < n / a.
Proof. intros Hn (c & E). assert (a <> 0) by (intros ->; lia). rewrite E, Nat.div_mul by auto. destruct c; lia. Qed.
Lemma valuation p d : 2 <= p -> 0 < d -> exists k e, d = p ^ k * e /\ ~ Nat.divide p e /\ 0 < e.
Proof.
  intros Hp. induction d as [d IH] using lt_wf_ind. intros Hd. destruct (Nat.eq_dec (d mod p) 0) as [E|N].
  - apply Nat.mod_divide in E; [|lia]. destruct E as (c & E). destruct (IH c ltac:(nia) ltac:(destruct c; lia)) as (k & e & E1 & E2 & E3).
    exists (S k), e. split; auto. rewrite E, E1. cbn [Nat.pow]. lia.
  - exists 0, d. split; [cbn; lia|]. split; auto. intros D. apply N. apply Nat.mod_divide; auto. lia.
Qed.
Lemma smooth_in : forall P n d, (forall p, In p P -> is_prime p) -> NoDup P -> 0 < n ->
  (In d (smooth P n) <-> Nat.divide d n /\ forall q, is_prime q -> Nat.divide q d -> In q P).
Proof.
  induction P as [|p P IH]; intros n d HP ND Hn; cbn [smooth].
  - cbn [In]. split.
    + intros [<-|[]]. split; [apply Nat.divide_1_l|]. intros q [Q _] D. apply Nat.divide_1_r in D. lia.
    + intros [D H]. left. destruct (Nat.eq_dec d 1); auto. exfalso.
      assert (d <> 0) by (intros ->; apply Nat.divide_0_l in D; lia).
      destruct (prime_div d ltac:(lia)) as (q & Pq & Dq). apply (H q Pq Dq).
  - assert (Pp : is_prime p) by (apply HP; now left). assert (H2 : 2 <= p) by apply Pp. inversion ND as [|? ? Np NDP]; subst.
    assert (HP' : forall q, In q P -> is_prime q) by (intros; apply HP; now right).
    rewrite in_flat_map. split.
    + intros (k & Hk & Hd). apply ks_in in Hk; auto. apply in_map_iff in Hd as (e & <- & He).
      apply IH in He as [He Hs]; auto; [|now apply div_pos]. apply divide_div in He; auto; [|pose proof (pow_pos p k H2); lia].
      split; auto. intros q Pq Dq. apply prime_mul in Dq as [Dq|Dq]; auto; [left; symmetry; eapply prime_pow; eauto|right; auto].
    + intros [D H]. assert (Hd : 0 < d) by (destruct d; [apply Nat.divide_0_l in D; lia|lia]).
      destruct (valuation p d H2 Hd) as (k & e & E & Ne & He). exists k.
      assert (Dk : Nat.divide (p ^ k) n) by (eapply div_trans; [|exact D]; exists e; lia).
      split; [apply ks_in; auto|]. apply in_map_iff. exists e. split; auto. apply IH; auto; [now apply div_pos|]. split.
      * apply divide_div; auto; [pose proof (pow_pos p k H2); lia|]. now rewrite <- E.
      * intros q Pq Dq. destruct (H q Pq) as [<-|]; auto; [|contradiction]. eapply div_trans; [exact Dq|]. exists (p ^ k). auto.
Qed.
Lemma NoDup_flat_map {X Y} (h : X -> list Y) l : NoDup l -> (forall x, In x l -> NoDup (h x)) ->
  (forall x x' y, In x l -> In x' l -> In y (h x) -> In y (h x') -> x = x') -> NoDup (flat_map h l).
Proof.
  induction l as [|x l IH]; intros ND H1 H2; cbn [flat_map]; [constructor|]. inversion ND as [|? ? Nx NDl]; subst.
  apply NoDup_app_iff. split; [apply H1; now left|]. split.
  - apply IH; auto; [intros; apply H1; now right|]. intros a b y Ha Hb. apply H2; now right.
  - intros y Hy Hy2. apply in_flat_map in Hy2 as (x' & Hx' & Hy2). assert (x = x') by (apply (H2 x x' y); auto; [now left|now right]). subst. contradiction.
Qed.
Lemma NoDup_map_inj {X Y} (f : X -> Y) l : (forall x y, f x = f y -> x = y) -> NoDup l -> NoDup (map f l).
Proof.
  intros Hf. induction 1 as [|x l Nx ND IH]; cbn [map]; constructor; auto. intros H. apply in_map_iff in H as (y & E & Hy). apply Hf in E. now subst.
Qed.
Lemma pow_part_inj p k k' e e' : 2 <= p -> p ^ k * e = p ^ k' * e' -> ~ Nat.divide p e -> ~ Nat.divide p e' -> k = k'.
Proof.
  intros Hp. assert (W : forall k k' e e', k < k' -> p ^ k * e = p ^ k' * e' -> ~ Nat.divide p e -> False).
  { intros a b x y L E N. apply N. replace b with (a + (1 + (b - a - 1))) in E by lia. rewrite !Nat.pow_add_r, Nat.pow_1_r in E.
    pose proof (pow_pos p a Hp). exists (p ^ (b - a - 1) * y). nia. }
  intros E N N'. destruct (Nat.lt_trichotomy k k') as [L|[L|L]]; auto; exfalso; eauto.
Qed.
Lemma smooth_nodup : forall P n, (forall p, In p P -> is_prime p) -> NoDup P -> 0 < n -> NoDup (smooth P n).
Proof.
  induction P as [|p P IH]; intros n HP ND Hn; cbn [smooth]; [repeat constructor; auto|].
  assert (Pp : is_prime p) by (apply HP; now left). assert (H2 : 2 <= p) by apply Pp. inversion ND as [|? ? Np NDP]; subst.
  assert (HP' : forall q, In q P -> is_prime q) by (intros; apply HP; now right).
  apply NoDup_flat_map.
  - apply NoDup_filter, seq_NoDup.
  - intros k Hk. apply ks_in in Hk; auto. apply NoDup_map_inj; [|apply IH; auto; now apply div_pos].
    intros x y E. pose proof (pow_pos p k H2). nia.
  - intros k k' y Hk Hk' Hy Hy'. apply ks_in in Hk; auto. apply ks_in in Hk'; auto.
    apply in_map_iff in Hy as (e & E & He). apply in_map_iff in Hy' as (e' & E' & He').
    apply smooth_in in He as [_ He]; auto; [|now apply div_pos]. apply smooth_in in He' as [_ He']; auto; [|now apply div_pos].
    apply (pow_part_inj p k k' e e'); auto; congruence || intros D; auto.
Qed.

Section Mult.
Variable T : Type.
Variables (zero one : T) (add mul : T -> T -> T).
Hypothesis SR : semi_ring_theory zero one add mul eq.
Notation sum := (sum T zero add).

(** One prime. *)
Definition newc (a : list T) (p : nat) (c : list T) (u : nat) : T :=
  sum (ks p u) (fun k => mul (nth (p ^ k) a zero) (nth (u / p ^ k) c zero)).

Lemma prime_step a n p c0 : length a = S n -> length c0 = (n + 1)%nat -> is_prime p -> p <= n -> nth 1 a zero = one ->
  exists c, for_down (n / p) 1 (fun i c =>
          let u := (p * i)%nat in
          loop (n + 1) (fun '(q, j, c) =>
            let* x := get a q in
            let* y := get c j in
            let* z := get c u in
            let* c := set c u (add z (mul x y)) in
            if negb (j mod p =? 0) then Some (inr c)
            else Some (inl ((q * p)%nat, j / p, c))) (p, i, c)) c0 = Some c /\
    length c = (n + 1)%nat /\ nth 0 c zero = nth 0 c0 zero /\ forall u, 1 <= u <= n -> nth u c zero = newc a p c0 u.
Proof.
  intros La Lc Pp Hpn A1. assert (H2 : 2 <= p) by apply Pp.
  match goal with |- context [for_down _ _ ?bd _] => set (body := bd) end.
  destruct (@for_down_rule _ (fun x c => length c = (n + 1)%nat /\ nth 0 c zero = nth 0 c0 zero /\
     forall u, 1 <= u <= n -> nth u c zero = if (u mod p =? 0) && (x <=? u / p) then newc a p c0 u else nth u c0 zero) body 1 (n / p) c0) as (c & E & L & Z & G).
  - split; auto. split; auto. intros u Hu. destruct (Nat.leb_spec (1 + n / p) (u / p)) as [C|C]; [|now rewrite andb_false_r].
    exfalso. assert (u / p <= n / p) by (apply Nat.div_le_mono; lia). lia.
  - intros i c Hi (L & Z & G). unfold body. cbv zeta. set (u := (p * i)%nat).
    assert (Hu : 1 <= u <= n) by (unfold u; pose proof (Nat.mul_div_le n p ltac:(lia)); nia).
    match goal with |- context [loop _ ?bd _] => set (lb := bd) end.
    assert (Hl : forall fuel k q j c', j < fuel -> 1 <= k -> q = p ^ k -> u = (q * j)%nat -> 1 <= j -> length c' = (n + 1)%nat ->
       (forall v, v <> u -> nth v c' zero = nth v c zero) ->
       nth u c' zero = sum (seq 0 k) (fun k => mul (nth (p ^ k) a zero) (nth (u / p ^ k) c0 zero)) ->
       exists c2, loop fuel lb (q, j, c') = Some c2 /\ length c2 = (n + 1)%nat /\ (forall v, v <> u -> nth v c2 zero = nth v c zero) /\ nth u c2 zero = newc a p c0 u).
    { induction fuel as [|fuel IH]; intros k q j c' Hf Hk Eq Eu Hj L' Ne Gu; [lia|]. cbn [loop]. unfold lb at 1.
      assert (Hq : p <= q) by (rewrite Eq; replace k with (1 + (k - 1)) by lia; rewrite Nat.pow_add_r, Nat.pow_1_r; pose proof (pow_pos p (k - 1) H2); nia).
      assert (Hji : j <= i) by (unfold u in Eu; nia).
      assert (Hju : j <> u) by (unfold u in *; nia).
      assert (Hiu : i <= u) by (unfold u; nia).
      rewrite (get_nth a q zero) by nia. cbn [obind]. rewrite (get_nth c' j zero) by lia. cbn [obind]. rewrite (get_nth c' u zero) by lia. cbn [obind].
      rewrite set_some by lia. cbn [obind].
      assert (Cj : nth j c' zero = nth (u / p ^ k) c0 zero).
      { rewrite Ne by auto. rewrite G by lia. assert (j / p <= j) by (apply Nat.div_le_upper_bound; nia).
        destruct (Nat.leb_spec (S i) (j / p)) as [C|C]; [lia|]. rewrite andb_false_r. f_equal. rewrite Eu, <- Eq, Nat.mul_comm, Nat.div_mul by lia. reflexivity. }
      set (c2 := lset c' u (add (nth u c' zero) (mul (nth q a zero) (nth j c' zero)))).
      assert (L2 : length c2 = (n + 1)%nat) by (unfold c2; now rewrite lset_length).
      assert (Ne2 : forall v, v <> u -> nth v c2 zero = nth v c zero) by (intros v Hv; unfold c2; rewrite nth_lset_neq by auto; auto).
      assert (Gu2 : nth u c2 zero = sum (seq 0 (k + 1)) (fun k => mul (nth (p ^ k) a zero) (nth (u / p ^ k) c0 zero))).
      { unfold c2. rewrite nth_lset_eq by lia. rewrite seq_app, (sum_app _ _ _ _ _ SR), Gu, Cj, Eq. cbn [seq plus].
        rewrite sum_cons, sum_nil. f_equal. symmetry. apply (add_0_r _ _ _ _ _ SR). }
      destruct (Nat.eqb_spec (j mod p) 0) as [Em|Em]; cbn [negb].
      - cbn [obind]. assert (D := Em). apply Nat.mod_divide in D; [|lia]. destruct D as (d & Ed).
        assert (Ejp : j / p = d) by (rewrite Ed; apply Nat.div_mul; lia).
        apply (IH (k + 1)%nat); auto; try (rewrite Ejp; nia); try lia.
        rewrite Nat.pow_add_r, Nat.pow_1_r, Eq. reflexivity.
      - cbn [obind]. exists c2. split; auto. split; auto. split; auto. unfold newc.
        assert (Ek : ks p u = seq 0 (k + 1)) by (apply (ks_exact p u k j); [lia|congruence|lia|intros D; apply Em, Nat.mod_divide; auto; lia]).
        rewrite Ek. exact Gu2. }
    destruct (Hl (n + 1)%nat 1 p i c) as (c2 & E2 & L2 & Ne2 & Gu2); auto; try lia.
    { assert (i <= u) by (unfold u; nia). lia. }
    { rewrite G by auto. assert (Eu : u / p = i) by (unfold u; rewrite Nat.mul_comm; apply Nat.div_mul; lia).
      rewrite Eu. destruct (Nat.leb_spec (S i) i); [lia|]. rewrite andb_false_r. cbn [seq]. rewrite sum_cons, sum_nil. cbn [Nat.pow].
      rewrite Nat.div_1_r, A1. rewrite (add_0_r _ _ _ _ _ SR). symmetry. apply (SRmul_1_l SR). }
    exists c2. split; [exact E2|]. split; auto. split; [rewrite Ne2 by lia; auto|]. intros v Hv.
    destruct (Nat.eq_dec v u) as [->|Nv].
    + assert (Em : u mod p = 0) by (unfold u; rewrite Nat.mul_comm; apply Nat.mod_mul; lia).
      assert (Eu : u / p = i) by (unfold u; rewrite Nat.mul_comm; apply Nat.div_mul; lia).
      rewrite Em, Eu. cbn [Nat.eqb andb]. destruct (Nat.leb_spec i i); [auto|lia].
    + rewrite Ne2, G by auto. destruct (Nat.eqb_spec (v mod p) 0) as [Em|]; auto. cbn [andb].
      destruct (Nat.leb_spec (S i) (v / p)), (Nat.leb_spec i (v / p)); auto; try lia. exfalso. apply Nv. unfold u.
      pose proof (Nat.div_mod v p ltac:(lia)). nia.
  - exists c. split; [exact E|]. split; auto. split; auto. intros u Hu. rewrite G by auto. destruct (Nat.eqb_spec (u mod p) 0) as [Em|Em]; cbn [andb].
    + destruct (Nat.leb_spec 1 (u / p)) as [C|C]; auto. exfalso. pose proof (Nat.div_mod u p ltac:(lia)). assert (u / p = 0) by lia. nia.
    + unfold newc.
      assert (Ek : ks p u = seq 0 (0 + 1)) by (apply (ks_exact p u 0 u); [lia|cbn; lia|lia|intros D; apply Em, Nat.mod_divide; auto; lia]).
      rewrite Ek.
      cbn [seq plus]. rewrite sum_cons, sum_nil, (add_0_r _ _ _ _ _ SR). cbn [Nat.pow]. rewrite Nat.div_1_r, A1. symmetry. apply (SRmul_1_l SR).
Qed.

(** The convolution restricted to smooth divisors. *)
Definition ssum (a b : list T) (P : list nat) (u : nat) : T :=
  sum (smooth P u) (fun d => mul (nth d a zero) (nth (u / d) b zero)).
Lemma ssum_step a b P p u : multiplicative zero mul one a -> (forall q, In q (p :: P) -> is_prime q) -> NoDup (p :: P) -> 0 < u < length a ->
  ssum a b (p :: P) u = sum (ks p u) (fun k => mul (nth (p ^ k) a zero) (ssum a b P (u / p ^ k))).
Proof.
  intros [_ M] HP ND Hu. assert (Pp : is_prime p) by (apply HP; now left). assert (H2 : 2 <= p) by apply Pp.
  assert (HP' : forall q, In q P -> is_prime q) by (intros; apply HP; now right). inversion ND as [|? ? Np NDP]; subst.
  unfold ssum. cbn [smooth]. rewrite (sum_flat_map _ _ _ _ _ SR). apply sum_ext. intros k Hk. apply ks_in in Hk; auto; [|lia].
  rewrite sum_map, <- (sum_mul _ _ _ _ _ SR). apply sum_ext. intros e He.
  apply smooth_in in He as [De Hs]; auto; [|apply div_pos; auto; lia].
  assert (Hpk : 0 < p ^ k) by now apply pow_pos.
  assert (Dpe : Nat.divide (p ^ k * e) u) by (apply divide_div; auto; lia).
  assert (He : 0 < e) by (destruct e; [destruct Dpe as (z & Dpe); nia|lia]).
  assert (Ne : ~ Nat.divide p e) by (intros D; apply Np; auto).
  rewrite M; auto; [|now apply coprime_pow|apply div_le in Dpe; lia].
  rewrite <- (mul_assoc _ _ _ _ _ SR). f_equal. f_equal. f_equal. now rewrite Nat.div_div by lia.
Qed.
Lemma divisors_in u d : 0 < u -> (In d (divisors u) <-> Nat.divide d u).
Proof.
  intros Hu. unfold divisors. rewrite filter_In, in_seq, Nat.eqb_eq. split.
  - intros [H1 H3]. apply Nat.mod_divide; auto. lia.
  - intros D. assert (d <> 0) by (intros ->; apply Nat.divide_0_l in D; lia). pose proof (div_le _ _ D Hu).
    split; [lia|]. now apply Nat.mod_divide.
Qed.

Lemma ps_nodup n ps : primes_upto n ps -> NoDup ps.
Proof.
  intros [_ S].
  assert (H : forall ps, (forall l1 x y l2, ps = l1 ++ x :: y :: l2 -> x < y) -> NoDup ps /\ match ps with [] => True | x :: t => forall z, In z t -> x < z end).
  { clear ps S. induction ps as [|x t IH]; intros S; [split; auto; constructor|].
    destruct IH as [ND Ht]; [intros l1 a b l2 ->; apply (S (x :: l1) a b l2); reflexivity|].
    assert (Lt : forall z, In z t -> x < z).
    { destruct t as [|y t]; [intros z []|]. pose proof (S [] x y t eq_refl). intros z [<-|Hz]; auto. specialize (Ht z Hz). lia. }
    split; auto. constructor; auto. intros Hin. apply Lt in Hin. lia. }
  now apply H.
Qed.

Lemma mult_ok w a b : (Z.of_nat (2 * length a) < 2 ^ (w - 1))%Z -> 0 < length a -> multiplicative zero mul one a ->
  exists c, dirichlet_mult zero add mul w a b = Some c /\ length c = length a /\
    forall k, 1 <= k < length a -> nth k c zero = dsum zero add mul a b k.
Proof.
  intros Hw Ha M. unfold dirichlet_mult. destruct (length a) as [|n] eqn:La; [lia|].
  destruct (primes_ok w n) as (ps & -> & Hps); [lia|]. cbn [obind].
  match goal with |- context [for_each _ ?bd _] => set (body := bd) end.
  assert (Lr : length (resize zero (n + 1) b) = (n + 1)%nat) by (unfold resize; rewrite app_length, firstn_length, repeat_length; lia).
  assert (Nr : forall k, k <= n -> nth k (resize zero (n + 1) b) zero = nth k b zero).
  { intros k Hk. unfold resize. destruct (Nat.lt_ge_cases k (length b)) as [C|C].
    - rewrite app_nth1 by (rewrite firstn_length; lia). rewrite <- (firstn_skipn (n + 1) b) at 2. rewrite app_nth1 by (rewrite firstn_length; lia). reflexivity.
    - rewrite app_nth2 by (rewrite firstn_length; lia). rewrite nth_repeat. symmetry. apply nth_overflow. lia. }
  pose proof (ps_nodup n ps Hps) as NDp.
  destruct (@for_each_rule _ _ (fun done rest c => ps = done ++ rest /\ length c = (n + 1)%nat /\
     forall u, 1 <= u <= n -> nth u c zero = ssum a b (rev done) u) body ps [] (resize zero (n + 1) b)) as (c & E & Ep & L & G).
  - split; auto. split; auto. intros u Hu. rewrite Nr by lia. unfold ssum. cbn [rev smooth]. rewrite sum_cons, sum_nil, (add_0_r _ _ _ _ _ SR), Nat.div_1_r.
    destruct M as [M1 _]. rewrite M1 by lia. symmetry. apply (SRmul_1_l SR).
  - intros done p rest c (Ep & L & G). unfold body.
    assert (Hp : is_prime p /\ p <= n) by (apply Hps; rewrite Ep; apply in_or_app; right; now left).
    assert (A1 : nth 1 a zero = one) by (apply M; destruct Hp as [[]]; lia).
    destruct (prime_step a n p c La L (proj1 Hp) (proj2 Hp) A1) as (c' & E' & L' & _ & G').
    exists c'. split; [exact E'|]. split; [now rewrite <- app_assoc|]. split; auto. intros u Hu. rewrite G' by auto.
    rewrite rev_app_distr. cbn [rev app]. rewrite ssum_step; auto; [| |rewrite Ep in NDp|lia].
    + unfold newc. apply sum_ext. intros k Hk. apply ks_in in Hk; [|apply Hp|lia]. f_equal. apply G.
      split; [apply div_pos; auto; lia|]. apply Nat.div_le_upper_bound; [pose proof (pow_pos p k (proj1 (proj1 Hp))); lia|].
      pose proof (pow_pos p k (proj1 (proj1 Hp))). nia.
    + intros q Hq. apply Hps. rewrite Ep. apply in_or_app. destruct Hq as [<-|Hq]; [right; now left|left; now apply in_rev].
    + replace (done ++ p :: rest) with ((done ++ [p]) ++ rest) in NDp by now rewrite <- app_assoc.
      apply NoDup_app_remove_r in NDp. apply NoDup_rev in NDp. now rewrite rev_app_distr in NDp.
  - exists c. split; [exact E|]. split; [lia|]. intros k Hk. rewrite G by lia.
    unfold ssum, dsum. rewrite (fold_left_sum _ _ _ _ _ SR). rewrite (add_0_l _ _ _ _ _ SR).
    assert (HP : forall p, In p (rev ps) -> is_prime p) by (intros p Hp; apply in_rev in Hp; apply Hps in Hp; tauto).
    apply (sum_same _ _ _ _ _ SR).
    + apply smooth_nodup; auto; [now apply NoDup_rev|lia].
    + apply NoDup_filter, seq_NoDup.
    + intros d. rewrite divisors_in by lia. rewrite smooth_in by (auto; try lia; now apply NoDup_rev). split; [tauto|]. intros D. split; auto.
      intros q Pq Dq. apply in_rev. rewrite rev_involutive. apply Hps. split; auto. pose proof (div_le _ _ (div_trans _ _ _ Dq D)). lia.
Qed.
End Mult.
