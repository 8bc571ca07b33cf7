From Coq Require Import Permutation Ring_theory.
From Verif Require Import Base BaseLemmas ListExtra NthExtra RSum DirichletModel.

(** ** The sieve *)
Definition hasdiv (i k : nat) : Prop := exists d, 2 <= d < i /\ Nat.divide d k.
Definition lpf (k x : nat) : Prop := 2 <= x /\ Nat.divide x k /\ forall d, 2 <= d -> Nat.divide d k -> x <= d.
(** The entry of [k] when divisors below [i] have been sieved. *)
Definition ent (i k x : nat) : Prop := (x = 0 /\ ~ hasdiv i k) \/ (lpf k x /\ x < i).

Lemma div_trans a b c : Nat.divide a b -> Nat.divide b c -> Nat.divide a c.
Proof. apply Nat.divide_trans. Qed.
Lemma div_le a b : Nat.divide a b -> 0 < b -> a <= b.
Proof. intros. now apply Nat.divide_pos_le. Qed.
Lemma lpf_prime k x : 0 < k -> lpf k x -> is_prime x.
Proof.
  intros Hk (H2 & Hd & Hm). split; auto. intros d Hx. destruct (Nat.eq_dec d 1); auto. right.
  pose proof (div_le d x Hx ltac:(lia)). assert (d <> 0) by (intros ->; apply Nat.divide_0_l in Hx; lia).
  pose proof (Hm d ltac:(lia) (div_trans _ _ _ Hx Hd)). lia.
Qed.
Lemma lpf_spf k x : 0 < k -> lpf k x -> smallest_prime_factor k x.
Proof. intros Hk L. split; [eapply lpf_prime; eauto|]. destruct L as (_ & H & Hm). split; auto. intros q [Q _] Hq. auto. Qed.

Lemma sieve_ok w n : (Z.of_nat (2 * n + 2) < 2 ^ (w - 1))%Z ->
  exists p, sieve w n = Some p /\ length p = n + 1 /\ get p 0 = Some 0 /\ (1 <= n -> get p 1 = Some 1) /\
    forall k, 2 <= k <= n -> exists x, get p k = Some x /\ lpf k x.
Proof.
  intros Hw. assert (F : forall x, x <= 2 * n + 2 -> fits w x = Some x).
  { intros x Hx. unfold fits. destruct (Z.ltb_spec (Z.of_nat x) (2 ^ (w - 1))); auto. lia. }
  unfold sieve. rewrite F by lia. cbn [obind]. destruct (Nat.eqb_spec n 0) as [->|N0].
  { exists [0]. split; [reflexivity|]. split; [reflexivity|]. split; [reflexivity|]. split; [lia|]. intros k Hk. lia. }
  rewrite set_some by (rewrite repeat_length; lia). cbn [obind].
  match goal with |- context [for_up _ _ ?bd _] => set (body := bd) end.
  destruct (@for_up_rule _ (fun i p => length p = n + 1 /\ get p 0 = Some 0 /\ get p 1 = Some 1 /\
      forall k, 2 <= k <= n -> exists x, get p k = Some x /\ ent i k x) body (n - 1) 2 (lset (repeat 0 (n + 1)) 1 1)) as (p & E & L & G0 & G1 & G).
  - rewrite lset_length, repeat_length. split; auto. split; [rewrite get_lset_neq by lia; apply get_repeat; lia|].
    split; [apply get_lset_eq; rewrite repeat_length; lia|]. intros k Hk. exists 0. split; [rewrite get_lset_neq by lia; apply get_repeat; lia|].
    left. split; auto. intros (d & Hd & _). lia.
  - intros i p Hi (L & G0 & G1 & G). unfold body. destruct (G i ltac:(lia)) as (x & Gx & Ex). rewrite Gx. cbn [obind].
    destruct (Nat.eqb_spec x 0) as [->|Nx].
    + destruct Ex as [[_ Nd]|[[Q _] _]]; [|lia].
      assert (Li : lpf i i).
      { split; [lia|]. split; [apply Nat.divide_refl|]. intros d Hd Dd. destruct (Nat.le_gt_cases i d); auto. exfalso. apply Nd. exists d. auto. }
      rewrite set_some by lia. cbn [obind]. rewrite F by lia. cbn [obind].
      match goal with |- context [loop _ ?bd _] => set (lb := bd) end.
      (* entries at multiples of [i] below [j] are at stage [S i] *)
      assert (Hl : forall fuel j p', n + i - j < fuel -> i * 2 <= j -> j <= n + i -> Nat.divide i j -> length p' = n + 1 -> get p' 0 = Some 0 -> get p' 1 = Some 1 ->
        (forall k, 2 <= k <= n -> exists x, get p' k = Some x /\ (if k <? j then ent (S i) k x else ent i k x)) ->
        exists p2, loop fuel lb (j, p') = Some p2 /\ length p2 = n + 1 /\ get p2 0 = Some 0 /\ get p2 1 = Some 1 /\
          forall k, 2 <= k <= n -> exists x, get p2 k = Some x /\ ent (S i) k x).
      { induction fuel as [|fuel IH]; intros j p' Hf Hj Hj2 Dj L' G0' G1' G'; [lia|]. cbn [loop]. unfold lb at 1.
        destruct (Nat.leb_spec j n) as [C|C].
        - destruct (G' j ltac:(lia)) as (y & Gy & Ey). rewrite Nat.ltb_irrefl in Ey. rewrite Gy. cbn [obind].
          assert (St : exists p3, (if y =? 0 then set p' j i else Some p') = Some p3 /\ length p3 = n + 1 /\ get p3 0 = Some 0 /\ get p3 1 = Some 1 /\
              (forall k, k <> j -> get p3 k = get p' k) /\ exists y', get p3 j = Some y' /\ ent (S i) j y').
          { destruct (Nat.eqb_spec y 0) as [->|Ny].
            - rewrite set_some by lia. eexists; split; [reflexivity|]. rewrite lset_length. split; [auto|]. rewrite !get_lset_neq by lia.
              split; [auto|]. split; [auto|]. split; [intros; apply get_lset_neq; lia|]. exists i. split; [apply get_lset_eq; lia|].
              right. split; [|lia]. split; [lia|]. split; [auto|]. intros d Hd Dd. destruct Ey as [[_ Ey]|[[Q _] _]]; [|lia].
              destruct (Nat.le_gt_cases i d); auto. exfalso. apply Ey. exists d. auto.
            - exists p'. split; [auto|]. split; [auto|]. split; [auto|]. split; [auto|]. split; [auto|]. exists y. split; [auto|].
              destruct Ey as [[Q _]|[Q R]]; [lia|]. right. split; auto. }
          destruct St as (p3 & -> & L3 & G03 & G13 & Ne & y' & Gy' & Ey'). cbn [obind]. rewrite F by lia. cbn [obind].
          apply IH; auto; try lia.
          { apply Nat.divide_add_r; auto. apply Nat.divide_refl. }
          intros k Hk. destruct (Nat.eq_dec k j) as [->|Nk].
          + exists y'. split; auto. destruct (Nat.ltb_spec j (j + i)); auto. lia.
          + rewrite Ne by auto. destruct (G' k Hk) as (z & Gz & Ez). exists z. split; auto.
            destruct (Nat.ltb_spec k j) as [K|K], (Nat.ltb_spec k (j + i)) as [K2|K2]; auto; try lia.
            assert (Nik : ~ Nat.divide i k).
            { intros Dk. assert (D : Nat.divide i (k - j)) by (apply Nat.divide_sub_r; assumption). apply div_le in D; lia. }
            destruct Ez as [[Q R]|[Q R]]; [left; split; auto|right; split; auto].
            intros (d & Hd & Dd). apply R. exists d. split; auto. assert (d <> i) by (intros ->; auto). lia.
        - cbn [obind]. exists p'. split; auto. split; auto. split; auto. split; auto. intros k Hk. destruct (G' k Hk) as (z & Gz & Ez).
          exists z. split; auto. destruct (Nat.ltb_spec k j); auto. lia. }
      apply Hl; try lia.
      * exists 2. lia.
      * now rewrite lset_length.
      * now rewrite get_lset_neq by lia.
      * now rewrite get_lset_neq by lia.
      * intros k Hk. destruct (Nat.eq_dec k i) as [->|Nk].
        -- exists i. split; [apply get_lset_eq; lia|]. destruct (Nat.ltb_spec i (i * 2)); [|lia]. right. split; auto.
        -- rewrite get_lset_neq by auto. destruct (G k Hk) as (z & Gz & Ez). exists z. split; auto.
           destruct (Nat.ltb_spec k (i * 2)) as [K|K]; auto.
           assert (Nik : ~ Nat.divide i k).
           { intros (c & Ec). destruct c as [|[|c]]; [lia|lia|]. nia. }
           destruct Ez as [[Q R]|[Q R]]; [left; split; auto|right; split; auto].
           intros (d & Hd & Dd). apply R. exists d. split; auto. assert (d <> i) by (intros ->; auto). lia.
    + eexists; split; [reflexivity|]. split; auto. split; auto. split; auto. intros k Hk. destruct (G k Hk) as (z & Gz & Ez). exists z. split; auto.
      destruct Ez as [[Q R]|[Q R]]; [left; split; auto|right; split; auto].
      intros (d & Hd & Dd). destruct (Nat.eq_dec d i) as [->|]; [|apply R; exists d; split; auto; lia].
      destruct Ex as [[Ex _]|[(E2 & Ed & _) El]]; [lia|]. apply R. exists x. split; [lia|]. eapply div_trans; eauto.
  - exists p. split; [exact E|]. split; auto. split; auto. split; auto. intros k Hk. destruct (G k Hk) as (x & Gx & Ex). exists x. split; auto.
    destruct Ex as [[_ Nd]|[Lx _]]; auto. exfalso. apply Nd. exists k. split; [lia|apply Nat.divide_refl].
Qed.

Lemma lpf_prime_iff k x : 2 <= k -> lpf k x -> (x = k <-> is_prime k).
Proof.
  intros Hk L. split.
  - intros ->. apply (lpf_prime k k); auto. lia.
  - intros [_ P]. destruct L as (H2 & Hd & _). destruct (P x Hd); auto. lia.
Qed.
Lemma primes_ok w n : (Z.of_nat (2 * n + 2) < 2 ^ (w - 1))%Z -> exists ps, primes w n = Some ps /\ primes_upto n ps.
Proof.
  intros Hw. unfold primes. destruct (sieve_ok w n Hw) as (era & -> & L & _ & _ & G). cbn [obind].
  match goal with |- context [for_up _ _ ?bd _] => set (body := bd) end.
  destruct (@for_up_rule _ (fun i ps => (forall p, In p ps <-> is_prime p /\ p < i) /\ (forall l1 x y l2, ps = l1 ++ x :: y :: l2 -> x < y)) body (n - 1) 2 []) as (ps & E & P & S).
  - split; [|intros [|? ?] x y l2 E; discriminate]. intros p. split; [intros []|]. intros [[Q _] R]. lia.
  - intros i ps Hi (P & S). unfold body. destruct (G i ltac:(lia)) as (x & Gx & Lx). rewrite Gx. cbn [obind]. eexists; split; [reflexivity|].
    pose proof (lpf_prime_iff i x ltac:(lia) Lx) as Iff. destruct (Nat.eqb_spec x i) as [Ex|Nx].
    + apply Iff in Ex. split.
      * intros p. rewrite in_app_iff, P. cbn [In]. split; [intros [[Q R]|[<-|[]]]; split; auto; lia|].
        intros [Q R]. destruct (Nat.eq_dec p i) as [->|]; auto. left. split; auto. lia.
      * intros l1 a b l2 El. destruct l2 as [|c l2] using rev_ind.
        -- assert (El' : ps ++ [i] = (l1 ++ [a]) ++ [b]) by (rewrite <- app_assoc; exact El). apply app_inj_tail in El' as [-> ->].
           assert (Ha : In a (l1 ++ [a])) by (apply in_or_app; right; now left). apply P in Ha. lia.
        -- clear IHl2. assert (El' : ps ++ [i] = (l1 ++ a :: b :: l2) ++ [c]) by (rewrite <- app_assoc; exact El). apply app_inj_tail in El' as [-> _].
           eapply S; eauto.
    + split; auto. intros p. rewrite P. split; [intros [Q R]; split; auto; lia|]. intros [Q R]. split; auto.
      destruct (Nat.eq_dec p i) as [->|]; [|lia]. exfalso. apply Nx, Iff, Q.
  - exists ps. split; [exact E|]. split; auto. intros p. rewrite P. split; intros [Q R]; split; auto; destruct Q as [Q2 _]; lia.
Qed.

(** ** Dirichlet convolution: no algebraic law is needed *)
Section Conv.
Variable T : Type.
Variables (zero : T) (add mul : T -> T -> T).

Definition partial (a b : list T) (k hi : nat) : T :=
  fold_left (fun acc i => add acc (mul (nth i a zero) (nth (k / i) b zero))) (filter (fun i => k mod i =? 0) (seq 1 hi)) zero.
Lemma partial_step a b k hi : partial a b k (S hi) =
  if k mod S hi =? 0 then add (partial a b k hi) (mul (nth (S hi) a zero) (nth (k / S hi) b zero)) else partial a b k hi.
Proof.
  unfold partial. rewrite seq_S, filter_app, fold_left_app. cbn [filter plus]. destruct (k mod S hi =? 0); reflexivity.
Qed.

Lemma partial_at a b k i : 1 <= i -> partial a b k i =
  if k mod i =? 0 then add (partial a b k (i - 1)) (mul (nth i a zero) (nth (k / i) b zero)) else partial a b k (i - 1).
Proof. intros H. destruct i as [|i]; [lia|]. rewrite partial_step. replace (S i - 1) with i by lia. reflexivity. Qed.

Lemma dirichlet_ok a b : length a <= length b -> exists c, dirichlet zero add mul a b = Some c /\ length c = length a /\
  forall k, k < length a -> nth k c zero = if k =? 0 then zero else dsum zero add mul a b k.
Proof.
  intros Hb. unfold dirichlet. destruct (length a) as [|n] eqn:La.
  { exists []. split; auto. split; auto. intros k Hk. lia. }
  match goal with |- context [for_up _ _ ?bd _] => set (body := bd) end.
  destruct (@for_up_rule _ (fun i c => length c = n + 1 /\ forall k, k <= n -> nth k c zero = if k =? 0 then zero else partial a b k (i - 1)) body n 1 (repeat zero (n + 1))) as (c & E & L & G).
  - rewrite repeat_length. split; auto. intros k Hk. rewrite nth_repeat. destruct (k =? 0); reflexivity.
  - intros i c Hi (L & G). unfold body. match goal with |- context [for_up _ _ ?bd _] => set (body2 := bd) end.
    assert (Hd : forall k, k <= n -> n / i * i <= n) by (intros; rewrite Nat.mul_comm; apply Nat.mul_div_le; lia).
    destruct (@for_up_rule _ (fun j c' => length c' = n + 1 /\ forall k, k <= n -> nth k c' zero =
       if k =? 0 then zero else if (k mod i =? 0) && (k / i <? j) then partial a b k i else partial a b k (i - 1)) body2 (n / i) 1 c) as (c' & E' & L' & G').
    + split; auto. intros k Hk. rewrite (G k Hk). destruct (Nat.eqb_spec k 0) as [->|N0]; auto.
      destruct (Nat.eqb_spec (k mod i) 0) as [Em|]; auto. cbn [andb]. destruct (Nat.ltb_spec (k / i) 1) as [C|C]; auto.
      exfalso. pose proof (Nat.div_mod k i ltac:(lia)). assert (k / i = 0) by lia. rewrite H0, Em in H. lia.
    + intros j c' Hj (L' & G'). unfold body2.
      assert (Hij : i * j <= n) by (specialize (Hd 0 ltac:(lia)); nia).
      rewrite (get_nth a i zero) by lia. cbn [obind]. rewrite (get_nth b j zero) by nia. cbn [obind]. rewrite (get_nth c' (i * j) zero) by lia. cbn [obind].
      rewrite set_some by lia. eexists; split; [reflexivity|]. rewrite lset_length. split; auto. intros k Hk.
      destruct (Nat.eq_dec k (i * j)) as [->|Nk].
      * rewrite nth_lset_eq by lia. rewrite G' by auto.
        assert (i * j =? 0 = false) as -> by (apply Nat.eqb_neq; nia).
        assert (Em : (i * j) mod i = 0) by (rewrite Nat.mul_comm; apply Nat.mod_mul; lia).
        assert (Ed : i * j / i = j) by (rewrite Nat.mul_comm; apply Nat.div_mul; lia).
        rewrite Em, Ed. cbn [Nat.eqb andb]. rewrite Nat.ltb_irrefl. destruct (Nat.ltb_spec j (S j)); [|lia].
        rewrite (partial_at a b (i * j) i) by lia. rewrite Em, Ed. reflexivity.
      * rewrite nth_lset_neq by auto.
        rewrite G' by auto. destruct (Nat.eqb_spec k 0); auto. destruct (Nat.eqb_spec (k mod i) 0) as [Em|]; auto. cbn [andb].
        destruct (Nat.ltb_spec (k / i) j), (Nat.ltb_spec (k / i) (S j)); auto; try lia. exfalso. apply Nk.
        pose proof (Nat.div_mod k i ltac:(lia)). nia.
    + exists c'. split; [exact E'|]. split; auto. intros k Hk. rewrite G' by auto. destruct (Nat.eqb_spec k 0); auto.
      replace (S i - 1) with i by lia. destruct (Nat.eqb_spec (k mod i) 0) as [Em|Em]; cbn [andb].
      * destruct (Nat.ltb_spec (k / i) (1 + n / i)) as [C|C]; auto. exfalso.
        assert (k / i <= n / i) by (apply Nat.div_le_mono; lia). lia.
      * rewrite (partial_at a b k i) by lia.
        destruct (Nat.eqb_spec (k mod i) 0); [contradiction|auto].
  - exists c. split; [exact E|]. split; [lia|]. intros k Hk. rewrite G by lia. destruct (Nat.eqb_spec k 0); auto.
    replace (1 + n - 1) with n by lia. unfold dsum, divisors, partial. f_equal.
    replace n with (k + (n - k)) by lia. rewrite seq_app, filter_app. rewrite <- (app_nil_r (filter _ (seq 1 k))) at 2. f_equal.
    assert (Q : forall m s, k < s -> filter (fun i => k mod i =? 0) (seq s m) = []).
    { induction m as [|m IH]; intros s Hs; auto. cbn [seq filter]. rewrite Nat.mod_small by lia. destruct (Nat.eqb_spec k 0); [lia|]. apply IH. lia. }
    apply Q. lia.
Qed.
End Conv.
