From Verif Require Import Base BaseLemmas ZalgModel.

Section Zalg.
Variable T : Type.
Variable eqb : T -> T -> bool.
Hypothesis eqb_ok : forall x y, eqb x y = true <-> x = y.
Variable s : list T.
Notation n := (length s).
Notation at_ i := (nth_error s i).

(** [s[i .. i+k)] equals [s[0 .. k)]. *)
Definition match_at (i k : nat) : Prop := i + k <= n /\ forall p, p < k -> at_ (i + p) = at_ p.
(** ... and it cannot be extended. *)
Definition exact (i k : nat) : Prop := match_at i k /\ (i + k < n -> at_ (i + k) <> at_ k).

Lemma extend_ok i j : 1 <= i -> i < n -> match_at i j ->
  exists j', loop (n + 1) (fun j =>
        if i + j <? n then
          let* x := get s (i + j) in
          let* y := get s j in
          if eqb x y then Some (inl (j + 1)) else Some (inr j)
        else Some (inr j)) j = Some j' /\ exact i j'.
Proof.
  intros Hi Hn M.
  match goal with |- context [loop _ ?bd _] => set (body := bd) end.
  apply (@loop_rule _ _ (fun j => match_at i j) (fun j => n - j) (fun j' => exact i j') body); [|auto|lia].
  clear j M. intros j [L M]. unfold body. destruct (Nat.ltb_spec (i + j) n) as [C|C].
  - destruct (@get_lt _ s (i + j) C) as (x & Gx). destruct (@get_lt _ s j ltac:(lia)) as (y & Gy).
    rewrite Gx, Gy. cbn [obind]. destruct (eqb x y) eqn:E.
    + apply eqb_ok in E. subst y. eexists; split; [reflexivity|]. cbn beta iota. split; [|lia]. split; [lia|].
      intros p Hp. destruct (Nat.eq_dec p j) as [->|]; [|apply M; lia]. unfold get in *. congruence.
    + eexists; split; [reflexivity|]. cbn beta iota. split; [split; auto|]. intros _ Q. unfold get in *.
      rewrite Gx, Gy in Q. injection Q as ->. assert (eqb y y = true) by now apply eqb_ok. congruence.
  - eexists; split; [reflexivity|]. cbn beta iota. split; [split; auto|]. lia.
Qed.

(** Positions below [b] hold the right value, the others 0. *)
Definition good (z : list nat) (b : nat) : Prop :=
  length z = n /\ (forall p, p < b -> p < n -> exists k, get z p = Some k /\ exact p k) /\
  (forall p, b <= p -> p < n -> get z p = Some 0).

Lemma good_set z b k : good z b -> b < n -> exact b k -> good (lset z b k) (b + 1).
Proof.
  intros (L & G & Z) Hb E. split; [now rewrite lset_length|]. split.
  - intros p Hp Hn. destruct (Nat.eq_dec p b) as [->|].
    + exists k. split; auto. apply get_lset_eq. lia.
    + rewrite get_lset_neq by auto. apply G; lia.
  - intros p Hp Hn. rewrite get_lset_neq by lia. apply Z; lia.
Qed.
Lemma good_skip z b : good z b -> b < n -> exact b 0 -> good z (b + 1).
Proof.
  intros (L & G & Z) Hb E. split; auto. split.
  - intros p Hp Hn. destruct (Nat.eq_dec p b) as [->|]; [|apply G; lia]. exists 0. split; auto.
  - intros p Hp Hn. apply Z; lia.
Qed.

(** The copying loop. *)
Lemma copy_ok i j z : 1 <= i -> i < n -> 0 < j -> match_at i j -> good z (i + 1) ->
  exists k z', loop (n + 1) (fun '(k, z) =>
          if k <? j then
            let* zk := get z k in
            if k + zk <? j then
              let* z := set z (i + k) zk in Some (inl (k + 1, z))
            else Some (inr (k, z))
          else Some (inr (k, z))) (1, z) = Some (k, z') /\
    1 <= k /\ k <= j /\ good z' (i + k) /\ match_at (i + k) (j - k).
Proof.
  intros Hi Hn Hj M G.
  match goal with |- context [loop _ ?bd _] => set (body := bd) end.
  destruct (@loop_rule _ _ (fun '(k, z) => 1 <= k /\ k <= j /\ good z (i + k)) (fun '(k, z) => j - k)
    (fun '(k, z') => 1 <= k /\ k <= j /\ good z' (i + k) /\ match_at (i + k) (j - k)) body)
    with (fuel := n + 1) (s := (1, z)) as ([k z'] & E & Q); [| | |exists k, z'; auto].
  - intros [k z1] (K1 & K2 & G1). unfold body. destruct M as [ML M]. destruct (Nat.ltb_spec k j) as [C|C].
    + pose proof G1 as (L1 & G2 & _). destruct (G2 k ltac:(lia) ltac:(lia)) as (zk & -> & Ek). cbn [obind].
      pose proof Ek as [[Ek0 Ek1] Ek2].
      destruct (Nat.ltb_spec (k + zk) j) as [D|D].
      * rewrite set_some by lia. cbn [obind]. eexists; split; [reflexivity|]. cbn beta iota. split; [|lia].
        split; [lia|]. split; [lia|]. rewrite Nat.add_assoc. apply good_set; [auto|lia|]. split; [split; [lia|]|].
        -- intros p Hp. rewrite <- Nat.add_assoc. rewrite M by lia. now apply Ek1.
        -- intros _. rewrite <- !Nat.add_assoc. rewrite M by lia. apply Ek2. lia.
      * eexists; split; [reflexivity|]. cbn beta iota. split; [auto|]. split; [auto|]. split; [auto|]. split; [lia|].
        intros p Hp. rewrite <- Nat.add_assoc. rewrite M by lia. apply Ek1. lia.
    + eexists; split; [reflexivity|]. cbn beta iota. split; [auto|]. split; [auto|]. split; [auto|]. split; [lia|]. intros p Hp. lia.
  - split; [lia|]. split; [lia|]. auto.
  - destruct M. lia.
Qed.

Lemma zalg_ok : 0 < n -> exists z, z_algorithm eqb s = Some z /\ good z n.
Proof.
  intros Hn. unfold z_algorithm. rewrite set_some by (rewrite repeat_length; auto). cbn [obind].
  match goal with |- context [loop _ ?bd _] => set (body := bd) end.
  apply (@loop_rule _ _ (fun '(i, j, z) => 1 <= i /\ match_at i j /\ good z i) (fun '(i, j, z) => n - i)
    (fun z => good z n) body).
  - intros [[i j] z] (Hi & M & G). unfold body. destruct (Nat.ltb_spec i n) as [C|C].
    + destruct (extend_ok i j Hi C M) as (j' & -> & E). cbn [obind].
      destruct (Nat.eqb_spec j' 0) as [->|Nj].
      * eexists; split; [reflexivity|]. cbn beta iota. split; [|lia]. split; [lia|]. split; [split; [lia|intros; lia]|].
        now apply good_skip.
      * pose proof G as (L & _ & _). rewrite set_some by lia. cbn [obind].
        destruct (copy_ok i j' (lset z i j') Hi C ltac:(lia) (proj1 E)) as (k & z' & -> & K1 & K2 & G' & M').
        { now apply good_set. }
        cbn [obind]. eexists; split; [reflexivity|]. cbn beta iota. split; [|lia]. split; [lia|]. auto.
    + eexists; split; [reflexivity|]. cbn beta iota. destruct M as [ML _]. assert (i = n) as <- by lia. auto.
  - split; [lia|]. split; [split; [lia|intros; lia]|]. split; [now rewrite lset_length, repeat_length|]. split.
    + intros p Hp _. assert (p = 0) as -> by lia. exists n. split; [apply get_lset_eq; now rewrite repeat_length|].
      split; [split; [lia|auto]|]. lia.
    + intros p Hp Hn2. rewrite get_lset_neq by lia. unfold get. rewrite nth_error_repeat; auto.
  - lia.
Qed.

Lemma exact_lcp i k : i <= n -> exact i k -> lcp s (skipn i s) k.
Proof.
  intros Hi [[L M] X].
  assert (F : forall (a b : list T) m, m <= length a -> m <= length b ->
     (firstn m a = firstn m b <-> forall p, p < m -> nth_error a p = nth_error b p)).
  { clear. intros a b m. revert a b. induction m as [|m IH]; intros a b La Lb; [split; [intros; lia|auto]|].
    destruct a as [|x a], b as [|y b]; cbn in La, Lb; try lia. cbn [firstn]. split.
    - intros E [|p] Hp; cbn; [congruence|]. injection E as _ E. apply (IH a b); auto; lia.
    - intros H. f_equal; [specialize (H 0 ltac:(lia)); cbn in H; congruence|]. apply IH; try lia.
      intros p Hp. apply (H (S p)). lia. }
  assert (Sk : forall p, nth_error (skipn i s) p = at_ (i + p)).
  { clear. revert i. induction s as [|x l IH]; intros [|i] p; cbn; auto. now destruct p. }
  assert (Ls : length (skipn i s) = n - i) by apply skipn_length.
  split; [lia|]. split; [lia|]. split.
  - apply F; [lia|lia|]. intros p Hp. rewrite Sk. symmetry. now apply M.
  - intros k' A B E. rewrite F in E by lia. destruct (le_lt_dec k' k); auto. exfalso.
    apply X; [lia|]. specialize (E k l). rewrite Sk in E. auto.
Qed.
End Zalg.
