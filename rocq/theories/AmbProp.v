(** * C95: arbitrary_mod_binomial.hpp *)
From Verif Require Import Base BaseLemmas ListExtra AmbModel.
Set Implicit Arguments.

(** [is_coprime] is the test that the only common divisor is 1. *)
Lemma coprime_loop fuel : forall c d, d < fuel -> loop fuel (fun '(c, d) =>
    if d =? 0 then Some (inr (c =? 1))
    else let '(c, d) := (d, c) in Some (inl (c, d mod c))) (c, d) = Some (Nat.gcd c d =? 1).
Proof.
  induction fuel as [|fuel IH]; intros c d Hd; [lia|]. cbn [loop]. destruct (Nat.eqb_spec d 0) as [->|N].
  - now rewrite Nat.gcd_0_r.
  - pose proof (Nat.mod_upper_bound c d N). cbn [obind]. rewrite IH by lia. do 2 f_equal. rewrite (Nat.gcd_comm d), Nat.gcd_mod by auto. apply Nat.gcd_comm.
Qed.
Theorem C95_coprime a b : exists r, is_coprime a b = Some r /\
  (r = true <-> forall x, Nat.divide x a -> Nat.divide x b -> x = 1).
Proof.
  exists (Nat.gcd a b =? 1). split; [apply coprime_loop; lia|]. rewrite Nat.eqb_eq. split.
  - intros G x Ha Hb. pose proof (Nat.gcd_greatest _ _ _ Ha Hb) as D. rewrite G in D. now apply Nat.divide_1_r.
  - intros H. apply H; [apply Nat.gcd_divide_l|apply Nat.gcd_divide_r].
Qed.

Lemma step_len n md w P d inv ptb k s t st q : amb_step n md w P d inv ptb k (s, t, st) = Some q ->
  k < length st /\ length (snd q) = length st.
Proof.
  unfold amb_step. intros H.
  destruct (make_st P d _) as [(ns & nt)|]; [|discriminate]. cbn [obind] in H.
  destruct (irem (s * ns) md) as [s1|]; [|discriminate]. cbn [obind] in H.
  destruct (amb_acc Z.add t nt) as [t1|]; [|discriminate]. cbn [obind] in H.
  destruct (make_st P d _) as [(ns2 & nt2)|]; [|discriminate]. cbn [obind] in H.
  destruct (iget inv ns2) as [v|]; [|discriminate]. cbn [obind] in H.
  destruct (irem (s1 * v) md) as [s2|]; [|discriminate]. cbn [obind] in H.
  destruct (amb_acc Z.sub t1 nt2) as [t2|]; [|discriminate]. cbn [obind] in H.
  destruct (set st k s2) as [st1|] eqn:E; [|discriminate]. cbn [obind] in H. apply set_inv in E as (L & ->). split; [exact L|].
  assert (F : forall m lo (a b : list Z), for_up m lo (fun i st => let* x := get st k in let* e := get t2 i in let* y := iget ptb (Z.of_nat i * w + e)%Z in let* x := irem (x * y) md in set st k x) a = Some b -> length b = length a).
  { induction m as [|m IH]; intros lo a b Hf; cbn [for_up] in Hf; [now injection Hf as ->|].
    destruct (get a k); [|discriminate]. cbn [obind] in Hf. destruct (get t2 lo); [|discriminate]. cbn [obind] in Hf. destruct (iget ptb _); [|discriminate]. cbn [obind] in Hf. destruct (irem _ md); [|discriminate]. cbn [obind] in Hf.
    destruct (set a k _) as [a1|] eqn:E; [|discriminate]. cbn [obind] in Hf. apply set_inv in E as (_ & ->). rewrite (IH _ _ _ Hf). apply lset_length. }
  destruct (for_up 9 1 _ _) as [st2|] eqn:E; [|discriminate]. cbn [obind] in H. injection H as <-. cbn [snd]. rewrite (F _ _ _ _ E). apply lset_length.
Qed.
Lemma steps_none n md w P d inv ptb m : forall lo s t st, 1 <= m -> length st < lo + m ->
  for_up m lo (amb_step n md w P d inv ptb) (s, t, st) = None.
Proof.
  induction m as [|m IH]; intros lo s t st Hm HL; [lia|]. cbn [for_up]. destruct (amb_step _ _ _ _ _ _ _ lo _) as [((s1 & t1) & st1)|] eqn:E; [|reflexivity]. cbn [obind].
  apply step_len in E as (L & L2). cbn [snd] in L2. apply IH; lia.
Qed.
(** The constructor never finishes in a defined way for a modulus coprime to [n]: its last step writes
    [st_[(n+1)/2]], one past the end of [st_]. *)
Theorem C95_build_refuted n md : (forall x, Nat.divide x n -> Nat.divide x md -> x = 1) -> amb_new n md = None.
Proof.
  intros H. unfold amb_new. destruct (C95_coprime n md) as (r & -> & R). cbn [obind]. apply R in H. subst r. cbn [negb].
  destruct (amb_sieve _ _) as [((P & d) & k)|]; [|reflexivity]. cbn [obind]. destruct (amb_invs _ _) as [inv|]; [|reflexivity]. cbn [obind].
  destruct (amb_ptb _ _ _ _) as [(w & ptb)|]; [|reflexivity]. cbn [obind]. destruct (set _ 0 _) as [st|] eqn:E; [|reflexivity]. cbn [obind].
  apply set_inv in E as (L & ->). rewrite repeat_length in L. rewrite steps_none; [reflexivity|lia|]. rewrite lset_length, repeat_length. lia.
Qed.
(** For the other moduli the object refuses every query: no query is ever answered. *)
Theorem C95_query_refuted n md b m : amb_new n md = Some b -> amb_at b m = None.
Proof.
  intros H. destruct (C95_coprime n md) as (r & E & R). destruct r.
  - rewrite C95_build_refuted in H by (now apply R). discriminate.
  - unfold amb_new in H. rewrite E in H. cbn [obind negb] in H. injection H as <-. reflexivity.
Qed.

(** ** Concrete cases *)
Example C95_case : is_coprime 15 28 = Some true /\ is_coprime 15 21 = Some false.
Proof. split; vm_compute; reflexivity. Qed.
(** The sieve and the inverses are reached; the powers are written past the end already. *)
Example C95_case_new : amb_sieve 5 6 = Some ([0; 2; 3; 0; 0; 0; 0; 0; 0; 0], [0; 0; 1; 2; 1; 0], 2)%Z /\ amb_ptb 5 6 2 [0; 2; 3; 0; 0; 0; 0; 0; 0; 0]%Z = None.
Proof. split; vm_compute; reflexivity. Qed.
Example C95_case_off : exists b, amb_new 4 6 = Some b /\ b_on b = false.
Proof. eexists. split; vm_compute; reflexivity. Qed.

Print Assumptions C95_coprime.
Print Assumptions C95_build_refuted.
Print Assumptions C95_query_refuted.
