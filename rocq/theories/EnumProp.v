(** C21: Enumerate. *)
From Coq Require Import Znumtheory.
From Verif Require Import Base BaseLemmas SearchModel ModularModel EnumModel EnumProof.
Local Open Scope Z_scope.

(** For a prime modulus, any constructor argument below it and any history of
    calls whose arguments keep the doubling table below the modulus, every call
    returns the true value modulo m, whatever the operand evaluation order. *)
Theorem C21_enumerate : forall m n h, 1 <= m < 2 ^ 31 -> prime m ->
  (match n with Some n => - 2 ^ 31 <= n < m | None => True end) ->
  Forall (e_pre m n) h ->
  exists out s, e_run m n h = Some (out, s) /\ Forall2 (e_spec m) h out.
Proof. intros; now apply e_run_ok. Qed.

(** The specification's numbers: the factorial formulas. *)
Theorem C21_choose_formula : forall p q, (q <= p)%nat -> choose p q * zfact q * zfact (p - q) = zfact p.
Proof. exact choose_fact. Qed.

(** Beyond that bound the code is wrong: with m = 7, after fact(5), the call
    cmb(6, 0) grows the table to 10 >= 7 and returns 0 instead of 1. All
    arguments are below the modulus. *)
Theorem C21_table_past_modulus_refuted :
  exists s, e_run 7 None [EFact 5; ECmb true true 6 0] = Some ([1; 0], s) /\
  choose 6 0 mod 7 = 1 /\ en_max s = 10.
Proof. eexists. vm_compute. repeat split; reflexivity. Qed.

Example C21_example :
  exists s, e_run 998244353 (Some 4) [ECmb true true 10 3; EPrm false 7 2; EFact 25; ECmb false true 40 20; ECmb true false 3 9]
    = Some ([120; 42; 25 * 24 * 23 * 22 * 21 * 20 * 19 * 18 * 17 * 16 * 15 * 14 * 13 * 12 * 11 * 10 * 9 * 8 * 7 * 6 * 5 * 4 * 3 * 2 mod 998244353;
             137846528820 mod 998244353; 0], s).
Proof. eexists. vm_compute. reflexivity. Qed.
Example C21_pre_example : Forall (e_pre 998244353 (Some 4)) [ECmb true true 10 3; EPrm false 7 2; EFact 25; ECmb false true 40 20; ECmb true false 3 9].
Proof. repeat constructor; cbn; unfold e_small; lia. Qed.

Print Assumptions C21_enumerate.
Print Assumptions C21_choose_formula.
Print Assumptions C21_table_past_modulus_refuted.
