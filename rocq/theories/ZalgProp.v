From Coq Require Import Ascii String.
From Verif Require Import Base BaseLemmas ZalgModel ZalgProof.

(** C28.  The Z-array of every non-empty string. *)
Theorem C28_z_algorithm : forall (T : Type) (eqb : T -> T -> bool), (forall x y, eqb x y = true <-> x = y) ->
  forall s : list T, s <> [] ->
  exists z, z_algorithm eqb s = Some z /\ length z = length s /\
    forall i, i < length s -> exists k, nth_error z i = Some k /\ lcp s (skipn i s) k.
Proof.
  intros T eqb He s Hs. assert (L : 0 < length s) by (destruct s; [congruence|cbn; lia]).
  destruct (zalg_ok T eqb He s L) as (z & E & G1 & G2 & _). exists z. split; [auto|]. split; [auto|].
  intros i Hi. destruct (G2 i Hi Hi) as (k & Gk & Ek). exists k. split; [exact Gk|]. apply exact_lcp; auto. lia.
Qed.

(** On an empty range the first assignment is out of bounds. *)
Theorem C28_empty_refuted : ~ forall s : list nat, exists z, z_algorithm Nat.eqb s = Some z.
Proof. intros H. destruct (H []) as (z & E). discriminate. Qed.

Example C28_example :
  z_algorithm Ascii.eqb (list_ascii_of_string "abacabaabacab") = Some [13; 0; 1; 0; 3; 0; 1; 6; 0; 1; 0; 2; 0].
Proof. reflexivity. Qed.

Print Assumptions C28_z_algorithm.
Print Assumptions C28_empty_refuted.
