(** Property C05: unionfind.hpp. *)
From Verif Require Import Base BaseLemmas UnionFindModel UnionFindSpec UnionFindProof.
From Coq Require Import Relations.

(** Every history of calls, in every unspecified evaluation order, runs
    without undefined behaviour and every call returns the specified answer. *)
Theorem C05_unionfind : forall n (h : list uf_op), (forall c, In c h -> uf_valid n c) ->
  exists par os, uf_run (uf_new n) h = Some (par, os) /\ uf_answers n [] h os.
Proof.
  intros n h V. destruct (@run_ok n h _ [] (ok_new n) V) as (par & os & E & A & _). eauto.
Qed.
Print Assumptions C05_unionfind.

(** After any history, [root] is a canonical representative. *)
Theorem C05_roots_canonical : forall n (h : list uf_op), (forall c, In c h -> uf_valid n c) ->
  exists par os, uf_run (uf_new n) h = Some (par, os) /\
    forall a b, a < n -> b < n -> exists pa ra pb rb,
      uf_root par a = Some (pa, ra) /\ uf_root pa b = Some (pb, rb) /\
      (ra = rb <-> conn (fold_left uf_pairs h []) a b).
Proof.
  intros n h V. destruct (@run_ok n h _ [] (ok_new n) V) as (par & os & E & _ & O).
  exists par, os. split; auto. intros. eapply roots_agree; eauto.
Qed.
Print Assumptions C05_roots_canonical.

(** Non-vacuity: a history on five elements. *)
Example C05_example :
  option_map snd (uf_run (uf_new 5) [UUnite true true true true 0 1; UUnite false true false true 2 3;
     USame true 0 3; UUnite true false true false 1 3; USame false 0 2; UUnite true true true true 0 2;
     USize 3; USize 4]) =
  Some [OUnite true; OUnite true; OSame false; OUnite true; OSame true; OUnite false; OSize 4%Z; OSize 1%Z].
Proof. reflexivity. Qed.
