(** [nth] with a default against the option-valued accesses of [Base]. *)
From Verif Require Import Base BaseLemmas.

Lemma nth_lset {T} (l : list T) i j x d : nth j (lset l i x) d = if (i =? j) && (i <? length l) then x else nth j l d.
Proof.
  revert i j. induction l as [|y l IH]; intros [|i] [|j]; cbn [lset nth length]; auto.
  - now destruct (S i =? S j).
  - apply (IH i j).
Qed.
Lemma nth_lset_eq {T} (l : list T) i x d : i < length l -> nth i (lset l i x) d = x.
Proof. intros H. rewrite nth_lset, Nat.eqb_refl. apply Nat.ltb_lt in H. now rewrite H. Qed.
Lemma nth_lset_neq {T} (l : list T) i j x d : i <> j -> nth j (lset l i x) d = nth j l d.
Proof. intros H. rewrite nth_lset. apply Nat.eqb_neq in H. now rewrite H. Qed.
Lemma get_nth {T} (l : list T) i d : i < length l -> get l i = Some (nth i l d).
Proof. intros H. unfold get. now apply nth_error_nth'. Qed.
Lemma nth_get {T} (l : list T) i x d : get l i = Some x -> nth i l d = x.
Proof. apply nth_error_nth. Qed.
Lemma nth_ext_len {T} (l r : list T) d : length l = length r -> (forall i, i < length l -> nth i l d = nth i r d) -> l = r.
Proof. intros L H. apply (nth_ext l r d d); auto. Qed.
