(** More list facts. *)
From Coq Require Import Permutation.
From Verif Require Import Base BaseLemmas.

Lemma NoDup_app_iff {A} (l r : list A) :
  NoDup (l ++ r) <-> NoDup l /\ NoDup r /\ (forall x, In x l -> In x r -> False).
Proof.
  induction l as [|a l IH]; cbn.
  - split; [intros H; repeat split; auto; try constructor; intros ? []|tauto].
  - split.
    + intros H. inversion H as [|? ? N D]; subst. apply IH in D. destruct D as (D1 & D2 & D3).
      rewrite in_app_iff in N. repeat split; auto; [constructor; tauto|].
      intros x [<-|I] J; [tauto|eauto].
    + intros (D1 & D2 & D3). inversion D1 as [|? ? N D]; subst. constructor.
      * rewrite in_app_iff. intros [I|I]; [auto|]. exact (D3 a (or_introl eq_refl) I).
      * apply IH. repeat split; auto. intros x I J. exact (D3 x (or_intror I) J).
Qed.
Lemma NoDup_app_remove_l {A} (l r : list A) : NoDup (l ++ r) -> NoDup r.
Proof. intros H. now apply NoDup_app_iff in H. Qed.
Lemma NoDup_app_remove_r {A} (l r : list A) : NoDup (l ++ r) -> NoDup l.
Proof. intros H. now apply NoDup_app_iff in H. Qed.
Lemma NoDup_bound (l : list nat) n : NoDup l -> (forall x, In x l -> x < n) -> length l <= n.
Proof.
  intros D B. rewrite <- (seq_length n 0). apply NoDup_incl_length; auto.
  intros x I. apply in_seq. specialize (B x I). lia.
Qed.
