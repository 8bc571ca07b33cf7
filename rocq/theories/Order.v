(** Strict weak orders, as the standard library requires of comparators. *)
From Verif Require Import Base.

Record weak_order {T} (ltb : T -> T -> bool) : Prop := {
  wo_irrefl : forall x, ltb x x = false;
  wo_trans : forall x y z, ltb x y = true -> ltb y z = true -> ltb x z = true;
  (* incomparability is transitive; equivalently: *)
  wo_split : forall x y z, ltb x z = true -> ltb x y = true \/ ltb y z = true
}.

Section Weak.
Variable T : Type.
Variable ltb : T -> T -> bool.
Hypothesis W : weak_order ltb.

Lemma wo_asym x y : ltb x y = true -> ltb y x = false.
Proof.
  intros H. destruct (ltb y x) eqn:E; auto.
  pose proof (wo_trans _ W _ _ _ H E) as K. rewrite (wo_irrefl _ W) in K. discriminate.
Qed.
(** [le x y]: not [y < x]. *)
Definition wle (x y : T) : Prop := ltb y x = false.
Lemma wle_refl x : wle x x. Proof. apply (wo_irrefl _ W). Qed.
Lemma wle_trans x y z : wle x y -> wle y z -> wle x z.
Proof.
  unfold wle. intros A B. destruct (ltb z x) eqn:E; auto.
  destruct (wo_split _ W z y x E); congruence.
Qed.
Lemma wlt_le x y : ltb x y = true -> wle x y.
Proof. apply wo_asym. Qed.
Lemma wle_total x y : wle x y \/ wle y x.
Proof. unfold wle. destruct (ltb y x) eqn:E; auto. right. now apply wo_asym. Qed.
Lemma flip_order : weak_order (fun x y => ltb y x).
Proof.
  constructor.
  - intros. apply (wo_irrefl _ W).
  - intros x y z A B. apply (wo_trans _ W _ _ _ B A).
  - intros x y z A. destruct (wo_split _ W z y x A); auto.
Qed.
End Weak.

Lemma nat_weak : weak_order Nat.ltb.
Proof.
  constructor; intros; rewrite ?Nat.ltb_irrefl; auto; rewrite ?Nat.ltb_lt in *; lia.
Qed.
Lemma Z_weak : weak_order Z.ltb.
Proof.
  constructor; intros; rewrite ?Z.ltb_irrefl; auto; rewrite ?Z.ltb_lt in *; lia.
Qed.
