(** C47: IntVector (include/mtl/succinct/int_vector.hpp) *)
From Verif Require Import Base BaseLemmas IntVecModel IntVecProof.
Local Open Scope Z_scope.

(** Any history of [push_back] and of [set] at indices behind which nothing lives in the
    word where they start (so: the last index, or an element that reaches the end of that
    word): the low bits of [get i] are the stored value; [get i] is the stored value if
    [i] itself is such an index. *)
Theorem C47_int_vector : forall es n h, (1 <= es <= 64)%nat -> iv_legal es n h -> safe es n h ->
  exists s, iv_run es h (iv_new es n) = Some s /\ iv_size s = length (vals h (repeat 0 n)) /\
    forall i v, get (vals h (repeat 0 n)) i = Some v ->
      exists x, iv_get es s i = Some x /\ x mod 2 ^ Z.of_nat es = v /\ (free_after es (length (vals h (repeat 0 n))) i -> x = v).
Proof.
  intros es n h Hes L S. destruct (run_inv es Hes h (iv_new es n) (repeat 0 n)) as (s & E & I).
  - now apply inv_new.
  - now rewrite repeat_length.
  - now rewrite repeat_length.
  - exists s. split; [exact E|]. split; [apply I|]. intros i v Ev. now apply (get_inv es Hes s _ i v I).
Qed.
(** With elements of a whole word every history is exact. *)
Theorem C47_full_words : forall n h, iv_legal 64 n h ->
  exists s, iv_run 64 h (iv_new 64 n) = Some s /\ iv_size s = length (vals h (repeat 0 n)) /\
    forall i v, get (vals h (repeat 0 n)) i = Some v -> iv_get 64 s i = Some v.
Proof.
  intros n h L. assert (F : forall n i, free_after 64 n i) by (intros m i; right; rewrite Nat.div_mul by lia; lia).
  destruct (C47_int_vector 64 n h ltac:(lia) L) as (s & E & Es & H).
  - clear L. revert n. induction h as [|[i v|v] h IH]; intros n; cbn; auto.
  - exists s. split; [auto|]. split; [auto|]. intros i v Ev. destruct (H i v Ev) as (x & Ex & _ & Hx). rewrite Ex. f_equal. auto.
Qed.
(** After pushes only, the low bits of every element are the pushed value, and [back] is
    the last value pushed. *)
Theorem C47_pushes : forall es vs, (1 <= es <= 64)%nat -> (forall v, In v vs -> 0 <= v < 2 ^ Z.of_nat es) ->
  exists s, iv_run es (map Push vs) (iv_new es 0) = Some s /\ iv_size s = length vs /\
    (forall i v, get vs i = Some v -> exists x, iv_get es s i = Some x /\ x mod 2 ^ Z.of_nat es = v) /\
    (forall v, get vs (length vs - 1) = Some v -> iv_back es s = Some v).
Proof.
  intros es vs Hes Hv. assert (EV : forall l, vals (map Push vs) l = l ++ vs).
  { clear Hv. induction vs as [|v vs IH]; intros l; cbn; [now rewrite app_nil_r|]. unfold vals in *. rewrite IH, <- app_assoc. reflexivity. }
  assert (LS : forall n, iv_legal es n (map Push vs) /\ safe es n (map Push vs)).
  { clear EV. induction vs as [|v vs IH]; intros n; cbn; [auto|]. destruct (IH ltac:(intros; apply Hv; now right) (S n)). split; [split; [apply Hv; now left|auto]|auto]. }
  destruct (C47_int_vector es 0 (map Push vs) Hes (proj1 (LS 0%nat)) (proj2 (LS 0%nat))) as (s & E & Es & H). rewrite EV in Es, H. cbn [repeat app] in Es, H.
  exists s. split; [auto|]. split; [auto|]. split.
  - intros i v Ev. destruct (H i v Ev) as (x & Ex & Hx & _). eauto.
  - intros v Ev. unfold iv_back. rewrite Es. pose proof (get_some_lt _ _ Ev). destruct (Nat.ltb_spec 0 (length vs)); [|lia]. cbn [guard obind]. destruct (H _ v Ev) as (x & Ex & _ & Hx). rewrite Ex. f_equal. apply Hx. left. lia.
Qed.

(** [get] does not mask, and [set] clears what follows in the word: a history of valid
    pushes after which [get] is not the pushed value, and one where writing an element
    destroys its right neighbour. *)
Theorem C47_refuted :
  (exists h, iv_legal 8 0 h /\ exists s x, iv_run 8 h (iv_new 8 0) = Some s /\ iv_get 8 s 0 = Some x /\ get (vals h []) 0 <> Some x) /\
  (exists h, iv_legal 8 0 h /\ exists s x v, iv_run 8 h (iv_new 8 0) = Some s /\ iv_get 8 s 1 = Some x /\ get (vals h []) 1 = Some v /\ x mod 2 ^ 8 <> v).
Proof.
  split.
  - exists [Push 1; Push 2]. split; [cbn; lia|]. eexists _, _. split; [vm_compute; reflexivity|]. split; [vm_compute; reflexivity|]. vm_compute. discriminate.
  - exists [Push 1; Push 2; Set_ 0 3]. split; [cbn; lia|]. eexists _, _, _. split; [vm_compute; reflexivity|]. split; [vm_compute; reflexivity|]. split; [vm_compute; reflexivity|]. vm_compute. discriminate.
Qed.

Example C47_ex : exists s, iv_run 24 [Push 1; Push 2; Push 11184810; Set_ 2 5592405; Push 16777215] (iv_new 24 0) = Some s /\ iv_get 24 s 2 = Some 5592405 /\ iv_back 24 s = Some 16777215
  /\ safe 24 0 [Push 1; Push 2; Push 11184810; Set_ 2 5592405; Push 16777215].
Proof. eexists. split; [vm_compute; reflexivity|]. split; [vm_compute; reflexivity|]. split; [vm_compute; reflexivity|]. cbn. unfold free_after. cbn. lia. Qed.

Print Assumptions C47_int_vector.
Print Assumptions C47_full_words.
Print Assumptions C47_pushes.
Print Assumptions C47_refuted.
