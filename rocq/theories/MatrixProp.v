From Coq Require Import Lia ZArith ZArithRing Ring_theory Ring.
From Verif Require Import Base BaseLemmas RSum MatrixModel MatrixProof.
Open Scope nat_scope.

(** C37.  For every commutative semiring of entries and all dimensions, the sums, scalar
    multiples, transposes, identities and products have the entries of the mathematical
    definition, and [pow(k)] is the [k]-fold product. *)
Theorem C37_add : forall (T : Type) (zero : T) (add : T -> T -> T) R C a b, dims R C a -> dims R C b ->
  exists c, m_add add R C a b = Some c /\ dims R C c /\
    forall i j, i < R -> j < C -> ent zero c i j = add (ent zero a i j) (ent zero b i j).
Proof. intros. now apply add_ok. Qed.
Theorem C37_neg : forall (T : Type) (zero : T) (opp : T -> T) R C a, dims R C a ->
  exists c, m_neg zero opp R C a = Some c /\ dims R C c /\
    forall i j, i < R -> j < C -> ent zero c i j = opp (ent zero a i j).
Proof. intros. now apply neg_ok. Qed.
Theorem C37_scale : forall (T : Type) (zero : T) (mul : T -> T -> T) R C l b, dims R C b ->
  exists c, m_scale zero mul R C l b = Some c /\ dims R C c /\
    forall i j, i < R -> j < C -> ent zero c i j = mul l (ent zero b i j).
Proof. intros. now apply scale_ok. Qed.
Theorem C37_transpose : forall (T : Type) (zero : T) R C a, dims R C a ->
  exists c, m_transpose zero R C a = Some c /\ dims C R c /\
    forall i j, i < R -> j < C -> ent zero c j i = ent zero a i j.
Proof. intros. now apply transpose_ok. Qed.
Theorem C37_equal : forall (T : Type) (zero : T) (eqb : T -> T -> bool), (forall x y, eqb x y = true <-> x = y) ->
  forall R C a b, dims R C a -> dims R C b -> exists r, m_eq eqb R C a b = Some r /\ (r = true <-> a = b).
Proof. intros. now apply (eq_ok T zero). Qed.
Theorem C37_mul : forall (T : Type) (zero one : T) (add mul : T -> T -> T), semi_ring_theory zero one add mul eq ->
  forall R C D a b, dims R C a -> dims C D b ->
  exists c, m_mul zero add mul R C D a b = Some c /\ dims R D c /\
    forall i j, i < R -> j < D -> ent zero c i j = prod_entry zero add mul C (ent zero a) (ent zero b) i j.
Proof. intros. now apply (mul_ok T zero one add mul H). Qed.
Theorem C37_pow : forall (T : Type) (zero one : T) (add mul : T -> T -> T), semi_ring_theory zero one add mul eq ->
  forall n a k, dims n n a ->
  exists c, m_pow zero one add mul n a k = Some c /\ dims n n c /\
    forall i j, i < n -> j < n -> ent zero c i j = pow_entry zero one add mul n (ent zero a) k i j.
Proof. intros. now apply (pow_ok T zero one add mul H). Qed.

(** [operator-=] and with it the binary [operator-] do not subtract: the left operand is
    dropped and the result is the negation of the right one, for every input. *)
Theorem C37_sub_refuted :
  (forall (T : Type) (zero : T) (opp : T -> T) R C a b, dims R C a -> dims R C b ->
     exists c, m_sub opp R C a b = Some c /\ dims R C c /\ forall i j, i < R -> j < C -> ent zero c i j = opp (ent zero b i j)) /\
  exists R C (a b c : list (list Z)), dims R C a /\ dims R C b /\ m_sub Z.opp R C a b = Some c /\
    exists i j, i < R /\ j < C /\ ent 0%Z c i j <> (ent 0%Z a i j - ent 0%Z b i j)%Z.
Proof.
  split; [intros; now apply sub_ok|]. exists 1, 1, [[5%Z]], [[2%Z]], [[(-2)%Z]].
  repeat split; [repeat constructor|repeat constructor|]. exists 0, 0. repeat split; try lia. vm_compute. discriminate.
Qed.

Open Scope Z_scope.
Example C37_ex_mul : m_mul 0 Z.add Z.mul 2 3 2 [[1; 2; 3]; [4; 5; 6]] [[1; 0]; [0; 1]; [2; -1]] = Some [[7; -1]; [16; -1]].
Proof. reflexivity. Qed.
Example C37_ex_pow : m_pow 0 1 Z.add Z.mul 2 [[1; 1]; [1; 0]] 10 = Some [[89; 55]; [55; 34]].
Proof. reflexivity. Qed.
Example C37_ex_transpose : m_transpose 0 2 3 [[1; 2; 3]; [4; 5; 6]] = Some [[1; 4]; [2; 5]; [3; 6]].
Proof. reflexivity. Qed.
Example C37_ex_entry : prod_entry 0 Z.add Z.mul 3 (ent 0 [[1; 2; 3]; [4; 5; 6]]) (ent 0 [[1; 0]; [0; 1]; [2; -1]]) 1 0 = 16.
Proof. reflexivity. Qed.
Example C37_ex_eq : m_eq Z.eqb 2 2 [[1; 2]; [3; 4]] [[1; 2]; [3; 5]] = Some false.
Proof. reflexivity. Qed.
Example C37_ex_sub : m_sub Z.opp 1 2 [[5; 6]] [[2; 3]] = Some [[-2; -3]].
Proof. reflexivity. Qed.

Print Assumptions C37_add. Print Assumptions C37_neg. Print Assumptions C37_scale. Print Assumptions C37_transpose.
Print Assumptions C37_equal. Print Assumptions C37_mul. Print Assumptions C37_pow. Print Assumptions C37_sub_refuted.
