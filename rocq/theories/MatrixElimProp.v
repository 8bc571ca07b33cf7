From Coq Require Import Lia QArith Qcanon Ring_theory Ring.
From Verif Require Import Base BaseLemmas MatrixModel MatrixProof MatrixDetCode MatrixGauss MatrixSolve MatrixSolveCode.
Open Scope nat_scope.

(** The entries form a field with a decidable equality and [div one x] the inverse of [x]. *)
Definition field_like (T : Type) (zero one : T) (add mul sub : T -> T -> T) (opp : T -> T) (div : T -> T -> T) (eqb : T -> T -> bool) : Prop :=
  ring_theory zero one add mul sub opp eq /\ one <> zero /\
  (forall x y, eqb x y = true <-> x = y) /\ (forall x, x <> zero -> mul (div one x) x = one).

(** C51.  [det(n)] is the determinant of the leading [n x n] block. *)
Theorem C51_det : forall (T : Type) (zero one : T) (add mul sub : T -> T -> T) (opp : T -> T) (div : T -> T -> T) (eqb : T -> T -> bool),
  field_like T zero one add mul sub opp div eqb -> forall R C n a, n <= R -> n <= C -> dims R C a ->
  m_det zero one sub mul opp div eqb n a = Some (laplace zero one add mul opp n (ent zero a)).
Proof. intros T zero one add mul sub opp div eqb (RT & _ & HE & HD) R C n a HR HC Da. now apply (det_ok T zero one add mul sub opp RT div eqb HE HD R C). Qed.

(** C52.  [gaussian_elimination] turns the first [row] rows into the reduced row echelon
    form of the left columns, returns the number of pivots, stores the pivot columns,
    leaves the later rows alone, and keeps the kernel of the whole. *)
Theorem C52_gauss : forall (T : Type) (zero one : T) (add mul sub : T -> T -> T) (opp : T -> T) (div : T -> T -> T) (eqb : T -> T -> bool),
  field_like T zero one add mul sub opp div eqb -> forall R C row lc rc m pr, row <= R -> lc + rc <= C -> dims R C m ->
  exists m' q pr', gauss zero one sub mul div eqb m row lc rc pr = Some (m', length q, pr') /\ dims R C m' /\
    echelon zero one row lc q (ent zero m') /\
    (forall y, in_kernel zero add mul row (lc + rc) (ent zero m) y <-> in_kernel zero add mul row (lc + rc) (ent zero m') y) /\
    (forall a b, row <= a -> ent zero m' a b = ent zero m a b) /\
    match pr with
    | Some _ => exists rest, pr' = Some (q ++ rest) /\ length q + length rest = row + 1
    | None => pr' = None
    end.
Proof.
  intros T zero one add mul sub opp div eqb (RT & _ & HE & HD) R C row lc rc m pr HR HC D.
  destruct (gauss_ok T zero one add mul sub opp RT div eqb HE HD R C row lc rc m pr HR HC D) as (m' & q & pr' & E & D' & Ec & K & U & P).
  exists m', q, pr'. repeat (split; [auto|]). destruct pr as [p|]; auto. eexists. split; [exact P|].
  rewrite skipn_length. unfold resize. rewrite app_length, firstn_length, repeat_length. destruct Ec as [L _]. lia.
Qed.
(** The rank does not depend on the pivot choices: the kernel on the left columns has a
    basis of [lc - rank] vectors. *)
Theorem C52_rank : forall (T : Type) (zero one : T) (add mul sub : T -> T -> T) (opp : T -> T) (div : T -> T -> T) (eqb : T -> T -> bool),
  field_like T zero one add mul sub opp div eqb -> forall R C row lc m pr m' rank pr', row <= R -> lc <= C -> dims R C m ->
  gauss zero one sub mul div eqb m row lc 0 pr = Some (m', rank, pr') ->
  rank <= row /\ rank <= lc /\ exists B, kernel_basis zero add mul row lc (ent zero m) (lc - rank) B.
Proof.
  intros T zero one add mul sub opp div eqb (RT & _ & HE & HD) R C row lc m pr m' rank pr' HR HC D E.
  destruct (gauss_ok T zero one add mul sub opp RT div eqb HE HD R C row lc 0 m pr) as (m1 & q & pr1 & E1 & D1 & Ec & K & _); auto; [lia|].
  rewrite E in E1. injection E1 as -> -> ->. rewrite Nat.add_0_r in K. destruct (ech_free_length T zero one row lc q (ent zero m1) Ec) as [Lf Lq].
  split; [apply Ec|]. split; [auto|]. exists (some_basis T zero one add opp q lc (ent zero m1)). rewrite <- Lf.
  assert (KB : kernel_basis zero add mul row lc (ent zero m1) (length (free q lc)) (some_basis T zero one add opp q lc (ent zero m1))).
  { apply (ech_basis T zero one add mul sub opp RT row); auto. intros t Ht. now apply (some_basis_ok T zero one add mul sub opp RT row). }
  destruct KB as [K1 K2]. split; auto. intros y. now rewrite K.
Qed.

(** C53.  [solve] answers whether the system has a solution; if so, row 0 of the result is
    one, and the following [d] rows are a basis of the kernel, [d] being the first
    component.  The result matrix must have room for them. *)
Theorem C53_solve : forall (T : Type) (zero one : T) (add mul sub : T -> T -> T) (opp : T -> T) (div : T -> T -> T) (eqb : T -> T -> bool),
  field_like T zero one add mul sub opp div eqb -> forall R C row column a b, row <= R -> column <= C -> dims R C a -> dims R 1 b ->
  (column <= R \/ forall d B, kernel_basis zero add mul row column (ent zero a) d B -> d <= R) ->
  exists d res ok, m_solve zero one sub mul opp div eqb R C a b row column = Some (d, res, ok) /\ dims (R + 1) C res /\
    (ok = true <-> exists v, forall i, i < row -> row_apply zero add mul column (ent zero a) v i = ent zero b i 0) /\
    (ok = true ->
      (forall i, i < row -> row_apply zero add mul column (ent zero a) (ent zero res 0) i = ent zero b i 0) /\
      kernel_basis zero add mul row column (ent zero a) d (fun t => ent zero res (t + 1))) /\
    exists B, kernel_basis zero add mul row column (ent zero a) d B.
Proof. intros T zero one add mul sub opp div eqb (RT & _ & HE & HD) R C row column a b. now apply (solve_ok T zero one add mul sub opp RT div eqb HE HD). Qed.
(** Every solution is the first one plus a combination of the basis rows. *)
Theorem C53_all_solutions : forall (T : Type) (zero one : T) (add mul sub : T -> T -> T) (opp : T -> T) (div : T -> T -> T) (eqb : T -> T -> bool),
  field_like T zero one add mul sub opp div eqb -> forall R C row column a b d res, row <= R -> column <= C -> dims R C a -> dims R 1 b -> column <= R ->
  m_solve zero one sub mul opp div eqb R C a b row column = Some (d, res, true) ->
  forall v, (forall i, i < row -> row_apply zero add mul column (ent zero a) v i = ent zero b i 0) <->
    exists k, forall j, j < column -> v j = add (ent zero res 0 j) (combination zero add mul d (fun t => ent zero res (t + 1)) k j).
Proof.
  intros T zero one add mul sub opp div eqb (RT & _ & HE & HD) R C row column a b d res HR HC Da Db Hc E v.
  destruct (solve_ok T zero one add mul sub opp RT div eqb HE HD R C row column a b HR HC Da Db (or_introl Hc)) as (d' & res' & ok & E' & D & _ & S & _).
  rewrite E in E'. injection E' as <- <- <-. destruct (S eq_refl) as [S0 [KB _]]. clear S E.
  pose proof (BitConvProof.SRT T zero one add mul sub opp RT) as SR.
  assert (L : forall y z i, row_apply zero add mul column (ent zero a) (fun j => add (y j) (z j)) i = add (row_apply zero add mul column (ent zero a) y i) (row_apply zero add mul column (ent zero a) z i)).
  { intros y z i. rewrite !app_sum, <- (RSum.sum_add _ _ _ _ _ SR). apply RSum.sum_ext. intros j _. apply (RSum.mul_add_l _ _ _ _ _ SR). }
  split.
  - intros H. destruct (proj1 (KB (fun j => add (v j) (opp (ent zero res 0 j))))) as (k & Hk).
    + intros i Hi. rewrite (L v (fun j => opp (ent zero res 0 j))), H by auto.
      assert (N : row_apply zero add mul column (ent zero a) (fun j => opp (ent zero res 0 j)) i = opp (ent zero b i 0)).
      { assert (Z : add (row_apply zero add mul column (ent zero a) (ent zero res 0) i) (row_apply zero add mul column (ent zero a) (fun j => opp (ent zero res 0 j)) i) = zero).
        { rewrite <- L. rewrite app_sum. apply (RSum.sum_zero_ext _ _ _ _ _ SR). intros j _. rewrite (Ropp_def RT). apply (RSum.mul_0_r _ _ _ _ _ SR). }
        rewrite S0 in Z by auto. set (p := row_apply zero add mul column (ent zero a) (fun j => opp (ent zero res 0 j)) i) in *. set (u := ent zero b i 0) in *.
        transitivity (add (add (opp u) u) p).
        - rewrite (Radd_comm RT (opp u) u), (Ropp_def RT). now rewrite (Radd_0_l RT).
        - rewrite <- (Radd_assoc RT), Z. rewrite (Radd_comm RT). apply (Radd_0_l RT). }
      rewrite N. apply (Ropp_def RT).
    + exists k. intros j Hj. rewrite <- Hk by auto. rewrite (Radd_comm RT (v j)), (Radd_assoc RT), (Ropp_def RT). now rewrite (Radd_0_l RT).
  - intros (k & Hk) i Hi.
    transitivity (row_apply zero add mul column (ent zero a) (fun j => add (ent zero res 0 j) (combination zero add mul d (fun t => ent zero res (t + 1)) k j)) i).
    + rewrite !app_sum. apply RSum.sum_ext. intros j Hj. apply in_seq in Hj. rewrite Hk by lia. reflexivity.
    + rewrite L, S0 by auto. assert (Z : in_kernel zero add mul row column (ent zero a) (combination zero add mul d (fun t => ent zero res (t + 1)) k)) by (apply KB; exists k; auto).
      specialize (Z i Hi). set (w := row_apply zero add mul column (ent zero a) _ i) in *. rewrite Z. rewrite (Radd_comm RT). apply (Radd_0_l RT).
Qed.

(** C54.  [inv(n)] succeeds exactly if the leading [n x n] block is invertible (on either
    side) and then gives the two-sided inverse. *)
Theorem C54_inv : forall (T : Type) (zero one : T) (add mul sub : T -> T -> T) (opp : T -> T) (div : T -> T -> T) (eqb : T -> T -> bool),
  field_like T zero one add mul sub opp div eqb -> forall R C n a, n <= R -> n <= C -> dims R C a ->
  let inverse f g := forall i j, i < n -> j < n -> prod_entry zero add mul n f g i j = delta zero one i j in
  exists ret ok, m_inv zero one sub mul div eqb R C a n = Some (ret, ok) /\ dims R C ret /\
    (ok = true -> inverse (ent zero a) (ent zero ret) /\ inverse (ent zero ret) (ent zero a)) /\
    (ok = true <-> exists g, inverse (ent zero a) g) /\ (ok = true <-> exists g, inverse g (ent zero a)).
Proof. intros T zero one add mul sub opp div eqb (RT & One & HE & HD) R C n a HR HC Da inverse. now apply (inv_ok T zero one add mul sub opp RT div eqb HE HD). Qed.

(** Examples over the rationals. *)
Lemma Qc_field : field_like Qc 0%Qc 1%Qc Qcplus Qcmult Qcminus Qcopp Qcdiv Qc_eq_bool.
Proof.
  split; [exact Qcrt|]. split; [discriminate|]. split.
  - intros x y. split; [apply Qc_eq_bool_correct|]. intros ->. unfold Qc_eq_bool. now destruct (Qc_eq_dec y y).
  - intros x H. unfold Qcdiv. rewrite Qcmult_1_l, Qcmult_comm. now apply Qcmult_inv_r.
Qed.
Definition qm (m : list (list Z)) : list (list Qc) := map (map (fun z => Q2Qc (inject_Z z))) m.
Definition out (m : list (list Qc)) : list (list Q) := map (map this) m.
Open Scope Z_scope.
Example C51_ex : option_map this (m_det 0%Qc 1%Qc Qcminus Qcmult Qcopp Qcdiv Qc_eq_bool 3 (qm [[0; 2; 1]; [3; 4; 5]; [6; 7; 9]])) = Some (3 # 1)%Q /\
  this (laplace 0%Qc 1%Qc Qcplus Qcmult Qcopp 3 (ent 0%Qc (qm [[0; 2; 1]; [3; 4; 5]; [6; 7; 9]]))) = (3 # 1)%Q.
Proof. split; vm_compute; reflexivity. Qed.
Example C52_ex : option_map (fun '(m, r, p) => (out m, r, p)) (gauss 0%Qc 1%Qc Qcminus Qcmult Qcdiv Qc_eq_bool (qm [[0; 2; 4; 1]; [1; 1; 1; 0]; [1; 3; 5; 2]]) 3 3 1 (Some [])) =
  Some ([[1; 0; -1; -1 # 2]; [0; 1; 2; 1 # 2]; [0; 0; 0; 1]]%Q, 2%nat, Some [0%nat; 1%nat; 3%nat; 3%nat]).
Proof. vm_compute. reflexivity. Qed.
Example C53_ex : option_map (fun '(d, m, ok) => (d, out m, ok)) (m_solve 0%Qc 1%Qc Qcminus Qcmult Qcopp Qcdiv Qc_eq_bool 2 3 (qm [[0; 2; 4]; [1; 1; 1]]) (qm [[6]; [2]]) 2 3) =
  Some (1%nat, [[-1; 3; 0]; [1; -2; 1]; [0; 0; 0]]%Q, true).
Proof. vm_compute. reflexivity. Qed.
Example C53_ex_none : option_map (fun '(d, m, ok) => (d, ok)) (m_solve 0%Qc 1%Qc Qcminus Qcmult Qcopp Qcdiv Qc_eq_bool 2 2 (qm [[1; 2]; [2; 4]]) (qm [[1]; [3]]) 2 2) = Some (1%nat, false).
Proof. vm_compute. reflexivity. Qed.
Example C54_ex : option_map (fun '(m, ok) => (out m, ok)) (m_inv 0%Qc 1%Qc Qcminus Qcmult Qcdiv Qc_eq_bool 2 2 (qm [[1; 2]; [3; 4]]) 2) =
  Some ([[-2; 1]; [3 # 2; -1 # 2]]%Q, true).
Proof. vm_compute. reflexivity. Qed.
Example C54_ex_singular : option_map snd (m_inv 0%Qc 1%Qc Qcminus Qcmult Qcdiv Qc_eq_bool 2 2 (qm [[1; 2]; [2; 4]]) 2) = Some false.
Proof. vm_compute. reflexivity. Qed.

(** Without that room the code writes past the end of the result: [x0 = 0] over three
    unknowns has a solution and a kernel of dimension 2, but the result of a 1 x 3 matrix
    has only two rows. *)
Theorem C53_room_refuted :
  dims 1 3 (qm [[1; 0; 0]]) /\ dims 1 1 (qm [[0]]) /\
  (exists v, forall i, (i < 1)%nat -> row_apply 0%Qc Qcplus Qcmult 3 (ent 0%Qc (qm [[1; 0; 0]])) v i = ent 0%Qc (qm [[0]]) i 0) /\
  m_solve 0%Qc 1%Qc Qcminus Qcmult Qcopp Qcdiv Qc_eq_bool 1 3 (qm [[1; 0; 0]]) (qm [[0]]) 1 3 = None.
Proof.
  split; [repeat constructor|]. split; [repeat constructor|]. split; [|vm_compute; reflexivity].
  exists (fun _ => 0%Qc). intros i Hi. replace i with 0%nat by lia. apply Qc_is_canon. reflexivity.
Qed.

Print Assumptions C51_det. Print Assumptions C52_gauss. Print Assumptions C52_rank. Print Assumptions C53_solve.
Print Assumptions C53_all_solutions. Print Assumptions C53_room_refuted. Print Assumptions C54_inv. Print Assumptions Qc_field.
