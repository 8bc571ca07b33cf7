(** Model of [SparseFps::pow] (include/mtl/fps/pow.hpp:70-105). *)
From Verif Require Import Base ModularModel FpsModel.
Local Open Scope Z_scope.

(** pow.hpp:80-85: the first term whose coefficient is not zero *)
Fixpoint sp_first (tf : list (nat * Z)) : option (nat * Z) :=
  match tf with
  | [] => None
  | (d, v) :: tf => if v =? 0 then sp_first tf else Some (d, v)
  end.
(** pow.hpp:70-105; [x.first -= k] (line 97) would wrap below 0, which needs a stored zero. The
    exponent is used as [size_t] in line 101. *)
Definition sp_pow (p : Z) (tb : list Z) (tf : list (nat * Z)) (n : Z) (deg : nat) : option (list Z) :=
  if n =? 0 then Some [m_signed p 1]
  else
    match sp_first tf with
    | None => Some []
    | Some (k, c) =>
        if negb (k =? 0)%nat && (Z.of_nat ((deg + k - 1) / k) <=? n) then Some []
        else if (k =? 0)%nat && (c =? m_signed p 1) then pow1_sparse_impl p tb tf n deg
        else
          let* ic := m_inv p c in
          let* g := for_each tf (fun '(d, v) g =>
            let* _ := guard (k <=? d)%nat in
            let* v := m_mul p v ic in
            Some (g ++ [((d - k)%nat, v)])) [] in
          let* g := pow1_sparse_impl p tb g n deg in
          let* _ := guard (0 <=? n) in
          let d := (k * Z.to_nat n)%nat in
          let* cpn := m_pow p c n in
          let* res := for_up (length g) 0 (fun i res =>
            let* v := get g i in
            let* v := m_mul p v cpn in
            set res (d + i)%nat v) (repeat 0 (d + length g)) in
          Some (fps_ipre res deg)
    end.
