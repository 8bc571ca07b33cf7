(** Model of include/mtl/string/z_algorithm.hpp ([int] indices do not overflow). *)
From Verif Require Import Base.

Set Implicit Arguments.

Section Zalg.
Variable T : Type.
Variable eqb : T -> T -> bool.  (* operator== *)

(** z_algorithm.hpp:5-30 *)
Definition z_algorithm (s : list T) : option (list nat) :=
  let n := length s in
  let* z := set (repeat 0 n) 0 n in
  loop (n + 1) (fun '(i, j, z) =>
    if i <? n then
      let* j := loop (n + 1) (fun j =>
        if i + j <? n then
          let* x := get s (i + j) in
          let* y := get s j in
          if eqb x y then Some (inl (j + 1)) else Some (inr j)
        else Some (inr j)) j in
      if j =? 0 then Some (inl (i + 1, j, z))
      else
        let* z := set z i j in
        let* (k, z) := loop (n + 1) (fun '(k, z) =>
          if k <? j then
            let* zk := get z k in
            if k + zk <? j then
              let* z := set z (i + k) zk in Some (inl (k + 1, z))
            else Some (inr (k, z))
          else Some (inr (k, z))) (1, z) in
        Some (inl (i + k, j - k, z))
    else Some (inr z)) (1, 0, z).
End Zalg.

(** ** Specification *)
(** [k] is the length of the longest common prefix of [a] and [b]. *)
Definition lcp {T} (a b : list T) (k : nat) : Prop :=
  k <= length a /\ k <= length b /\ firstn k a = firstn k b /\
  forall k', k' <= length a -> k' <= length b -> firstn k' a = firstn k' b -> k' <= k.
