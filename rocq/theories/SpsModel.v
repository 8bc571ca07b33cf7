(** Model of include/mtl/sps.hpp (set power series), on top of the model of
    include/mtl/subset_convolution.hpp in BitConvModel.

    The coefficient type is arbitrary, with its operations as parameters.  A
    [RankedVector<T,LIM>] is a list of rows of [LIM+1] coefficients.  A pair of iterators
    into a vector is the block it delimits ([block], [put_block]); a block that does not
    fit in the vector is [None].  An index is a [nat]: the code needs [1<<n] to be an
    [int].  A failed assertion is [None]. *)
From Verif Require Export BitConvModel.
Set Implicit Arguments.

(** The [w] elements of a vector starting at index [o]. *)
Definition block {X} (o w : nat) (Z : list X) : option (list X) :=
  let* _ := guard (o + w <=? length Z) in Some (firstn w (skipn o Z)).
(** The vector after its range starting at [o] has become [Y]. *)
Definition put_block {X} (o : nat) (Y Z : list X) : option (list X) :=
  let* _ := guard (o + length Y <=? length Z) in
  Some (firstn o Z ++ Y ++ skipn (o + length Y) Z).
(** [std::vector::resize(w, x)] *)
Definition vresize {X} (w : nat) (x : X) (l : list X) : list X := firstn w l ++ repeat x (w - length l).

Section Sps.
Variable T : Type.
Variables (zero one : T) (add sub mul : T -> T -> T) (opp : T -> T) (eqb : T -> T -> bool).
Variable LIM : nat.

(** The conversion of an [int] to [T]. *)
Definition of_nat (k : nat) : T := Nat.iter k (fun x => add x one) zero.
(** A new [RankedVector<T,LIM>(w)]. *)
Definition ranked_new (w : nat) : list (list T) := repeat (repeat zero (LIM + 1)) w.

(** subset_convolution.hpp:104-135, SubsetPointwiseConvolution with the output in its own
    range.  With [alias] the output range is the range of [zB] (sps.hpp:275-278) and the
    second operand is read from the updated rows. *)
Definition pointwise_to (alias : bool) (n : nat) (zA zB out : list (list T)) : option (list (list T)) :=
  let* _ := guard (n <=? LIM) in
  let* _ := guard (length zA =? 2 ^ n) in
  let* _ := guard (length zB =? 2 ^ n) in
  let* (out, _) := for_up (2 ^ n) 0 (fun i '(out, tmp) =>
    let rd k := get2 (if alias then out else zB) i k in
    let* tmp := for_up (n + 1) 0 (fun d tmp => set tmp d zero) tmp in
    let* tmp := for_up (n + 1) 0 (fun j tmp =>
      let* a := get2 zA i j in
      for_up (n - j + 1) 0 (fun k tmp =>
        let* x := get tmp (j + k) in
        let* b := rd k in
        set tmp (j + k) (add x (mul a b))) tmp) tmp in
    let* out := for_up (n + 1) 0 (fun d out =>
      let* x := get tmp d in
      set2 out i d x) out in
    Some (out, tmp)) (out, repeat zero (LIM + 1)) in
  Some out.

(** sps.hpp:17-24, the body for one [s] *)
Definition merge_row (w s : nat) (zB : list (list T)) : option (list (list T)) :=
  let t := s + w in
  let* zB := for_down LIM 1 (fun d zB =>
    let* x := get2 zB t (d - 1) in
    set2 zB t d x) zB in
  let* zB := set2 zB t 0 zero in
  for_up (LIM + 1) 0 (fun d zB =>
    let* x := get2 zB t d in
    let* y := get2 zB s d in
    set2 zB t d (add x y)) zB.
(** sps.hpp:10-26, SpsEgfZetaMerge *)
Definition zeta_merge (n : nat) (zB : list (list T)) : option (list (list T)) :=
  let* _ := guard (n <=? LIM) in
  if n =? 0 then Some zB else
  let w := 2 ^ (n - 1) in
  for_up w 0 (merge_row w) zB.

(** sps.hpp:36-43, the body for one [s] *)
Definition split_row (n w s : nat) (zB : list (list T)) : option (list (list T)) :=
  let t := s + w in
  let* zB := for_up (LIM + 1) 0 (fun d zB =>
    let* x := get2 zB t d in
    let* y := get2 zB s d in
    set2 zB t d (sub x y)) zB in
  let* zB := for_up LIM 0 (fun d zB =>
    let* x := get2 zB t (d + 1) in
    set2 zB t d x) zB in
  set2 zB t n zero.
(** sps.hpp:29-45, SpsEgfMobiusSplit *)
Definition mobius_split (n : nat) (zB : list (list T)) : option (list (list T)) :=
  let* _ := guard (n <=? LIM) in
  if n =? 0 then Some zB else
  let w := 2 ^ (n - 1) in
  for_up w 0 (split_row n w) zB.

(** sps.hpp:81-83, 161 and 261-262: the ranked zeta transform of the [2^i] elements of [A]
    starting at [2^i], into the same block of [zA] *)
Definition zeta_block (A : list T) (i : nat) (zA : list (list T)) : option (list (list T)) :=
  let* a := block (2 ^ i) (2 ^ i) A in
  let* z := ranked_zeta zero add LIM i a in
  put_block (2 ^ i) z zA.
(** sps.hpp:91-94 and 166-169: the product of the [2^i] rows of [zA] starting at [2^i]
    and of the first [2^i] rows of [zB], into the rows of [zC] starting at [2^i] *)
Definition product_block (zA zB : list (list T)) (i : nat) (zC : list (list T)) : option (list (list T)) :=
  let* a := block (2 ^ i) (2 ^ i) zA in
  let* b := block 0 (2 ^ i) zB in
  let* o := block (2 ^ i) (2 ^ i) zC in
  let* o := pointwise_to false i a b o in
  put_block (2 ^ i) o zC.
(** sps.hpp:100-101 and 172: the ranked Moebius transform of a block of [zB] into the same
    block of [out].  The block of [zB] is left transformed and nothing reads it afterwards. *)
Definition mobius_block (zB : list (list T)) (i : nat) (out : list T) : option (list T) :=
  let* b := block (2 ^ i) (2 ^ i) zB in
  let* r := ranked_mobius sub LIM i b in
  put_block (2 ^ i) r out.

(** sps.hpp:144-180 and 184-189, SpsExp *)
Definition exp_up (A : list T) (i : nat) (st : list (list T) * list (list T)) : option (list (list T) * list (list T)) :=
  let '(zA, zB) := st in
  let* zA := zeta_block A i zA in
  let* zB := if 0 <? i then zeta_merge i zB else Some zB in
  let* zB := product_block zA zB i zB in
  Some (zA, zB).
Definition exp_down (i : nat) (st : list (list T) * list T) : option (list (list T) * list T) :=
  let '(zB, out) := st in
  let* out := mobius_block zB i out in
  let* zB := if 0 <? i then mobius_split i zB else Some zB in
  Some (zB, out).
Definition sps_exp (n : nat) (A : list T) : option (list T) :=
  let out := repeat zero (2 ^ n) in
  let* _ := guard (n <=? LIM) in
  let* _ := guard (length A =? 2 ^ n) in
  let* a0 := get A 0 in
  let* _ := guard (eqb a0 zero) in
  let* zB := set2 (ranked_new (2 ^ n)) 0 0 one in
  let* (_, zB) := for_up n 0 (exp_up A) (ranked_new (2 ^ n), zB) in
  let* (_, out) := for_down n 0 exp_down (zB, out) in
  set out 0 one.

(** sps.hpp:86-96, the body for one [k] *)
Definition comp_row (zA : list (list T)) (merge : bool) (i : nat) (st : list (list T) * list (list T)) : option (list (list T) * list (list T)) :=
  let '(zB, zC) := st in
  let* zB := if merge then zeta_merge i zB else Some zB in
  let* zC := product_block zA zB i zC in
  Some (zB, zC).
Definition comp_step (n d : nat) (F : list T) (zA : list (list T)) (k : nat) (st : list (list T) * list (list T)) : option (list (list T) * list (list T)) :=
  let '(zB, zC) := st in
  let* fk := get F k in
  let* zC := set2 zC 0 0 fk in
  let* (zB, zC) := for_up (n - k) 0 (comp_row zA (k <? d - 1)) (zB, zC) in
  Some (zC, zB).
(** sps.hpp:49-106, SpsCompositionEgf *)
Definition comp_egf (n : nat) (F A : list T) : option (list T) :=
  let* _ := guard (2 ^ n <=? length A) in
  let* a0 := get A 0 in
  let* _ := guard (eqb a0 zero) in
  match F with
  | [] => Some (repeat zero (2 ^ n))
  | _ =>
    let d := min n (length F - 1) in
    let* zA := for_up n 0 (zeta_block A) (ranked_new (2 ^ n)) in
    let* fd := get F d in
    let* zB := set2 (ranked_new (2 ^ n)) 0 0 fd in
    let* (zB, _) := for_down d 0 (comp_step n d F zA) (zB, ranked_new (2 ^ n)) in
    let* ret := for_down n 0 (mobius_block zB) (repeat zero (2 ^ n)) in
    let* f0 := get F 0 in
    let* b0 := get2 zB 0 0 in
    let* _ := guard (eqb f0 b0) in
    set ret 0 b0
  end.

(** sps.hpp:122-129, the body for one [i] *)
Definition taylor_step (d : nat) (c : T) (F : list T) (i : nat) (st : list T * list T) : option (list T * list T) :=
  let '(g, pow) := st in
  let* f := get F i in
  let* g := for_up (d + 1) 0 (fun j g =>
    let* x := get g j in
    let* p := get pow j in
    set g j (add x (mul f p))) g in
  let* pow := for_down (d + 1) 0 (fun j pow =>
    let* p := get pow j in
    let* q := if j =? 0 then Some zero else get pow (j - 1) in
    set pow j (add (mul p c) q)) pow in
  Some (g, pow).
(** sps.hpp:132-135, the body for one [j] *)
Definition egf_step (j : nat) (st : list T * T) : option (list T * T) :=
  let '(g, factorial) := st in
  let* x := get g j in
  let* g := set g j (mul x factorial) in
  Some (g, mul factorial (of_nat (j + 1))).
(** sps.hpp:110-137, SpsCompositionPoly *)
Definition comp_poly (n : nat) (F A : list T) : option (list T) :=
  match F with
  | [] => Some (repeat zero (2 ^ n))
  | _ =>
    let d := min (length F - 1) n in
    let* c := get A 0 in
    let* A := set A 0 zero in
    let A := vresize (2 ^ n) zero A in
    if eqb c zero then comp_egf n F A
    else
      let* pow := set (repeat zero (d + 1)) 0 one in
      let* (g, _) := for_up (length F) 0 (taylor_step d c F) (repeat zero (d + 1), pow) in
      let* (g, _) := for_up (d + 1) 0 egf_step (g, one) in
      comp_egf n g A
  end.

(** sps.hpp:192-210, SpsLog *)
Definition log_coef (i : nat) (st : list T * T) : option (list T * T) :=
  let '(f, fact) := st in
  let* f := set f i (opp fact) in
  Some (f, mul fact (of_nat i)).
Definition sps_log (n : nat) (s : list T) : option (list T) :=
  let* _ := guard (n <=? LIM) in
  let* s0 := get s 0 in
  let* _ := guard (eqb s0 one) in
  let* (f, _) := for_up n 1 log_coef (repeat zero (n + 1), one) in
  let* s := set s 0 zero in
  let s := vresize (2 ^ n) zero s in
  let* s := for_up (2 ^ n - 1) 1 (fun i s =>
    let* x := get s i in
    set s i (opp x)) s in
  comp_egf n f s.

(** sps.hpp:233-244, TransposedSubsetConvolution *)
Definition transposed_conv (s x : list T) : option (list T) :=
  let* y := subset_convolution zero add sub mul LIM (rev x) s in
  Some (rev y).

(** sps.hpp:266-281, the body for one [i]; the block of [zf] is written entirely by the
    zeta transform (271-274) before it is read *)
Definition project_block (zs : list (list T)) (i : nat) (f : list T) : option (list T) :=
  let* b := block (2 ^ i) (2 ^ i) f in
  let* zf := ranked_zeta zero add LIM i (rev b) in
  let* z := block (2 ^ i) (2 ^ i) zs in
  let* zf := pointwise_to true i z zf zf in
  let* r := ranked_mobius sub LIM i zf in
  put_block (2 ^ i) (rev r) f.
(** sps.hpp:282-288, the body for one [i] *)
Definition fold_block (i : nat) (g : list T) : option (list T) :=
  let w := 2 ^ i in
  for_up w 0 (fun j g =>
    let* x := get g j in
    let* y := get g (j + w) in
    let* g := set g j (add x y) in
    set g (j + w) zero) g.
(** sps.hpp:263-290, the body for one [k] *)
Definition project_step (n : nat) (zs : list (list T)) (k : nat) (st : list T * list T) : option (list T * list T) :=
  let '(f, y) := st in
  let* g := set f 0 zero in
  let* g := for_up (n - k) 0 (project_block zs) g in
  let* g := for_up (n - k) 0 fold_block g in
  let* g0 := get g 0 in
  let* y := set y (k + 1) g0 in
  Some (g, y).
(** sps.hpp:251-292, TransposedSpsCompositionEgf *)
Definition transposed_egf (n : nat) (s x : list T) : option (list T) :=
  let* s0 := get s 0 in
  let* _ := guard (eqb s0 zero) in
  let* _ := guard (n <=? LIM) in
  let* x0 := get x 0 in
  let* y := set (repeat zero (n + 1)) 0 x0 in
  if n =? 0 then Some y else
  let* f := block 0 (2 ^ n) x in
  let* zs := for_up n 0 (zeta_block s) (ranked_new (2 ^ n)) in
  let* (_, y) := for_up n 0 (project_step n zs) (f, y) in
  Some y.
(** sps.hpp:299-303 *)
Definition transposed_egf_vec (s x : list T) : option (list T) :=
  let* _ := guard (0 <? length s) in
  transposed_egf (bitlen (length s - 1)) s x.

(** sps.hpp:342-349, the body for one [i] *)
Definition inv_row (n : nat) (row g : list T) : option (list T) :=
  let* g := set g 0 one in
  for_up n 1 (fun j g =>
    let* g := set g j zero in
    for_up j 0 (fun k g =>
      let* x := get g j in
      let* y := get g k in
      let* z := get row (j - k) in
      set g j (sub x (mul y z))) g) g.
(** sps.hpp:337-352, SpsInv *)
Definition sps_inv (n : nat) (s : list T) : option (list T) :=
  let* zs := ranked_zeta zero add LIM n s in
  let* (zs, _) := for_up (2 ^ n) 0 (fun i '(zs, g) =>
    let* row := get zs i in
    let* g := inv_row n row g in
    let* zs := set zs i g in
    Some (zs, g)) (zs, repeat zero (LIM + 1)) in
  ranked_mobius sub LIM n zs.
End Sps.

(** * Specification *)

(** All the subsets of a list of distinct elements, each in the order of the list. *)
Fixpoint sublists {X} (l : list X) : list (list X) :=
  match l with
  | [] => [[]]
  | x :: l => map (cons x) (sublists l) ++ sublists l
  end.
Fixpoint pairwise_disjoint (l : list nat) : bool :=
  match l with
  | [] => true
  | x :: l => forallb (fun y => Nat.land x y =? 0) l && pairwise_disjoint l
  end.
Definition is_partition (s : nat) (l : list nat) : bool :=
  pairwise_disjoint l && (fold_right Nat.lor 0 l =? s).
(** The partitions of the set [s] in nonempty blocks. *)
Definition partitions (s : nat) : list (list nat) := filter (is_partition s) (sublists (rev (seq 1 s))).

Section SpsSpec.
Variable T : Type.
Variables (zero one : T) (add mul : T -> T -> T).
(** The product of the coefficients of the blocks. *)
Definition block_product (A : list T) (l : list nat) : T :=
  fold_right (fun b acc => mul (nth b A zero) acc) one l.
(** The sum over the partitions of [s] of [F_k] times the product over the blocks, [k] the
    number of blocks: the coefficient of [s] in [sum_k F_k A^k/k!]. *)
Definition compose (F : nat -> T) (A : list T) (s : nat) : T :=
  total zero add (partitions s) (fun l => mul (F (length l)) (block_product A l)).
(** The coefficient of [s] in [A^k]. *)
Fixpoint set_power (A : list T) (k s : nat) : T :=
  match k with
  | O => if s =? 0 then one else zero
  | S k => total zero add (filter (fun t => subset t s) (seq 0 (s + 1)))
             (fun t => mul (nth t A zero) (set_power A k (Nat.ldiff s t)))
  end.
Definition kron (k j : nat) : T := if k =? j then one else zero.
End SpsSpec.
