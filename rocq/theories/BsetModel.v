(** Model of include/mtl/succinct/binary_set.hpp for [BitmapType = Bitmap] (traits.hpp:10-12: the
    directory is [BV<Bitmap, 64>]). The default parameter [RRR<>] is not modelled. Values are
    naturals; a value computed as [size_t] is cut to 32 bits when it is returned as [value_type]. *)
From Verif Require Import Base StdAlgo BitModel BmapModel BvModel.
Set Implicit Arguments.

(** A conversion to [uint32_t]. *)
Definition w32 (z : Z) : nat := Z.to_nat (z mod 2 ^ 32).

(** binary_set.hpp:14-18; the directory and [size_] have no value before [build]. *)
Record bset := Bs { bs_bm : bmap; bs_rs : option (bv * nat) }.
(** binary_set.hpp:20 *)
Definition bs_new : bset := Bs (Bm [] 0) None.
(** binary_set.hpp:43-45 *)
Definition bs_insert (s : bset) (x : nat) : option bset :=
  let* m := bm_set (bs_bm s) x true in Some (Bs m (bs_rs s)).
(** binary_set.hpp:46-50 *)
Definition bs_build (s : bset) : option bset :=
  let v := bm_vec (bs_bm s) in
  let* d := bv_build 64 v in
  let* n := rank1 64 v d (vsize v) in
  Some (Bs (bs_bm s) (Some (d, n))).
(** binary_set.hpp:51-52 *)
Definition bs_size (s : bset) : option nat := let* (_, n) := bs_rs s in Some n.
(** binary_set.hpp:53-55: [Bitmap::get] does not check its index. *)
Definition bs_contains (s : bset) (x : nat) : option bool := bm_get (bs_bm s) x.
(** binary_set.hpp:63-65 *)
Definition bs_rank (s : bset) (x : nat) : option nat :=
  let* (d, n) := bs_rs s in
  if (x <? bsz (bs_bm s)) then rank1 64 (bm_vec (bs_bm s)) d x else Some n.
(** binary_set.hpp:66-68 *)
Definition bs_get (s : bset) (i : nat) : option nat :=
  let* (d, n) := bs_rs s in
  let* r := if (i <? n) then select 64 (bm_vec (bs_bm s)) d true i else Some (bsz (bs_bm s)) in
  Some (w32 (Z.of_nat r)).
(** binary_set.hpp:56-59 *)
Definition bs_lower (s : bset) (x : nat) : option nat :=
  let* c := bs_contains s x in
  if (c : bool) then Some x else let* r := bs_rank s x in bs_get s r.
(** binary_set.hpp:60-62 *)
Definition bs_upper (s : bset) (x : nat) : option nat := bs_lower s (w32 (Z.of_nat x + 1)).

(** Histories of [insert] and [build]. *)
Inductive scmd := SIns (x : nat) | SBuild.
Definition bs_do (s : bset) (c : scmd) : option bset :=
  match c with SIns x => bs_insert s x | SBuild => bs_build s end.
Definition bs_run (cs : list scmd) (s : bset) : option bset := for_each cs (fun c s => bs_do s c) s.

(** binary_set.hpp:77-82 *)
Record mset := Ms { ms_bm : bmap; ms_rs : option (bv * nat); ms_vals : list nat }.
(** binary_set.hpp:84 *)
Definition ms_new : mset := Ms (Bm [] 0) None [].
(** binary_set.hpp:109-111 *)
Definition ms_insert (s : mset) (x : nat) : mset := Ms (ms_bm s) (ms_rs s) (ms_vals s ++ [x]).
(** binary_set.hpp:112-122 *)
Definition ms_build (s : mset) : option mset :=
  let vs := std_sort Nat.ltb (ms_vals s) in
  let* (m, _) := for_each vs (fun v '(m, i) => let* m := bm_set m (v + i) true in Some (m, i + 1)) (ms_bm s, 0) in
  let* d := bv_build 64 (bm_vec m) in
  Some (Ms m (Some (d, length vs)) []).
(** binary_set.hpp:123-124 *)
Definition ms_size (s : mset) : option nat := let* (_, n) := ms_rs s in Some n.
(** [rs_.select0], [rs_.select1] *)
Definition ms_sel (s : mset) (B : bool) (k : nat) : option nat :=
  let* (d, _) := ms_rs s in select 64 (bm_vec (ms_bm s)) d B k.
(** binary_set.hpp:125-128, in [size_t] *)
Definition ms_count (s : mset) (x : nat) : option Z :=
  let* e := ms_sel s false x in
  let* b := if (x =? 0) then Some 0 else let* p := ms_sel s false (x - 1) in Some (p + 1) in
  Some (u64 (Z.of_nat e - Z.of_nat b)).
(** binary_set.hpp:129-132 *)
Definition ms_contains (s : mset) (x : nat) : option bool :=
  let* e := ms_sel s false x in
  if (e =? 0) then Some false else bm_get (ms_bm s) (e - 1).
(** binary_set.hpp:139-141, in [size_t] *)
Definition ms_rank (s : mset) (x : nat) : option nat :=
  let* n := ms_size s in
  let* _ := guard (n <=? bsz (ms_bm s)) in
  if (x <=? bsz (ms_bm s) - n) then
    if (x =? 0) then Some 0
    else let* p := ms_sel s false (x - 1) in let* _ := guard (x - 1 <=? p) in Some (p - (x - 1))
  else Some n.
(** binary_set.hpp:142-144 *)
Definition ms_get (s : mset) (i : nat) : option nat :=
  let* p := ms_sel s true i in Some (w32 (Z.of_nat p - Z.of_nat i)).
(** binary_set.hpp:133-138 *)
Definition ms_lower (s : mset) (x : nat) : option nat := let* r := ms_rank s x in ms_get s r.
Definition ms_upper (s : mset) (x : nat) : option nat := ms_lower s (w32 (Z.of_nat x + 1)).

(** ** Specification *)
Definition mem (x : nat) (l : list nat) : bool := existsb (Nat.eqb x) l.
(** The number of different values of [l] below [x]. *)
Definition below (l : list nat) (x : nat) : nat := length (filter (fun y => mem y l) (seq 0 x)).
(** One more than the greatest value, 0 if there is none. *)
Definition limit (l : list nat) : nat := fold_right (fun y m => Nat.max (S y) m) 0 l.
(** [r] is the least value that is not below [x], or [d] if there is none. *)
Definition nearest (l : list nat) (x d r : nat) : Prop :=
  (In r l /\ x <= r /\ forall y, In y l -> x <= y -> r <= y) \/ ((forall y, In y l -> y < x) /\ r = d).
(** The values inserted by a history. *)
Definition inserted (cs : list scmd) : list nat :=
  flat_map (fun c => match c with SIns x => [x] | SBuild => [] end) cs.
