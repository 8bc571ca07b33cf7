(** Model of include/mtl/compress_int.hpp. *)
From Verif Require Import Base BaseLemmas StdAlgo.

Set Implicit Arguments.

Section Compress.
Variable T : Type.
Variable ltb eqb : T -> T -> bool.

(** [std::unordered_map<T,int>] as an association list; [m[k] = v]
    overwrites. *)
Fixpoint m_put (m : list (T * nat)) (k : T) (v : nat) : list (T * nat) :=
  match m with
  | [] => [(k, v)]
  | (k', v') :: t => if eqb k k' then (k', v) :: t else (k', v') :: m_put t k v
  end.
(** [m.find(k)]: [None] is [end()]. *)
Fixpoint m_find (m : list (T * nat)) (k : T) : option nat :=
  match m with
  | [] => None
  | (k', v') :: t => if eqb k k' then Some v' else m_find t k
  end.

(** compress_int.hpp:12-13 the object is its [vs]. *)
(** compress_int.hpp:16 [Compressor(begin, end)] *)
Definition c_range (xs : list T) : list T := xs.
(** compress_int.hpp:17 [clear] *)
Definition c_clear (vs : list T) : list T := [].
(** compress_int.hpp:18-20 [add(x)] *)
Definition c_add (vs : list T) (x : T) : list T := vs ++ [x].
(** compress_int.hpp:21-24 [add(begin, end)] *)
Definition c_add_range (vs xs : list T) : list T := vs ++ xs.
(** compress_int.hpp:25-33 [release]: the map and the new [vs]. *)
Definition c_release (vs : list T) : option (list (T * nat) * list T) :=
  let vs := std_unique eqb (std_sort ltb vs) in
  let* (mp, k) := for_each vs (fun v '(mp, k) => Some (m_put mp v k, k + 1)) ([], 0) in
  Some (mp, vs).
(** compress_int.hpp:34-36 [release_tie]: the returned pair and the object
    afterwards ([vs] is moved from, that is, empty). *)
Definition c_release_tie (vs : list T) : option ((list (T * nat) * list T) * list T) :=
  let* (mp, vs) := c_release vs in Some ((mp, vs), []).
(** compress_int.hpp:37-40 [compress] *)
Definition c_compress (xs : list T) : option (list (T * nat)) :=
  let* (mp, vs) := c_release (c_range xs) in Some mp.

(** Uses of one object. *)
Inductive c_op :=
| Clear | Add (x : T) | AddRange (xs : list T) | Release | ReleaseTie.
Inductive c_out := ONone | OMap (m : list (T * nat)) | OTie (m : list (T * nat)) (vs : list T).
Definition c_step (vs : list T) (o : c_op) : option (c_out * list T) :=
  match o with
  | Clear => Some (ONone, c_clear vs)
  | Add x => Some (ONone, c_add vs x)
  | AddRange xs => Some (ONone, c_add_range vs xs)
  | Release => let* (mp, vs) := c_release vs in Some (OMap mp, vs)
  | ReleaseTie => let* (mv, vs) := c_release_tie vs in Some (OTie (fst mv) (snd mv), vs)
  end.
Fixpoint c_run (vs : list T) (h : list c_op) : option (list c_out * list T) :=
  match h with
  | [] => Some ([], vs)
  | o :: h =>
      let* (r, vs) := c_step vs o in
      let* (rs, vs) := c_run vs h in
      Some (r :: rs, vs)
  end.

(** ** Specification *)
(** Which values have been added since the last reset. *)
Definition live_step (xs : list T) (o : c_op) : list T :=
  match o with
  | Clear | ReleaseTie => []
  | Add x => x :: xs
  | AddRange ys => ys ++ xs
  | Release => xs
  end.

(** [m] maps exactly the values of [xs], onto [0..k-1], preserving order. *)
Record rank_map (xs : list T) (m : list (T * nat)) (k : nat) : Prop := {
  rm_dom  : forall x, m_find m x <> None <-> In x xs;
  rm_mono : forall x y i j, m_find m x = Some i -> m_find m y = Some j ->
              (ltb x y = true <-> i < j);
  rm_bound : forall x i, m_find m x = Some i -> i < k;
  rm_onto : forall i, i < k -> exists x, m_find m x = Some i
}.
(** [vs] lists the values of the map by rank. *)
Definition decodes (m : list (T * nat)) (vs : list T) :=
  forall x i, m_find m x = Some i <-> get vs i = Some x.

(** The number of distinct values of [xs] below [x]. *)
Definition rank_of (dec : forall x y : T, {x = y} + {x <> y}) (xs : list T) (x : T) : nat :=
  length (nodup dec (filter (fun y => ltb y x) xs)).

Definition out_ok (xs : list T) (o : c_op) (r : c_out) : Prop :=
  match o, r with
  | Release, OMap m => exists k, rank_map xs m k
  | ReleaseTie, OTie m vs => rank_map xs m (length vs) /\ decodes m vs
  | Clear, ONone | Add _, ONone | AddRange _, ONone => True
  | _, _ => False
  end.
Fixpoint outs_ok (xs : list T) (h : list c_op) (rs : list c_out) : Prop :=
  match h, rs with
  | [], [] => True
  | o :: h, r :: rs => out_ok xs o r /\ outs_ok (live_step xs o) h rs
  | _, _ => False
  end.

End Compress.
