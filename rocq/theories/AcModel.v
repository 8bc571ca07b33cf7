(** Model of include/mtl/string/ac_machine.hpp, [AcMachine<T>] with [_AcMachineNode].

    Characters are numbers. [std::unordered_map<char,int>] is an association list with
    distinct keys; the order in which a range-for visits it is any permutation [ord].
    [-1] as a node index or id is [None]. Node indices do not overflow. Insertions come
    before [build], searches after it. *)
From Verif Require Export Base.
From Coq Require Export Permutation.
Set Implicit Arguments.

Notation str := (list nat).
(** ac_machine.hpp:30-41 *)
Record acnode := AcNode { n_id : option nat; n_e : list (nat * nat); n_fail : option nat }.
Definition new_node : acnode := AcNode None [] None.

Fixpoint assoc (c : nat) (e : list (nat * nat)) : option nat :=
  match e with [] => None | (d, y) :: e => if d =? c then Some y else assoc c e end.
(** [e[c] = y] *)
Definition put (c y : nat) (e : list (nat * nat)) : list (nat * nat) :=
  (c, y) :: filter (fun p => negb (fst p =? c)) e.

Section AC.
Variable T : Type.
Variable ord : list (nat * nat) -> list (nat * nat).

(** ac_machine.hpp:54-55 *)
Record ac := Ac { a_container : list (str * T); a_nodes : list acnode }.
Definition ac_empty : ac := Ac [] [].

(** ac_machine.hpp:58-65: [Some None] is the result [-1]. *)
Definition ac_go (ns : list acnode) (u c : nat) : option (option nat) :=
  let* nd := get ns u in
  Some (match assoc c (n_e nd) with
        | Some y => Some y
        | None => if u =? 0 then Some 0 else None
        end).

(** ac_machine.hpp:71-76, the first loop of [_insert_key]: the node reached and the rest of
    the key *)
Fixpoint ac_descend (ns : list acnode) (u : nat) (key : str) : option (nat * str) :=
  match key with
  | [] => Some (u, [])
  | c :: t =>
      let* nd := get ns u in
      match assoc c (n_e nd) with
      | None => Some (u, key)
      | Some y => ac_descend ns y t
      end
  end.
(** ac_machine.hpp:79-84, the second loop *)
Fixpoint ac_extend (ns : list acnode) (u : nat) (rest : str) : option (list acnode * nat) :=
  match rest with
  | [] => Some (ns, u)
  | c :: t =>
      let next := length ns in
      let ns := ns ++ [new_node] in
      let* nd := get ns u in
      let* ns := set ns u (AcNode (n_id nd) (put c next (n_e nd)) (n_fail nd)) in
      ac_extend ns next t
  end.
(** ac_machine.hpp:66-87 *)
Definition ac_insert (a : ac) (key : str) (v : T) : option ac :=
  let ns := match a_nodes a with [] => [new_node] | ns => ns end in
  let* (u, rest) := ac_descend ns 0 key in
  match rest with
  | [] => Some (Ac (a_container a) ns)
  | _ :: _ =>
      let* (ns, u) := ac_extend ns u rest in
      let* nd := get ns u in
      let* ns := set ns u (AcNode (Some (length (a_container a))) (n_e nd) (n_fail nd)) in
      Some (Ac (a_container a ++ [(key, v)]) ns)
  end.

(** ac_machine.hpp:38-40, 101, 113 *)
Definition set_fail (ns : list acnode) (x f : nat) : option (list acnode) :=
  let* nd := get ns x in set ns x (AcNode (n_id nd) (n_e nd) (Some f)).
(** ac_machine.hpp:110-112 and 205-210: falling back until there is an edge *)
Definition ac_fall (ns : list acnode) (u c : nat) : option nat :=
  loop (S (length ns)) (fun u =>
    let* t := ac_go ns u c in
    match t with
    | Some t => Some (inr t)
    | None => let* nd := get ns u in let* f := n_fail nd in Some (inl f)
    end) u.
(** ac_machine.hpp:95-116 *)
Definition ac_build_fail (ns : list acnode) : option (list acnode) :=
  let* root := get ns 0 in
  let* (q, ns) := for_each (ord (n_e root)) (fun '(_, next) '(q, ns) =>
    let* ns := set_fail ns next 0 in Some (q ++ [next], ns)) ([], ns) in
  loop (S (length ns)) (fun '(q, ns) =>
    match q with
    | [] => Some (inr ns)
    | id :: q =>
        let* nd := get ns id in
        let* (q, ns) := for_each (ord (n_e nd)) (fun '(c, next) '(q, ns) =>
          let* nd := get ns id in
          let* state := n_fail nd in
          let* target := ac_fall ns state c in
          let* ns := set_fail ns next target in
          Some (q ++ [next], ns)) (q, ns) in
        Some (inl (q, ns))
    end) (q, ns).
(** ac_machine.hpp:151-156: all insertions, then [build] *)
Definition ac_make (h : list (str * T)) : option ac :=
  let* a := for_each h (fun '(k, v) a => ac_insert a k v) ac_empty in
  let* ns := ac_build_fail (a_nodes a) in
  Some (Ac (a_container a) ns).

(** key_iterator: the node [u_]. ac_machine.hpp:180-188 *)
Definition ac_to_exact (a : ac) (u : nat) : option nat :=
  loop (S (length (a_nodes a))) (fun u =>
    if u =? 0 then Some (inr u)
    else
      let* nd := get (a_nodes a) u in
      match n_id nd with
      | Some _ => Some (inr u)
      | None => let* f := n_fail nd in Some (inl f)
      end) u.
(** ac_machine.hpp:191 *)
Definition ac_deref (a : ac) (u : nat) : option (str * T) :=
  let* nd := get (a_nodes a) u in let* id := n_id nd in get (a_container a) id.
(** ac_machine.hpp:195-199 *)
Definition ac_next (a : ac) (u : nat) : option nat :=
  let* nd := get (a_nodes a) u in let* f := n_fail nd in ac_to_exact a f.
(** ac_machine.hpp:205-211 *)
Definition ac_push (a : ac) (u c : nat) : option nat := ac_fall (a_nodes a) u c.
(** What a loop from the iterator to [key_end()] sees *)
Definition ac_drain (a : ac) (u : nat) : option (list (str * T)) :=
  loop (S (length (a_nodes a))) (fun '(u, acc) =>
    if u =? 0 then Some (inr acc)
    else
      let* x := ac_deref a u in
      let* u := ac_next a u in
      Some (inl (u, acc ++ [x]))) (u, []).
(** ac_machine.hpp:222-234 *)
Definition ac_find_all (a : ac) (text : str) : option (list (nat * nat)) :=
  let* (_, _, ret) := for_each text (fun ch '(i, it, ret) =>
    let* it := ac_push a it ch in
    let* c := ac_to_exact a it in
    Some (i + 1, it, if c =? 0 then ret else ret ++ [(i + 1, c)])) (0, 0, []) in
  Some ret.
(** ac_machine.hpp:246-252 *)
Definition ac_find_suffix (a : ac) (text : str) : option nat :=
  let* it := for_each text (fun ch it => ac_push a it ch) 0 in
  ac_to_exact a it.
End AC.

(** * Specification *)
Definition suffix (s w : str) : Prop := exists p, w = p ++ s.
Fixpoint prefixb (s w : str) : bool :=
  match s, w with
  | [], _ => true
  | c :: s, d :: w => (c =? d) && prefixb s w
  | _ :: _, [] => false
  end.
(** The insertions that have an effect: those of non-empty keys that are not a prefix of a
    key inserted before. *)
Fixpoint registered {T} (seen : list str) (h : list (str * T)) : list (str * T) :=
  match h with
  | [] => []
  | (k, v) :: h =>
      (if (match k with [] => true | _ => false end) || existsb (prefixb k) seen then [] else [(k, v)])
      ++ registered (k :: seen) h
  end.
(** [l] lists the keywords of [K] that end at the end of [w], longest first. *)
Definition matches {T} (K : list (str * T)) (w : str) (l : list (str * T)) : Prop :=
  (forall k v, In (k, v) l <-> In (k, v) K /\ suffix k w) /\
  (forall i j x y, i < j -> get l i = Some x -> get l j = Some y -> length (fst y) < length (fst x)).
