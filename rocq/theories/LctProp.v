(** Properties of LinkCutTree (link_cut_tree.hpp): C62. *)
From Coq Require Import ZArith.
From Verif Require Import LctModel LctPath LctOps BaseLemmas ListExtra LazySegProp SplayProp.
Set Implicit Arguments.

Section Lct.
Variables (M A : Type) (op : M -> M -> M) (e : M) (comp : A -> A -> A) (aid : A) (act : A -> M -> M).
Hypothesis Mon : monoid_laws op e.
Hypothesis Act : action_laws op comp aid act.

(** C62. On a tree built from the values [xs], every history of links of vertices that are not
    connected, cuts of present edges, path products, path updates and point changes runs without
    undefined behaviour and returns the products, in path order, along the simple paths of the
    graph that the links and cuts made. *)
Theorem C62_history xs cs E vs outs : frun op e act ([], xs) cs (E, vs) outs ->
  exists h, lct_run op comp aid act (lct_build aid xs) cs = Some (h, outs).
Proof. intros F. destruct (LctOps.run_ok Mon Act (LctOps.build_ok aid act Mon xs) F) as (h & R & _). eauto. Qed.
Theorem C62_history_new n cs E vs outs : frun op e act ([], repeat e n) cs (E, vs) outs ->
  exists h, lct_run op comp aid act (lct_new e aid n) cs = Some (h, outs).
Proof. exact (@C62_history (repeat e n) cs E vs outs). Qed.

(** Any two connected vertices of a graph made by a history are joined by exactly one simple path,
    so that prod(u, v) is determined, and returns the product along it at any time. *)
Lemma walk_in E v : forall p u a, walk E u p v -> In a p -> exists p1 p2, p = p1 ++ a :: p2 /\ walk E a (a :: p2) v.
Proof.
  induction p as [|b p IH]; intros u a W I; [destruct I|]. destruct I as [->|I].
  - exists [], p. split; [reflexivity|]. cbn in W |- *. tauto.
  - destruct p as [|c p]; [destruct I|]. cbn in W. destruct W as (_ & _ & W). destruct (IH c a W I) as (p1 & p2 & -> & W2). exists (b :: p1), p2. auto.
Qed.
Lemma conn_spath E u v : conn E u v -> exists p, spath E u v p.
Proof.
  induction 1 as [u|u v w J C (p & W & N)]; [exists [u]; split; [cbn; auto|constructor; [intros []|constructor]]|].
  destruct (in_dec Nat.eq_dec u p) as [I|I].
  - destruct (@walk_in E w p v u W I) as (p1 & p2 & -> & W2). exists (u :: p2). split; [auto|]. apply NoDup_app_remove_l in N. exact N.
  - exists (u :: p). split; [|constructor; auto]. destruct p as [|b p]; [destruct W|]. assert (v = b) as -> by (destruct p; cbn in W; tauto). cbn. auto.
Qed.
Theorem C62_path xs cs E vs outs u v : frun op e act ([], xs) cs (E, vs) outs -> u < length vs -> conn E u v ->
  exists p, spath E u v p /\ (forall q, spath E u v q -> q = p) /\
    exists h h', lct_run op comp aid act (lct_build aid xs) cs = Some (h, outs) /\ lct_prod op comp aid act h u v = Some (h', path_prod op e vs p).
Proof.
  intros F Lu C. destruct (LctOps.run_ok Mon Act (LctOps.build_ok aid act Mon xs) F) as (h & R & I). destruct (conn_spath C) as (p & P). exists p. split; [auto|]. split.
  - intros q Q. destruct (access_ok Mon Act I Lu P) as (h1 & h2 & l & ts & par & E1 & _). destruct I as (ts0 & par0 & St & G). destruct (LctProof.s_rooted St u) as (L & Hu).
    pose proof (graph_flip G (line_nodup Hu) (line_chain Hu)) as G1. destruct (evert_ok Mon Act St Lu Hu) as (_ & _ & _ & _ & _ & _ & _ & _ & Eu). exact (line_fun (spath_line G1 Q Eu) (spath_line G1 P Eu)).
  - destruct (LctOps.prod_ok Mon Act I Lu P) as (h' & E' & _). eauto.
Qed.
End Lct.

(** Outside these conditions: cutting vertices of which the second is the root of its path reads
    through a null pointer, as when the first is not connected to it. *)
Example C62_cut_missing : lct_run (@app Z) sh_comp 0%Z sh_act (lct_build 0%Z [[0%Z]; [1%Z]]) [Cut _ _ 0 1] = None.
Proof. vm_compute. reflexivity. Qed.

(** The hypotheses are met by sequences of integers under concatenation, with addition to every
    element; products of sequences show the order along the path. *)
Definition C62_hist : list (lct_op (list Z) Z) :=
  [Link _ _ 0 1; Link _ _ 1 2; Link _ _ 3 1; Link _ _ 3 4; Prod _ _ 2 4; UpdP _ 0 4 10%Z; Prod _ _ 4 2; Cut _ _ 1 3; Link _ _ 2 4; Prod _ _ 3 0; SetV _ 1 [7%Z]; Upd1 _ 4 5%Z; Prod _ _ 0 3].
Example C62_example : (let* (_, vs) := lct_run (@app Z) sh_comp 0%Z sh_act (lct_build 0%Z [[0%Z]; [1%Z]; [2%Z]; [3%Z]; [4%Z]]) C62_hist in Some vs) =
  Some [[2; 1; 3; 4]; [14; 13; 11; 2]; [13; 14; 2; 11; 10]; [10; 7; 2; 19; 13]]%Z.
Proof. vm_compute. reflexivity. Qed.
(** and the graph operations allow such histories *)
Lemma conn_closed (P : nat -> Prop) E u v : (forall a b, joined E a b -> P a -> P b) -> conn E u v -> P u -> P v.
Proof. intros H C. induction C as [|u v w J C IH]; eauto. Qed.
Example C62_example_spec : frun (@app Z) [] sh_act ([], [[0%Z]; [1%Z]; [2%Z]])
  [Link _ _ 0 1; Link _ _ 1 2; Prod _ _ 0 2; UpdP _ 2 1 10%Z; Cut _ _ 0 1; Link _ _ 0 2; SetV _ 0 [7%Z]; Prod _ _ 1 0]
  ([(0, 2); (1, 2)], [[7%Z]; [11%Z]; [12%Z]]) [[0%Z; 1%Z; 2%Z]; [11%Z; 12%Z; 7%Z]].
Proof.
  refine (@fr_cons _ _ _ _ _ _ _ _ None _ _ _ _ _); [apply f_link; cbn; [lia|lia|]|].
  { intros C. assert (1 = 0) by (apply (conn_closed (fun x => x = 0)) in C; auto; intros a b [[]|[]]). lia. }
  refine (@fr_cons _ _ _ _ _ _ _ _ None _ _ _ _ _); [apply f_link; cbn; [lia|lia|]|].
  { intros C. assert (2 < 2) by (apply (conn_closed (fun x => x < 2)) in C; auto; intros a b [[[= <- <-]|[]]|[[= <- <-]|[]]]; auto). lia. }
  refine (@fr_cons _ _ _ _ _ _ _ _ (Some [0%Z; 1%Z; 2%Z]) _ _ _ _ _); [apply (@f_prod _ _ (@app Z) [] sh_act [(1, 2); (0, 1)] [[0%Z]; [1%Z]; [2%Z]] 0 2 [0; 1; 2]); cbn; [lia|]|].
  { split; [cbn; unfold joined; cbn; intuition|repeat constructor; cbn; intuition discriminate]. }
  refine (@fr_cons _ _ _ _ _ _ _ _ None _ _ _ _ _); [apply (@f_updp _ _ (@app Z) [] sh_act _ _ 2 1 10%Z [2; 1]); cbn; [lia|]|].
  { split; [cbn; unfold joined; cbn; intuition|repeat constructor; cbn; intuition discriminate]. }
  refine (@fr_cons _ _ _ _ _ _ _ _ None _ _ _ _ _); [apply f_cut; unfold joined; cbn; auto|].
  refine (@fr_cons _ _ _ _ _ _ _ _ None _ _ _ _ _); [apply f_link; cbn; [lia|lia|]|].
  { intros C. assert (2 = 0) by (apply (conn_closed (fun x => x = 0)) in C; auto; cbn; intros a b [[[= <- <-]|[]]|[[= <- <-]|[]]]; lia). lia. }
  refine (@fr_cons _ _ _ _ _ _ _ _ None _ _ _ _ _); [apply f_set; cbn; lia|].
  refine (@fr_cons _ _ _ _ _ _ _ _ (Some [11%Z; 12%Z; 7%Z]) _ _ _ _ _); [apply (@f_prod _ _ (@app Z) [] sh_act [(0, 2); (1, 2)] [[7%Z]; [11%Z]; [12%Z]] 1 0 [1; 2; 0]); cbn; [lia|]|].
  { split; [cbn; unfold joined; cbn; intuition|repeat constructor; cbn; intuition discriminate]. }
  apply fr_nil.
Qed.
Print Assumptions C62_history.
Print Assumptions C62_history_new.
Print Assumptions C62_path.
