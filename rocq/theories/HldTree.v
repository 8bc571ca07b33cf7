(** Proofs about [HldModel]: trees, adjacency lists and [dfs_sz]. *)
From Verif Require Import Base BaseLemmas ListExtra NthExtra HldModel.
Set Implicit Arguments.

Section Ind.
Variable P : tree -> Prop.
Hypothesis H : forall v cs, (forall c, In c cs -> P c) -> P (Node v cs).
Lemma tree_ind2 : forall t, P t.
Proof.
  fix IH 1. intros [v cs]. apply H. induction cs as [|x l IHl]; intros c I; [destruct I|destruct I as [<-|I]; [apply IH|apply IHl, I]].
Qed.
End Ind.

Definition tsize (t : tree) : nat := length (verts t).
Definition fverts (cs : list tree) : list nat := flat_map verts cs.
Definition fedges (v : nat) (cs : list tree) : list (nat * nat) := flat_map (fun c => (v, root c) :: tedges c) cs.
Fixpoint height (t : tree) : nat := let 'Node _ cs := t in S (list_max (map height cs)).

Lemma root_in t : In (root t) (verts t). Proof. destruct t; cbn; auto. Qed.
Lemma tsize_pos t : 0 < tsize t. Proof. destruct t; cbn; lia. Qed.
Lemma tsize_node v cs : tsize (Node v cs) = S (length (fverts cs)). Proof. reflexivity. Qed.
Lemma fverts_app a b : fverts (a ++ b) = fverts a ++ fverts b. Proof. apply flat_map_app. Qed.
Lemma fedges_app v a b : fedges v (a ++ b) = fedges v a ++ fedges v b. Proof. apply flat_map_app. Qed.
Lemma in_fverts cs x : In x (fverts cs) <-> exists c, In c cs /\ In x (verts c). Proof. apply in_flat_map. Qed.
Lemma roots_in cs c : In c cs -> In (root c) (fverts cs). Proof. intros I. apply in_fverts. exists c. split; [auto|apply root_in]. Qed.
Lemma height_le t : height t <= tsize t.
Proof.
  induction t as [v cs IH] using tree_ind2. rewrite tsize_node. cbn [height]. apply le_n_S. apply list_max_le, Forall_forall. intros k I. apply in_map_iff in I as (c & <- & Ic). specialize (IH c Ic).
  apply in_split in Ic as (l & r & ->). unfold fverts. rewrite flat_map_app. cbn [flat_map]. rewrite !app_length. unfold tsize in IH. lia.
Qed.
Lemma height_child v cs c : In c cs -> height c < height (Node v cs).
Proof.
  intros I. cbn [height]. apply Nat.lt_succ_r. pose proof (proj1 (list_max_le (map height cs) _) (le_n _)) as F. rewrite Forall_forall in F. apply F, in_map, I.
Qed.
Lemma edge_verts t : forall p x, In (p, x) (tedges t) -> In p (verts t) /\ In x (verts t).
Proof.
  induction t as [v cs IH] using tree_ind2. intros p x I. cbn [tedges verts] in *. apply in_flat_map in I as (c & Ic & [[= <- <-]|I]).
  - split; [now left|right]. now apply roots_in.
  - destruct (IH c Ic p x I) as [A B]. split; right; apply in_fverts; eauto.
Qed.
Lemma verts_edges t : Permutation (verts t) (root t :: map snd (tedges t)).
Proof.
  induction t as [v cs IH] using tree_ind2. cbn [verts root tedges]. constructor. induction cs as [|c cs IHc]; [constructor|]. cbn [flat_map]. rewrite map_app. apply Permutation_app; [apply (IH c); now left|]. apply IHc. intros c' I. apply IH. now right.
Qed.

(** ** Adjacency lists *)
Definition opt (p : option nat) : list nat := match p with Some x => [x] | None => [] end.
Definition np (p : option nat) (x : nat) : bool := negb (oeq (Some x) p).
Inductive adj (E : list (list nat)) : option nat -> tree -> Prop :=
  adj_node p v cs row : get E v = Some row -> Permutation row (opt p ++ map root cs) -> (forall c, In c cs -> adj E (Some v) c) -> adj E p (Node v cs).
Lemma adj_frame E E' t : forall p, (forall x, In x (verts t) -> get E' x = get E x) -> adj E p t -> adj E' p t.
Proof.
  induction t as [v cs IH] using tree_ind2. intros p F A. inversion A as [? ? ? row Er Pr Ac]; subst. apply adj_node with row; [rewrite F by (left; auto); auto|auto|]. intros c I. apply IH; auto. intros x Ix. apply F. right. apply in_fverts. eauto.
Qed.

Definition nbrs (es : list (nat * nat)) (v : nat) : list nat := flat_map (fun '(a, b) => (if a =? v then [b] else []) ++ (if b =? v then [a] else [])) es.
Lemma nbrs_app a b v : nbrs (a ++ b) v = nbrs a v ++ nbrs b v. Proof. apply flat_map_app. Qed.
Lemma nbrs_perm a b v : Permutation a b -> Permutation (nbrs a v) (nbrs b v).
Proof. intros P. unfold nbrs. now apply Permutation_flat_map. Qed.
Lemma nbrs_flip a b v : Forall2 flip_of a b -> Permutation (nbrs a v) (nbrs b v).
Proof.
  intros F. induction F as [|[x y] e a b H F IH]; [constructor|]. unfold nbrs in *. cbn [flat_map]. apply Permutation_app; [|auto]. destruct H as [-> | ->]; [auto|]. cbn [fst snd]. apply Permutation_app_comm.
Qed.
Lemma nbrs_nil es v : (forall a b, In (a, b) es -> a <> v /\ b <> v) -> nbrs es v = [].
Proof.
  induction es as [|[a b] es IH]; intros H; [auto|]. unfold nbrs in *. cbn [flat_map]. destruct (H a b) as [H1 H2]; [now left|]. apply Nat.eqb_neq in H1, H2. rewrite H1, H2. apply IH. intros; apply H; now right.
Qed.
Lemma tedges_nil t v : ~ In v (verts t) -> nbrs (tedges t) v = [].
Proof. intros N. apply nbrs_nil. intros a b I. apply edge_verts in I as [A B]. split; intros ->; contradiction. Qed.
Lemma fedges_nil w cs v : w <> v -> ~ In v (fverts cs) -> nbrs (fedges w cs) v = [].
Proof.
  intros Nw N. apply nbrs_nil. intros a b I. apply in_flat_map in I as (c & Ic & [[= <- <-]|I]).
  - split; [auto|]. intros <-. apply N, roots_in, Ic.
  - apply edge_verts in I as [A B]. split; intros <-; apply N, in_fverts; eauto.
Qed.
Lemma nbrs_root v cs : ~ In v (fverts cs) -> nbrs (fedges v cs) v = map root cs.
Proof.
  induction cs as [|c cs IH]; intros N; [auto|]. unfold fedges, fverts in *. cbn [flat_map map app] in *. change ((v, root c) :: tedges c ++ flat_map (fun c0 => (v, root c0) :: tedges c0) cs) with ([(v, root c)] ++ tedges c ++ flat_map (fun c0 => (v, root c0) :: tedges c0) cs). rewrite !nbrs_app, tedges_nil, IH by (intros I; apply N, in_or_app; auto).
  unfold nbrs. cbn [flat_map]. rewrite Nat.eqb_refl. replace (root c =? v) with false; [auto|]. symmetry. apply Nat.eqb_neq. intros <-. apply N, in_or_app. left. apply root_in.
Qed.
Lemma nbrs_child v cs c x : NoDup (verts (Node v cs)) -> In c cs -> In x (verts c) -> nbrs (tedges (Node v cs)) x = (if x =? root c then [v] else []) ++ nbrs (tedges c) x.
Proof.
  intros ND Ic Ix. cbn [verts] in ND. inversion_clear ND as [|? ? Nv ND']. apply in_split in Ic as (l & r & ->). change (tedges (Node v (l ++ c :: r))) with (fedges v (l ++ c :: r)). fold (fverts (l ++ c :: r)) in *. rewrite fverts_app in Nv, ND'. unfold fverts at 2 in ND'. cbn [flat_map] in ND'. fold (fverts r) in ND'.
  assert (Nx : v <> x) by (intros ->; apply Nv, in_or_app; right; cbn; apply in_or_app; auto).
  apply NoDup_app_iff in ND' as (_ & ND2 & D1). apply NoDup_app_iff in ND2 as (_ & _ & D2).
  rewrite fedges_app, nbrs_app, (fedges_nil l Nx), app_nil_l by (intros I; apply (D1 x I), in_or_app; auto). unfold fedges. cbn [flat_map]. fold (fedges v r). change ((v, root c) :: tedges c) with ([(v, root c)] ++ tedges c). rewrite !nbrs_app, (fedges_nil r Nx), app_nil_r by (intros I; apply (D2 x Ix I)).
  f_equal. unfold nbrs. cbn [flat_map]. apply Nat.eqb_neq in Nx. rewrite Nx, (Nat.eqb_sym x). destruct (root c =? x); auto.
Qed.
Lemma adj_nbrs E t : forall p, NoDup (verts t) -> (forall x, In x (verts t) -> exists row, get E x = Some row /\ Permutation row ((if x =? root t then opt p else []) ++ nbrs (tedges t) x)) -> adj E p t.
Proof.
  induction t as [v cs IH] using tree_ind2. intros p ND H. pose proof ND as ND0. cbn [verts] in ND. inversion_clear ND as [|? ? Nv ND']. destruct (H v) as (row & Er & Pr); [now left|]. cbn [root] in Pr. rewrite Nat.eqb_refl in Pr. change (tedges (Node v cs)) with (fedges v cs) in Pr. rewrite nbrs_root in Pr by auto.
  apply adj_node with row; auto. intros c Ic. apply IH; [auto| |].
  - apply in_split in Ic as (l & r & ->). rewrite flat_map_app in ND'. cbn [flat_map] in ND'. now apply NoDup_app_remove_l, NoDup_app_remove_r in ND'.
  - intros x Ix. destruct (H x) as (row' & Er' & Pr'); [right; apply in_fverts; eauto|]. exists row'. split; [auto|]. rewrite (@nbrs_child v cs c x ND0 Ic Ix) in Pr'. cbn [root] in Pr'. replace (x =? v) with false in Pr'; [auto|]. symmetry. apply Nat.eqb_neq. intros ->. apply Nv, in_fverts. eauto.
Qed.

(** ** The adjacency lists after [add_edge] *)
Lemma e_add_ok E a b : a < length E -> b < length E -> exists E', e_add E a b = Some E' /\ length E' = length E /\ forall v, nth v E' [] = nth v E [] ++ nbrs [(a, b)] v.
Proof.
  intros Ha Hb. unfold e_add. rewrite (get_nth E a []) by auto. cbn [obind]. rewrite set_some by auto. cbn [obind]. rewrite (get_nth (lset E a _) b []) by (rewrite lset_length; auto). cbn [obind]. rewrite set_some by (rewrite lset_length; auto). eexists. split; [reflexivity|]. split; [now rewrite !lset_length|].
  intros v. rewrite !nth_lset, lset_length. unfold nbrs. cbn [flat_map]. rewrite app_nil_r. replace (a <? length E) with true by (symmetry; now apply Nat.ltb_lt). replace (b <? length E) with true by (symmetry; now apply Nat.ltb_lt). rewrite !andb_true_r.
  destruct (Nat.eqb_spec b v) as [->|Nb], (Nat.eqb_spec a v) as [->|Na]; rewrite ?app_nil_r, ?app_assoc; auto. destruct (Nat.eqb_spec a v); [congruence|]. now rewrite app_nil_r.
Qed.
Lemma graph_ok n es : (forall a b, In (a, b) es -> a < n /\ b < n) -> exists h, hl_graph n es = Some h /\ (exists E, h = with_edge (hl_new n) E) /\ length (edge h) = n /\ forall v, nth v (edge h) [] = nbrs es v.
Proof.
  intros H. unfold hl_graph.
  assert (G : forall l h, (forall a b, In (a, b) l -> a < n /\ b < n) -> (exists E, h = with_edge (hl_new n) E) -> length (edge h) = n -> exists h', for_each l (fun '(a, b) h => hl_add h a b) h = Some h' /\ (exists E, h' = with_edge (hl_new n) E) /\ length (edge h') = n /\ forall v, nth v (edge h') [] = nth v (edge h) [] ++ nbrs l v).
  { induction l as [|[a b] l IH]; intros h Hl HE L; cbn [for_each].
    - exists h. split; [auto|]. split; [auto|]. split; [auto|]. intros v. now rewrite app_nil_r.
    - destruct (Hl a b) as [Ha Hb]; [now left|]. destruct (@e_add_ok (edge h) a b) as (E & E1 & L1 & N1); [lia|lia|]. unfold hl_add at 1. rewrite E1. cbn [obind]. destruct HE as (E0 & ->). destruct (IH (with_edge (hl_new n) E)) as (h' & E2 & HE' & L2 & N2); [intros; apply Hl; now right|eauto|cbn; cbn in L, L1; lia|].
      exists h'. split; [exact E2|]. split; [auto|]. split; [auto|]. intros v. rewrite N2. cbn [edge with_edge] in *. rewrite N1, <- app_assoc. f_equal. symmetry. apply (nbrs_app [(a, b)] l). }
  destruct (G es (hl_new n) H) as (h & E & HE & L & N); [exists (repeat [] n); auto|apply repeat_length|]. exists h. split; [auto|]. split; [auto|]. split; [auto|]. intros v. rewrite N. cbn [edge hl_new]. destruct (Nat.lt_ge_cases v n); [now rewrite nth_repeat|]. rewrite (nth_overflow (repeat [] n)) by (rewrite repeat_length; auto). auto.
Qed.
Lemma tree_adj n t es h : tree_graph n t es -> length (edge h) = n -> (forall v, nth v (edge h) [] = nbrs es v) -> adj (edge h) None t.
Proof.
  intros (Pv & es' & Pe & F) L N. apply adj_nbrs.
  - apply (Permutation_NoDup (Permutation_sym Pv)), seq_NoDup.
  - intros x Ix. exists (nth x (edge h) []). split; [apply get_nth; rewrite L; apply (Permutation_in _ Pv), in_seq in Ix; lia|]. rewrite N. destruct (x =? root t); cbn [opt app]; (transitivity (nbrs es' x); [symmetry; now apply nbrs_flip|symmetry; now apply nbrs_perm]).
Qed.
Lemma tree_bound n t es : tree_graph n t es -> forall a b, In (a, b) es -> a < n /\ b < n.
Proof.
  intros (Pv & es' & Pe & F) a b I. assert (X : In (a, b) es' \/ In (b, a) es').
  { clear Pe. induction F as [|[x y] f l r Hf F IH]; [destruct I|]. destruct I as [->|I]; [|destruct (IH I); [left|right]; now right]. destruct Hf as [E|E]; cbn [fst snd] in E; injection E as -> ->; [left|right]; now left. }
  assert (In a (verts t) /\ In b (verts t)) as [A B]. { destruct X as [X|X]; apply (Permutation_in _ (Permutation_sym Pe)), edge_verts in X; tauto. }
  apply (Permutation_in _ Pv), in_seq in A. apply (Permutation_in _ Pv), in_seq in B. lia.
Qed.
