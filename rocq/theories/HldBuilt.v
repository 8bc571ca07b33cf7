(** Proofs about [HldModel]: [build], and [lca]. *)
From Verif Require Import Base BaseLemmas ListExtra NthExtra HldModel HldTree HldSz HldDec HldFacts.
Set Implicit Arguments.

Record built (n : nat) (t : tree) (h : hld) : Prop := {
  b_n : hn h = n;
  b_root : hroot h = root t;
  b_verts : forall x, In x (verts t) <-> x < n;
  b_nodup : NoDup (verts t);
  b_in : forall x, x < n -> rd (tin h) x = Some (gv (tin h) x);
  b_out : forall x, x < n -> rd (tout h) x = Some (gv (tout h) x);
  b_head : forall x, x < n -> rd (head h) x = Some (gv (head h) x);
  b_dep : forall x, x < n -> rd (depth h) x = Some (gv (depth h) x);
  b_rev : forall x, x < n -> rd (rvs h) (gv (tin h) x) = Some x;
  b_lt : forall x, x < n -> gv (tin h) x < gv (tout h) x <= n;
  b_par0 : get (par h) (root t) = Some None;
  b_par : forall p x, In (p, x) (tedges t) -> get (par h) x = Some (Some p);
  b_root0 : gv (tin h) (root t) = 0 /\ gv (head h) (root t) = root t /\ gv (depth h) (root t) = 0;
  b_edge : forall p x, In (p, x) (tedges t) -> gv (tin h) p < gv (tin h) x /\
    ((gv (head h) x = gv (head h) p /\ gv (depth h) x = gv (depth h) p /\ gv (tin h) x = S (gv (tin h) p)) \/ (gv (head h) x = x /\ gv (depth h) x = S (gv (depth h) p)));
  b_onto : forall i, i < n -> exists x, x < n /\ gv (tin h) x = i;
  b_anc : forall x y, x < n -> y < n -> (anc t x y <-> gv (tin h) x <= gv (tin h) y < gv (tout h) x);
  b_log : forall x, x < n -> 2 ^ gv (depth h) x * (gv (tout h) x - gv (tin h) x) <= n }.

Lemma anc_equiv t t' : Permutation (tedges t) (tedges t') -> forall x y, anc t x y -> anc t' x y.
Proof. intros P x y A. induction A as [x|x p y A IH E]; [constructor|]. apply anc_step with p; [auto|]. eapply Permutation_in; eauto. Qed.

Lemma good_par E P Sz p t : good E P Sz p t -> get P (root t) = Some p /\ forall q x, In (q, x) (tedges t) -> get P x = Some (Some q).
Proof.
  revert p. induction t as [v cs IH] using tree_ind2. intros p G. inversion G as [? ? ? row Er Fr Hd Gp _ Gc]; subst. split; [auto|]. intros q x Ex. apply fedges_in in Ex as (c & Ic & Ex). destruct (IH c Ic _ (Gc c Ic)) as [K1 K2]. destruct Ex as [[-> ->]|Ex]; auto.
Qed.

(** What [build] establishes, on the tree [t'] reordered by heaviness as well as on [t] *)
Theorem build_ok n t es : tree_graph n t es -> exists h0 h t', hl_graph n es = Some h0 /\ hl_build h0 (root t) = Some h /\ built n t h /\
  equiv t t' /\ good (edge h) (par h) (size h) None t' /\ dec (Arrs (tin h) (tout h) (head h) (rvs h) (depth h) (clen h)) 0 (root t) 0 t' /\ length (edge h) = n.
Proof.
  intros TG. destruct (graph_ok _ (tree_bound TG)) as (h0 & Eg & (E0 & ->) & Le & Hn). exists (with_edge (hl_new n) E0).
  pose proof (tree_adj _ TG Le Hn) as Adj. destruct TG as [Pv _]. cbn [edge with_edge] in *.
  assert (ND : NoDup (verts t)) by (apply (Permutation_NoDup (Permutation_sym Pv)), seq_NoDup).
  assert (Bv : forall x, In x (verts t) <-> x < n). { intros x. split; intros J; [apply (Permutation_in _ Pv), in_seq in J; lia|apply (Permutation_in _ (Permutation_sym Pv)), in_seq; lia]. }
  assert (Ts : tsize t = n) by (unfold tsize; rewrite (Permutation_length Pv), seq_length; auto).
  destruct (@dfs_sz_ok n t (S n) None E0 (repeat None n) (repeat 0 n)) as (E & P & Sz & t' & Es & (L1 & L2 & L3) & G & (Rt & Pv' & Pe) & _).
  { pose proof (height_le t). lia. } { exact Adj. } { exact ND. } { intros; apply Bv; auto. } { split; [auto|]. rewrite !repeat_length. auto. } { discriminate. }
  assert (ND' : NoDup (verts t')) by (apply (Permutation_NoDup Pv'); auto). assert (Bv' : forall x, In x (verts t') <-> x < n). { intros x. rewrite <- Bv. split; apply Permutation_in; [now symmetry|auto]. }
  assert (Ts' : tsize t' = n) by (rewrite <- Ts; symmetry; apply (Permutation_length Pv')).
  assert (Hr : root t < n) by (apply Bv, root_in).
  unfold hl_build. cbn [hn edge par size head depth tin tout rvs clen with_edge hl_new]. rewrite Es. cbn [obind]. rewrite !set_some by (rewrite repeat_length; auto). cbn [obind].
  match goal with |- context [dfs_hld _ _ _ _ (0, ?x)] => set (a0 := x) end.
  destruct (@dfs_hld_ok n E P Sz t' (S n) None 0 (root t) 0 a0) as (a & Eh & (M1 & M2 & M3 & M4 & M5 & M6) & Da & _).
  { pose proof (height_le t'). lia. } { exact G. } { auto. } { intros; apply Bv'; auto. } { unfold alens, a0. cbn. rewrite !lset_length, !repeat_length. auto 10. }
  { unfold a0. cbn. rewrite Rt. apply get_lset_eq. rewrite repeat_length. auto. } { unfold a0. cbn. rewrite Rt. apply get_lset_eq. rewrite repeat_length. auto. } { lia. }
  rewrite Rt in Eh. cbn [Nat.add] in *. rewrite Eh. cbn [obind]. eexists. exists t'. split; [auto|]. split; [reflexivity|]. split; [|split; [split; auto|split; [exact G|split; [destruct a; exact Da|exact L1]]]].
  pose proof (dec_node Da) as Nd. destruct (dec_root Da) as (R1 & R2 & R3 & R4). rewrite Rt in R1, R2, R3, R4. destruct (good_par G) as [Gp1 Gp2]. rewrite Rt in Gp1.
  assert (rdg : forall l x v, get l x = Some (Some v) -> rd l x = Some v) by (intros l x v Ex; unfold rd; rewrite Ex; auto).
  constructor; cbn [hn hroot edge size tin tout head rvs par depth clen]; auto.
  - intros x Hx. apply rdg. apply Bv', Nd in Hx as [[] _]; auto.
  - intros x Hx. apply rdg. apply Bv', Nd in Hx as [[] _]; auto.
  - intros x Hx. apply rdg. apply Bv', Nd in Hx as [[] _]; auto.
  - intros x Hx. apply rdg. apply Bv', Nd in Hx as [[] _]; auto.
  - intros x Hx. apply rdg. apply Bv', Nd in Hx as [[] _]; auto.
  - intros x Hx. apply Bv', Nd in Hx as (_ & _ & Hx & _). lia.
  - intros p x Ex. apply Gp2. eapply Permutation_in; eauto.
  - intros p x Ex. apply (dec_edge Da). eapply Permutation_in; eauto.
  - intros i Hi. destruct (dec_onto Da (i := i)) as (x & Ix & Ex); [lia|]. exists x. split; [now apply Bv'|auto].
  - intros x y Hx Hy. rewrite <- (dec_anc Da ND') by (apply Bv'; auto). split; apply anc_equiv; [auto|now symmetry].
  - intros x Hx. rewrite <- Ts'. apply Bv' in Hx. pose proof (dec_log G Da x Hx) as J. rewrite Nat.sub_0_r in J. exact J.
Qed.
