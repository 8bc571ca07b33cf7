(** Proofs about [HldModel]: simple paths of a tree are unique; [query] and [update]. *)
From Verif Require Import Base BaseLemmas ListExtra NthExtra HldModel HldTree HldSz HldDec HldFacts HldBuilt HldPath.
Set Implicit Arguments.

Section Uniq.
Variables (n : nat) (t : tree) (h : hld).
Hypothesis B : built n t h.
Notation I := (gv (tin h)). Notation es := (tedges t).

Lemma anc_inv c y p : anc t c y -> In (p, y) es -> c = y \/ anc t c p.
Proof. intros A E. destruct A as [y|c q y A E']; [auto|]. right. now rewrite (edge_parent (b_nodup B) E E'). Qed.
Arguments anc_inv {c y p} _ _.
Lemma anc_linear a v : anc t a v -> forall b, anc t b v -> anc t a b \/ anc t b a.
Proof.
  intros A. induction A as [v|a p v A IH E]; intros b Bv; [auto|]. destruct (anc_inv Bv E) as [->|Bp]; [left; apply anc_step with p; auto|auto].
Qed.
Lemma walk_hd e x a p y : walk e x (a :: p) y -> x = a. Proof. destruct p; cbn; intros W; apply W. Qed.
Lemma walk_last e p : forall x y, walk e x p y -> In y p.
Proof.
  induction p as [|a p IH]; intros x y W; [destruct W|]. destruct p as [|b p]; [destruct W as [_ ->]; now left|]. destruct W as (_ & _ & W). right. eapply IH; eauto.
Qed.
Lemma stay_in u z p : In (u, z) es -> forall x y, walk es x p y -> ~ In u p -> anc t z x -> anc t z y.
Proof.
  intros E. induction p as [|a p IH]; intros x y W N A; [destruct W|]. destruct p as [|b p]; [destruct W as [<- <-]; auto|]. destruct W as (<- & Ad & W). apply (IH b y W); [intros J; apply N; now right|]. destruct Ad as [Ad|Ad]; [apply anc_step with x; auto|].
  destruct (anc_inv A Ad) as [->|Ab]; [|auto]. exfalso. apply N. right. left. apply (edge_parent (b_nodup B) Ad E).
Qed.
Lemma stay_out u p : forall x y, walk es x p y -> ~ In u p -> ~ anc t u x -> ~ anc t u y.
Proof.
  induction p as [|a p IH]; intros x y W N A; [destruct W|]. destruct p as [|b p]; [destruct W as [<- <-]; auto|]. destruct W as (<- & Ad & W). apply (IH b y W); [intros J; apply N; now right|]. intros Ab. destruct Ad as [Ad|Ad].
  - destruct (anc_inv Ab Ad) as [->|Ax]; [apply N; right; now left|auto].
  - apply A. apply anc_step with b; auto.
Qed.
Lemma path_uniq p : forall q u v, is_path es u v p -> is_path es u v q -> p = q.
Proof.
  induction p as [|a p IH]; intros q u v [W1 N1] [W2 N2]; [destruct W1|]. destruct q as [|a' q]; [destruct W2|]. assert (u = a) as <- by (eapply walk_hd; eauto). assert (u = a') as <- by (eapply walk_hd; eauto). inversion_clear N1 as [|? ? P1 P2]. inversion_clear N2 as [|? ? Q1 Q2].
  destruct p as [|z p], q as [|z' q].
  - auto.
  - destruct W1 as [_ <-]. destruct W2 as (_ & _ & W2). exfalso. apply Q1. eapply walk_last; eauto.
  - destruct W2 as [_ <-]. destruct W1 as (_ & _ & W1). exfalso. apply P1. eapply walk_last; eauto.
  - destruct W1 as (_ & A1 & W1). destruct W2 as (_ & A2 & W2). enough (z = z') as <- by (f_equal; apply (IH _ z v); split; auto).
    assert (Dn : forall z p, In (u, z) es -> walk es z p v -> ~ In u p -> anc t z v) by (intros; eapply stay_in; eauto using anc_refl).
    assert (Up : forall z p, In (z, u) es -> walk es z p v -> ~ In u p -> ~ anc t u v). { intros x l E W N. eapply stay_out; eauto. intros A. apply (anc_le B) in A. destruct (b_edge B E). lia. }
    destruct A1 as [A1|A1], A2 as [A2|A2].
    + pose proof (Dn _ _ A1 W1 P1) as Z1. pose proof (Dn _ _ A2 W2 Q1) as Z2. destruct (b_edge B A1) as [L1 _]. destruct (b_edge B A2) as [L2 _]. destruct (anc_linear Z1 Z2) as [X|X]; [destruct (anc_inv X A2) as [Y|Y]|destruct (anc_inv X A1) as [Y|Y]]; auto; apply (anc_le B) in Y; lia.
    + exfalso. apply (Up _ _ A2 W2 Q1). apply anc_trans with z; [apply anc_step with u; auto using anc_refl|eauto].
    + exfalso. apply (Up _ _ A1 W1 P1). apply anc_trans with z'; [apply anc_step with u; auto using anc_refl|eauto].
    + apply (edge_parent (b_nodup B) A1 A2).
Qed.
End Uniq.

Section Query.
Variables (n : nat) (t : tree) (h : hld).
Hypothesis B : built n t h.
Notation I := (gv (tin h)). Notation O := (gv (tout h)). Notation H := (gv (head h)). Notation D := (gv (depth h)).
Notation es := (tedges t).

Lemma in_v i : i < n -> I (gv (rvs h) i) = i.
Proof. intros Hi. destruct (b_onto B Hi) as (x & Hx & <-). now rewrite (v_in B Hx). Qed.
Lemma head_le x : x < n -> I (H x) <= I x < n.
Proof. intros Hx. destruct (head_ok B Hx) as (_ & A & _). apply (anc_le B) in A. pose proof (i_lt B Hx). lia. Qed.

Variables (T : Type) (mul : T -> T -> T) (one : T) (Q RQ : nat -> nat -> option T) (arr : list T).
Hypothesis M : monoid_laws mul one.
Hypothesis L : length arr = n.
Hypothesis HQ : forall l r, l <= r -> r <= n -> Q l r = Some (product mul one (slice l r arr)).
Hypothesis HRQ : forall l r, l <= r -> r <= n -> RQ l r = Some (product mul one (rev (slice l r arr))).
Definition val (x : nat) : T := nth (I x) arr one.
Notation prod l := (product mul one (map val l)).

Lemma seg_slice l r : l <= r -> r <= n -> slice l r arr = map val (seg h l r).
Proof.
  intros H1 H2. apply get_ext_len. - rewrite map_length. unfold seg. rewrite map_length, seq_length. apply slice_length; lia.
  - intros i Hi. rewrite slice_length in Hi by lia. rewrite get_slice by lia. unfold seg. rewrite map_map, get_map, get_seq by lia. cbn [option_map]. unfold val. rewrite in_v by lia. apply get_nth. lia.
Qed.
Lemma u_up_ok u um q : u < n -> get (par h) (H u) = Some (Some q) -> u_up mul RQ h u um = Some (q, mul um (prod (rev (piece h u)))).
Proof.
  intros Hu E. pose proof (head_le Hu) as Hl. destruct (head_ok B Hu) as (Hh & _). unfold u_up. rewrite (b_head B Hu). cbn [obind]. rewrite (b_in B Hh), (b_in B Hu). cbn [obind]. rewrite HRQ by lia. cbn [obind]. rewrite E. cbn [obind]. rewrite Nat.add_1_r, seg_slice by lia. rewrite map_rev. reflexivity.
Qed.
Lemma v_up_ok u um q : u < n -> get (par h) (H u) = Some (Some q) -> v_up mul Q h u um = Some (q, mul (prod (piece h u)) um).
Proof.
  intros Hu E. pose proof (head_le Hu) as Hl. destruct (head_ok B Hu) as (Hh & _). unfold v_up. rewrite (b_head B Hu). cbn [obind]. rewrite (b_in B Hh), (b_in B Hu). cbn [obind]. rewrite HQ by lia. cbn [obind]. rewrite E. cbn [obind]. rewrite Nat.add_1_r, seg_slice by lia. reflexivity.
Qed.
Lemma prod_app a b : mul (prod a) (prod b) = prod (a ++ b). Proof. rewrite map_app, (product_app M). auto. Qed.

Lemma query_ok u0 v0 inc : u0 < n -> v0 < n -> exists l w m, is_path es u0 v0 (l ++ w :: m) /\ is_lca t u0 v0 w /\
  hl_query mul one Q RQ h u0 v0 inc = Some (prod (l ++ (if inc then [w] else []) ++ m)).
Proof.
  intros Hu Hv. unfold hl_query.
  match goal with |- context [loop _ ?bd (u0, one)] => set (body := bd) end.
  destruct (@loop_rule _ _ (fun '(u, um) => exists l, climb n t u0 v0 u v0 l [] /\ um = prod l) (fun '(u, um) => D u) (fun '(u, um) => D u <= D v0 /\ exists l, climb n t u0 v0 u v0 l [] /\ um = prod l) body) with (fuel := S (hn h)) (s := (u0, one)) as ([u um] & E & Hd & l & C & ->).
  { intros [u um] (l & C & ->). pose proof (c_u C) as Hx. unfold body. rewrite (b_dep B Hx), (b_dep B Hv). cbn [obind]. destruct (Nat.ltb_spec (D v0) (D u)); [|eexists; split; [reflexivity|]; cbn; split; [lia|eauto]].
    destruct (climb_left B C) as (q & E1 & E2 & E3); [auto|]. rewrite (u_up_ok _ Hx E1). cbn [obind]. eexists. split; [reflexivity|]. cbn. split; [|lia]. eexists. split; [exact E3|]. apply prod_app. }
  { exists []. split; [apply (climb_start _ Hu Hv)|reflexivity]. } { rewrite (b_n B). pose proof (dep_lt B Hu). lia. }
  rewrite E. cbn [obind]. clear E body. match goal with |- context [loop _ ?bd (v0, one)] => set (body := bd) end.
  destruct (@loop_rule _ _ (fun '(v, vm) => D u <= D v /\ exists m, climb n t u0 v0 u v l m /\ vm = prod (rev m)) (fun '(v, vm) => D v) (fun '(v, vm) => D u = D v /\ exists m, climb n t u0 v0 u v l m /\ vm = prod (rev m)) body) with (fuel := S (hn h)) (s := (v0, one)) as ([v vm] & E & Hd' & m & C' & ->).
  { intros [v vm] (Hdv & m & C' & ->). pose proof (c_v C') as Hx. unfold body. rewrite (b_dep B Hx), (b_dep B (c_u C)). cbn [obind]. destruct (Nat.ltb_spec (D u) (D v)); [|eexists; split; [reflexivity|]; cbn; split; [lia|eauto]].
    destruct (climb_right B C') as (q & E1 & E2 & E3); [auto|]. rewrite (v_up_ok _ Hx E1). cbn [obind]. eexists. split; [reflexivity|]. cbn. split; [|lia]. split; [lia|]. eexists. split; [exact E3|]. rewrite rev_app_distr, rev_involutive. apply prod_app. }
  { split; [auto|]. exists []. split; [auto|reflexivity]. } { rewrite (b_n B). pose proof (dep_lt B Hv). lia. }
  rewrite E. cbn [obind]. clear E body Hd. match goal with |- context [loop _ ?bd (u, _, v, _)] => set (body := bd) end.
  destruct (@loop_rule _ _ (fun '(u, um, v, vm) => D u = D v /\ exists l m, climb n t u0 v0 u v l m /\ um = prod l /\ vm = prod (rev m)) (fun '(u, um, v, vm) => D v) (fun '(u, um, v, vm) => H u = H v /\ exists l m, climb n t u0 v0 u v l m /\ um = prod l /\ vm = prod (rev m)) body)
    with (fuel := S (hn h)) (s := (u, prod l, v, prod (rev m))) as ([[[x xm] y] ym] & E & EH & l' & m' & C'' & -> & ->).
  { intros [[[x xm] y] ym] (Dx & l' & m' & C'' & -> & ->). pose proof (c_u C'') as Hx. pose proof (c_v C'') as Hy. unfold body. rewrite (b_head B Hx), (b_head B Hy). cbn [obind]. destruct (Nat.eqb_spec (H x) (H y)); [eexists; split; [reflexivity|]; cbn; split; eauto|].
    destruct (climb_left B C'') as (q & E1 & E2 & E3); [auto|]. destruct (climb_right B E3) as (q' & F1 & F2 & F3); [left; lia|]. rewrite (u_up_ok _ Hx E1). cbn [obind]. rewrite (v_up_ok _ Hy F1). cbn [obind]. eexists. split; [reflexivity|]. cbn [fst]. split; [|lia]. split; [lia|]. eexists. eexists. split; [exact F3|]. split; [apply prod_app|]. rewrite rev_app_distr, rev_involutive. apply prod_app. }
  { split; [auto|]. eauto. } { rewrite (b_n B). pose proof (dep_lt B (c_v C')). lia. }
  rewrite E. cbn [obind]. pose proof (c_u C'') as Hx. pose proof (c_v C'') as Hy. rewrite (b_in B Hx), (b_in B Hy). cbn [obind]. pose proof (i_lt B Hx). pose proof (i_lt B Hy). destruct (Nat.ltb_spec (I x) (I y)).
  - destruct (climb_end B C'' EH) as (Lc & U1 & U2); [lia|]. exists l', x, (rev (m' ++ rev (seg h (S (I x)) (S (I y))))). split; [apply (path_of B Hu Hv); auto|]. split; [auto|].
    rewrite HQ by (destruct inc; lia). cbn [obind]. rewrite seg_slice by (destruct inc; lia). rewrite !prod_app. do 2 f_equal. rewrite rev_app_distr, rev_involutive, <- app_assoc. do 2 f_equal. rewrite !Nat.add_1_r. destruct inc; [|reflexivity]. rewrite seg_cons by lia. rewrite (v_in B Hx). auto.
  - destruct (climb_end B (climb_sym C'') (eq_sym EH)) as ((Lc1 & Lc2 & Lc3) & U1 & U2); [lia|]. exists (l' ++ rev (seg h (S (I y)) (S (I x)))), y, (rev m'). assert (Lc : is_lca t u0 v0 y) by (split; [auto|split; auto]). split; [apply (path_of B Hu Hv); auto|]. split; [auto|].
    rewrite HRQ by (destruct inc; lia). cbn [obind]. rewrite seg_slice by (destruct inc; lia). rewrite <- map_rev, !prod_app. do 2 f_equal. rewrite <- !app_assoc. f_equal. rewrite !Nat.add_1_r. destruct inc; [|reflexivity]. rewrite seg_cons by lia. rewrite (v_in B Hy). cbn [rev]. rewrite <- !app_assoc. auto.
Qed.
End Query.
