(** Proofs about [HldModel]: climbing the chains; [lca], [query] and [update]. *)
From Verif Require Import Base BaseLemmas ListExtra NthExtra HldModel HldTree HldSz HldDec HldFacts HldBuilt.
Set Implicit Arguments.

Arguments b_edge {n t h} _ {p x} _.
Arguments b_par {n t h} _ {p x} _.
Arguments edge_parent {t p q x} _ _ _.
(** [l] is the list of vertices met going up from [x] until just before [y]. *)
Inductive up (t : tree) : nat -> list nat -> nat -> Prop :=
  | up_nil x : up t x [] x
  | up_cons x p l y : In (p, x) (tedges t) -> up t p l y -> up t x (x :: l) y.
Lemma up_app t x l y m z : up t x l y -> up t y m z -> up t x (l ++ m) z.
Proof. intros A B. induction A as [x|x p l y E A IH]; [auto|]. cbn [app]. apply up_cons with p; auto. Qed.
Lemma up_anc t x l y : up t x l y -> anc t y x /\ forall c, In c l -> anc t c x.
Proof.
  intros A. induction A as [x|x p l y E A [IH1 IH2]]; [split; [constructor|intros ? []]|]. split; [apply anc_step with p; auto|]. intros c [<-|J]; [constructor|apply anc_step with p; auto].
Qed.

Section Climb.
Variables (n : nat) (t : tree) (h : hld).
Hypothesis B : built n t h.
Notation I := (gv (tin h)). Notation O := (gv (tout h)). Notation H := (gv (head h)). Notation D := (gv (depth h)).
Notation V := (gv (rvs h)). Notation es := (tedges t). Notation r := (root t).

Lemma e_lt p x : In (p, x) es -> p < n /\ x < n.
Proof. intros E. destruct (edge_verts _ _ _ E). split; now apply (b_verts B). Qed.
Arguments e_lt {p x} _.
Lemma r_lt : r < n. Proof. apply (b_verts B), root_in. Qed.
Lemma v_in x : x < n -> V (I x) = x.
Proof. intros Hx. pose proof (b_rev B Hx) as E. unfold rd in E. unfold gv at 1. destruct (get (rvs h) (I x)); cbn [obind] in E; [|discriminate]. now subst. Qed.
Lemma in_inj x y : x < n -> y < n -> I x = I y -> x = y.
Proof. intros Hx Hy E. rewrite <- (v_in Hx), <- (v_in Hy), E. auto. Qed.
Lemma i_lt x : x < n -> I x < n. Proof. intros Hx. pose proof (b_lt B Hx). lia. Qed.
Lemma parent x : x < n -> x = r \/ exists p, In (p, x) es.
Proof. intros Hx. apply edge_exists, (b_verts B); auto. Qed.
Lemma anc_back x y : anc t x y -> y < n -> x < n.
Proof. intros A. induction A as [x|x p y A IH E]; [auto|]. intros _. apply IH. now apply (e_lt E). Qed.
Lemma anc_r x : x < n -> anc t r x. Proof. intros Hx. apply anc_root, (b_verts B); auto. Qed.
Lemma anc_le x y : anc t x y -> I x <= I y.
Proof. intros A. induction A as [x|x p y A IH E]; [auto|]. pose proof (b_edge B E) as [? _]. lia. Qed.
Lemma anc_dep x y : anc t x y -> D x <= D y /\ (D x = D y -> H x = H y).
Proof.
  intros A. induction A as [x|x p y A [IH1 IH2] E]; [auto|]. destruct (b_edge B E) as [_ [(E1 & E2 & E3)|[E1 E2]]]; [rewrite E1, E2; auto|split; lia].
Qed.
Lemma anc_anti x y : x < n -> y < n -> anc t x y -> anc t y x -> x = y.
Proof. intros Hx Hy A1 A2. apply in_inj; auto. apply anc_le in A1, A2. lia. Qed.
Lemma head_ok x : x < n -> H x < n /\ anc t (H x) x /\ H (H x) = H x /\ D (H x) = D x.
Proof.
  intros Hx. pose proof (anc_r Hx) as A. remember r as y eqn:Ey. induction A as [x|x p y A IH E]; subst.
  - destruct (b_root0 B) as (_ & R1 & R2). rewrite R1. pose proof r_lt. auto using anc_refl.
  - destruct (e_lt E) as [Hp _]. destruct (IH Hp eq_refl) as (K1 & K2 & K3 & K4). destruct (b_edge B E) as [_ [(E1 & E2 & E3)|[E1 E2]]].
    + rewrite E1, E2. split; [auto|]. split; [apply anc_step with p; auto|auto].
    + rewrite E1. rewrite !E1. auto using anc_refl.
Qed.
Lemma dep0 x : x < n -> D x = 0 -> H x = r.
Proof. intros Hx E. destruct (anc_dep (anc_r Hx)) as [_ A]. destruct (b_root0 B) as (_ & R1 & R2). rewrite <- A; congruence. Qed.
Lemma dep_lt x : x < n -> D x < n.
Proof. intros Hx. pose proof (b_log B Hx). pose proof (b_lt B Hx). assert (D x < 2 ^ D x) by (apply Nat.pow_gt_lin_r; lia). nia. Qed.
Lemma jump x : x < n -> 0 < D x -> exists q, In (q, H x) es /\ S (D q) = D x.
Proof.
  intros Hx Dx. destruct (head_ok Hx) as (K1 & K2 & K3 & K4). destruct (parent K1) as [E|(q & E)].
  - destruct (b_root0 B) as (_ & _ & R2). rewrite <- E, K4 in R2. lia.
  - exists q. split; [auto|]. destruct (b_edge B E) as [_ [(E1 & E2 & E3)|[E1 E2]]]; [|lia]. destruct (e_lt E) as [Hq _]. destruct (head_ok Hq) as (_ & A & _ & _). apply anc_le in A. rewrite <- E1, K3 in A. lia.
Qed.
Lemma anc_jump c x q : x < n -> anc t c x -> D c < D x -> In (q, H x) es -> anc t c q.
Proof.
  intros Hx A Hd Eq. induction A as [x|c p x A IH E]; [lia|]. destruct (b_edge B E) as [_ [(E1 & E2 & E3)|[E1 E2]]].
  - rewrite E1, E2 in *. apply IH; auto. now apply (e_lt E).
  - rewrite E1 in Eq. now rewrite (edge_parent (b_nodup B) Eq E).
Qed.

Definition seg (i j : nat) : list nat := map V (seq i (j - i)).
Lemma seg_snoc i j : i <= j -> seg i (S j) = seg i j ++ [V j].
Proof. intros Hi. unfold seg. replace (S j - i) with (S (j - i)) by lia. rewrite seq_S, map_app. cbn [map]. do 3 f_equal. lia. Qed.
Lemma seg_cons i j : i < j -> seg i j = V i :: seg (S i) j.
Proof. intros Hi. unfold seg. replace (j - i) with (S (j - S i)) by lia. reflexivity. Qed.
Lemma chain : forall d x y, I y - I x = d -> x < n -> y < n -> H x = H y -> I x <= I y -> up t y (rev (seg (S (I x)) (S (I y)))) x.
Proof.
  induction d as [|d IH]; intros x y Ed Hx Hy EH Hi.
  - assert (x = y) as -> by (apply in_inj; auto; lia). unfold seg. rewrite Nat.sub_diag. constructor.
  - destruct (head_ok Hx) as (K1 & K2 & K3 & K4). apply anc_le in K2. assert (Ny : H y <> y) by (intros E; rewrite EH, E in K2; lia).
    destruct (parent Hy) as [->|(p & E)]; [destruct (b_root0 B) as (_ & R & _); congruence|]. destruct (b_edge B E) as [_ [(E1 & E2 & E3)|[E1 E2]]]; [|congruence]. destruct (e_lt E) as [Hp _].
    rewrite seg_snoc by lia. rewrite rev_app_distr. cbn [rev app]. rewrite (v_in Hy). apply up_cons with p; [auto|]. rewrite E3. apply (IH x p); auto; [lia|congruence|lia].
Qed.
Definition piece (x : nat) : list nat := seg (I (H x)) (S (I x)).
Lemma up_jump x q : x < n -> In (q, H x) es -> up t x (rev (piece x)) q.
Proof.
  intros Hx E. destruct (head_ok Hx) as (K1 & K2 & K3 & K4). pose proof (anc_le K2). unfold piece. rewrite seg_cons by lia. cbn [rev]. eapply up_app; [apply (chain eq_refl); auto|]. rewrite (v_in K1). apply up_cons with q; [auto|constructor].
Qed.

(** Both ends climbing, [u0] towards [u] over [l] and [v0] towards [v] over [m], without
    passing a common ancestor *)
Record climb (u0 v0 u v : nat) (l m : list nat) : Prop := {
  c_u : u < n; c_v : v < n; c_l : up t u0 l u; c_m : up t v0 m v;
  c_anc : forall c, anc t c u0 -> anc t c v0 -> anc t c u /\ anc t c v }.
Lemma climb_sym u0 v0 u v l m : climb u0 v0 u v l m -> climb v0 u0 v u m l.
Proof. intros [C1 C2 C3 C4 C5]. split; auto. intros c A1 A2. destruct (C5 c A2 A1). auto. Qed.
Lemma climb_start u v : u < n -> v < n -> climb u v u v [] [].
Proof. intros. split; auto using up_nil. Qed.
Lemma climb_left u0 v0 u v l m : climb u0 v0 u v l m -> D v < D u \/ (D u = D v /\ H u <> H v) ->
  exists q, get (par h) (H u) = Some (Some q) /\ S (D q) = D u /\ climb u0 v0 q v (l ++ rev (piece u)) m.
Proof.
  intros [C1 C2 C3 C4 C5] Hd. assert (Du : 0 < D u). { destruct Hd as [Hd|[Hd Hn]]; [lia|]. destruct (D u) eqn:E; [|lia]. rewrite (dep0 C1 E) in Hn. rewrite (dep0 C2) in Hn by auto. congruence. }
  destruct (jump C1 Du) as (q & E & Eq). exists q. split; [apply (b_par B E)|]. split; [auto|]. split; [apply (e_lt E)|auto|eapply up_app; [eauto|apply up_jump; auto]|auto|].
  intros c A1 A2. destruct (C5 c A1 A2) as [A3 A4]. split; [|auto]. apply (@anc_jump c u q); auto. destruct (anc_dep A3) as [L1 L2], (anc_dep A4) as [L3 L4]. destruct Hd as [Hd|[Hd Hn]]; [lia|]. destruct (Nat.eq_dec (D c) (D u)); [|lia]. rewrite <- L2, <- L4 in Hn by congruence. congruence.
Qed.
Lemma climb_right u0 v0 u v l m : climb u0 v0 u v l m -> D u < D v \/ (D v = D u /\ H v <> H u) ->
  exists q, get (par h) (H v) = Some (Some q) /\ S (D q) = D v /\ climb u0 v0 u q l (m ++ rev (piece v)).
Proof. intros C Hd. destruct (climb_left (climb_sym C) Hd) as (q & E1 & E2 & E3). exists q. split; [auto|]. split; [auto|]. now apply climb_sym. Qed.
Lemma up_below x l y : x < n -> up t x l y -> forall c, In c l -> c < n /\ I y < I c <= I x.
Proof.
  intros Hx A. induction A as [x|x p l y E A IH]; [intros ? []|]. destruct (e_lt E) as [Hp _]. destruct (b_edge B E) as [Ip _]. destruct (up_anc A) as [Ay _]. apply anc_le in Ay. intros c [<-|J]; [lia|]. specialize (IH Hp c J). lia.
Qed.
Lemma up_nodup x l y : x < n -> up t x l y -> NoDup l.
Proof.
  intros Hx A. induction A as [x|x p l y E A IH]; [constructor|]. destruct (e_lt E) as [Hp _]. destruct (b_edge B E) as [Ip _]. constructor; [|auto]. intros J. pose proof (up_below Hp A _ J). lia.
Qed.

(** ** From two ascents to a simple path *)
Lemma walk_cons e x y p z : adjacent e x y -> walk e y p z -> walk e x (x :: p) z.
Proof. intros A W. destruct p as [|q p]; [destruct W|]. assert (y = q) as <- by (destruct p; apply W). cbn [walk]. auto. Qed.
Lemma walk_app e p : forall x y q z, walk e x p y -> walk e y q z -> walk e x (p ++ tl q) z.
Proof.
  induction p as [|a p IH]; intros x y q z W1 W2; [destruct W1|]. destruct p as [|b p].
  - destruct W1 as [-> ->]. destruct q as [|c q]; [destruct W2|]. assert (y = c) as <- by (destruct q; apply W2). exact W2.
  - destruct W1 as (-> & A & W1). cbn [app]. apply walk_cons with b; [auto|]. apply (IH _ y q z); auto.
Qed.
Lemma up_walk x l y : up t x l y -> walk es x (l ++ [y]) y.
Proof. intros A. induction A as [x|x p l y E A IH]; [cbn; auto|]. cbn [app]. apply walk_cons with p; [right; auto|auto]. Qed.
Lemma down_walk x l y : up t x l y -> walk es y (y :: rev l) x.
Proof.
  intros A. induction A as [x|x p l y E A IH]; [cbn; auto|]. cbn [rev]. change (y :: rev l ++ [x]) with ((y :: rev l) ++ tl [p; x]). apply walk_app with p; [auto|]. cbn. split; [auto|]. split; [left; auto|auto].
Qed.
Lemma path_of u v w l m : u < n -> v < n -> up t u l w -> up t v m w -> is_lca t u v w -> is_path es u v (l ++ w :: rev m).
Proof.
  intros Hu Hv A1 A2 (L1 & L2 & L3). split.
  - pose proof (@walk_app _ _ _ _ _ _ (up_walk A1) (down_walk A2)) as W. cbn [tl] in W. rewrite <- app_assoc in W. exact W.
  - apply NoDup_app_iff. split; [apply (up_nodup Hu A1)|]. split.
    + constructor; [|apply NoDup_rev, (up_nodup Hv A2)]. intros J. apply in_rev in J. pose proof (up_below Hv A2 _ J). lia.
    + intros c J1 [<-|J2]; [pose proof (up_below Hu A1 _ J1); lia|]. apply in_rev in J2. destruct (up_anc A1) as [_ K1], (up_anc A2) as [_ K2]. pose proof (anc_le (L3 c (K1 c J1) (K2 c J2))). pose proof (up_below Hu A1 _ J1). lia.
Qed.
Lemma climb_end u0 v0 u v l m : climb u0 v0 u v l m -> H u = H v -> I u <= I v -> is_lca t u0 v0 u /\ up t u0 l u /\ up t v0 (m ++ rev (seg (S (I u)) (S (I v)))) u.
Proof.
  intros [C1 C2 C3 C4 C5] EH Hi. pose proof (chain eq_refl C1 C2 EH Hi) as Ch. pose proof (up_app C4 Ch) as U2. split; [|split; auto]. split; [exact (proj1 (up_anc C3))|]. split; [exact (proj1 (up_anc U2))|]. intros c A1 A2. now apply C5.
Qed.

(** ** lca *)
Lemma rd_par x : x < n -> par_head h x = get (par h) (H x).
Proof. intros Hx. unfold par_head. now rewrite (b_head B Hx). Qed.
Lemma lca_ok a b : a < n -> b < n -> exists w, hl_lca h a b = Some w /\ is_lca t a b w.
Proof.
  intros Ha Hb. unfold hl_lca. rewrite (b_dep B Ha), (b_dep B Hb). cbn [obind].
  assert (X : forall a b, a < n -> b < n -> D a <= D b -> exists w,
    (let* b := loop (S (hn h)) (fun b => let* da := rd (depth h) a in let* db := rd (depth h) b in
       if da <? db then let* b := par_head h b in let* b := b in Some (inl b) else Some (inr b)) b in
     let* (a, b) := loop (S (hn h)) (fun '(a, b) => let* ha := rd (head h) a in let* hb := rd (head h) b in
       if ha =? hb then Some (inr (a, b)) else let* a := par_head h a in let* a := a in let* b := par_head h b in let* b := b in Some (inl (a, b))) (a, b) in
     let* ia := rd (tin h) a in let* ib := rd (tin h) b in Some (if ia <? ib then a else b)) = Some w /\ is_lca t a b w).
  { clear a b Ha Hb. intros a b Ha Hb Hd.
    match goal with |- context [loop _ ?bd b] => set (body := bd) end.
    destruct (@loop_rule _ _ (fun x => D a <= D x /\ exists m, climb a b a x [] m) D (fun x => D x = D a /\ exists m, climb a b a x [] m) body) with (fuel := S (hn h)) (s := b) as (b' & E & Db & m & C).
    { intros x (Dx & m & C). pose proof (c_v C) as Hx. unfold body. rewrite (b_dep B Ha), (b_dep B Hx). cbn [obind]. destruct (Nat.ltb_spec (D a) (D x)).
      - destruct (climb_right C) as (q & E1 & E2 & E3); [auto|]. rewrite (rd_par Hx), E1. cbn [obind]. eexists. split; [reflexivity|]. cbn. split; [|lia]. split; [lia|eauto].
      - eexists. split; [reflexivity|]. cbn. split; [lia|eauto]. }
    { split; [auto|]. eexists. apply climb_start; auto. } { rewrite (b_n B). pose proof (dep_lt Hb). lia. }
    rewrite E. cbn [obind]. clear E body. match goal with |- context [loop _ ?bd (a, b')] => set (body := bd) end.
    destruct (@loop_rule _ _ (fun '(x, y) => D x = D y /\ exists l m, climb a b x y l m) (fun '(x, y) => D x) (fun '(x, y) => H x = H y /\ exists l m, climb a b x y l m) body) with (fuel := S (hn h)) (s := (a, b')) as ([a1 b1] & E & EH & l & m' & C').
    { intros [x y] (Dx & l & m' & C'). pose proof (c_u C') as Hx. pose proof (c_v C') as Hy. unfold body. rewrite (b_head B Hx), (b_head B Hy). cbn [obind]. destruct (Nat.eqb_spec (H x) (H y)).
      - eexists. split; [reflexivity|]. cbn. split; eauto.
      - destruct (climb_left C') as (q & E1 & E2 & E3); [auto|]. destruct (climb_right E3) as (q' & F1 & F2 & F3); [left; lia|]. rewrite (rd_par Hx), E1. cbn [obind]. rewrite (rd_par Hy), F1. cbn [obind]. eexists. split; [reflexivity|]. cbn. split; [|lia]. split; [lia|eauto]. }
    { split; [auto|eauto]. } { rewrite (b_n B). pose proof (dep_lt Ha). lia. }
    rewrite E. cbn [obind]. rewrite (b_in B (c_u C')), (b_in B (c_v C')). cbn [obind]. eexists. split; [reflexivity|]. destruct (Nat.ltb_spec (I a1) (I b1)).
    - apply (climb_end C' EH). lia.
    - destruct (climb_end (climb_sym C') (eq_sym EH)) as ((K1 & K2 & K3) & _); [lia|]. split; [auto|]. split; auto. }
  destruct (Nat.ltb_spec (D b) (D a)).
  - destruct (X b a Hb Ha) as (w & E & K1 & K2 & K3); [lia|]. exists w. split; [exact E|]. split; [auto|]. split; auto.
  - destruct (X a b Ha Hb) as (w & E & K); [lia|]. eauto.
Qed.
End Climb.
