(** * C44: heavy-light decomposition *)
From Verif Require Import Base BaseLemmas ListExtra NthExtra HldModel HldTree HldSz HldDec HldFacts HldBuilt HldPath HldQuery HldUpd HldSub.
Set Implicit Arguments.

(** [h] is the object after [Hld(n)], [add_edge] on every edge and [build(root)]. *)
Definition built_from (n : nat) (t : tree) (es : list (nat * nat)) (h : hld) : Prop :=
  exists h0, hl_graph n es = Some h0 /\ hl_build h0 (root t) = Some h.

Lemma from_built n t es h : tree_graph n t es -> built_from n t es h -> built n t h /\ exists t',
  equiv t t' /\ good (edge h) (par h) (size h) None t' /\ dec (Arrs (tin h) (tout h) (head h) (rvs h) (depth h) (clen h)) 0 (root t) 0 t' /\ length (edge h) = n.
Proof. intros TG (h0 & E1 & E2). destruct (build_ok TG) as (h0' & h' & t' & F1 & F2 & F3). assert (h0' = h0) as -> by congruence. assert (h' = h) as -> by congruence. destruct F3 as (F3 & F4). eauto. Qed.

(** [build] does not fail on any tree. *)
Theorem C44_build n t es : tree_graph n t es -> exists h, built_from n t es h.
Proof. intros TG. destruct (build_ok TG) as (h0 & h & t' & F1 & F2 & _). exists h, h0. auto. Qed.

(** [in] numbers the vertices by [0..n-1] with inverse [rev], the vertices of every subtree are
    those with number in [in..out), [par] is the parent; along an edge either the chain
    continues with the next number or a new chain starts one level deeper, and there are at
    most log2(n) levels. *)
Theorem C44_order n t es h : tree_graph n t es -> built_from n t es h ->
  (forall x, x < n -> exists i o, rd (tin h) x = Some i /\ rd (tout h) x = Some o /\ i < o <= n /\ rd (rvs h) i = Some x /\
    forall y j, y < n -> rd (tin h) y = Some j -> (anc t x y <-> i <= j < o)) /\
  (forall i, i < n -> exists x, x < n /\ rd (rvs h) i = Some x /\ rd (tin h) x = Some i) /\
  get (par h) (root t) = Some None /\ rd (head h) (root t) = Some (root t) /\ rd (depth h) (root t) = Some 0 /\
  (forall p x, In (p, x) (tedges t) -> get (par h) x = Some (Some p) /\ exists ip ix hp hx dp dx,
    rd (tin h) p = Some ip /\ rd (tin h) x = Some ix /\ rd (head h) p = Some hp /\ rd (head h) x = Some hx /\ rd (depth h) p = Some dp /\ rd (depth h) x = Some dx /\
    ((hx = hp /\ dx = dp /\ ix = S ip) \/ (hx = x /\ dx = S dp))) /\
  (forall x d, x < n -> rd (depth h) x = Some d -> 2 ^ d <= n).
Proof.
  intros TG BF. destruct (from_built TG BF) as (B & _). split; [|split; [|split; [|split; [|split; [|split]]]]].
  - intros x Hx. exists (gv (tin h) x), (gv (tout h) x). split; [apply (b_in B Hx)|]. split; [apply (b_out B Hx)|]. split; [apply (b_lt B Hx)|]. split; [apply (b_rev B Hx)|]. intros y j Hy Ej. rewrite (b_in B Hy) in Ej. injection Ej as <-. now apply (b_anc B).
  - intros i Hi. destruct (b_onto B Hi) as (x & Hx & <-). exists x. split; [auto|]. split; [apply (b_rev B Hx)|apply (b_in B Hx)].
  - apply (b_par0 B).
  - rewrite (b_head B (r_lt B)). f_equal. apply (b_root0 B).
  - rewrite (b_dep B (r_lt B)). f_equal. apply (b_root0 B).
  - intros p x E. split; [apply (b_par B E)|]. destruct (e_lt B E) as [Hp Hx]. exists (gv (tin h) p), (gv (tin h) x), (gv (head h) p), (gv (head h) x), (gv (depth h) p), (gv (depth h) x). destruct (b_edge B E) as [_ K]. rewrite (b_in B Hp), (b_in B Hx), (b_head B Hp), (b_head B Hx), (b_dep B Hp), (b_dep B Hx). auto 10.
  - intros x d Hx E. rewrite (b_dep B Hx) in E. injection E as <-. pose proof (b_log B Hx). pose proof (b_lt B Hx). nia.
Qed.

(** [lca] *)
Theorem C44_lca n t es h a b w : tree_graph n t es -> built_from n t es h -> a < n -> b < n -> (hl_lca h a b = Some w <-> is_lca t a b w).
Proof.
  intros TG BF Ha Hb. destruct (from_built TG BF) as (B & _). destruct (lca_ok B Ha Hb) as (w' & E & K1 & K2 & K3). rewrite E. split.
  - intros [= <-]. split; auto.
  - intros (L1 & L2 & L3). f_equal. apply (anc_anti B); [apply (anc_back B K1 Ha)|apply (anc_back B L1 Ha)|auto|auto].
Qed.

Lemma split_uniq (w : nat) p : forall q p' q', p ++ w :: q = p' ++ w :: q' -> NoDup (p ++ w :: q) -> p = p' /\ q = q'.
Proof.
  induction p as [|a p IH]; intros q p' q' E N; destruct p' as [|a' p']; cbn [app] in *.
  - injection E as ->. auto.
  - injection E as <- ->. inversion_clear N as [|? ? N1 _]. exfalso. apply N1, in_or_app. right. now left.
  - injection E as -> E. inversion_clear N as [|? ? N1 _]. exfalso. apply N1, in_or_app. right. now left.
  - injection E as <- E. inversion_clear N as [|? ? _ N2]. destruct (IH _ _ _ E N2) as [-> ->]. auto.
Qed.

(** There is one simple path between two vertices, and it goes through the lca. *)
Theorem C44_path n t es u v : tree_graph n t es -> u < n -> v < n ->
  exists p w q, is_path (tedges t) u v (p ++ w :: q) /\ is_lca t u v w /\ forall p', is_path (tedges t) u v p' -> p' = p ++ w :: q.
Proof.
  intros TG Hu Hv. destruct (C44_build TG) as (h & BF). destruct (from_built TG BF) as (B & _).
  destruct (@update_ok n t h B unit (fun _ _ _ => Some tt) (fun _ _ _ => tt)) with (u0 := u) (v0 := v) (inc := true) (st0 := tt) as (l & w & m & rs & P & L & _); auto.
  exists l, w, m. split; [auto|]. split; [auto|]. intros p' P'. apply (path_uniq B P' P).
Qed.

(** [query]: the ordered product of the values along the path from [u] to [v], with or without
    the lca, for any monoid; the caller's [Q] and [RQ] give the products of a range of an array
    indexed by [in], forwards and backwards. *)
Theorem C44_query (T : Type) (mul : T -> T -> T) (one : T) Q RQ arr val n t es h u v inc p w q :
  monoid_laws mul one -> tree_graph n t es -> built_from n t es h -> u < n -> v < n -> length arr = n ->
  (forall l r, l <= r -> r <= n -> Q l r = Some (product mul one (slice l r arr))) ->
  (forall l r, l <= r -> r <= n -> RQ l r = Some (product mul one (rev (slice l r arr)))) ->
  (forall x i, x < n -> rd (tin h) x = Some i -> get arr i = Some (val x)) ->
  is_path (tedges t) u v (p ++ w :: q) -> is_lca t u v w ->
  hl_query mul one Q RQ h u v inc = Some (product mul one (map val (p ++ (if inc then [w] else []) ++ q))).
Proof.
  intros M TG BF Hu Hv La HQ HR Hval P Lw. destruct (from_built TG BF) as (B & _). destruct (@query_ok n t h B T mul one Q RQ arr M La HQ HR u v inc Hu Hv) as (l & w' & m & P' & Lw' & E). rewrite E.
  assert (w' = w) as ->. { destruct Lw as (A1 & A2 & A3), Lw' as (B1 & B2 & B3). apply (anc_anti B); auto; [apply (anc_back B B1 Hu)|apply (anc_back B A1 Hu)]. }
  pose proof (path_uniq B P P') as X. destruct (@split_uniq _ _ _ _ _ X) as [-> ->]; [apply P|]. do 2 f_equal. apply map_ext_in. intros x Ix. symmetry.
  assert (Hx : x < n). { assert (Iw : forall e p x y z, walk e x p y -> In z p -> (x < n) -> (forall a b, adjacent e a b -> a < n /\ b < n) -> z < n).
    { clear. intros e p. induction p as [|a p IH]; intros x y z W J Hx He; [destruct J|]. destruct p as [|b p]; [destruct W as [-> _]; destruct J as [<-|[]]; auto|]. destruct W as (-> & Ad & W). destruct J as [<-|J]; [auto|]. apply (IH _ _ _ W J); [apply (He a b Ad)|auto]. }
    apply (Iw (tedges t) (l ++ w :: m) u v x); [apply P'| |auto|intros a b [Ad|Ad]; destruct (e_lt B Ad); auto]. destruct inc; [auto|]. apply in_app_or in Ix. apply in_or_app. cbn in *. tauto. }
  specialize (Hval x _ Hx (b_in B Hx)). symmetry. exact (@nth_get _ _ _ _ one Hval).
Qed.

(** [update]: the caller's [U] is called on a list of ranges that depends on neither [U] nor the
    data, at most [2 log2(n) + 1] of them, which together contain every position of the path
    exactly once and no other. *)
Theorem C44_update n t es h u v (inc : bool) p w q : tree_graph n t es -> built_from n t es h -> u < n -> v < n ->
  is_path (tedges t) u v (p ++ w :: q) -> is_lca t u v w ->
  forall (A : Type) (U : nat -> nat -> A -> option A) U' st, (forall l r st, l <= r -> r <= n -> U l r st = Some (U' l r st)) ->
  exists rs pos, Forall (fun '(l, r) => l <= r <= n) rs /\ length rs <= 2 * Nat.log2 n + 1 /\
    Forall2 (fun x i => rd (tin h) x = Some i) (p ++ (if inc then [w] else []) ++ q) pos /\
    Permutation (flat_map (fun '(l, r) => seq l (r - l)) rs) pos /\
    hl_update U h u v inc st = Some (fold_left (fun st '(l, r) => U' l r st) rs st).
Proof.
  intros TG BF Hu Hv P Lw A U U' st HU. destruct (from_built TG BF) as (B & _). destruct (@update_ok n t h B A U U' HU u v inc st Hu Hv) as (l & w' & m & rs & P' & Lw' & Ok & Len & Cov & E).
  assert (w' = w) as ->. { destruct Lw as (A1 & A2 & A3), Lw' as (B1 & B2 & B3). apply (anc_anti B); auto; [apply (anc_back B B1 Hu)|apply (anc_back B A1 Hu)]. }
  pose proof (path_uniq B P P') as X. destruct (@split_uniq _ _ _ _ _ X) as [-> ->]; [apply P|]. exists rs, (map (gv (tin h)) (l ++ (if inc then [w] else []) ++ m)). split; [exact Ok|]. split; [|split; [|split; [|exact E]]].
  - assert (Lg : forall x, x < n -> gv (depth h) x <= Nat.log2 n). { intros x Hx. pose proof (b_log B Hx). pose proof (b_lt B Hx). apply Nat.log2_le_pow2; nia. } pose proof (Lg u Hu). pose proof (Lg v Hv). lia.
  - assert (Hin : forall x, In x (l ++ (if inc then [w] else []) ++ m) -> x < n).
    { intros x Ix. apply (Permutation_in _ (Permutation_sym Cov)) in Ix. unfold cover in Ix. apply in_flat_map in Ix as ([a b] & Ir & Ix). unfold seg in Ix. apply in_map_iff in Ix as (i & <- & Ii). apply in_seq in Ii. unfold ranges_ok in Ok. rewrite Forall_forall in Ok. specialize (Ok _ Ir). cbn in Ok. destruct (b_onto B (i := i)) as (y & Hy & <-); [lia|]. now rewrite (v_in B Hy). }
    revert Hin. generalize (l ++ (if inc then [w] else []) ++ m). clear -B. intros xs. induction xs as [|x xs IH]; intros Hin; cbn [map]; constructor; [apply (b_in B); apply Hin; now left|apply IH; intros; apply Hin; now right].
  - apply (Permutation_map (gv (tin h))) in Cov. rewrite <- Cov. clear -B Ok. unfold cover. induction Ok as [|[a b] rs Hr Ok IH]; [constructor|]. cbn [flat_map]. rewrite map_app. apply Permutation_app; [|exact IH]. unfold seg. rewrite map_map. rewrite map_ext_in with (g := fun i => i); [now rewrite map_id|]. intros i Ii. apply in_seq in Ii. apply (in_v B). lia.
Qed.

(** Subtree sums for a commutative monoid: after [subtree_build] and any number of
    [subtree_point_add], [subtree_sum(r)] is the product of the values in the subtree of [r],
    a vertex's value being its initial one times everything added to it. The caller's [Add] and
    [Sum] work on a list. *)
Lemma adds_bump (T : Type) (mul : T -> T -> T) (one : T) adds : cmonoid_laws mul one -> forall val y,
  fold_left (fun w '(u, x) => bump mul w u x) adds val y = product mul one (val y :: map snd (filter (fun e => fst e =? y) adds)).
Proof.
  intros M. induction adds as [|[u x] adds IH]; intros val y; cbn [fold_left filter fst].
  - cbn. now rewrite (mon_right (cm_mon M)).
  - rewrite IH. unfold bump. rewrite (Nat.eqb_sym u y). destruct (y =? u); [|auto]. cbn [map snd product fold_right]. now rewrite (cm_assoc M).
Qed.
Theorem C44_subtree (T : Type) (mul : T -> T -> T) (one : T) arr val n t es h adds :
  cmonoid_laws mul one -> tree_graph n t es -> built_from n t es h -> length arr = n ->
  (forall x i, x < n -> rd (tin h) x = Some i -> get arr i = Some (val x)) -> (forall u x, In (u, x) adds -> u < n) ->
  exists st1 st2, hl_subtree_build (l_add mul) (l_sum mul one) h arr = Some st1 /\
    for_each adds (fun '(u, x) st => hl_point_add (l_add mul) h u x st) st1 = Some st2 /\
    forall r l, r < n -> NoDup l -> (forall x, In x l <-> x < n /\ anc t r x) ->
      hl_subtree_sum (l_sum mul one) h r st2 = Some (product mul one (map (fun y => product mul one (val y :: map snd (filter (fun e => fst e =? y) adds))) l)).
Proof.
  intros M TG BF La Hval Ha. destruct (from_built TG BF) as (B & t' & Eq & G & Dt & Le).
  destruct (@build_all n t t' h B Dt G Eq T mul one M val arr La) as (st1 & E1 & L1 & C1). { intros x Hx. apply (Hval x); [auto|]. apply (b_in B Hx). }
  exists st1. assert (X : forall adds w st, (forall u x, In (u, x) adds -> u < n) -> length st = n -> (forall s, sub s t' -> cell h mul one w st s) -> exists st2,
    for_each adds (fun '(u, x) st => hl_point_add (l_add mul) h u x st) st = Some st2 /\ length st2 = n /\ forall s, sub s t' -> cell h mul one (fold_left (fun w '(u, x) => bump mul w u x) adds w) st2 s).
  { clear - B Eq Dt M. induction adds as [|[u x] adds IH]; intros w st Hu Ls C; [exists st; cbn; auto|]. cbn [for_each fold_left]. destruct (@add_ok n t t' h B Dt Eq T mul one M w st u x) as (st2 & E2 & L2 & C2); auto; [apply (Hu u x); now left|]. rewrite E2. cbn [obind]. apply IH; auto. intros u' x' J. apply (Hu u' x'). now right. }
  destruct (X adds val st1 Ha L1 C1) as (st2 & E2 & L2 & C2). exists st2. split; [auto|]. split; [auto|]. intros r l Hr N Hl. rewrite (@sum_ok n t t' h B Dt Eq T mul one M _ st2 r l L2 C2 Hr N Hl). unfold vs. do 2 f_equal. apply map_ext. intros y. apply (adds_bump adds M).
Qed.

(** ** Concrete cases *)
(** 0 has children 1, 2; 1 has children 3, 4; 4 has child 5; 2 has child 6; the edges are given in another order and direction. *)
Definition ex_t : tree := Node 0 [Node 1 [Node 3 []; Node 4 [Node 5 []]]; Node 2 [Node 6 []]].
Definition ex_es : list (nat * nat) := [(6, 2); (4, 5); (0, 1); (2, 0); (3, 1); (1, 4)].
Definition ex_h : hld := match hl_graph 7 ex_es with Some h0 => match hl_build h0 0 with Some h => h | None => hl_new 0 end | None => hl_new 0 end.
Lemma ex_graph : tree_graph 7 ex_t ex_es.
Proof.
  split; [apply NoDup_Permutation_bis; [repeat constructor; cbn; intuition discriminate|cbn; lia|intros x; cbn; intuition]|]. exists [(2, 6); (4, 5); (0, 1); (0, 2); (1, 3); (1, 4)]. split.
  - apply NoDup_Permutation_bis; [repeat constructor; cbn; intuition discriminate|cbn; lia|intros x; cbn; intuition].
  - repeat (apply Forall2_cons; [first [left; reflexivity | right; reflexivity]|]). apply Forall2_nil.
Qed.
Example ex_built : built_from 7 ex_t ex_es ex_h. Proof. eexists. split; vm_compute; reflexivity. Qed.
Example ex_tin : tin ex_h = map Some [0; 1; 5; 4; 2; 3; 6] /\ depth ex_h = map Some [0; 0; 1; 1; 0; 0; 1] /\ head ex_h = map Some [0; 0; 2; 3; 0; 0; 2]. Proof. repeat split; vm_compute; reflexivity. Qed.
Example ex_lca : hl_lca ex_h 5 3 = Some 1 /\ hl_lca ex_h 5 6 = Some 0 /\ hl_lca ex_h 4 5 = Some 4. Proof. repeat split; vm_compute; reflexivity. Qed.
(** values are one-letter words, so the product spells the path *)
Definition ex_arr : list (list nat) := map (fun i => [gv (rvs ex_h) i]) (seq 0 7).
Definition ex_q (inc : bool) u v := hl_query (@app nat) [] (fun l r => Some (concat (slice l r ex_arr))) (fun l r => Some (concat (rev (slice l r ex_arr)))) ex_h u v inc.
Example ex_query : ex_q true 5 6 = Some [5; 4; 1; 0; 2; 6] /\ ex_q true 6 3 = Some [6; 2; 0; 1; 3] /\ ex_q false 5 3 = Some [5; 4; 3] /\ ex_q false 4 4 = Some []. Proof. repeat split; vm_compute; reflexivity. Qed.
Example ex_update : hl_update (fun l r st => Some (st ++ [(l, r)])) ex_h 5 6 true [] = Some [(5, 7); (0, 4)]. Proof. vm_compute; reflexivity. Qed.
Example ex_sub : (let* st := hl_subtree_build (l_add Nat.add) (l_sum Nat.add 0) ex_h (map (fun i => 2 ^ gv (rvs ex_h) i) (seq 0 7)) in
  let* st := hl_point_add (l_add Nat.add) ex_h 3 7 st in
  let* x := hl_subtree_sum (l_sum Nat.add 0) ex_h 1 st in
  let* y := hl_subtree_sum (l_sum Nat.add 0) ex_h 4 st in
  Some (x, y)) = Some (65, 48).
Proof. vm_compute. reflexivity. Qed.

Print Assumptions C44_build.
Print Assumptions C44_order.
Print Assumptions C44_lca.
Print Assumptions C44_path.
Print Assumptions C44_query.
Print Assumptions C44_update.
Print Assumptions C44_subtree.
