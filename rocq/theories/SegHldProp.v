(** * C63: SegmentHld and LazySegmentHld, segment trees balanced for heavy-light decompositions *)
From Verif Require Import Base BaseLemmas ListExtra NthExtra HldModel HldTree HldSz HldFacts HldBuilt HldPath HldProp LazySegSpec LazySegProof2 LazySegProp SplayProp SegHldModel SegHldShape SegHldData SegHldOps SegHldProof.
From Coq Require Import Permutation.
Set Implicit Arguments.

(** ** the weights *)
Lemma weight_ok h t : forall p, good (edge h) (par h) (size h) p t -> forall v, In v (verts t) -> exists w, sh_weight h v = Some w /\ 1 <= w.
Proof.
  induction t as [v cs IH] using tree_ind2. intros p G w I. inversion G as [? ? ? row Er Pr Hh Gp Gs Ac]; subst. cbn [verts] in I. fold (fverts cs) in I. destruct I as [<-|I].
  - unfold sh_weight. rewrite Gs. cbn [obind]. rewrite Er. cbn [obind]. destruct row as [|x row]; [eexists; split; [reflexivity|lia]|]. rewrite Gp. cbn [obind]. destruct cs as [|c rest].
    + cbn [map filter] in Pr. unfold np in Pr at 1. destruct (oeq (Some x) p); [eexists; split; [reflexivity|lia]|discriminate].
    + destruct Hh as [H0 _]. injection H0 as ->. assert (N : np p (root c) = true). { assert (J : In (root c) (filter (np p) (root c :: row))) by (rewrite Pr; now left). apply filter_In in J. tauto. } unfold np in N. destruct (oeq (Some (root c)) p); [discriminate|]. rewrite (good_size (Ac c (or_introl eq_refl))). cbn [obind].
      assert (L : tsize c <= length (fverts (c :: rest))). { change (fverts (c :: rest)) with (verts c ++ fverts rest). rewrite app_length. replace (tsize c) with (length (verts c)) by (destruct c; reflexivity). lia. } destruct (Nat.leb_spec (tsize c) (S (length (fverts (c :: rest))))); [|lia]. cbn [guard obind]. eexists. split; [reflexivity|]. lia.
  - apply in_fverts in I as (c & Ic & I). exact (IH c Ic _ (Ac c Ic) _ I).
Qed.
Lemma cw_ok n t es h : tree_graph n t es -> built_from n t es h -> hn h = n /\ 1 <= n /\ exists cw, sh_cw h = Some cw /\ inc cw n.
Proof.
  intros TG BF. destruct (from_built TG BF) as (B & t' & Eq & G & _). split; [apply (b_n B)|]. split; [pose proof (r_lt B); lia|]. unfold sh_cw. rewrite (b_n B).
  set (body := fun i cw => _). assert (K : forall k i cw, i + k = n -> length cw = S n -> (forall j, j < i -> nth j cw 0 < nth (S j) cw 0) -> exists cw', for_up k i body cw = Some cw' /\ inc cw' n).
  { induction k as [|k IH]; intros i cw Ei El Hi; [exists cw; split; [reflexivity|]; split; [auto|]; intros j Lj; apply Hi; lia|]. cbn [for_up]. unfold body at 1. destruct (b_onto B (i := i) ltac:(lia)) as (x & Hx & <-). rewrite (b_rev B Hx). cbn [obind].
    destruct (@weight_ok h t' None G x) as (w & Ew & Lw); [apply (Permutation_in _ (proj1 (proj2 Eq))), (b_verts B), Hx|]. rewrite Ew. cbn [obind]. set (i := gv (tin h) x) in *. rewrite (@get_nth _ cw i 0) by lia. cbn [obind]. rewrite set_some by lia. cbn [obind]. apply IH; [lia|now rewrite lset_length|].
    intros j Lj. destruct (Nat.eq_dec j i) as [->|]; [rewrite nth_lset_neq by lia; rewrite Nat.add_1_r, nth_lset_eq by lia; lia|]. rewrite !nth_lset_neq by lia. apply Hi. lia. }
  destruct (K n 0 (repeat 0 (n + 1)) eq_refl ltac:(rewrite repeat_length; lia) ltac:(lia)) as (cw & E & I). exists cw. auto.
Qed.

(** ** Histories *)
(** SegmentHld: construction from a range of at most [n] values (the others are [M()]), then any
    [set], [get], [query] and [reverse_query] within the array: what a list answers. The monoid
    need not commute. Nothing is out of bounds, and the constructor's assertion holds. *)
Lemma triv_laws M A (op : M -> M -> M) (aid : A) : action_laws op (fun a _ : A => a) aid (fun _ m => m).
Proof. split; reflexivity. Qed.
Lemma sg_run_ok M A (op : M -> M -> M) (e : M) (aid : A) : monoid_laws op e -> forall cs s xs ys vs,
  RI op e aid (fun (_ : A) m => m) s xs -> sg_list_run op e (fun (_ : A) m => m) false xs cs = Some (ys, vs) -> exists s', sg_run (sg_step op e) s cs = Some (s', vs) /\ RI op e aid (fun (_ : A) m => m) s' ys.
Proof.
  intros Mon cs. induction cs as [|c cs IH]; intros s xs ys vs R H; [injection H as <- <-; exists s; auto|]. cbn [sg_list_run sg_run] in *. destruct c as [i x|i|rv l r|l r f]; cbn [sg_list_step sg_step negb andb guard obind] in *.
  - destruct (Nat.ltb_spec i (length xs)) as [L|]; [|discriminate]. cbn [guard obind] in H. destruct (@sg_set_ok _ _ _ _ _ _ Mon (fun _ _ => eq_refl) _ _ _ x R L) as (s1 & E & R1). rewrite E. cbn [obind]. destruct (sg_list_run _ _ _ _ _ cs) as [[ys' vs']|] eqn:Q; [|discriminate]. cbn [obind] in H. injection H as <- <-. destruct (IH _ _ _ _ R1 Q) as (s2 & E2 & R2). rewrite E2. cbn [obind]. eauto.
  - destruct (get xs i) as [x|] eqn:G; [|discriminate]. cbn [obind] in H. destruct (@sg_get_ok _ _ _ _ _ _ Mon (fun _ _ => eq_refl) _ _ _ R (get_some_lt _ _ G)) as [E _]. rewrite E, G. cbn [obind]. destruct (sg_list_run _ _ _ _ _ cs) as [[ys' vs']|] eqn:Q; [|discriminate]. cbn [obind] in H. injection H as <- <-. destruct (IH _ _ _ _ R Q) as (s2 & E2 & R2). rewrite E2. cbn [obind]. eauto.
  - destruct (andb (l <=? r) (r <=? length xs)) eqn:B; [|discriminate]. cbn [guard obind] in H. apply andb_prop in B as [B1 B2]. apply Nat.leb_le in B1, B2. rewrite (@sg_query_ok _ _ _ _ _ _ Mon (fun _ _ => eq_refl) rv _ _ _ _ R B1). cbn [obind]. destruct (sg_list_run _ _ _ _ _ cs) as [[ys' vs']|] eqn:Q; [|discriminate]. cbn [obind] in H. injection H as <- <-. destruct (IH _ _ _ _ R Q) as (s2 & E2 & R2). rewrite E2. cbn [obind]. eauto.
  - discriminate.
Qed.
Theorem C63_history M A (op : M -> M -> M) (e : M) (aid : A) n t es h xs cs ys vs : monoid_laws op e -> tree_graph n t es -> built_from n t es h -> length xs <= n ->
  sg_list_run op e (fun (_ : A) m => m) false (xs ++ repeat e (n - length xs)) cs = Some (ys, vs) ->
  exists s s', sh_build op e aid h xs = Some s /\ sg_run (sg_step op e) s cs = Some (s', vs).
Proof.
  intros Mon TG BF Lx H. destruct (cw_ok TG BF) as (En & Ln & cw & Ec & I). rewrite <- En in I, Ln, Lx, H. destruct (@build_ok _ _ _ _ _ _ _ Mon (triv_laws op aid) _ _ xs Ec I Ln Lx) as (s & E & R). exists s. destruct (sg_run_ok Mon _ R H) as (s' & E' & _). eauto.
Qed.
Theorem C63_history_new M A (op : M -> M -> M) (e : M) (aid : A) n t es h cs ys vs : monoid_laws op e -> tree_graph n t es -> built_from n t es h ->
  sg_list_run op e (fun (_ : A) m => m) false (repeat e n) cs = Some (ys, vs) ->
  exists s s', sh_new e aid h = Some s /\ sg_run (sg_step op e) s cs = Some (s', vs).
Proof.
  intros Mon TG BF H. destruct (cw_ok TG BF) as (En & Ln & cw & Ec & I). rewrite <- En in I, Ln, H. destruct (@new_ok _ _ _ _ _ _ _ Mon (triv_laws op aid) _ _ Ec I Ln) as (s & E & R & _). exists s. destruct (sg_run_ok Mon _ R H) as (s' & E' & _). eauto.
Qed.

(** LazySegmentHld: construction, then any [set], [query], [reverse_query] and [update]. *)
Section Lazy.
Variables (M A : Type) (op : M -> M -> M) (e : M) (comp : A -> A -> A) (aid : A) (act : A -> M -> M) (isop : A -> bool).
Hypothesis Mon : monoid_laws op e.
Hypothesis Act : action_laws op comp aid act.
Hypothesis Isop : forall a, isop a = false -> forall v, act a v = v.
Lemma lg_run_ok : forall cs s xs ys vs,
  RI op e aid act s xs -> sg_list_run op e act true xs cs = Some (ys, vs) -> exists s', sg_run (lg_step op e comp aid act isop) s cs = Some (s', vs) /\ RI op e aid act s' ys.
Proof.
  intros cs. induction cs as [|c cs IH]; intros s xs ys vs R H; [injection H as <- <-; exists s; auto|]. cbn [sg_list_run sg_run] in *. destruct c as [i x|i|rv l r|l r f]; cbn [sg_list_step lg_step negb guard obind] in *.
  - destruct (Nat.ltb_spec i (length xs)) as [L|]; [|discriminate]. cbn [guard obind] in H. destruct (@lg_set_ok _ _ _ _ _ _ _ Mon Act _ Isop _ _ _ x R L) as (s1 & E & R1). rewrite E. cbn [obind]. destruct (sg_list_run _ _ _ _ _ cs) as [[ys' vs']|] eqn:Q; [|discriminate]. cbn [obind] in H. injection H as <- <-. destruct (IH _ _ _ _ R1 Q) as (s2 & E2 & R2). rewrite E2. cbn [obind]. eauto.
  - discriminate.
  - destruct (andb (l <=? r) (r <=? length xs)) eqn:B; [|discriminate]. cbn [guard obind] in H. apply andb_prop in B as [B1 B2]. apply Nat.leb_le in B1, B2. destruct (@lg_query_ok _ _ _ _ _ _ _ Mon Act _ Isop rv _ _ _ _ R B1) as (s1 & E & R1). rewrite E. cbn [obind]. destruct (sg_list_run _ _ _ _ _ cs) as [[ys' vs']|] eqn:Q; [|discriminate]. cbn [obind] in H. injection H as <- <-. destruct (IH _ _ _ _ R1 Q) as (s2 & E2 & R2). rewrite E2. cbn [obind]. eauto.
  - cbn [andb] in H. destruct (andb (l <=? r) (r <=? length xs)) eqn:B; [|discriminate]. cbn [guard obind] in H. apply andb_prop in B as [B1 B2]. apply Nat.leb_le in B1, B2. destruct (@lg_update_ok _ _ _ _ _ _ _ Mon Act _ Isop _ _ _ _ f R B1 B2) as (s1 & E & R1 & _). rewrite E. cbn [obind]. destruct (sg_list_run _ _ _ _ _ cs) as [[ys' vs']|] eqn:Q; [|discriminate]. cbn [obind] in H. injection H as <- <-. destruct (IH _ _ _ _ R1 Q) as (s2 & E2 & R2). rewrite E2. cbn [obind]. eauto.
Qed.
Theorem C63_lazy n t es h xs cs ys vs : tree_graph n t es -> built_from n t es h -> length xs <= n ->
  sg_list_run op e act true (xs ++ repeat e (n - length xs)) cs = Some (ys, vs) ->
  exists s s', sh_build op e aid h xs = Some s /\ sg_run (lg_step op e comp aid act isop) s cs = Some (s', vs).
Proof.
  intros TG BF Lx H. destruct (cw_ok TG BF) as (En & Ln & cw & Ec & I). rewrite <- En in I, Ln, Lx, H. destruct (@build_ok _ _ _ _ _ _ _ Mon Act _ _ xs Ec I Ln Lx) as (s & E & R). exists s. destruct (lg_run_ok _ R H) as (s' & E' & _). eauto.
Qed.
Theorem C63_lazy_new n t es h cs ys vs : tree_graph n t es -> built_from n t es h ->
  sg_list_run op e act true (repeat e n) cs = Some (ys, vs) ->
  exists s s', sh_new e aid h = Some s /\ sg_run (lg_step op e comp aid act isop) s cs = Some (s', vs).
Proof.
  intros TG BF H. destruct (cw_ok TG BF) as (En & Ln & cw & Ec & I). rewrite <- En in I, Ln, H. destruct (@new_ok _ _ _ _ _ _ _ Mon Act _ _ Ec I Ln) as (s & E & R & _). exists s. destruct (lg_run_ok _ R H) as (s' & E' & _). eauto.
Qed.
End Lazy.

(** ** Paths of the tree *)
(** [Hld::query] over a SegmentHld after any history: the ordered product along the path. *)
Theorem C63_path M A (op : M -> M -> M) (e : M) (aid : A) n t es h xs cs ys vs s s' u v inc p w q :
  monoid_laws op e -> tree_graph n t es -> built_from n t es h -> length xs = n ->
  sg_list_run op e (fun (_ : A) m => m) false xs cs = Some (ys, vs) -> sh_build op e aid h xs = Some s -> sg_run (sg_step op e) s cs = Some (s', vs) ->
  u < n -> v < n -> is_path (tedges t) u v (p ++ w :: q) -> is_lca t u v w ->
  forall value, (forall x i, x < n -> rd (tin h) x = Some i -> get ys i = Some (value x)) ->
  hl_query op e (sg_query op e false s') (sg_query op e true s') h u v inc = Some (product op e (map value (p ++ (if inc then [w] else []) ++ q))).
Proof.
  intros Mon TG BF Lx H Es Er Lu Lv P Lw value Hv. destruct (cw_ok TG BF) as (En & Ln & cw & Ec & I). rewrite <- En in I, Ln.
  destruct (@build_ok _ _ _ _ _ _ _ Mon (triv_laws op aid) _ _ xs Ec I Ln ltac:(lia)) as (s0 & E & R). assert (s0 = s) as -> by congruence. replace (hn h - length xs) with 0 in R by lia. cbn [repeat] in R. rewrite app_nil_r in R. destruct (sg_run_ok Mon _ R H) as (s1 & E' & R1). assert (s1 = s') as -> by congruence.
  assert (Ly : length ys = n). { rewrite <- Lx. clear - H. revert xs ys vs H. induction cs as [|c cs IH]; intros xs ys vs H; [injection H as <- _; auto|]. cbn [sg_list_run] in H. destruct (sg_list_step _ _ _ _ _ c) as [[xs1 o]|] eqn:S1; [|discriminate]. cbn [obind] in H. destruct (sg_list_run _ _ _ _ xs1 cs) as [[ys1 vs1]|] eqn:S2; [|discriminate]. cbn [obind] in H. injection H as <- _. rewrite (IH _ _ _ S2). destruct c as [i x|i|rv l r|l r f]; cbn [sg_list_step negb andb guard obind] in S1; [destruct (i <? length xs); [|discriminate]; injection S1 as <- _; apply lset_length|destruct (get xs i); [|discriminate]; now injection S1 as <- _|destruct (_ && _); [|discriminate]; now injection S1 as <- _|discriminate]. }
  apply (@C44_query M op e _ _ ys value n t es); auto; intros l r L1 L2; [exact (@sg_query_ok _ _ _ _ _ _ Mon (fun _ _ => eq_refl) false _ _ _ _ R1 L1)|exact (@sg_query_ok _ _ _ _ _ _ Mon (fun _ _ => eq_refl) true _ _ _ _ R1 L1)].
Qed.
Lemma path_lt n t h u v l : built n t h -> u < n -> is_path (tedges t) u v l -> forall x, In x l -> x < n.
Proof.
  intros B Lu [W _]. assert (K : forall p x, walk (tedges t) x p v -> x < n -> forall z, In z p -> z < n).
  { induction p as [|a p IH]; intros x Wx Hx z J; [destruct J|]. destruct p as [|b p]; [destruct Wx as [-> _]; destruct J as [<-|[]]; auto|]. destruct Wx as (-> & Ad & Wb). destruct J as [<-|J]; [auto|]. apply (IH b Wb); [|auto]. destruct Ad as [Ad|Ad]; apply (e_lt B Ad). }
  exact (K _ _ W Lu).
Qed.
Lemma iter_plus {X} (g : X -> X) a b y : Nat.iter (a + b) g y = Nat.iter a g (Nat.iter b g y).
Proof. unfold Nat.iter. induction a as [|a IH]; cbn; [auto|now rewrite IH]. Qed.
(** [Hld::update] with [update(l,r,f)] makes updates of a LazySegmentHld that together act once on
    every vertex of the path and on no other. *)
Theorem C63_path_update M A (op : M -> M -> M) (e : M) (act : A -> M -> M) n t es h u v (inc : bool) p w q f :
  tree_graph n t es -> built_from n t es h -> u < n -> v < n -> is_path (tedges t) u v (p ++ w :: q) -> is_lca t u v w ->
  exists cs, hl_update (fun l r cs => Some (cs ++ [GUpdate M l r f])) h u v inc [] = Some cs /\
    forall xs, length xs = n -> exists ys, sg_list_run op e act true xs cs = Some (ys, []) /\
      forall x i y, x < n -> rd (tin h) x = Some i -> get xs i = Some y ->
        (In x (p ++ (if inc then [w] else []) ++ q) -> get ys i = Some (act f y)) /\ (~ In x (p ++ (if inc then [w] else []) ++ q) -> get ys i = Some y).
Proof.
  intros TG BF Lu Lv P Lw. destruct (from_built TG BF) as (B & _).
  destruct (@C44_update n t es h u v inc p w q TG BF Lu Lv P Lw (list (sg_op M A)) (fun l r cs => Some (cs ++ [GUpdate M l r f])) (fun l r cs => cs ++ [GUpdate M l r f]) [] ltac:(reflexivity)) as (rs & pos & Ok & _ & Hp & Pm & E).
  exists (map (fun '(l, r) => GUpdate M l r f) rs). split.
  - rewrite E. f_equal. clear. assert (K : forall rs acc, fold_left (fun st '(l, r) => st ++ [GUpdate M l r f]) rs acc = acc ++ map (fun '(l, r) => GUpdate M l r f) rs). { clear. intros rs. induction rs as [|[l r] rs IH]; intros acc; [cbn; now rewrite app_nil_r|cbn [fold_left map]]. rewrite IH, <- app_assoc. reflexivity. } apply (K rs []).
  - intros xs Lx. assert (K : forall rs xs, length xs = n -> Forall (fun '(l, r) => l <= r <= n) rs -> exists ys, sg_list_run op e act true xs (map (fun '(l, r) => GUpdate M l r f) rs) = Some (ys, []) /\
      forall i y, get xs i = Some y -> get ys i = Some (Nat.iter (count_occ Nat.eq_dec (flat_map (fun '(l, r) => seq l (r - l)) rs) i) (act f) y)).
    { clear. intros rs. induction rs as [|[l r] rs IH]; intros xs Lx Ok; [exists xs; auto|]. apply Forall_cons_iff in Ok as [[L1 L2] Ok']. cbn [map sg_list_run sg_list_step andb]. destruct (Nat.leb_spec l r), (Nat.leb_spec r (length xs)); try lia. cbn [andb guard obind]. change (firstn l xs ++ map (act f) (slice l r xs) ++ skipn r xs) with (map_range (act f) l r xs). destruct (IH (map_range (act f) l r xs)) as (ys & E & Hy); [rewrite map_range_length; lia|auto|]. rewrite E. cbn [obind]. exists ys. split; [auto|]. intros i y G.
      rewrite (Hy i _ (@get_map_range _ (act f) l r xs i y (conj H H0) G)). cbn [flat_map]. rewrite count_occ_app. f_equal. rewrite Nat.add_comm. rewrite iter_plus. f_equal.
      destruct (andb (l <=? i) (i <? r)) eqn:Q.
      - apply andb_prop in Q as [Q1 Q2]. apply Nat.leb_le in Q1. apply Nat.ltb_lt in Q2. assert (C : count_occ Nat.eq_dec (seq l (r - l)) i = 1) by (apply NoDup_count_occ'; [apply seq_NoDup|apply in_seq; lia]). rewrite C. reflexivity.
      - assert (C : count_occ Nat.eq_dec (seq l (r - l)) i = 0). { apply count_occ_not_In. intros J. apply in_seq in J. apply Bool.andb_false_iff in Q as [Q|Q]; [apply Nat.leb_gt in Q|apply Nat.ltb_ge in Q]; lia. } rewrite C. reflexivity. }
    destruct (K rs xs Lx Ok) as (ys & Er & Hy). exists ys. split; [auto|]. intros x i y Hx Hi G. rewrite (Hy _ _ G). rewrite (proj1 (Permutation_count_occ Nat.eq_dec _ _) Pm i).
    assert (Nd : NoDup pos /\ (In i pos <-> In x (p ++ (if inc then [w] else []) ++ q))).
    { assert (Nl : NoDup (p ++ (if inc then [w] else []) ++ q)). { destruct P as [_ Np]. destruct inc; [exact Np|]. now apply NoDup_remove_1 in Np. }
      assert (Hn : forall z, In z (p ++ (if inc then [w] else []) ++ q) -> z < n). { intros z J. apply (path_lt B Lu P). destruct inc; [auto|]. apply in_app_or in J. apply in_or_app. cbn in *. tauto. }
      clear - Nl Hp Hi Hx B Hn. revert pos Hp Nl Hn. generalize (p ++ (if inc then [w] else []) ++ q). intros l. induction l as [|z l IH]; intros pos Hp Nl Hn; inversion Hp as [|? j ? pos' Hz Hp']; subst; [split; [constructor|tauto]|]. inversion_clear Nl as [|? ? Nz Nl']. destruct (IH _ Hp' Nl' (fun z J => Hn z (or_intror J))) as [Np Iff].
      assert (Inj : forall a b k, a < n -> b < n -> rd (tin h) a = Some k -> rd (tin h) b = Some k -> a = b).
      { intros a b k La Lb Ka Kb. pose proof (b_rev B La) as Ra. pose proof (b_rev B Lb) as Rb. rewrite (b_in B La) in Ka. rewrite (b_in B Lb) in Kb. congruence. }
      assert (Hz0 : z < n) by (apply Hn; now left). assert (Hl : forall a, In a l -> a < n) by (intros a J; apply Hn; now right).
      split.
      - constructor; [|auto]. intros J. clear - Inj Hp' J Hz Nz Hz0 Hl. apply Nz. clear Nz. revert J. induction Hp' as [|a b l pos' Hab Hp' IH]; intros J; [destruct J|]. destruct J as [->|J]; [left; exact (Inj _ _ _ (Hl a (or_introl eq_refl)) Hz0 Hab Hz)|right; apply IH; auto; intros c K; apply Hl; now right].
      - cbn. rewrite Iff. split; (intros [->|J]; [left|now right]); [exact (Inj _ _ _ Hz0 Hx Hz Hi)|congruence]. }
    destruct Nd as [Nd Iff]. split; intros J; f_equal.
    + rewrite (proj1 (NoDup_count_occ' Nat.eq_dec pos) Nd i) by (now apply Iff). reflexivity.
    + rewrite (proj1 (count_occ_not_In Nat.eq_dec pos i)) by (now rewrite Iff). reflexivity.
Qed.

(** ** Concrete cases, on the tree of C44 *)
Definition C63_xs : list (list Z) := map (fun i => [Z.of_nat i]) (seq 0 7).
Definition C63_hist : list (sg_op (list Z) Z) := [GQuery _ _ false 1 6; GUpdate _ 2 5 10%Z; GQuery _ _ true 0 7; GSet _ 3 [99%Z]; GUpdate _ 0 4 100%Z; GQuery _ _ false 1 7].
Definition C63_isop (a : Z) : bool := negb (a =? 0)%Z.
Lemma C63_isop_ok a : C63_isop a = false -> forall v, sh_act a v = v.
Proof. unfold C63_isop. intros E v. apply Bool.negb_false_iff, Z.eqb_eq in E. subst a. unfold sh_act. rewrite <- (map_id v) at 2. apply map_ext. intros. lia. Qed.
Example C63_lazy_example : (let* s := sh_build (@app Z) [] 0%Z ex_h C63_xs in let* (_, vs) := sg_run (lg_step (@app Z) [] sh_comp 0%Z sh_act C63_isop) s C63_hist in Some vs) =
  Some [[1; 2; 3; 4; 5]; [6; 5; 14; 13; 12; 1; 0]; [101; 112; 199; 14; 5; 6]]%Z.
Proof. vm_compute. reflexivity. Qed.
Example C63_lazy_spec : (let* (_, vs) := sg_list_run (@app Z) [] sh_act true C63_xs C63_hist in Some vs) = Some [[1; 2; 3; 4; 5]; [6; 5; 14; 13; 12; 1; 0]; [101; 112; 199; 14; 5; 6]]%Z.
Proof. vm_compute. reflexivity. Qed.
Example C63_cw : sh_cw ex_h = Some [0; 3; 5; 6; 7; 8; 9; 10]. Proof. vm_compute. reflexivity. Qed.
(** the values are the vertices, so the product spells the path *)
Example C63_path_example : (let* s := sh_build (@app Z) [] tt ex_h (map (fun i => [Z.of_nat (gv (rvs ex_h) i)]) (seq 0 7)) in hl_query (@app Z) [] (sg_query (@app Z) [] false s) (sg_query (@app Z) [] true s) ex_h 5 6 true) = Some [5; 4; 1; 0; 2; 6]%Z.
Proof. vm_compute. reflexivity. Qed.
(** an Hld without vertices has no root and does not reach the constructor's end *)
Example C63_empty : sh_new (M := Z) 0%Z tt (hl_new 0) = None. Proof. vm_compute. reflexivity. Qed.

Print Assumptions C63_history.
Print Assumptions C63_history_new.
Print Assumptions C63_lazy.
Print Assumptions C63_lazy_new.
Print Assumptions C63_path.
Print Assumptions C63_path_update.
