From Verif Require Import Base BaseLemmas ListExtra NthExtra.
From Verif Require Import HldModel HldTree HldSz HldFacts TreeGraph RerootModel.
Set Implicit Arguments.

Lemma get_skip_S {A} (l : list A) i x : get l i = Some x -> skipn i l = x :: skipn (S i) l.
Proof. intros H. now apply skipn_get_cons. Qed.
Lemma get_first_S {A} (l : list A) i x : get l i = Some x -> firstn (S i) l = firstn i l ++ [x].
Proof.
  revert i. induction l as [|y l IH]; intros [|i] H; try discriminate; cbn in *.
  - now injection H as ->.
  - f_equal. now apply IH.
Qed.
Lemma nodup_get {A} (l : list A) i j x : NoDup l -> get l i = Some x -> get l j = Some x -> i = j.
Proof. intros N H1 H2. apply (proj1 (NoDup_nth_error l) N); [now apply get_some_lt in H1|]. unfold get in *. congruence. Qed.

Section Core.
Variables (A T : Type) (tgt : A -> nat) (ap : T -> A -> T) (mrg : T -> T -> T) (gf : T -> nat -> T) (e : T).
Hypothesis CM : cmonoid_laws mrg e.
Variables (n : nat) (g : list (list A)) (F : nat -> T -> nat -> T).
Notation E := (map (map tgt) g).
Hypothesis Lg : length g = n.
Hypothesis Hap : forall s row a x, get g s = Some row -> In a row -> ap x a = F s x (tgt a).
Notation value := (value F mrg gf e).
Notation rowE := (fun v => nth v E []).
Notation prod := (product mrg e).

Lemma M : monoid_laws mrg e.
Proof. destruct CM as [H1 H2 H3]. split; auto. intros x. rewrite H2. apply H3. Qed.
Lemma prod_perm l r : Permutation l r -> prod l = prod r.
Proof.
  destruct CM as [H1 H2 H3]. intros P. induction P as [|x l r P IH|x y l|l m r P1 IH1 P2 IH2]; unfold product in *; cbn; auto; try congruence.
Qed.
Lemma prod_snoc l x : prod (l ++ [x]) = mrg (prod l) x.
Proof. rewrite (product_app M), (product_one M). auto. Qed.

Lemma row_get v row : get g v = Some row -> rowE v = map tgt row.
Proof. intros H. apply nth_get. rewrite get_map, H. auto. Qed.

Definition shape (dp : list (list T)) : Prop := length dp = n /\ forall v r, get dp v = Some r -> length r = length (rowE v).
Lemma set2_ok dp v i x : shape dp -> v < n -> i < length (rowE v) -> exists dp', set2 dp v i x = Some dp' /\ shape dp' /\ get2 dp' v i = Some x /\
  (forall j, j <> i -> get2 dp' v j = get2 dp v j) /\ (forall u, u <> v -> get dp' u = get dp u).
Proof.
  intros [S1 S2] Hv Hi. destruct (@get_lt _ dp v) as (r & Er); [lia|]. pose proof (S2 v r Er) as Lr. unfold set2. rewrite Er. cbn [obind]. rewrite set_some by lia. cbn [obind]. rewrite set_some by lia.
  eexists. split; [reflexivity|]. split; [split|].
  - now rewrite lset_length.
  - intros u q. destruct (Nat.eq_dec v u) as [->|N].
    + rewrite get_lset_eq by lia. intros [= <-]. now rewrite lset_length.
    + rewrite get_lset_neq by auto. apply S2.
  - unfold get2. rewrite get_lset_eq by lia. cbn [obind]. split; [apply get_lset_eq; lia|]. split.
    + intros j Nj. rewrite Er. cbn [obind]. apply get_lset_neq. auto.
    + intros u Nu. apply get_lset_neq. auto.
Qed.

(** ** The values below *)
Inductive down (dp : list (list T)) : tree -> Prop :=
  down_node v cs : (forall i c, In c cs -> get (rowE v) i = Some (root c) -> get2 dp v i = Some (value c)) -> (forall c, In c cs -> down dp c) -> down dp (Node v cs).
Lemma down_frame dp dp' t : (forall v, In v (verts t) -> get dp' v = get dp v) -> down dp t -> down dp' t.
Proof.
  induction t as [v cs IH] using tree_ind2. intros Fr D. inversion D as [? ? D1 D2]; subst. constructor.
  - intros i c Ic Hi. unfold get2. rewrite Fr by now left. now apply D1.
  - intros c Ic. apply IH; auto. intros u Iu. apply Fr. right. apply in_fverts. eauto.
Qed.
Lemma row_nodup p v cs : NoDup (verts (Node v cs)) -> (forall q, p = Some q -> ~ In q (verts (Node v cs))) -> Permutation (rowE v) (opt p ++ map root cs) -> NoDup (rowE v).
Proof.
  intros ND Hp P. apply (Permutation_NoDup (Permutation_sym P)).
  assert (NR : NoDup (map root cs)).
  { cbn [verts] in ND. inversion_clear ND as [|? ? _ N]. clear - N. induction cs as [|c cs IH]; [constructor|]. cbn [flat_map map] in *. apply NoDup_app_iff in N as (_ & N2 & D). constructor; auto.
    intros I. apply in_map_iff in I as (d & Ed & Id). apply (D (root c)); [apply root_in|]. rewrite <- Ed. now apply roots_in. }
  destruct p as [q|]; cbn [opt app]; [|auto]. constructor; auto. intros I. apply in_map_iff in I as (d & Ed & Id). apply (Hp q eq_refl). right. rewrite <- Ed. now apply roots_in.
Qed.
Lemma child_uniq v cs c d : NoDup (verts (Node v cs)) -> In c cs -> In d cs -> root c = root d -> c = d.
Proof. intros N Ic Id Er. apply (@sub_uniq v cs c d (root c)); auto; [apply root_in|rewrite Er; apply root_in]. Qed.

Lemma dfs_ok : forall t fuel p dp, height t <= fuel -> oadj E p t -> NoDup (verts t) -> (forall v, In v (verts t) -> v < n) -> (forall q, p = Some q -> ~ In q (verts t)) -> shape dp ->
  exists dp', rr_dfs tgt ap mrg gf e fuel g (root t) p dp = Some (value t, dp') /\ shape dp' /\ down dp' t /\ (forall v, ~ In v (verts t) -> get dp' v = get dp v).
Proof.
  induction t as [s cs IH] using tree_ind2. intros fuel p dp Hh O ND Hn Hp Sh. destruct fuel as [|fuel]; [cbn in Hh; lia|].
  inversion O as [? ? ? rw Er Fl Pr Oc]; subst. cbn [root rr_dfs].
  assert (Hs : s < n) by (apply Hn; now left). destruct (@get_lt _ g s) as (row & Eg); [lia|]. pose proof (row_get s Eg) as Ew.
  assert (rw = map tgt row) as -> by (rewrite get_map, Eg in Er; now injection Er as <-).
  rewrite Eg. cbn [obind]. match goal with |- context [for_up _ _ ?bd _] => set (body := bd) end.
  assert (NR : NoDup (rowE s)) by (apply row_nodup with p cs; auto; now rewrite Ew).
  set (I := fun (i : nat) (st : T * list (list T)) => exists don pend, cs = don ++ pend /\ filter (np p) (skipn i (map tgt row)) = map root pend /\
    fst st = prod (map (fun c => F s (value c) (root c)) don) /\ shape (snd st) /\ (forall d, In d don -> down (snd st) d) /\
    (forall j c, j < i -> In c don -> get (rowE s) j = Some (root c) -> get2 (snd st) s j = Some (value c)) /\
    (forall c, In c don -> exists j, j < i /\ get (rowE s) j = Some (root c)) /\
    (forall v, v <> s -> ~ In v (fverts don) -> get (snd st) v = get dp v)).
  destruct (@for_up_rule _ I body (length row) 0 (e, dp)) as ([m dp'] & Em & HI).
  - exists [], cs. cbn [app fst snd map skipn]. split; [auto|]. split; [auto|]. split; [auto|]. split; [auto|]. split; [intros d []|]. split; [intros j c _ []|]. split; [intros c []|]. auto.
  - intros i [m dp1] Hi (don & pend & Ec & Fp & Em & Sh1 & Dn & Vl & Ix & Fr). cbn [fst snd] in *. unfold body.
    destruct (@get_lt _ row i) as (a & Ea); [lia|]. rewrite Ea. cbn [obind].
    assert (Et : get (map tgt row) i = Some (tgt a)) by (rewrite get_map, Ea; auto). rewrite (get_skip_S _ i Et) in Fp. cbn [filter] in Fp. unfold np at 1 in Fp.
    destruct (oeq (Some (tgt a)) p) eqn:Eo; cbn [negb] in Fp.
    + eexists. split; [reflexivity|]. exists don, pend. cbn [fst snd]. split; [auto|]. split; [auto|]. split; [auto|]. split; [auto|]. split; [auto|]. split; [|split; [|auto]].
      * intros j c Hj Ic Hr. apply Vl; auto. destruct (Nat.eq_dec j i) as [->|N]; [|lia]. exfalso. destruct (Ix c Ic) as (j & Hj2 & Hr2). assert (i = j) by (apply (nodup_get _ _ NR Hr Hr2)). lia.
      * intros c Ic. destruct (Ix c Ic) as (j & Hj2 & Hr2). exists j. split; [lia|auto].
    + destruct pend as [|c pend]; [discriminate|]. injection Fp as Ert Fp.
      assert (Ic : In c cs) by (rewrite Ec; apply in_or_app; right; now left). destruct (sub_nodup c ND Ic) as [Nc Nsc].
      destruct (IH c Ic fuel (Some s) dp1) as (dp2 & E2 & Sh2 & D2 & Fr2); auto.
      { pose proof (@height_child s cs c Ic). lia. }
      { intros v Iv. apply Hn. right. apply in_fverts. eauto. }
      { intros q [= <-]. auto. }
      rewrite Ert, E2. cbn [obind]. destruct (@set2_ok dp2 s i (value c) Sh2 Hs) as (dp3 & E3 & Sh3 & G3 & J3 & F3).
      { rewrite Ew, map_length. lia. }
      rewrite E3. cbn [obind]. rewrite G3. cbn [obind]. eexists. split; [reflexivity|].
      exists (don ++ [c]), pend. cbn [fst snd].
      assert (Dj : forall d, In d don -> d <> c /\ forall v, In v (verts d) -> ~ In v (verts c)).
      { intros d Id. assert (Idc : In d cs) by (rewrite Ec; apply in_or_app; auto). split.
        - intros ->. rewrite Ec in ND. cbn [verts] in ND. inversion_clear ND as [|? ? _ N]. rewrite flat_map_app in N. apply NoDup_app_iff in N as (_ & _ & D). apply (D (root c)); [now apply roots_in|]. apply roots_in. now left.
        - intros v V1 V2. rewrite Ec in ND. cbn [verts] in ND. inversion_clear ND as [|? ? _ N]. rewrite flat_map_app in N. apply NoDup_app_iff in N as (_ & _ & D). apply (D v); [apply in_fverts; eauto|]. cbn [flat_map]. apply in_or_app. auto. }
      split; [now rewrite <- app_assoc|]. split; [auto|]. split; [|split; [auto|split; [|split; [|split]]]].
      * rewrite map_app. cbn [map]. rewrite prod_snoc. rewrite Em. f_equal. rewrite (Hap s (row := row)) by (auto; apply get_In in Ea; auto). now rewrite Ert.
      * intros d Id. apply in_app_or in Id as [Id|[<-|[]]].
        -- apply down_frame with dp1; auto. intros v Iv. destruct (Dj d Id) as [_ Dv]. rewrite F3; [apply Fr2; auto|]. intros ->. assert (Idc : In d cs) by (rewrite Ec; apply in_or_app; auto). now apply (sub_nodup d ND Idc).
        -- apply down_frame with dp2; auto. intros v Iv. apply F3. intros ->. contradiction.
      * intros j d Hj Id Hr. apply in_app_or in Id as [Id|[<-|[]]].
        -- destruct (Ix d Id) as (j' & Hj' & Hr'). assert (j = j') as <- by (apply (nodup_get _ _ NR Hr Hr')). rewrite J3 by lia. unfold get2. rewrite Fr2 by auto. now apply Vl.
        -- assert (j = i) as -> by (apply (nodup_get _ _ NR Hr); rewrite Ew, <- Ert; auto). auto.
      * intros d Id. apply in_app_or in Id as [Id|[<-|[]]].
        -- destruct (Ix d Id) as (j' & Hj' & Hr'). exists j'. split; [lia|auto].
        -- exists i. split; [lia|]. rewrite Ew, <- Ert. auto.
      * intros v Nv Iv. rewrite F3 by auto. rewrite fverts_app in Iv. unfold fverts at 2 in Iv. cbn [flat_map] in Iv. rewrite app_nil_r in Iv. rewrite Fr2 by (intros J; apply Iv, in_or_app; auto). apply Fr; auto. intros J. apply Iv, in_or_app. auto.
  - rewrite Em. cbn [obind]. destruct HI as (don & pend & Ec & Fp & Em' & Sh1 & Dn & Vl & Ix & Fr). cbn [fst snd Nat.add] in *.
    rewrite skipn_all2 in Fp by (rewrite map_length; auto). destruct pend; [|discriminate]. rewrite app_nil_r in Ec. subst don. exists dp'. split; [now rewrite Em'|]. split; [auto|]. split.
    + constructor; auto. intros i c Ic Hi. apply Vl; auto. apply get_some_lt in Hi. rewrite Ew, map_length in Hi. auto.
    + intros v Nv. apply Fr; [intros ->; apply Nv; now left|]. intros J. apply Nv. now right.
Qed.

(** ** Moving the root *)
Variable es : list (nat * nat).
Hypothesis Hrow : forall v, rowE v = nbrs es v.
Lemma graph_move s l c r : tree_graph n (Node s (l ++ c :: r)) es -> tree_graph n (Node (root c) (Node s (l ++ r) :: kids c)) es.
Proof.
  destruct c as [w ws]. cbn [root kids]. intros (P & es' & Pe & Fe). split.
  - rewrite <- P. cbn [verts flat_map]. rewrite !flat_map_app. cbn [flat_map verts]. rewrite app_comm_cons. symmetry.
    change (s :: flat_map verts l ++ (w :: flat_map verts ws) ++ flat_map verts r) with ((s :: flat_map verts l) ++ (w :: flat_map verts ws) ++ flat_map verts r).
    rewrite (Permutation_app_comm (w :: flat_map verts ws)). rewrite app_assoc. rewrite Permutation_app_comm. cbn [app]. constructor. rewrite Permutation_app_comm. cbn [app]. auto.
  - set (X := fedges s (l ++ r) ++ fedges w ws).
    assert (P1 : Permutation (tedges (Node s (l ++ Node w ws :: r))) ((s, w) :: X)).
    { change (tedges (Node s (l ++ Node w ws :: r))) with (fedges s (l ++ Node w ws :: r)). unfold X. rewrite !fedges_app. unfold fedges at 2. cbn [flat_map root]. fold (fedges s r).
      change (tedges (Node w ws)) with (fedges w ws). cbn [app]. rewrite <- Permutation_middle. constructor. rewrite <- app_assoc. apply Permutation_app_head, Permutation_app_comm. }
    assert (P2 : Permutation (tedges (Node w (Node s (l ++ r) :: ws))) ((w, s) :: X)).
    { change (tedges (Node w (Node s (l ++ r) :: ws))) with (fedges w (Node s (l ++ r) :: ws)). unfold fedges at 1. cbn [flat_map root]. fold (fedges w ws). auto. }
    rewrite P1 in Pe. assert (In (s, w) es') as Iw by (apply (Permutation_in _ Pe); now left). apply in_split in Iw as (a & b & ->).
    apply Forall2_app_inv_l in Fe as (a2 & b2' & Fa & Fb & ->). inversion Fb as [|? f ? b2 Hf Fb2]; subst.
    exists (a ++ (w, s) :: b). split.
    + rewrite P2, <- Permutation_middle. constructor. apply Permutation_cons_app_inv in Pe. auto.
    + apply Forall2_app; auto. constructor; auto. destruct Hf as [-> | ->]; [right|left]; auto.
Qed.
Lemma graph_perm s cs cs' : Permutation cs cs' -> tree_graph n (Node s cs) es -> tree_graph n (Node s cs') es.
Proof. intros P. apply equiv_graph. apply equiv_node with cs'; auto. clear. induction cs'; constructor; auto using equiv_refl. Qed.
Lemma graph_adj t : tree_graph n t es -> adj E None t /\ NoDup (verts t) /\ forall v, In v (verts t) <-> v < n.
Proof.
  intros TG. split; [|split].
  - apply (@tree_adj n t es (with_edge (hl_new n) E)); auto. cbn. now rewrite map_length.
  - destruct TG as [P _]. apply (Permutation_NoDup (Permutation_sym P)), seq_NoDup.
  - intros v. destruct TG as [P _]. split; intros H; [apply (Permutation_in _ P), in_seq in H; lia|]. apply (Permutation_in _ (Permutation_sym P)), in_seq. lia.
Qed.
Definition oup (u : option tree) : list tree := match u with Some u => [u] | None => [] end.
Definition good_row (dp : list (list T)) (v : nat) : Prop := exists cs, tree_graph n (Node v cs) es /\
  forall i c, In c cs -> get (rowE v) i = Some (root c) -> get2 dp v i = Some (value c).
Lemma good_frame dp dp' v : get dp' v = get dp v -> good_row dp v -> good_row dp' v.
Proof. intros Ev (cs & TG & H). exists cs. split; auto. intros i c Ic Hi. unfold get2. rewrite Ev. now apply H. Qed.

Lemma dfs2_ok : forall t fuel up prop dp, height t <= fuel -> tree_graph n (Node (root t) (oup up ++ kids t)) es ->
  (forall u, up = Some u -> prop = value u) -> shape dp -> down dp t ->
  exists dp', rr_dfs2 tgt ap mrg gf e fuel g (root t) (match up with Some u => Some (root u) | None => None end) prop dp = Some dp' /\ shape dp' /\
    (forall v, In v (verts t) -> good_row dp' v) /\ (forall v, ~ In v (verts t) -> get dp' v = get dp v).
Proof.
  induction t as [s cs IH] using tree_ind2. intros fuel up prop dp Hh TG Hu Sh Dn. destruct fuel as [|fuel]; [cbn in Hh; lia|]. cbn [root kids] in *.
  set (p := match up with Some u => Some (root u) | None => None end). destruct (graph_adj TG) as (Ad & ND & Hv).
  assert (Hs : s < n) by (apply Hv; now left). cbn [rr_dfs2]. destruct (@get_lt _ g s) as (row & Eg); [lia|]. pose proof (row_get s Eg) as Ew. rewrite Eg. cbn [obind].
  (* the trees in the order of the row *)
  inversion Ad as [? ? ? rw Er Pr _]; subst. cbn [opt app] in Pr. assert (rw = map tgt row) as -> by (rewrite get_map, Eg in Er; now injection Er as <-).
  destruct (Permutation_map_inv _ _ Pr) as (fl & Ef & Pf). assert (Lf : length fl = length row) by (rewrite <- (map_length tgt row), Ef, map_length; auto).
  assert (NR : NoDup (rowE s)).
  { apply (@row_nodup None s (oup up ++ cs)); auto; [discriminate|]. rewrite Ew. auto. }
  assert (TGf : tree_graph n (Node s fl) es) by (apply graph_perm with (oup up ++ cs); auto).
  assert (Up : forall u, up = Some u -> ~ In (root u) (map root cs)).
  { intros u -> I. cbn [oup app verts flat_map] in ND. inversion_clear ND as [|? ? _ N]. apply NoDup_app_iff in N as (_ & _ & D). apply (D (root u)); [apply root_in|]. apply in_map_iff in I as (d & <- & Id). now apply roots_in. }
  assert (Op : forall i c, get fl i = Some c -> (oeq (Some (root c)) p = true -> up = Some c) /\ (oeq (Some (root c)) p = false -> In c cs)).
  { intros i c Hc. assert (Ic : In c (oup up ++ cs)) by (apply (Permutation_in _ (Permutation_sym Pf)); apply get_In in Hc; auto).
    split; intros Eo; unfold p in Eo; destruct up as [u|]; try discriminate.
    - apply Nat.eqb_eq in Eo. cbn [oup app] in Ic. destruct Ic as [->|Ic]; [auto|]. exfalso. apply (Up u eq_refl). rewrite <- Eo. now apply in_map.
    - cbn [oup app] in Ic. destruct Ic as [->|Ic]; [|auto]. cbn in Eo. rewrite Nat.eqb_refl in Eo. discriminate.
    - auto. }
  assert (Rt : forall i a, get row i = Some a -> exists c, get fl i = Some c /\ root c = tgt a).
  { intros i a Ea. destruct (@get_lt _ fl i) as (c & Ec); [apply get_some_lt in Ea; lia|]. exists c. split; auto. assert (get (map tgt row) i = get (map root fl) i) by congruence. rewrite !get_map, Ea, Ec in H. now injection H as ->. }
  (* the value coming from above *)
  assert (L1 : exists dp1, loop (S (length row)) (fun i =>
        if i <? length row then
          let* a := get row i in
          if oeq (Some (tgt a)) p then let* dp := set2 dp s i prop in Some (inr dp) else Some (inl (i + 1))
        else Some (inr dp)) 0 = Some dp1 /\ shape dp1 /\ (forall v, v <> s -> get dp1 v = get dp v) /\
        forall i c, get fl i = Some c -> get2 dp1 s i = Some (value c)).
  { inversion Dn as [? ? D1 D2]; subst.
    assert (Hc : forall i c, get fl i = Some c -> In c cs -> get2 dp s i = Some (value c)).
    { intros i c Hc Ic. apply D1; auto. rewrite Ew, Ef, get_map, Hc. auto. }
    match goal with |- context [loop _ ?bd _] => set (body := bd) end.
    apply (@loop_rule _ _ (fun i => i <= length row /\ forall j c, j < i -> get fl j = Some c -> oeq (Some (root c)) p = false) (fun i => length row - i)
      (fun dp1 => shape dp1 /\ (forall v, v <> s -> get dp1 v = get dp v) /\ forall i c, get fl i = Some c -> get2 dp1 s i = Some (value c))); [|split; [lia|intros; lia]|lia].
    intros i [Hi Hj]. unfold body. destruct (Nat.ltb_spec i (length row)) as [Hl|Hl].
    - destruct (@get_lt _ row i Hl) as (a & Ea). rewrite Ea. cbn [obind]. destruct (Rt i a Ea) as (c & Ec & Rc). rewrite <- Rc. destruct (oeq (Some (root c)) p) eqn:Eo.
      + destruct (@set2_ok dp s i prop Sh Hs) as (dp1 & E1 & Sh1 & G1 & J1 & F1); [rewrite Ew, map_length; auto|]. rewrite E1. cbn [obind]. eexists. split; [reflexivity|].
        destruct (Op i c Ec) as [O1 _]. specialize (O1 Eo). split; [auto|]. split; [auto|]. intros j d Hd. destruct (Nat.eq_dec j i) as [->|N].
        * rewrite G1. rewrite Ec in Hd. injection Hd as <-. f_equal. now apply Hu.
        * rewrite J1 by auto. apply Hc; auto. apply (Op j d Hd). destruct (oeq (Some (root d)) p) eqn:Eo2; [|auto]. destruct (Op j d Hd) as [O2 _]. specialize (O2 Eo2). exfalso. apply N.
          apply (nodup_get j i NR (x := root c)); rewrite Ew, Ef, get_map, ?Hd, ?Ec; auto. cbn. congruence.
      + eexists. split; [reflexivity|]. split; [|lia]. split; [lia|]. intros j d Hj2 Hd. destruct (Nat.eq_dec j i) as [->|N]; [congruence|]. apply (Hj j); auto. lia.
    - eexists. split; [reflexivity|]. split; [auto|]. split; [auto|]. intros j c Hc2. apply Hc; auto. apply (Op j c Hc2). apply (Hj j); auto. apply get_some_lt in Hc2. lia. }
  destruct L1 as (dp1 & E1 & Sh1 & Fr1 & Vl1). rewrite E1. cbn [obind]. clear E1.
  set (w := fun c => F s (value c) (root c)).
  assert (Wap : forall i a c, get row i = Some a -> get fl i = Some c -> ap (value c) a = w c).
  { intros i a c Ea Ec. rewrite (Hap s (row := row)) by (auto; apply get_In in Ea; auto). destruct (Rt i a Ea) as (c' & Ec' & Rc). unfold w. congruence. }
  (* products from the right *)
  assert (L2 : exists cR, for_down (length row - 1) 0 (fun i cR =>
        let* a := get row (i + 1) in
        let* x := get2 dp1 s (i + 1) in
        let* r := get cR (i + 1) in
        set cR i (mrg r (ap x a))) (repeat e (length row)) = Some cR /\ length cR = length row /\
        forall i, i < length row -> get cR i = Some (prod (map w (skipn (S i) fl)))).
  { match goal with |- context [for_down _ _ ?bd _] => set (body := bd) end.
    destruct (@for_down_rule _ (fun k cR => length cR = length row /\ forall i, k <= i < length row -> get cR i = Some (prod (map w (skipn (S i) fl)))) body 0 (length row - 1) (repeat e (length row))) as (cR & Ec & K1 & K2).
    - split; [apply repeat_length|]. intros i Hi. rewrite get_repeat by lia. rewrite skipn_all2 by lia. auto.
    - intros i cR Hi [K1 K2]. unfold body. destruct (@get_lt _ row (i + 1)) as (a & Ea); [lia|]. rewrite Ea. cbn [obind]. destruct (Rt _ a Ea) as (c & Ec & Rc).
      rewrite (Vl1 _ _ Ec). cbn [obind]. rewrite K2 by lia. cbn [obind]. rewrite set_some by lia. eexists. split; [reflexivity|]. split; [now rewrite lset_length|]. intros j Hj. destruct (Nat.eq_dec i j) as [<-|N].
      + rewrite get_lset_eq by lia. f_equal. rewrite (Wap _ _ _ Ea Ec). replace (S i) with (i + 1) by lia. rewrite (get_skip_S _ _ Ec). cbn [map]. rewrite (cm_comm CM). reflexivity.
      + rewrite get_lset_neq by auto. apply K2. lia.
    - exists cR. split; [auto|]. split; [auto|]. intros i Hi. apply K2. lia. }
  destruct L2 as (cR & E2 & LcR & VcR). rewrite E2. cbn [obind]. clear E2.
  (* the recursive calls *)
  match goal with |- context [for_up _ _ ?bd _] => set (body := bd) end.
  set (I := fun (i : nat) (st : T * list (list T)) => fst st = prod (map w (firstn i fl)) /\ shape (snd st) /\ get (snd st) s = get dp1 s /\
    (forall j c v, j < i -> get fl j = Some c -> In c cs -> In v (verts c) -> good_row (snd st) v) /\
    (forall j c v, i <= j -> get fl j = Some c -> In c cs -> In v (verts c) -> get (snd st) v = get dp v) /\
    (forall v, ~ In v (verts (Node s cs)) -> get (snd st) v = get dp v)).
  assert (ND2 : NoDup (verts (Node s cs))).
  { destruct up as [u|]; cbn [oup app] in ND; [|auto]. cbn [verts flat_map] in *. inversion_clear ND as [|? ? N1 N2]. constructor; [intros J; apply N1, in_or_app; auto|]. now apply NoDup_app_remove_l in N2. }
  destruct (@for_up_rule _ I body (length row) 0 (e, dp1)) as ([m dp'] & Em & HI).
  - unfold I. cbn [fst snd firstn map]. split; [auto|]. split; [auto|]. split; [auto|]. split; [intros; lia|]. split.
    + intros j c v _ _ Ic Iv. apply Fr1. intros ->. now apply (sub_nodup c ND2 Ic).
    + intros v Nv. apply Fr1. intros ->. apply Nv. now left.
  - intros i [m dp2] Hi (Em & Sh2 & Gs & Gd & Un & Ot). cbn [fst snd] in *. unfold body. destruct (@get_lt _ row i) as (a & Ea); [lia|]. rewrite Ea. cbn [obind].
    destruct (Rt i a Ea) as (c & Ec & Rc).
    assert (NE : forall j d, get fl j = Some d -> In d cs -> In c cs -> j <> i -> forall v, In v (verts d) -> ~ In v (verts c)).
    { intros j d Hd Id Ic N v V1 V2. apply N. assert (d = c) as -> by (apply (@sub_uniq s cs d c v); auto). apply (nodup_get j i NR (x := root c)); rewrite Ew, Ef, get_map, ?Hd, ?Ec; auto. }
    assert (Fin : forall dp3, get dp3 s = get dp1 s -> get2 dp3 s i = Some (value c)).
    { intros dp3 G3. unfold get2. rewrite G3. apply (Vl1 i c Ec). }
    destruct (oeq (Some (tgt a)) p) eqn:Eo; cbn [obind].
    + rewrite (Fin dp2 Gs). cbn [obind]. eexists. split; [reflexivity|]. unfold I. cbn [fst snd]. split; [|split; [auto|split; [auto|split; [|split; [|auto]]]]].
      * rewrite (get_first_S _ _ Ec), map_app. cbn [map]. rewrite prod_snoc, Em. f_equal. apply (Wap i); auto.
      * intros j d v Hj Hd Id Iv. destruct (Nat.eq_dec j i) as [->|N]; [|apply (Gd j d); auto; lia]. exfalso. rewrite Ec in Hd. injection Hd as <-. rewrite <- Rc in Eo. destruct (Op i c Ec) as [O1 _]. apply (Up c (O1 Eo)). now apply in_map.
      * intros j d v Hj. apply Un. lia.
    + assert (Ic : In c cs) by (rewrite <- Rc in Eo; apply (proj2 (Op i c Ec) Eo)). destruct (sub_nodup c ND2 Ic) as [Nc Nsc]. rewrite (VcR i) by lia. cbn [obind].
      set (u' := Node s (firstn i fl ++ skipn (S i) fl)).
      assert (Ef2 : fl = firstn i fl ++ c :: skipn (S i) fl) by (rewrite <- (get_skip_S _ _ Ec); symmetry; apply firstn_skipn).
      destruct (IH c Ic fuel (Some u') (gf (mrg m (prod (map w (skipn (S i) fl)))) s) dp2) as (dp3 & E3 & Sh3 & G3 & F3); auto.
      * pose proof (@height_child s cs c Ic). lia.
      * cbn [oup app]. unfold u'. apply graph_move. now rewrite <- Ef2.
      * intros u [= <-]. unfold u'. cbn [RerootModel.value]. fold w. f_equal. change (fun c0 : tree => F s (value c0) (root c0)) with w. rewrite map_app, (product_app M). now rewrite Em.
      * inversion Dn as [? ? _ D2]; subst. apply down_frame with dp; [|auto]. intros v Iv. apply (Un i c); auto.
      * unfold u' in E3. cbn [root] in E3. rewrite <- Rc, E3. cbn [obind]. rewrite (Fin dp3) by (rewrite F3; auto). cbn [obind]. eexists. split; [reflexivity|]. unfold I. cbn [fst snd].
        split; [|split; [auto|split; [rewrite F3; auto|split; [|split]]]].
        -- rewrite (get_first_S _ _ Ec), map_app. cbn [map]. rewrite prod_snoc, Em. f_equal. apply (Wap i); auto.
        -- intros j d v Hj Hd Id Iv. destruct (Nat.eq_dec j i) as [->|N].
           ++ rewrite Ec in Hd. injection Hd as <-. auto.
           ++ apply good_frame with dp2; [apply F3, (NE j d); auto|]. apply (Gd j d); auto. lia.
        -- intros j d v Hj Hd Id Iv. rewrite F3; [apply (Un j d); auto; lia|]. apply (NE j d); auto. lia.
        -- intros v Nv. rewrite F3; [auto|]. intros J. apply Nv. right. apply in_fverts. eauto.
  - rewrite Em. cbn [obind]. destruct HI as (_ & Sh2 & Gs & Gd & _ & Ot). cbn [fst snd Nat.add] in *. exists dp'. split; [auto|]. split; [auto|]. split; [|auto].
    intros v [<-|Iv].
    + exists fl. split; [auto|]. intros i c Ic Hi. unfold get2. rewrite Gs. apply (Vl1 i). assert (Hl : i < length fl) by (apply get_some_lt in Hi; rewrite Ew, map_length in Hi; lia). destruct (get_lt fl Hl) as (d & Ed). rewrite Ed. f_equal.
      rewrite Ew, Ef, get_map, Ed in Hi. injection Hi as Hi. destruct (graph_adj TGf) as (_ & NDf & _). apply (@child_uniq s fl); auto. apply get_In in Ed. auto.
    + fold (fverts cs) in Iv. apply in_fverts in Iv as (c & Ic & Iv). assert (Icf : In c fl) by (apply (Permutation_in _ Pf), in_or_app; auto). apply In_get in Icf as (j & Hl & Hj). apply (Gd j c); auto. lia.
Qed.

(** ** Equal graphs have equal values *)
Lemma adj_value t : forall t' p, adj E p t -> adj E p t' -> root t = root t' -> NoDup (verts t) -> NoDup (verts t') -> (forall q, p = Some q -> ~ In q (verts t) /\ ~ In q (verts t')) -> value t = value t'.
Proof.
  induction t as [v cs IH] using tree_ind2. intros [v' cs'] p Ad Ad' Er ND ND' Hp. cbn [root] in Er. subst v'. inversion Ad as [? ? ? row E1 P1 C1]; subst. inversion Ad' as [? ? ? row' E2 P2 C2]; subst. rewrite E1 in E2. injection E2 as <-.
  assert (Pc : Permutation (map root cs) (map root cs')).
  { transitivity (filter (np p) row); [symmetry|]; apply row_children; auto; intros c q Ic Eq Eq2; destruct (Hp q Eq) as [H1 H2]; [apply H1|apply H2]; right; rewrite <- Eq2; now apply roots_in. }
  cbn [RerootModel.value]. f_equal. destruct (Permutation_map_inv _ _ Pc) as (cs2 & Em & P3).
  transitivity (prod (map (fun c => F v (value c) (root c)) cs2)); [|apply prod_perm, Permutation_map; now symmetry].
  f_equal. assert (In2 : forall c, In c cs2 -> In c cs') by (intros c; apply Permutation_in; now symmetry).
  assert (In1 : forall c, In c cs -> In c cs) by auto. revert In1 In2 Em. generalize cs at 1 3 4 as l1. clear - IH C1 C2 ND ND'. intros l1. revert cs2.
  induction l1 as [|c l1 IHl]; intros [|c' l2] I1 I2 Em; try discriminate; [auto|]. cbn [map] in *. injection Em as Er Em. f_equal; [|apply IHl; auto; intros; [apply I1|apply I2]; now right].
  rewrite Er. f_equal. assert (Ic : In c cs) by (apply I1; now left). assert (Ic' : In c' cs') by (apply I2; now left).
  destruct (sub_nodup c ND Ic) as [N1 N2]. destruct (sub_nodup c' ND' Ic') as [N1' N2']. apply (IH c Ic c' (Some v)); auto. intros q [= <-]. auto.
Qed.

Lemma calc_ok t dp0 : tree_graph n t es -> length dp0 = n -> exists dp, rr_calc tgt ap mrg gf e n g dp0 (root t) = Some dp /\ length dp = n /\
  (forall s, s < n -> exists cs, tree_graph n (Node s cs) es) /\
  (forall s cs i c, tree_graph n (Node s cs) es -> In c cs -> get (rowE s) i = Some (root c) -> get2 dp s i = Some (value c)).
Proof.
  intros TG L0. destruct (graph_adj TG) as (Ad & ND & Hv). unfold rr_calc.
  match goal with |- context [for_up _ _ ?bd dp0] => set (body := bd) end.
  destruct (@for_up_rule _ (fun i dp => length dp = n /\ forall v r, v < i -> get dp v = Some r -> length r = length (rowE v)) body n 0 dp0) as (dp1 & E1 & K1 & K2).
  - split; [auto|]. intros; lia.
  - intros i dp Hi [K1 K2]. unfold body. destruct (@get_lt _ g i) as (row & Eg); [lia|]. rewrite Eg. cbn [obind]. rewrite set_some by lia. eexists. split; [reflexivity|]. split; [now rewrite lset_length|].
    intros v r Hvi. destruct (Nat.eq_dec i v) as [<-|N].
    + rewrite get_lset_eq by lia. intros [= <-]. rewrite repeat_length, (row_get i Eg), map_length. auto.
    + rewrite get_lset_neq by auto. apply K2. lia.
  - rewrite E1. cbn [obind]. assert (Sh : shape dp1) by (split; [auto|]; intros v r Hr; apply (K2 v); auto; apply get_some_lt in Hr; lia).
    destruct (@order_tree _ t None Ad ND) as (t' & Eq & O); [discriminate|]. pose proof Eq as (Er & Ev & _). pose proof (equiv_graph Eq TG) as TG'. destruct (graph_adj TG') as (_ & ND' & Hv').
    assert (Ht : height t' <= n + 1) by (pose proof (height_le t'); destruct TG' as [P _]; apply Permutation_length in P; rewrite seq_length in P; unfold tsize in *; lia).
    destruct (@dfs_ok t' (n + 1) None dp1) as (dp2 & E2 & Sh2 & D2 & _); auto; [intros v; apply Hv'|discriminate|]. rewrite <- Er, E2. cbn [obind].
    destruct (@dfs2_ok t' (n + 1) None e dp2) as (dp3 & E3 & Sh3 & G3 & _); auto.
    { cbn [oup app]. destruct t'. exact TG'. }
    { discriminate. }
    exists dp3. split; [auto|]. split; [apply Sh3|]. split.
    + intros s Hs. destruct (G3 s) as (cs & T1 & _); [now apply Hv'|]. eauto.
    + intros s cs i c T1 Ic Hi. destruct (graph_adj T1) as (A1 & N1 & V1). destruct (G3 s) as (cs2 & T2 & G2); [apply Hv', V1; now left|]. destruct (graph_adj T2) as (A2 & N2 & V2).
      inversion A1 as [? ? ? row R1 P1 C1]; subst. inversion A2 as [? ? ? row' R2 P2 C2]; subst. rewrite R1 in R2. injection R2 as <-. cbn [opt app] in P1, P2.
      assert (Ir : In (root c) (map root cs2)) by (apply (Permutation_in _ P2), (Permutation_in _ (Permutation_sym P1)), in_map, Ic). apply in_map_iff in Ir as (c2 & Ec & Ic2).
      rewrite (G2 i c2 Ic2) by (now rewrite Ec). f_equal. destruct (sub_nodup c N1 Ic). destruct (sub_nodup c2 N2 Ic2). apply (@adj_value c2 c (Some s)); auto. intros q [= <-]. auto.
Qed.
End Core.
