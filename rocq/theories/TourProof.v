From Verif Require Import Base BaseLemmas ListExtra NthExtra.
From Verif Require GraphModel GraphProof.
From Verif Require Import HldModel HldTree HldSz HldFacts TreeGraph TourModel.
Set Implicit Arguments.

Fixpoint etour (t : tree) : list nat := let 'Node v cs := t in v :: flat_map (fun c => etour c ++ [v]) cs.
Definition ftour (v : nat) (cs : list tree) : list nat := flat_map (fun c => etour c ++ [v]) cs.
Lemma etour_len t : length (etour t) = 2 * tsize t - 1.
Proof.
  induction t as [v cs IH] using tree_ind2. rewrite tsize_node. cbn [etour length]. fold (ftour v cs).
  assert (H : length (ftour v cs) = 2 * length (fverts cs)); [|lia].
  induction cs as [|c cs IHc]; [reflexivity|]. unfold ftour, fverts in *. cbn [flat_map]. rewrite !app_length, IHc by (intros; apply IH; now right).
  rewrite IH by now left. pose proof (tsize_pos c). unfold tsize in *. cbn [length]. lia.
Qed.
Lemma etour_in t x : In x (etour t) <-> In x (verts t).
Proof.
  induction t as [v cs IH] using tree_ind2. cbn [etour verts In]. split; (intros [H|H]; [now left|]).
  - apply in_flat_map in H as (c & Ic & H). apply in_app_or in H as [H|[H|[]]]; [|now left]. right. apply in_flat_map. exists c. split; auto. now apply IH.
  - right. apply in_flat_map in H as (c & Ic & H). apply in_flat_map. exists c. split; auto. apply in_or_app. left. now apply IH.
Qed.
Lemma etour_head t : get (etour t) 0 = Some (root t).
Proof. destruct t; reflexivity. Qed.

Section Run.
Variables (n : nat) (g : list (list nat)).
Definition okx (x : tours) : Prop := length (t_L x) = n /\ length (t_R x) = n.
Definition marked (x : tours) (v : nat) : Prop :=
  exists l r, get (t_L x) v = Some l /\ first_at (t_tour x) l v /\ get (t_R x) v = Some r /\ last_at (t_tour x) r v.
Definition same (x y : tours) (v : nat) : Prop := get (t_L y) v = get (t_L x) v /\ get (t_R y) v = get (t_R x) v.
Lemma first_app l m i x : first_at l i x -> first_at (l ++ m) i x.
Proof.
  intros [H1 H2]. pose proof (get_some_lt _ _ H1). split; [now rewrite get_app_l|]. intros j Hj.
  destruct (Nat.lt_ge_cases j (length l)); [apply H2; now rewrite get_app_l in Hj|lia].
Qed.
Lemma last_app l m i x : last_at l i x -> ~ In x m -> last_at (l ++ m) i x.
Proof.
  intros [H1 H2] N. pose proof (get_some_lt _ _ H1). split; [now rewrite get_app_l|]. intros j Hj.
  destruct (Nat.lt_ge_cases j (length l)); [apply H2; now rewrite get_app_l in Hj|]. rewrite get_app_r in Hj by auto. apply get_In in Hj. contradiction.
Qed.
Lemma first_new l m x : ~ In x l -> first_at (l ++ x :: m) (length l) x.
Proof.
  intros N. split; [rewrite get_app_r, Nat.sub_diag by auto; auto|]. intros j Hj. destruct (Nat.lt_ge_cases j (length l)); [|auto]. rewrite get_app_l in Hj by auto. apply get_In in Hj. contradiction.
Qed.
Lemma last_new l x : last_at (l ++ [x]) (length l) x.
Proof.
  split; [rewrite get_app_r, Nat.sub_diag by auto; auto|]. intros j Hj. apply get_some_lt in Hj. rewrite app_length in Hj. cbn in Hj. lia.
Qed.
Lemma dfs_ok : forall t fuel p x, height t <= fuel -> oadj g p t -> NoDup (verts t) -> (forall v, In v (verts t) -> v < n) -> okx x -> (forall v, In v (verts t) -> ~ In v (t_tour x)) ->
  exists y, tour_dfs fuel g (root t) p (length (t_tour x)) x = Some (length (t_tour y), y) /\ okx y /\ t_tour y = t_tour x ++ etour t /\
    (forall v, In v (verts t) -> marked y v) /\ (forall v, ~ In v (verts t) -> same x y v).
Proof.
  induction t as [s cs IH] using tree_ind2. intros fuel p x Hh O ND Hn (KL & KR) Fr. destruct fuel as [|fuel]; [cbn in Hh; lia|].
  inversion O as [? ? ? row Er Fl _ Oc]; subst. cbn [root tour_dfs].
  assert (Hs : s < n) by (apply Hn; now left). rewrite set_some by lia. cbn [obind]. rewrite set_some by lia. cbn [obind]. rewrite Er. cbn [obind].
  match goal with |- context [for_each _ ?bd _] => set (body := bd) end.
  set (k0 := length (t_tour x)).
  assert (Lp : forall row don pend y, filter (np p) row = map root pend -> (forall c, In c pend -> In c cs) -> NoDup (s :: fverts (don ++ pend)) ->
    okx y -> t_tour y = t_tour x ++ s :: ftour s don ->
    get (t_L y) s = Some k0 -> (exists r, get (t_R y) s = Some r /\ last_at (t_tour y) r s) ->
    (forall v, In v (fverts don) -> marked y v) -> (forall v, v <> s -> ~ In v (fverts don) -> same x y v) ->
    (forall v, In v (fverts pend) -> ~ In v (t_tour x)) ->
    exists z, for_each row body (length (t_tour y), y) = Some (length (t_tour z), z) /\ okx z /\ t_tour z = t_tour x ++ s :: ftour s (don ++ pend) /\
    get (t_L z) s = Some k0 /\ (exists r, get (t_R z) s = Some r /\ last_at (t_tour z) r s) /\
    (forall v, In v (fverts (don ++ pend)) -> marked z v) /\ (forall v, v <> s -> ~ In v (fverts (don ++ pend)) -> same x z v)).
  { clear row Er Fl O. induction row as [|t row IHr]; intros don pend y Fl Hin Nd Ky Ty Ls Rs Mk Sm Fp; cbn [for_each].
    - destruct pend; [|discriminate]. exists y. rewrite app_nil_r in *. auto 10.
    - unfold body at 1. destruct (oeq (Some t) p) eqn:Et.
      + cbn [obind]. cbn [filter] in Fl. unfold np at 1 in Fl. rewrite Et in Fl. cbn [negb] in Fl. apply IHr; auto.
      + cbn [filter] in Fl. unfold np at 1 in Fl. rewrite Et in Fl. cbn [negb] in Fl. destruct pend as [|c pend]; [discriminate|]. injection Fl as -> Fl.
        assert (Ic : In c cs) by (apply Hin; now left).
        rewrite fverts_app in Nd. unfold fverts at 2 in Nd. cbn [flat_map] in Nd. fold (fverts pend) in Nd. inversion_clear Nd as [|? ? N1 N2].
        apply NoDup_app_iff in N2 as (Nd1 & Nd2 & D1). pose proof Nd2 as Nd2'. apply NoDup_app_iff in Nd2 as (Nc & Np & D2).
        assert (Nsc : ~ In s (verts c)) by (intros I; apply N1, in_or_app; right; apply in_or_app; auto).
        destruct (IH c Ic fuel (Some s) y) as (z & Ez & Kz & Tz & Mz & Sz); auto.
        { pose proof (@height_child s cs c Ic). lia. }
        { intros v Iv. apply Hn. right. apply in_fverts. eauto. }
        { intros v Iv. rewrite Ty. intros I. apply in_app_or in I as [I|[I|I]].
          - apply (Fp v); auto. unfold fverts. cbn [flat_map]. apply in_or_app. auto.
          - subst v. contradiction.
          - apply in_flat_map in I as (d & Id & I). apply in_app_or in I as [I|[I|[]]]; [|subst; contradiction]. apply (D1 v); [apply in_fverts; exists d; split; auto; now apply etour_in|]. apply in_or_app. auto. }
        rewrite Ez. cbn [obind]. destruct Kz as [Kz1 Kz2]. rewrite set_some by lia. cbn [obind].
        set (z2 := Tours (t_tour z ++ [s]) (t_L z) (lset (t_R z) s (length (t_tour z)))).
        assert (El : length (t_tour z) + 1 = length (t_tour z2)) by (unfold z2; cbn; now rewrite app_length). rewrite El.
        destruct (Sz s Nsc) as [Sz1 Sz2].
        destruct (IHr (don ++ [c]) pend z2) as (w & Ew & H); auto.
        { intros c' I. apply Hin. now right. }
        { rewrite <- app_assoc. cbn [app]. rewrite fverts_app. unfold fverts at 2. cbn [flat_map]. constructor; auto. apply NoDup_app_iff. auto. }
        { unfold okx, z2. cbn. rewrite lset_length. auto. }
        { unfold z2. cbn [t_tour]. rewrite Tz, Ty. unfold ftour. rewrite flat_map_app. cbn [flat_map]. rewrite app_nil_r, <- !app_assoc. cbn. rewrite <- ?app_assoc. reflexivity. }
        { unfold z2. cbn [t_L]. congruence. }
        { exists (length (t_tour z)). unfold z2. cbn [t_R t_tour]. split; [apply get_lset_eq; lia|apply last_new]. }
        { intros v Iv. rewrite fverts_app in Iv. unfold fverts at 2 in Iv. cbn [flat_map] in Iv. rewrite app_nil_r in Iv.
          assert (Nvs : v <> s) by (intros ->; apply N1; rewrite in_app_iff in Iv |- *; rewrite in_app_iff; tauto).
          assert (Mv : marked z v).
          { apply in_app_or in Iv as [Iv|Iv]; [|auto]. destruct (Mk v Iv) as (l & r & M1 & M2 & M3 & M4).
            assert (Nvc : ~ In v (verts c)) by (intros I; apply (D1 v Iv), in_or_app; auto).
            destruct (Sz v Nvc) as [S1 S2]. exists l, r. rewrite S1, S2, Tz. repeat split; auto; try apply M2 || apply M4.
            - now apply first_app.
            - now apply first_app.
            - apply last_app; auto. now rewrite etour_in.
            - apply last_app; auto. now rewrite etour_in. }
          destruct Mv as (l & r & M1 & M2 & M3 & M4). exists l, r. unfold z2. cbn [t_L t_R t_tour]. split; [auto|]. split; [now apply first_app|]. split; [rewrite get_lset_neq; auto|]. apply last_app; auto. intros [I|[]]; auto. }
        { intros v Nv Iv. rewrite fverts_app in Iv. unfold fverts at 2 in Iv. cbn [flat_map] in Iv. rewrite app_nil_r in Iv.
          destruct (Sm v Nv) as [A1 A2]; [intros I; apply Iv, in_or_app; auto|]. destruct (Sz v) as [B1 B2]; [intros I; apply Iv, in_or_app; auto|].
          unfold same, z2. cbn [t_L t_R]. rewrite get_lset_neq by auto. split; congruence. }
        { intros v Iv. apply Fp. unfold fverts. cbn [flat_map]. apply in_or_app. auto. }
        rewrite <- app_assoc in H. cbn [app] in H. exists w. auto. }
  set (y0 := Tours (t_tour x ++ [s]) (lset (t_L x) s k0) (lset (t_R x) s k0)).
  assert (El : k0 + 1 = length (t_tour y0)) by (unfold y0, k0; cbn; now rewrite app_length). rewrite El.
  destruct (Lp row [] cs y0) as (z & Ez & Kz & Tz & Lz & Rz & Mz & Sz); auto.
  - unfold okx, y0. cbn. rewrite !lset_length. auto.
  - unfold y0. cbn [t_L]. apply get_lset_eq. lia.
  - exists k0. unfold y0. cbn [t_R t_tour]. split; [apply get_lset_eq; lia|apply last_new].
  - intros v [].
  - intros v Nv _. unfold same, y0. cbn [t_L t_R]. rewrite !get_lset_neq by auto. auto.
  - intros v Iv. apply Fr. now right.
  - exists z. split; [exact Ez|]. split; [auto|]. split; [exact Tz|]. split.
    + intros v [<-|Iv]; [|apply Mz; exact Iv]. destruct Rz as (r & R1 & R2). exists k0, r. split; [auto|]. split; [|auto]. rewrite Tz. apply first_new. apply Fr. now left.
    + intros v Nv. apply Sz; intros I; apply Nv; [left; auto|right; exact I].
Qed.
End Run.

(** ** The shape of the tour *)
Definition chain (es : list (nat * nat)) (l : list nat) : Prop := forall i x y, get l i = Some x -> get l (S i) = Some y -> adjacent es x y.
Lemma chain_one es x : chain es [x].
Proof. intros [|i] a b _ H; [discriminate|]. destruct i; discriminate. Qed.
Lemma chain_app es l m x y : chain es (l ++ [x]) -> chain es (y :: m) -> adjacent es x y -> chain es ((l ++ [x]) ++ y :: m).
Proof.
  intros C1 C2 A i a b Ha Hb. destruct (Nat.lt_ge_cases (S i) (length (l ++ [x]))) as [H|H].
  - rewrite get_app_l in Ha, Hb by lia. now apply (C1 i).
  - rewrite get_app_r in Hb by lia. destruct (Nat.eq_dec (S i) (length (l ++ [x]))) as [E|N].
    + rewrite E, Nat.sub_diag in Hb. injection Hb as <-. rewrite app_length in E, H. cbn in E. rewrite get_app_l in Ha by (rewrite app_length; cbn; lia).
      replace i with (length l) in Ha by lia. rewrite get_app_r, Nat.sub_diag in Ha by auto. injection Ha as <-. auto.
    + rewrite get_app_r in Ha by lia. apply (C2 (i - length (l ++ [x]))); auto. rewrite <- Hb. f_equal. lia.
Qed.
Lemma adjacent_sym es x y : adjacent es x y -> adjacent es y x.
Proof. unfold adjacent. tauto. Qed.
Lemma chain_mono es es' l : (forall x y, adjacent es x y -> adjacent es' x y) -> chain es l -> chain es' l.
Proof. intros H C i x y Hx Hy. apply H. now apply (C i). Qed.
Lemma etour_last t : exists l, etour t = l ++ [root t].
Proof.
  destruct t as [v cs]. cbn [etour root]. destruct (rev_case cs) as [->|(m & c & ->)]; [exists []; reflexivity|].
  rewrite flat_map_app. cbn [flat_map]. rewrite app_nil_r. exists (v :: flat_map (fun c0 => etour c0 ++ [v]) m ++ etour c). cbn [app]. now rewrite <- app_assoc.
Qed.
Lemma etour_chain t : chain (tedges t) (etour t).
Proof.
  induction t as [v cs IH] using tree_ind2. cbn [etour]. fold (ftour v cs).
  assert (H : forall cs', (forall c, In c cs' -> In c cs) -> exists l, v :: ftour v cs' = l ++ [v] /\ chain (tedges (Node v cs)) (v :: ftour v cs')).
  { intros cs'. induction cs' as [|c cs' IHc] using rev_ind; intros Hc.
    - exists []. split; [reflexivity|apply chain_one].
    - destruct IHc as (l & El & Cl); [intros; apply Hc, in_or_app; auto|]. unfold ftour in *. rewrite flat_map_app. cbn [flat_map]. rewrite app_nil_r.
      exists (v :: flat_map (fun c0 => etour c0 ++ [v]) cs' ++ etour c). split; [cbn [app]; now rewrite <- app_assoc|].
      assert (Ic : In c cs) by (apply Hc, in_or_app; right; now left).
      assert (Ae : adjacent (tedges (Node v cs)) v (root c)) by (left; apply fedges_in; exists c; auto).
      rewrite app_comm_cons, El. destruct (etour_last c) as (m & Em).
      assert (Cc : chain (tedges (Node v cs)) (etour c)).
      { apply chain_mono with (tedges c); [|apply IH; auto]. intros x y [I|I]; [left|right]; apply fedges_in; eauto. }
      assert (C2 : chain (tedges (Node v cs)) (etour c ++ [v])).
      { rewrite Em. apply chain_app; [now rewrite <- Em|apply chain_one|now apply adjacent_sym]. }
      assert (exists m', etour c ++ [v] = root c :: m') as (m' & E') by (destruct c as [w ws]; eexists; reflexivity). rewrite E' in *.
      apply chain_app; auto. rewrite <- El. auto. }
  destruct (H cs) as (l & _ & C); auto.
Qed.
Lemma chain_walk es l : forall x y, chain es l -> get l 0 = Some x -> (exists m, l = m ++ [y]) -> walk es x l y.
Proof.
  induction l as [|a l IH]; intros x y C H0 (m & Em); [discriminate|]. injection H0 as ->. destruct l as [|b l].
  - destruct m as [|? [|]]; try discriminate. injection Em as ->. now split.
  - destruct m as [|x' m]; [discriminate|]. injection Em as <- Em. cbn [walk]. split; [auto|]. split.
    + now apply (C 0).
    + apply IH; [|reflexivity|eauto]. intros i u w Hu Hw. now apply (C (S i)).
Qed.
Lemma etour_block t v : NoDup (verts t) -> In v (verts t) -> exists s a b, etour t = a ++ etour s ++ b /\ root s = v /\
  (forall u, In u (verts s) -> ~ In u a /\ ~ In u b) /\ (forall u, In u (verts s) <-> anc t v u).
Proof.
  induction t as [r cs IH] using tree_ind2. intros ND Iv. destruct (Nat.eq_dec v r) as [->|Nv].
  - exists (Node r cs), [], []. cbn [app]. rewrite app_nil_r. split; [auto|]. split; [auto|]. split; [auto|]. intros u. split; [apply anc_root|]. intros A. apply (anc_in A). now left.
  - destruct Iv as [Iv|Iv]; [congruence|]. fold (fverts cs) in Iv. apply in_fverts in Iv as (c & Ic & Iv). destruct (sub_nodup c ND Ic) as [Nc Nrc].
    destruct (IH c Ic Nc Iv) as (s & a & b & Et & Es & Fr & An). pose proof (in_split _ _ Ic) as (l & q & ->).
    exists s, (r :: ftour r l ++ a), (b ++ [r] ++ ftour r q). split.
    { cbn [etour]. rewrite flat_map_app. cbn [flat_map]. rewrite Et. unfold ftour. cbn [app]. now rewrite <- !app_assoc. }
    split; [auto|].
    assert (Sub : forall u, In u (verts s) -> In u (verts c)).
    { intros u Iu. apply etour_in. rewrite Et. apply in_or_app. right. apply in_or_app. left. now apply etour_in. }
    split.
    + intros u Iu. pose proof (Sub u Iu) as Iuc. destruct (Fr u Iu) as [F1 F2].
      assert (Nur : u <> r) by (intros ->; contradiction).
      cbn [verts] in ND. inversion_clear ND as [|? ? _ ND2]. rewrite flat_map_app in ND2. cbn [flat_map] in ND2.
      apply NoDup_app_iff in ND2 as (_ & ND3 & D1). apply NoDup_app_iff in ND3 as (_ & _ & D2).
      assert (Fo : forall ds, In u (ftour r ds) -> In u (fverts ds)).
      { intros ds I. apply in_flat_map in I as (d & Id & I). apply in_app_or in I as [I|[I|[]]]; [|congruence]. apply in_fverts. exists d. split; auto. now apply etour_in. }
      split; intros I.
      * destruct I as [I|I]; [congruence|]. apply in_app_or in I as [I|I]; [|contradiction]. apply (D1 u (Fo _ I)), in_or_app. auto.
      * apply in_app_or in I as [I|[I|I]]; [contradiction|congruence|]. apply (D2 u Iuc (Fo _ I)).
    + intros u. rewrite An. split; [now apply anc_sub|]. apply anc_down; auto.
Qed.
Lemma meet t l : NoDup (verts t) -> chain (tedges t) l -> forall d i j a b, j = i + d -> get l i = Some a -> get l j = Some b ->
  exists k z, i <= k <= j /\ get l k = Some z /\ anc t z a /\ anc t z b.
Proof.
  intros ND C. induction d as [|d IH]; intros i j a b Ej Ha Hb.
  - assert (a = b) as -> by (rewrite Ej, Nat.add_0_r in Hb; congruence). exists i, b. repeat split; auto; try lia; constructor.
  - destruct (@get_lt _ l (S i)) as (a' & Ha'); [apply get_some_lt in Hb; lia|]. destruct (IH (S i) j a' b ltac:(lia) Ha' Hb) as (k & z & Hk & Hz & A1 & A2).
    destruct (C i a a' Ha Ha') as [E|E].
    + inversion A1 as [|? p ? A1' E']; subst.
      * exists i, a. split; [lia|]. split; [auto|]. split; [constructor|]. apply anc_trans with a'; auto. eapply anc_step; [constructor|eauto].
      * assert (p = a) as -> by (apply (@edge_parent t p a a'); auto). exists k, z. repeat split; auto; lia.
    + exists k, z. split; [lia|]. split; [auto|]. split; [|auto]. apply anc_step with a'; auto.
Qed.
Lemma equiv_adjacent n t es x y : tree_graph n t es -> (adjacent (tedges t) x y <-> adjacent es x y).
Proof.
  intros (_ & es' & Pe & F). transitivity (adjacent es' x y).
  - unfold adjacent. split; (intros [I|I]; [left|right]); (now apply (Permutation_in _ Pe)) || (now apply (Permutation_in _ (Permutation_sym Pe))).
  - clear Pe. unfold adjacent. induction F as [|[a b] f l r Hf F IH]; [tauto|]. cbn [In]. destruct Hf as [-> | ->]; cbn [fst snd].
    + tauto.
    + assert ((a, b) = (x, y) <-> (b, a) = (y, x)) by (split; congruence). assert ((a, b) = (y, x) <-> (b, a) = (x, y)) by (split; congruence). tauto.
Qed.

Lemma anc_up t x y : anc t x y -> In y (verts t) -> In x (verts t).
Proof. intros A. induction A as [x|x p y A IH E]; [auto|]. intros _. apply IH. now apply (edge_verts _ _ _ E). Qed.
Lemma first_uniq l i j x : first_at l i x -> first_at l j x -> i = j.
Proof. intros [A B] [C D]. apply B in C. apply D in A. lia. Qed.
Lemma last_uniq l i j x : last_at l i x -> last_at l j x -> i = j.
Proof. intros [A B] [C D]. apply B in C. apply D in A. lia. Qed.
Lemma resize_len n l : length (resize n l) = n.
Proof. unfold resize. rewrite app_length, firstn_length, repeat_length. lia. Qed.

Lemma tour_ok n t es G x0 : tree_graph n t es -> GraphModel.gr_n G = n -> length (GraphModel.gr_g G) = n -> adj (GraphModel.gr_g G) None t ->
  exists x, euler_tour G x0 (root t) = Some x /\ is_tour n t es x.
Proof.
  intros TG En Lg A.
  assert (ND : NoDup (verts t)) by (destruct TG as [P _]; apply (Permutation_NoDup (Permutation_sym P)), seq_NoDup).
  destruct (@order_tree _ t None A ND) as (t' & Eq & O); [discriminate|].
  pose proof (equiv_graph Eq TG) as TG'. pose proof Eq as (Er & Ev & Ee).
  assert (ND' : NoDup (verts t')) by (apply (Permutation_NoDup Ev ND)).
  assert (Hv : forall v, In v (verts t') <-> v < n).
  { intros v. destruct TG' as [P _]. split; intros H; [apply (Permutation_in _ P), in_seq in H; lia|]. apply (Permutation_in _ (Permutation_sym P)), in_seq. lia. }
  assert (Sz : tsize t' = n) by (destruct TG' as [P _]; unfold tsize; rewrite (Permutation_length P); apply seq_length).
  unfold euler_tour. rewrite En, <- Er.
  set (y0 := Tours [] (resize n (t_L x0)) (resize n (t_R x0))).
  destruct (@dfs_ok n (GraphModel.gr_g G) t' (n + 1) None y0) as (x & Ex & (K1 & K2) & Tx & Mk & _); auto.
  - pose proof (height_le t'). lia.
  - apply Hv.
  - unfold okx, y0. cbn. now rewrite !resize_len.
  - change (length (t_tour y0)) with 0 in Ex. rewrite Ex. cbn [obind]. exists x. split; [auto|]. cbn [t_tour y0 app] in Tx.
    assert (Cl : forall v, v < n -> exists l r, get (t_L x) v = Some l /\ first_at (t_tour x) l v /\ get (t_R x) v = Some r /\ last_at (t_tour x) r v /\
      forall u i, get (t_tour x) i = Some u -> (l <= i <= r <-> anc t v u)).
    { intros v Lv. destruct (Mk v) as (l & r & M1 & M2 & M3 & M4); [now apply Hv|]. exists l, r. split; [auto|]. split; [auto|]. split; [auto|]. split; [auto|].
      intros u i Hi. rewrite (equiv_anc v u Eq). destruct (@etour_block t' v ND') as (s & a & b & Et & Es & Fr & An); [now apply Hv|]. rewrite <- An.
      destruct (Fr v) as [Fa Fb]; [rewrite <- Es; apply root_in|]. destruct (etour_last s) as (m & Em).
      assert (Lne : length (etour s) = S (length m)) by (rewrite Em, app_length; cbn; lia).
      assert (El : l = length a).
      { apply (first_uniq M2). rewrite Tx, Et. destruct s as [w ws]. cbn [root] in Es. subst w. cbn [etour app]. now apply first_new. }
      assert (E2 : r = length a + length m).
      { apply (last_uniq M4). rewrite Tx, Et, Em, Es. rewrite app_assoc. rewrite app_assoc. rewrite <- app_length. apply last_app; auto. apply last_new. }
      rewrite Tx, Et in Hi. subst l r. split.
      - intros Hr. rewrite get_app_r, get_app_l in Hi by lia. apply get_In in Hi. now apply etour_in.
      - intros Iu. destruct (Fr u Iu) as [F1 F2]. destruct (Nat.lt_ge_cases i (length a)) as [Hl|Hl].
        + rewrite get_app_l in Hi by auto. apply get_In in Hi. contradiction.
        + rewrite get_app_r in Hi by auto. destruct (Nat.lt_ge_cases (i - length a) (length (etour s))) as [H2|H2]; [lia|].
          rewrite get_app_r in Hi by auto. apply get_In in Hi. contradiction. }
    split; [rewrite Tx, etour_len; lia|]. split; [auto|]. split; [auto|]. split; [|split; [exact Cl|]].
    + rewrite Tx, <- Er. apply chain_walk; [|apply etour_head|apply etour_last]. apply chain_mono with (tedges t'); [|apply etour_chain]. intros a b. now apply (equiv_adjacent a b TG').
    + intros i j a b w Hij Ha Hb (W1 & W2 & W3).
      assert (Lt : forall k u, get (t_tour x) k = Some u -> u < n) by (intros k u H; rewrite Tx in H; apply get_In, etour_in, Hv in H; auto).
      assert (Lw : w < n).
      { apply Hv. apply (anc_up (proj1 (equiv_anc w a Eq) W1)). apply Hv. eauto. }
      destruct (Cl w Lw) as (lw & rw & P1 & (P2 & _) & P3 & P4 & P5).
      assert (Hr : forall k, i <= k <= j -> lw <= k <= rw) by (intros k Hk; apply (P5 a i Ha) in W1; apply (P5 b j Hb) in W2; lia).
      split; [|intros k u Hk Hu; apply (P5 u k Hu); auto].
      assert (C : chain (tedges t') (t_tour x)) by (rewrite Tx; apply etour_chain).
      destruct (@meet t' (t_tour x) ND' C (j - i) i j a b ltac:(lia) Ha Hb) as (k & z & Hk & Hz & A1 & A2).
      apply (equiv_anc z a Eq) in A1. apply (equiv_anc z b Eq) in A2. pose proof (W3 z A1 A2) as Zw.
      pose proof (proj1 (P5 z k Hz) (Hr k Hk)) as Wz. destruct (Cl z (Lt _ _ Hz)) as (lz & rz & Q1 & (Q2 & _) & Q3 & Q4 & Q5).
      apply (Q5 w lw P2) in Zw. apply (P5 z lz Q2) in Wz. assert (lz = lw) by lia. subst lz. rewrite P2 in Q2. injection Q2 as ->. eauto.
Qed.
