From Coq Require Import Permutation.
From Verif Require Import Base BaseLemmas DncModel.

Section Dnc.
Variable X : Type.
Notation dnc := (dnc X).

(** [v] lies at height [j] of a tree with [2^H] leaves. *)
Definition level (H j v : nat) : Prop := j <= H /\ 2 ^ (H - j) <= v < 2 * 2 ^ (H - j).

Lemma pow_pos k : 0 < 2 ^ k. Proof. apply Nat.neq_0_lt_0, Nat.pow_nonzero. lia. Qed.

(** The containers met from leaf [p] up to height [j]. *)
Definition chain (t : list (list X)) (p j : nat) : list (list X) :=
  map (fun k => nth (p / 2 ^ k) t []) (seq 0 (S j)).
Definition path (t : list (list X)) (H p : nat) : list X := concat (chain t p H).

Lemma level_anc H k p : k <= H -> 2 ^ H <= p < 2 * 2 ^ H -> level H k (p / 2 ^ k).
Proof.
  intros Hk Hp. split; auto. pose proof (pow_pos k).
  replace H with (k + (H - k)) in Hp by lia. rewrite Nat.pow_add_r in Hp. split.
  - apply Nat.div_le_lower_bound; lia.
  - apply Nat.div_lt_upper_bound; lia.
Qed.
Lemma level_inj H j k v : level H j v -> level H k v -> j = k.
Proof.
  intros [A [B C]] [D [E F]].
  destruct (lt_eq_lt_dec j k) as [[L|L]|L]; auto; exfalso.
  - assert (2 * 2 ^ (H - k) <= 2 ^ (H - j)); [|lia].
    replace (H - j) with (S (H - k) + (k - j - 1)) by lia. rewrite Nat.pow_add_r. cbn [Nat.pow].
    pose proof (pow_pos (k - j - 1)). nia.
  - assert (2 * 2 ^ (H - j) <= 2 ^ (H - k)); [|lia].
    replace (H - k) with (S (H - j) + (j - k - 1)) by lia. rewrite Nat.pow_add_r. cbn [Nat.pow].
    pose proof (pow_pos (j - k - 1)). nia.
Qed.

Lemma nth_lset (t : list (list X)) i c k : i < length t -> nth k (lset t i c) [] = if k =? i then c else nth k t [].
Proof.
  intros Hi. destruct (Nat.eqb_spec k i) as [->|N].
  - apply nth_error_nth. now apply get_lset_eq.
  - rewrite <- !nth_default_eq. unfold nth_default. fold (get (lset t i c) k) (get t k). rewrite get_lset_neq; auto.
Qed.

(** Appending at a node changes exactly the paths through it. *)
Lemma path_push (t : list (list X)) H j v x p : level H j v -> v < length t -> 2 ^ H <= p < 2 * 2 ^ H ->
  Permutation (path (lset t v (nth v t [] ++ [x])) H p)
    (path t H p ++ if p / 2 ^ j =? v then [x] else []).
Proof.
  intros Lv Hv Hp. unfold path, chain.
  assert (G : forall ks, NoDup ks -> (forall k, In k ks -> k <= H) ->
    Permutation (concat (map (fun k => nth (p / 2 ^ k) (lset t v (nth v t [] ++ [x])) []) ks))
      (concat (map (fun k => nth (p / 2 ^ k) t []) ks) ++ if (p / 2 ^ j =? v) && existsb (Nat.eqb j) ks then [x] else [])).
  { induction ks as [|k ks IH]; intros ND B; [cbn; rewrite andb_false_r; constructor|].
    inversion ND as [|? ? Nk ND']; subst. cbn [map concat existsb].
    rewrite nth_lset by auto. specialize (IH ND' (fun k' Hk => B k' (or_intror Hk))).
    destruct (Nat.eqb_spec (p / 2 ^ k) v) as [E|E].
    - assert (j = k).
      { apply (level_inj H j k v); auto. rewrite <- E. apply level_anc; auto. apply B. now left. }
      subst k. rewrite Nat.eqb_refl, orb_true_l, andb_true_r. rewrite E, Nat.eqb_refl in *.
      assert (EX : existsb (Nat.eqb j) ks = false).
      { apply not_true_is_false. intros EX. apply existsb_exists in EX. destruct EX as (k' & I & Ek).
        apply Nat.eqb_eq in Ek. congruence. }
      rewrite EX in IH. cbn [andb] in IH. rewrite app_nil_r in IH. rewrite IH, <- !app_assoc.
      apply Permutation_app_head. apply Permutation_app_comm.
    - rewrite <- app_assoc. apply Permutation_app_head. rewrite IH. apply Permutation_app_head.
      destruct (Nat.eqb_spec (p / 2 ^ j) v) as [E'|]; [|reflexivity].
      replace (j =? k) with false; [reflexivity|]. symmetry. apply Nat.eqb_neq. congruence. }
  etransitivity; [apply G; [apply seq_NoDup|intros k Hk; apply in_seq in Hk; lia]|].
  destruct Lv as [Lj _].
  replace (existsb (Nat.eqb j) (seq 0 (S H))) with true; [now rewrite andb_true_r|].
  symmetry. apply existsb_exists. exists j. split; [apply in_seq; lia|apply Nat.eqb_refl].
Qed.

Lemma push_ok (t : list (list X)) i x : i < length t -> dn_push t i x = Some (lset t i (nth i t [] ++ [x])).
Proof.
  intros Hi. unfold dn_push. unfold get. rewrite (nth_error_nth' t [] Hi). cbn [obind]. now apply set_some.
Qed.

(** Membership of a leaf in the range still to be processed. *)
Definition rem (j l r p : nat) : bool := (l <=? p / 2 ^ j) && (p / 2 ^ j <? r).

Definition good (d : dnc) (H : nat) : Prop :=
  dn_size d = 2 ^ H /\ dn_time d <= 2 ^ H /\ length (dn_tree d) = 2 ^ H + dn_time d.

Lemma dn_set_ok d H l r x : good d H -> (l < r -> r <= dn_time d) ->
  exists d', dn_set d l r x = Some d' /\ good d' H /\ dn_time d' = dn_time d /\
  forall p, p < 2 ^ H ->
    Permutation (path (dn_tree d') H (p + 2 ^ H))
      (path (dn_tree d) H (p + 2 ^ H) ++ if (l <=? p) && (p <? r) then [x] else []).
Proof.
  intros (Gs & Gt & Gl) Hr. unfold dn_set. rewrite Gs. set (t0 := dn_tree d) in *.
  match goal with |- context [loop _ ?b _] => set (body := b) end.
  destruct (@loop_rule _ _ (fun '(l', r', t) => length t = length t0 /\
      (l' < r' -> exists j, j <= H /\ 2 ^ (H - j) <= l' /\ r' <= 2 * 2 ^ (H - j) /\ (j = 0 -> r' <= dn_time d + 2 ^ H) /\
        forall p, p < 2 ^ H -> Permutation (path t H (p + 2 ^ H) ++ if rem j l' r' (p + 2 ^ H) then [x] else [])
          (path t0 H (p + 2 ^ H) ++ if (l <=? p) && (p <? r) then [x] else [])) /\
      (~ l' < r' -> forall p, p < 2 ^ H -> Permutation (path t H (p + 2 ^ H))
          (path t0 H (p + 2 ^ H) ++ if (l <=? p) && (p <? r) then [x] else [])))
    (fun '(l', r', t) => r')
    (fun t => length t = length t0 /\ forall p, p < 2 ^ H -> Permutation (path t H (p + 2 ^ H))
          (path t0 H (p + 2 ^ H) ++ if (l <=? p) && (p <? r) then [x] else []))
    body) with (fuel := r + 2 ^ H + 2) (s := (l + 2 ^ H, r + 2 ^ H, t0)) as (t & E & Lt & K).
  - intros [[l' r'] t] (Lt & I1 & I2). unfold body. destruct (l' <? r') eqn:E.
    2:{ eexists; split; [reflexivity|]. split; auto. apply I2. apply Nat.ltb_ge in E. lia. }
    apply Nat.ltb_lt in E. destruct (I1 E) as (j & Hj & Bl & Br & Bt & K). clear I1 I2.
    pose proof (pow_pos (H - j)) as PP.
    assert (Bt' : forall v, v < r' -> v < length t).
    { intros v Hv. rewrite Lt, Gl. destruct (Nat.eq_dec j 0) as [->|N]; [specialize (Bt eq_refl); lia|].
      assert (2 * 2 ^ (H - j) <= 2 ^ H); [|lia].
      replace H with (S (H - j) + (j - 1)) at 2 by lia. rewrite Nat.pow_add_r. cbn [Nat.pow].
      pose proof (pow_pos (j - 1)). nia. }
    (* first the left end, then the right one *)
    assert (exists l1 t1, (if Nat.odd l' then let* t := dn_push t l' x in Some (l' + 1, t) else Some (l', t)) = Some (l1, t1)
      /\ Nat.odd l1 = false /\ l' <= l1 <= l' + 1 /\ length t1 = length t /\
      forall p, p < 2 ^ H -> Permutation (path t1 H (p + 2 ^ H) ++ if rem j l1 r' (p + 2 ^ H) then [x] else [])
          (path t H (p + 2 ^ H) ++ if rem j l' r' (p + 2 ^ H) then [x] else [])) as (l1 & t1 & -> & O1 & B1 & L1 & K1).
    { destruct (Nat.odd l') eqn:O.
      - rewrite push_ok by (apply Bt'; lia). cbn [obind]. do 2 eexists. split; [reflexivity|].
        split; [rewrite Nat.add_1_r, Nat.odd_succ, <- Nat.negb_odd, O; reflexivity|]. split; [lia|]. split; [apply lset_length|].
        intros p Hp. rewrite path_push with (j := j); [|split; lia|apply Bt'; lia|lia].
        rewrite <- app_assoc. apply Permutation_app_head. unfold rem.
        destruct (Nat.eqb_spec ((p + 2 ^ H) / 2 ^ j) l') as [->|N].
        + replace (l' + 1 <=? l') with false by (symmetry; apply Nat.leb_gt; lia). rewrite Nat.leb_refl.
          rewrite (proj2 (Nat.ltb_lt l' r')) by lia. reflexivity.
        + cbn [app]. replace (l' + 1 <=? (p + 2 ^ H) / 2 ^ j) with (l' <=? (p + 2 ^ H) / 2 ^ j); [reflexivity|].
          clear - N. set (z := _ / _) in *. clearbody z. destruct (Nat.leb_spec l' z), (Nat.leb_spec (l' + 1) z); auto; lia.
      - do 2 eexists. split; [reflexivity|]. split; auto. split; [lia|]. split; auto. }
    cbn [obind].
    assert (exists r1 t2, (if Nat.odd r' then let* t := dn_push t1 (r' - 1) x in Some (r' - 1, t) else Some (r', t1)) = Some (r1, t2)
      /\ Nat.odd r1 = false /\ r' - 1 <= r1 <= r' /\ length t2 = length t /\ 
      forall p, p < 2 ^ H -> Permutation (path t2 H (p + 2 ^ H) ++ if rem j l1 r1 (p + 2 ^ H) then [x] else [])
          (path t1 H (p + 2 ^ H) ++ if rem j l1 r' (p + 2 ^ H) then [x] else [])) as (r1 & t2 & -> & O2 & B2 & L2 & K2).
    { destruct (Nat.odd r') eqn:O.
      - assert (l1 <= r' - 1).
        { destruct (Nat.eq_dec l1 r') as [->|]; [congruence|lia]. }
        rewrite push_ok by (rewrite L1; apply Bt'; lia). cbn [obind]. do 2 eexists. split; [reflexivity|].
        split; [replace r' with (S (r' - 1)) in O by lia; rewrite Nat.odd_succ, <- Nat.negb_odd in O; now destruct (Nat.odd (r' - 1))|].
        split; [lia|]. split; [now rewrite lset_length|].
        intros p Hp. rewrite path_push with (j := j); [|split; lia|rewrite L1; apply Bt'; lia|lia].
        rewrite <- app_assoc. apply Permutation_app_head. unfold rem.
        destruct (Nat.eqb_spec ((p + 2 ^ H) / 2 ^ j) (r' - 1)) as [->|N].
        + rewrite Nat.ltb_irrefl, andb_false_r. rewrite (proj2 (Nat.leb_le l1 (r' - 1))) by lia.
          rewrite (proj2 (Nat.ltb_lt (r' - 1) r')) by lia. reflexivity.
        + cbn [app]. replace ((p + 2 ^ H) / 2 ^ j <? r' - 1) with ((p + 2 ^ H) / 2 ^ j <? r'); [reflexivity|].
          clear - N. set (z := _ / _) in *. clearbody z. destruct (Nat.ltb_spec z r'), (Nat.ltb_spec z (r' - 1)); auto; lia.
      - do 2 eexists. split; [reflexivity|]. split; auto. split; [lia|]. split; auto. }
    cbn [obind]. eexists; split; [reflexivity|]. cbn beta iota.
    assert (K3 : forall p, p < 2 ^ H -> Permutation (path t2 H (p + 2 ^ H) ++ if rem j l1 r1 (p + 2 ^ H) then [x] else [])
          (path t0 H (p + 2 ^ H) ++ if (l <=? p) && (p <? r) then [x] else [])).
    { intros p Hp. rewrite K2, K1 by auto. auto. }
    clear K1 K2 K Bt'.
    apply even_div2 in O1. apply even_div2 in O2.
    set (l2 := Nat.div2 l1) in *. set (r2 := Nat.div2 r1) in *.
    assert (RM : forall p, rem j l1 r1 p = rem (S j) l2 r2 p).
    { intros p. unfold rem. replace (2 ^ S j) with (2 ^ j * 2) by (cbn; lia). rewrite <- Nat.div_div by (pose proof (pow_pos j); lia).
      rewrite O1, O2. set (z := p / 2 ^ j). clearbody z. clear.
      assert (z = 2 * (z / 2) + z mod 2) by (apply Nat.div_mod; lia). pose proof (Nat.mod_upper_bound z 2).
      set (q := z / 2) in *. clearbody q.
      destruct (Nat.leb_spec (2 * l2) z), (Nat.leb_spec l2 q), (Nat.ltb_spec z (2 * r2)), (Nat.ltb_spec q r2); auto; lia. }
    split; [|lia]. split; [lia|]. split.
    + intros Hlt. assert (j < H).
      { destruct (Nat.eq_dec j H) as [->|]; [|lia]. rewrite Nat.sub_diag in *. cbn in *. lia. }
      exists (S j). split; [lia|].
      assert (E2 : 2 ^ (H - j) = 2 * 2 ^ (H - S j)) by (replace (H - j) with (S (H - S j)) by lia; reflexivity).
      split; [lia|]. split; [lia|]. split; [lia|]. intros p Hp. rewrite <- RM. auto.
    + intros Hge p Hp. specialize (K3 p Hp).
      replace (rem j l1 r1 (p + 2 ^ H)) with false in K3; [now rewrite app_nil_r in K3|].
      symmetry. rewrite RM. unfold rem. set (z := _ / _). clearbody z.
      destruct (Nat.leb_spec l2 z), (Nat.ltb_spec z r2); auto; lia.
  - split; [reflexivity|]. assert (D1 : forall z, z / 2 ^ 0 = z) by (intros; apply Nat.div_1_r). split.
    + intros Hlt. exists 0. rewrite Nat.sub_0_r. split; [lia|]. split; [lia|]. split; [lia|]. split; [lia|].
      intros p Hp. unfold rem. rewrite D1.
      replace (l + 2 ^ H <=? p + 2 ^ H) with (l <=? p); [|destruct (Nat.leb_spec l p), (Nat.leb_spec (l + 2 ^ H) (p + 2 ^ H)); auto; lia].
      replace (p + 2 ^ H <? r + 2 ^ H) with (p <? r); [reflexivity|].
      destruct (Nat.ltb_spec p r), (Nat.ltb_spec (p + 2 ^ H) (r + 2 ^ H)); auto; lia.
    + intros Hge p Hp. destruct (Nat.leb_spec l p), (Nat.ltb_spec p r); try lia; cbn [andb]; now rewrite app_nil_r.
  - lia.
  - rewrite E. cbn [obind]. eexists; split; [reflexivity|]. cbn. split; [|auto].
    unfold good. cbn. rewrite Lt. auto.
Qed.

(** What the traversal of the subtree of [u] (height [j]) contributes. *)
Definition visits (t : list (list X)) (H N u j : nat) (st : list (list X)) : list (nat * list (list X)) :=
  map (fun p => (p - 2 ^ H, chain t p j ++ st)) (seq (u * 2 ^ j) (min (2 ^ j) (N - u * 2 ^ j))).

Lemma chain_snoc t p j : chain t p (S j) = chain t p j ++ [nth (p / 2 ^ S j) t []].
Proof. unfold chain. rewrite (seq_S (S j)), map_app. reflexivity. Qed.

Lemma dfs_ok d H : good d H -> forall j fuel u, level H j u -> j < fuel ->
  exists ev, dn_dfs_rec fuel d u = Some ev /\
  forall rest st, replay (ev ++ rest) st =
    let* (out, s) := replay rest st in Some (visits (dn_tree d) H (2 ^ H + dn_time d) u j st ++ out, s).
Proof.
  intros (Gs & Gt & Gl). set (N := 2 ^ H + dn_time d). induction j as [|j IH]; intros fuel u [Lj Lu] Hf;
    (destruct fuel as [|fuel]; [lia|]); cbn [dn_dfs_rec]; rewrite Gs; fold N.
  - rewrite Nat.sub_0_r in Lu. unfold visits. rewrite Nat.pow_0_r, Nat.mul_1_r.
    destruct (N <=? u) eqn:E.
    + apply Nat.leb_le in E. exists []. split; [reflexivity|]. intros rest st.
      replace (min 1 (N - u)) with 0 by lia. cbn [seq map app]. destruct (replay rest st) as [[o s]|]; reflexivity.
    + apply Nat.leb_gt in E. assert (Hu : u < length (dn_tree d)) by lia.
      unfold get. rewrite (nth_error_nth' _ [] Hu). cbn [obind].
      rewrite (proj2 (Nat.ltb_ge u (2 ^ H))) by lia. cbn [obind].
      eexists; split; [reflexivity|]. intros rest st.
      replace (min 1 (N - u)) with 1 by lia. cbn [seq map app replay]. unfold chain. cbn [seq map].
      rewrite Nat.pow_0_r, Nat.div_1_r. cbn [app]. destruct (replay rest st) as [[o s]|]; reflexivity.
  - pose proof (pow_pos j) as PJ. pose proof (pow_pos (H - S j)) as PHJ.
    assert (E2 : 2 ^ (H - j) = 2 * 2 ^ (H - S j)) by (replace (H - j) with (S (H - S j)) by lia; reflexivity).
    assert (Hu : u < 2 ^ H).
    { assert (2 * 2 ^ (H - S j) <= 2 ^ H); [|lia]. rewrite <- E2. apply Nat.pow_le_mono_r; lia. }
    rewrite (proj2 (Nat.leb_gt N u)) by lia.
    assert (HuL : u < length (dn_tree d)) by lia.
    unfold get. rewrite (nth_error_nth' _ [] HuL). cbn [obind].
    rewrite (proj2 (Nat.ltb_lt u (2 ^ H))) by lia.
    destruct (IH fuel (u * 2)) as (a & -> & Ra); [split; lia|lia|]. cbn [obind].
    destruct (IH fuel (u * 2 + 1)) as (b & -> & Rb); [split; lia|lia|]. cbn [obind].
    eexists; split; [reflexivity|]. intros rest st. cbn [app replay].
    rewrite <- !app_assoc. rewrite Ra, Rb. cbn [app replay].
    destruct (replay rest st) as [[o s]|]; [|reflexivity]. cbn [obind]. f_equal. f_equal.
    rewrite app_assoc. f_equal. unfold visits. rewrite <- map_app.
    replace (seq (u * 2 ^ S j) (min (2 ^ S j) (N - u * 2 ^ S j))) with
      (seq (u * 2 * 2 ^ j) (min (2 ^ j) (N - u * 2 * 2 ^ j)) ++ seq ((u * 2 + 1) * 2 ^ j) (min (2 ^ j) (N - (u * 2 + 1) * 2 ^ j))).
    + assert (EQ : forall p, In p (seq (u * 2 * 2 ^ j) (min (2 ^ j) (N - u * 2 * 2 ^ j)) ++ seq ((u * 2 + 1) * 2 ^ j) (min (2 ^ j) (N - (u * 2 + 1) * 2 ^ j))) ->
        p / 2 ^ S j = u).
      { intros p Hp. assert (u * 2 ^ S j <= p < (u + 1) * 2 ^ S j).
        { cbn [Nat.pow]. apply in_app_iff in Hp. rewrite !in_seq in Hp. nia. }
        symmetry. apply (Nat.div_unique _ _ u (p - u * 2 ^ S j)); lia. }
      apply map_ext_in. intros p Hp. rewrite chain_snoc, (EQ p Hp), <- app_assoc. reflexivity.
    + cbn [Nat.pow]. replace (u * (2 * 2 ^ j)) with (u * 2 * 2 ^ j) by lia.
      replace ((u * 2 + 1) * 2 ^ j) with (u * 2 * 2 ^ j + 2 ^ j) by lia.
      set (q := u * 2 * 2 ^ j). set (w := 2 ^ j) in *. clearbody q w.
      destruct (Nat.le_gt_cases (N - q) w) as [L|L].
      * replace (min w (N - (q + w))) with 0 by lia. cbn [seq]. rewrite app_nil_r. f_equal. lia.
      * replace (min (2 * w) (N - q)) with (w + min w (N - (q + w))) by lia. rewrite seq_app.
        replace (min w (N - q)) with w by lia. reflexivity.
Qed.

Lemma run_ok time (h : list (nat * nat * X)) :
  Forall (fun '(l, r, _) => l < r -> r <= time) h ->
  exists ev out, dn_run time h = Some ev /\ replay ev [] = Some (out, []) /\
    map fst out = seq 0 time /\
    Forall (fun '(t, st) => Permutation (concat st) (active h t)) out.
Proof.
  intros F. unfold dn_run. set (H := Nat.log2_up time).
  assert (HT : time <= 2 ^ H).
  { destruct time as [|[|time]]; [cbn; lia|cbn; lia|]. apply Nat.log2_log2_up_spec. lia. }
  match goal with |- context [for_each _ ?b _] => set (body := b) end.
  destruct (@for_each_rule _ _ (fun done rest (d : dnc) => Forall (fun '(l, r, _) => l < r -> r <= time) rest /\
    good d H /\ dn_time d = time /\
    forall p, p < 2 ^ H -> Permutation (path (dn_tree d) H (p + 2 ^ H)) (active done p)) body h [] (@dn_make X time))
    as (d & -> & _ & G & Ht & K).
  - split; auto. unfold dn_make. fold H. split; [|split; [reflexivity|]].
    + split; [reflexivity|]. split; [exact HT|]. cbn. now rewrite repeat_length.
    + intros p Hp. cbn [dn_tree]. unfold path.
      assert (Z : forall l, concat (map (fun k => nth ((p + 2 ^ H) / 2 ^ k) (repeat (@nil X) (2 ^ H + time)) []) l) = []).
      { induction l as [|k l IH]; [reflexivity|]. cbn [map concat]. rewrite IH, app_nil_r.
        destruct (nth_in_or_default ((p + 2 ^ H) / 2 ^ k) (repeat (@nil X) (2 ^ H + time)) []) as [I|E]; [|exact E].
        now apply repeat_spec in I. }
      unfold chain. rewrite Z. constructor.
  - intros done [[l r] x] rest d (F' & G & Ht & K). inversion F' as [|? ? Hr F'']; subst.
    destruct (dn_set_ok d H l r x G Hr) as (d' & E & G' & Ht' & K'). exists d'. split; [exact E|].
    split; auto. split; auto. split; auto. intros p Hp. rewrite K', K by auto.
    unfold active. rewrite filter_app, map_app. apply Permutation_app_head. cbn [filter].
    destruct ((l <=? p) && (p <? r)); reflexivity.
  - cbn [obind app] in *. unfold dn_dfs.
    destruct (dfs_ok d H G H (dn_size d + 1) 1) as (ev & -> & R).
    + split; [lia|]. rewrite Nat.sub_diag. cbn. lia.
    + destruct G as (-> & _). pose proof (Nat.pow_gt_lin_r 2 H). lia.
    + eexists; eexists; split; [reflexivity|]. specialize (R [] []). rewrite app_nil_r in R. rewrite R.
      cbn [replay obind]. split; [reflexivity|]. rewrite app_nil_r. unfold visits.
      rewrite Nat.mul_1_l, Ht. replace (min (2 ^ H) (2 ^ H + time - 2 ^ H)) with time by lia. split.
      * rewrite map_map. cbn [fst].
        transitivity (map (fun p => p - 2 ^ H) (map (fun p => 2 ^ H + p) (seq 0 time))).
        { f_equal. clear. generalize (2 ^ H). intros b. rewrite <- (Nat.add_0_r b) at 1. generalize 0. 
          induction time as [|n IH]; intros a; cbn; [reflexivity|]. f_equal. rewrite <- IH. f_equal. lia. }
        rewrite map_map. rewrite <- (map_id (seq 0 time)) at 2. apply map_ext. intros. lia.
      * apply Forall_forall. intros [t st] I. apply in_map_iff in I. destruct I as (p & E & I).
        inversion E; subst t st; clear E. apply in_seq in I. rewrite app_nil_r.
        assert (Hp : p - 2 ^ H < 2 ^ H) by lia. specialize (K _ Hp).
        replace (p - 2 ^ H + 2 ^ H) with p in K by lia. exact K.
Qed.
End Dnc.
