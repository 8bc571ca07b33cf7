(** Proofs about PersistentStack, PersistentArray, PersistentUnionfind. *)
From Verif Require Import Base BaseLemmas PersModel PersSpec UnionFindModel UnionFindSpec UnionFindProof.
From Coq Require Import Relations.
Set Implicit Arguments.

Lemma Forall2_len {A B} (R : A -> B -> Prop) l l' : Forall2 R l l' -> length l = length l'.
Proof. induction 1; simpl; auto. Qed.

Section Stack.
  Variable T : Type.
  Notation heap := (list (T * option nat)).

  Inductive srep (h : heap) : option nat -> list T -> Prop :=
  | srep_nil : srep h None []
  | srep_cons p v n xs : get h p = Some (v, n) -> srep h n xs -> srep h (Some p) (v :: xs).
  Definition sok h s xs := srep h (ps_ptr s) xs /\ ps_size s = length xs.

  Lemma srep_ext h e p xs : srep h p xs -> srep (h ++ e) p xs.
  Proof.
    induction 1; econstructor; eauto. rewrite get_app_l; auto. eapply get_some_lt; eauto.
  Qed.
  Lemma sok_ext h e s xs : sok h s xs -> sok (h ++ e) s xs.
  Proof. intros (H & L). split; auto. now apply srep_ext. Qed.

  Lemma push_ok h s x xs : sok h s xs -> exists e s', ps_push h s x = (h ++ e, s') /\ sok (h ++ e) s' (x :: xs).
  Proof.
    intros (H & L). eexists _, _. split; [reflexivity|]. split; [|simpl; lia].
    econstructor; [|apply srep_ext; eauto]. rewrite get_app_r, Nat.sub_diag by auto. reflexivity.
  Qed.
  Lemma pop_ok h s x xs : sok h s (x :: xs) -> ps_top h s = Some x /\ exists s', ps_pop h s = Some s' /\ sok h s' xs.
  Proof.
    intros (H & L). inversion H as [|p v n ys E R EP]; subst. unfold ps_top, ps_pop. rewrite <- EP. cbn [obind]. rewrite E. cbn [obind].
    split; auto. eexists; split; [reflexivity|]. split; auto. simpl in *. lia.
  Qed.
  Lemma concat_ok : forall xs fuel h s o ys, length xs < fuel -> sok h s xs -> sok h o ys ->
    exists e s', ps_concat_rec fuel h s o = Some (h ++ e, s') /\ sok (h ++ e) s' (xs ++ ys).
  Proof.
    induction xs as [|x xs IH]; intros fuel h s o ys Hf Hs Ho; (destruct fuel; [simpl in Hf; lia|]); simpl.
    - destruct Hs as (_ & L). simpl in L. rewrite L. simpl. exists [], o. rewrite app_nil_r. auto.
    - pose proof Hs as (_ & L). simpl in L. rewrite L. simpl.
      destruct (pop_ok Hs) as (Et & t & Ep & Ht). rewrite Ep. cbn [obind].
      destruct (IH fuel h t o ys) as (e & c & Ec & Hc); auto; [simpl in Hf; lia|]. rewrite Ec. cbn [obind].
      pose proof (sok_ext e Hs) as Hs'. destruct (pop_ok Hs') as (Et' & _). rewrite Et'. cbn [obind].
      destruct (push_ok x Hc) as (e2 & s2 & E2 & H2). rewrite E2. exists (e ++ e2), s2. rewrite app_assoc. auto.
  Qed.
  Lemma reverse_ok h s xs : sok h s xs -> exists e s', ps_reverse h s = Some (h ++ e, s') /\ sok (h ++ e) s' (rev xs).
  Proof.
    intros Hs. unfold ps_reverse.
    match goal with |- exists _ _, loop _ ?b _ = _ /\ _ => set (body := b) end.
    destruct (@loop_rule _ _ (fun '(h', ret, t) => exists e done rest, h' = h ++ e /\ xs = done ++ rest /\ sok h' ret (rev done) /\ sok h' t rest)
       (fun '(_, _, t) => ps_size t) (fun '(h', ret) => exists e, h' = h ++ e /\ sok h' ret (rev xs)) body) with (fuel := S (ps_size s)) (s := (h, ps_new, s)) as ((h' & ret) & E & e & -> & R).
    - intros ((h' & ret) & t) (e & done & rest & -> & EX & Hr & Ht). unfold body. destruct rest as [|x rest].
      + pose proof Ht as (_ & L). simpl in L. rewrite L. simpl. eexists; split; [reflexivity|]. exists e. split; auto. now rewrite EX, app_nil_r.
      + pose proof Ht as (_ & L). simpl in L. rewrite L. cbn [Nat.eqb].
        destruct (pop_ok Ht) as (Et & _). rewrite Et. cbn [obind]. destruct (push_ok x Hr) as (e2 & s2 & E2 & H2). rewrite E2.
        destruct (pop_ok (sok_ext e2 Ht)) as (_ & t' & Ep & Ht'). rewrite Ep. cbn [obind]. eexists; split; [reflexivity|].
        pose proof Ht' as (_ & L'). split; [|lia]. exists (e ++ e2), (done ++ [x]), rest. rewrite app_assoc. split; auto. rewrite <- app_assoc. split; auto.
        split; auto. rewrite rev_app_distr. auto.
    - exists [], [], xs. rewrite app_nil_r. repeat split; auto; try apply Hs. constructor.
    - lia.
    - exists e, ret. auto.
  Qed.

  Definition pool_ok h vs ls := Forall2 (sok h) vs ls.
  Lemma pool_ext h e vs ls : pool_ok h vs ls -> pool_ok (h ++ e) vs ls.
  Proof. intros H. induction H; constructor; auto. now apply sok_ext. Qed.
  Lemma pool_get h vs ls k xs : pool_ok h vs ls -> get ls k = Some xs -> exists s, get vs k = Some s /\ sok h s xs.
  Proof.
    intros H. revert k. induction H; intros [|k] E; simpl in *; try discriminate.
    - inversion E; subst. eauto. - apply IHForall2; auto.
  Qed.
  Lemma pool_snoc h vs ls s xs : pool_ok h vs ls -> sok h s xs -> pool_ok h (vs ++ [s]) (ls ++ [xs]).
  Proof. intros. apply Forall2_app; auto. Qed.

  Lemma step_ok h vs ls c : pool_ok h vs ls -> ps_valid ls c ->
    exists h' vs', ps_step (h, vs) c = Some (h', vs') /\ pool_ok h' vs' (ps_spec ls c).
  Proof.
    intros P V. destruct c as [|k x|k|k j|k]; simpl in V; unfold ps_step, ps_spec.
    - eexists _, _; split; [reflexivity|]. apply pool_snoc; auto. split; auto. constructor.
    - destruct (get_lt ls V) as (xs & E). rewrite E. destruct (pool_get k P E) as (s & Es & Hs). rewrite Es. cbn [obind].
      destruct (push_ok x Hs) as (e & s' & Ep & Hp). rewrite Ep. eexists _, _; split; [reflexivity|]. apply pool_snoc; auto. now apply pool_ext.
    - destruct V as (x & xs & E). rewrite E. destruct (pool_get k P E) as (s & Es & Hs). rewrite Es. cbn [obind].
      destruct (pop_ok Hs) as (_ & s' & Ep & Hp). rewrite Ep. eexists _, _; split; [reflexivity|]. apply pool_snoc; auto.
    - destruct V as (V1 & V2). destruct (get_lt ls V1) as (xs & E1). destruct (get_lt ls V2) as (ys & E2). rewrite E1, E2.
      destruct (pool_get k P E1) as (s & Es & Hs). destruct (pool_get j P E2) as (o & Eo & Ho). rewrite Es, Eo. cbn [obind].
      destruct (@concat_ok xs (S (ps_size s)) h s o ys) as (e & s' & Ep & Hp); auto. { destruct Hs; lia. }
      unfold ps_concat. rewrite Ep. cbn [obind]. eexists _, _; split; [reflexivity|]. apply pool_snoc; auto. now apply pool_ext.
    - destruct (get_lt ls V) as (xs & E). rewrite E. destruct (pool_get k P E) as (s & Es & Hs). rewrite Es. cbn [obind].
      destruct (reverse_ok Hs) as (e & s' & Ep & Hp). rewrite Ep. eexists _, _; split; [reflexivity|]. apply pool_snoc; auto. now apply pool_ext.
  Qed.

  Lemma steps_ok : forall cs h vs ls, pool_ok h vs ls -> ps_valid_all ls cs ->
    exists h' vs', for_each cs (fun c st => ps_step st c) (h, vs) = Some (h', vs') /\ pool_ok h' vs' (fold_left (@ps_spec T) cs ls).
  Proof.
    induction cs as [|c cs IH]; intros h vs ls P V; [simpl; eauto|]. cbn [for_each fold_left]. simpl in V. destruct V as (V1 & V2).
    destruct (step_ok c P V1) as (h1 & vs1 & E & P1). rewrite E. cbn [obind]. eapply IH; eauto.
  Qed.

  Lemma drain_ok h s xs : sok h s xs -> ps_drain h s = Some xs.
  Proof.
    intros Hs. unfold ps_drain.
    match goal with |- loop _ ?b _ = _ => set (body := b) end.
    destruct (@loop_rule _ _ (fun '(t, out) => exists rest, xs = out ++ rest /\ sok h t rest)
       (fun '(t, _) => ps_size t) (fun out => out = xs) body) with (fuel := S (ps_size s)) (s := (s, @nil T)) as (r & E & ->); auto.
    - intros (t & out) (rest & EX & Ht). unfold body. pose proof Ht as (_ & L). destruct rest as [|x rest]; simpl in L; rewrite L; simpl.
      + eexists; split; [reflexivity|]. now rewrite EX, app_nil_r.
      + destruct (pop_ok Ht) as (Et & t' & Ep & Ht'). rewrite Et, Ep. cbn [obind]. eexists; split; [reflexivity|].
        pose proof Ht' as (_ & L'). split; [|lia]. exists rest. rewrite <- app_assoc. auto.
    - exists xs. auto.
  Qed.
End Stack.

Section Array.
  Variables (T : Type) (M : nat).
  Hypothesis HM : 1 <= M.
  Notation heap := (list (anode T)).
  Notation look := (@pa_get_rec T M).

  Definition awf (h : heap) := forall p v ch, get h p = Some (v, ch) -> length ch = M /\ forall k c, get ch k = Some (Some c) -> c < p.
  Definition aval (h : heap) (u : option nat) := match u with None => True | Some p => p < length h end.

  Lemma div_le' i : i / M <= i.
  Proof. apply Nat.div_le_upper_bound; nia. Qed.

  Lemma look_some h init : awf h -> forall f u i, i <= f -> aval h u -> exists v, look f h init u i = Some v.
  Proof.
    intros W. induction f; intros [p|] i Hi Hu; simpl; eauto; destruct (get_lt h Hu) as ((v & ch) & E); rewrite E; cbn [obind].
    - replace (i =? 0) with true by lia. eauto.
    - destruct (Nat.eqb_spec i 0); eauto. destruct (W _ _ _ E) as (L & C).
      destruct (get_lt ch (i := (i-1) mod M)) as (c & Ec). { rewrite L. apply Nat.mod_upper_bound. lia. }
      rewrite Ec. cbn [obind]. apply IHf. { pose proof (div_le' (i-1)). lia. }
      destruct c as [c|]; simpl; auto. specialize (C _ _ Ec). simpl in Hu. lia.
  Qed.

  Lemma look_fuel h init : forall f g u i, i <= f -> i <= g -> look f h init u i = look g h init u i.
  Proof.
    induction f; intros g [p|] i Hf Hg; destruct g; simpl; auto; destruct (get h p) as [(v & ch)|]; cbn [obind]; auto.
    - replace (i =? 0) with true by lia. auto.
    - replace (i =? 0) with true by lia. auto.
    - destruct (i =? 0) eqn:?; auto. destruct (get ch ((i-1) mod M)); cbn [obind]; auto. apply IHf; pose proof (div_le' (i-1)); lia.
  Qed.

  Lemma look_ext h e init : awf h -> forall f u i, aval h u -> look f (h ++ e) init u i = look f h init u i.
  Proof.
    intros W. induction f; intros [p|] i Hu; simpl; auto; rewrite get_app_l by auto; auto.
    destruct (get h p) as [(v & ch)|] eqn:E; cbn [obind]; auto. destruct (i =? 0); auto. destruct (W _ _ _ E) as (L & C).
    destruct (get ch ((i-1) mod M)) as [c|] eqn:Ec; cbn [obind]; auto. apply IHf. destruct c as [c|]; simpl; auto. specialize (C _ _ Ec). simpl in Hu. lia.
  Qed.

  Lemma awf_snoc h v ch : awf h -> length ch = M -> (forall k c, get ch k = Some (Some c) -> c < length h) -> awf (h ++ [(v, ch)]).
  Proof.
    intros W L C p w ch' E. destruct (Nat.lt_ge_cases p (length h)).
    - rewrite get_app_l in E by auto. eapply W; eauto.
    - rewrite get_app_r in E by auto. destruct (p - length h) eqn:D; simpl in E; [|destruct n; discriminate].
      inversion E; subst. split; auto. intros k c Ek. specialize (C _ _ Ek). lia.
  Qed.

  Lemma look_node h init p v ch f j : get h p = Some (v, ch) -> j <= f ->
    look f h init (Some p) j = if j =? 0 then Some v else obind (get ch ((j-1) mod M)) (fun c => look (f-1) h init c ((j-1)/M)).
  Proof.
    intros E Hj. destruct f; cbn [pa_get_rec]; rewrite E; cbn [obind].
    - replace (j =? 0) with true by lia. auto.
    - replace (S f - 1) with f by lia. auto.
  Qed.
  Lemma get_snoc_len {A} (h : list A) x : get (h ++ [x]) (length h) = Some x.
  Proof. rewrite get_app_r, Nat.sub_diag by auto. reflexivity. Qed.

  Lemma set_rec_ok init v : forall fuel h u id, awf h -> aval h u -> id <= fuel ->
    exists e p, pa_set_rec M fuel h init u id v = Some (h ++ e, p) /\ awf (h ++ e) /\ p < length (h ++ e) /\
      forall f j, j <= f -> look f (h ++ e) init (Some p) j = if j =? id then Some v else look f h init u j.
  Proof.
    induction fuel; intros h u id W Hu Hid; cbn [pa_set_rec];
    (assert (E0 : exists v0 ch, (match u with Some p => get h p | None => Some (init, repeat None M) end) = Some (v0, ch) /\ length ch = M /\
        (forall k c, get ch k = Some (Some c) -> c < length h) /\
        (forall f j, j <= f -> 1 <= j -> look f h init u j = obind (get ch ((j-1) mod M)) (fun c => look (f-1) h init c ((j-1)/M))) /\
        (forall f, look f h init u 0 = Some v0));
     [destruct u as [q|];
       [destruct (get_lt h Hu) as ((v0 & ch) & E); exists v0, ch; destruct (W _ _ _ E) as (L & C); split; auto; split; auto; split;
          [intros k c Ek; specialize (C _ _ Ek); simpl in Hu; lia|split;
            [intros f j Hj Hj1; destruct f; [lia|]; cbn [pa_get_rec]; rewrite E; cbn [obind]; replace (j =? 0) with false by lia;
             replace (S f - 1) with f by lia; reflexivity
            |intros f; destruct f; cbn [pa_get_rec]; rewrite E; reflexivity]]
       |exists init, (repeat None M); rewrite repeat_length; split; auto; split; auto; split;
          [intros k c Ek; assert (Hk : k < M) by (apply get_some_lt in Ek; now rewrite repeat_length in Ek); rewrite get_repeat in Ek by auto; discriminate
          |split; [intros f j Hj Hj1; rewrite get_repeat by (apply Nat.mod_upper_bound; lia); cbn [obind]; destruct f; [lia|]; destruct (S f - 1); reflexivity
                  |intros f; destruct f; reflexivity]]]
     |]); destruct E0 as (v0 & ch & E0 & L & C & LK & LK0); rewrite E0; cbn [obind].
    - replace (id =? 0) with true by lia. exists [(v, ch)], (length h). split; auto. split; [now apply awf_snoc|]. split; [rewrite app_length; simpl; lia|].
      assert (id = 0) by lia. subst id. intros f j Hj. rewrite (@look_node _ _ _ _ _ _ _ (get_snoc_len h (v, ch)) Hj). destruct (Nat.eqb_spec j 0); auto. rewrite LK by lia.
      destruct (get ch ((j-1) mod M)) as [c|] eqn:Ec; cbn [obind]; auto. apply look_ext; auto. destruct c; simpl; auto. eapply C; eauto.
    - destruct (Nat.eqb_spec id 0) as [->|Nid].
      { exists [(v, ch)], (length h). split; auto. split; [now apply awf_snoc|]. split; [rewrite app_length; simpl; lia|].
        intros f j Hj. rewrite (@look_node _ _ _ _ _ _ _ (get_snoc_len h (v, ch)) Hj). destruct (Nat.eqb_spec j 0); auto. rewrite LK by lia.
      destruct (get ch ((j-1) mod M)) as [c|] eqn:Ec; cbn [obind]; auto. apply look_ext; auto. destruct c; simpl; auto. eapply C; eauto. }
      assert (Hk : (id-1) mod M < M) by (apply Nat.mod_upper_bound; lia).
      destruct (get_lt ch (i := (id-1) mod M)) as (c & Ec); [lia|]. rewrite Ec. cbn [obind].
      assert (Hc : aval h c). { destruct c; simpl; auto. eapply C; eauto. }
      destruct (IHfuel h c ((id-1)/M)) as (e & p & E & W' & Hp & LK'); auto. { pose proof (div_le' (id-1)). lia. }
      rewrite E. cbn [obind]. rewrite set_some by lia. cbn [obind].
      exists (e ++ [(v0, lset ch ((id-1) mod M) (Some p))]), (length (h ++ e)). rewrite app_assoc. split; auto. split; [|split].
      + apply awf_snoc; auto; [now rewrite lset_length|]. intros k c' Ek. rewrite get_lset in Ek. destruct (_ && _).
        * inversion Ek; subst; auto. * specialize (C _ _ Ek). rewrite app_length. lia.
      + rewrite !app_length. simpl. lia.
      + intros f j Hj. rewrite (@look_node _ _ _ _ _ _ _ (get_snoc_len (h ++ e) _) Hj).
          destruct (Nat.eqb_spec j 0) as [->|Nj]. { replace (0 =? id) with false by lia. now rewrite LK0. }
          rewrite get_lset. replace ((id-1) mod M <? length ch) with true by lia. rewrite andb_true_r.
          rewrite LK by lia. destruct (Nat.eqb_spec ((id-1) mod M) ((j-1) mod M)) as [Em|Em].
          -- cbn [obind]. rewrite look_ext by (simpl; auto). rewrite LK' by (pose proof (div_le' (j-1)); lia). rewrite <- Em, Ec. cbn [obind].
             replace (j =? id) with ((j-1)/M =? (id-1)/M); auto.
             pose proof (Nat.div_mod_eq (j-1) M). pose proof (Nat.div_mod_eq (id-1) M). rewrite Em in *.
             destruct (Nat.eqb_spec ((j-1)/M) ((id-1)/M)) as [Q|Q], (Nat.eqb_spec j id) as [Q2|Q2]; auto; exfalso.
             ++ rewrite Q in *. lia.
          -- replace (j =? id) with false. 2:{ symmetry. apply Nat.eqb_neq. intros ->. congruence. }
             destruct (get ch ((j-1) mod M)) as [c'|] eqn:Ec'; cbn [obind]; auto.
             rewrite <- app_assoc. apply look_ext; auto. destruct c'; simpl; auto. eapply C; eauto.
  Qed.

  (** A version agrees with a function. *)
  Definition aok h (a : parray T) (f : nat -> T) := aval h (pa_root a) /\ forall i, pa_get M h a i = Some (f i).
  Lemma aok_ext h e a f : awf h -> aok h a f -> aok (h ++ e) a f.
  Proof.
    intros W (V & H). split.
    - destruct (pa_root a); simpl in *; auto. rewrite app_length. lia.
    - intros i. unfold pa_get. rewrite look_ext; auto. apply H.
  Qed.
  Lemma new_ok h x : aok h (pa_new x) (fun _ => x).
  Proof. split; simpl; auto. intros i. unfold pa_get. simpl. destruct i; auto. Qed.
  Lemma aset_ok h a f i x : awf h -> aok h a f -> exists e a', pa_set M h a i x = Some (h ++ e, a') /\ awf (h ++ e) /\
    aok (h ++ e) a' (fun j => if j =? i then x else f j).
  Proof.
    intros W (V & H). unfold pa_set. destruct (@set_rec_ok (pa_init a) x i h (pa_root a) i W V ltac:(auto)) as (e & p & E & W' & Hp & LK).
    rewrite E. cbn [obind]. eexists e, _. split; [reflexivity|]. split; auto. split; auto. intros j. unfold pa_get. cbn [pa_root pa_init].
    rewrite LK by auto. destruct (j =? i); auto. apply H.
  Qed.

  Definition apool h vs fs := Forall2 (aok h) vs fs.
  Lemma apool_ext h e vs fs : awf h -> apool h vs fs -> apool (h ++ e) vs fs.
  Proof. intros W H. induction H; constructor; auto. now apply aok_ext. Qed.
  Lemma apool_get h vs fs k f : apool h vs fs -> get fs k = Some f -> exists a, get vs k = Some a /\ aok h a f.
  Proof.
    intros H. revert k. induction H; intros [|k] E; simpl in *; try discriminate.
    - inversion E; subst. eauto. - apply IHForall2; auto.
  Qed.

  Lemma asteps_ok : forall cs h vs fs, awf h -> apool h vs fs -> pa_valid_all (length fs) cs ->
    exists h' vs', for_each cs (fun c st => pa_step M st c) (h, vs) = Some (h', vs') /\ awf h' /\ apool h' vs' (fold_left (@pa_spec T) cs fs).
  Proof.
    induction cs as [|c cs IH]; intros h vs fs W P V; simpl in *; [eauto|]. destruct V as (V1 & V2).
    destruct c as [x|k i x]; simpl in *.
    - apply IH; auto. + apply Forall2_app; auto. constructor; auto. apply new_ok. + unfold pa_spec; rewrite ?Ef, app_length; simpl; now rewrite Nat.add_1_r.
    - destruct (get_lt fs V1) as (f & Ef). destruct (apool_get k P Ef) as (a & Ea & Ha). rewrite Ea. cbn [obind].
      destruct (aset_ok i x W Ha) as (e & a' & E & W' & Ha'). rewrite E. cbn [obind]. apply IH; auto.
      + unfold pa_spec; rewrite Ef. apply Forall2_app; [now apply apool_ext|]. constructor; auto.
      + unfold pa_spec; rewrite ?Ef, app_length; simpl; now rewrite Nat.add_1_r.
  Qed.
End Array.

Section UF.
  Variable n : nat.
  Notation heap := (list (anode Z)).
  Notation awf := (@awf Z 4).
  Notation aok := (@aok Z 4).
  Definition arr (f : nat -> Z) := List.map f (seq 0 n).
  Definition upd (f : nat -> Z) i x := fun j => if j =? i then x else f j.

  Lemma get_arr f i : i < n -> get (arr f) i = Some (f i).
  Proof. intros. unfold arr, get. rewrite nth_error_map. change (nth_error (seq 0 n) i) with (get (seq 0 n) i). now rewrite get_seq. Qed.
  Lemma arr_upd f i x : i < n -> arr (upd f i x) = lset (arr f) i x.
  Proof.
    intros. assert (L : forall f, length (arr f) = n) by (intros; unfold arr; now rewrite map_length, seq_length).
    apply get_ext. intros j. destruct (Nat.lt_ge_cases j n).
    - rewrite get_arr by auto. rewrite get_lset, L. unfold upd. rewrite (Nat.eqb_sym j i).
      destruct (Nat.eqb_spec i j); simpl. + subst. replace (j <? n) with true by lia. auto. + now rewrite get_arr.
    - rewrite !get_none; auto. + rewrite lset_length, L. auto. + rewrite L; auto.
  Qed.

  Lemma leader_ok : forall fuel h a f rt d sz u, awf h -> aok h a f -> inv n (arr f) rt d sz -> u < n -> d u < fuel ->
    exists e a' f', pu_leader fuel h a u = Some (h ++ e, a', rt u) /\ awf (h ++ e) /\ aok (h ++ e) a' f' /\ inv n (arr f') rt d sz.
  Proof.
    induction fuel; intros h a f rt d sz u W A I Hu Hd; [lia|]. cbn [pu_leader].
    pose proof A as (_ & G). rewrite G. cbn [obind].
    destruct (Nat.eq_dec (rt u) u) as [E|E].
    - destruct (i_root I Hu E) as (Er & Hp & _). rewrite get_arr in Er by auto. inversion Er as [Ev]. rewrite Ev.
      replace (- Z.of_nat (sz u) <? 0)%Z with true by lia. exists [], a, f. rewrite app_nil_r, E. auto.
    - destruct (i_node I Hu E) as (p & Ep & Hp & Er & Hdp). rewrite get_arr in Ep by auto. inversion Ep as [Ev]. rewrite Ev.
      replace (Z.of_nat p <? 0)%Z with false by lia. rewrite Nat2Z.id.
      destruct (IHfuel h a f rt d sz p W A I Hp) as (e & a1 & f1 & E1 & W1 & A1 & I1); [lia|]. rewrite E1. cbn [obind].
      destruct (@aset_ok _ 4 ltac:(lia) (h ++ e) a1 f1 u (Z.of_nat (rt p)) W1 A1) as (e2 & a2 & E2 & W2 & A2). rewrite E2. cbn [obind].
      rewrite <- app_assoc in *. exists (e ++ e2), a2, (upd f1 u (Z.of_nat (rt p))). rewrite Er. split; auto. split; auto. rewrite Er in A2. split; auto.
      rewrite arr_upd by auto. rewrite <- Er.
      pose proof (i_lt I Hu) as Hlt. pose proof (i_idem I Hu) as Hid. pose proof (i_len I1) as L1.
      split; try apply I.
      + now rewrite lset_length.
      + intros w Hw Hr. rewrite get_lset_neq by congruence. apply (i_root I1); auto.
      + intros w Hw Hr. destruct (Nat.eq_dec w u) as [->|].
        * exists (rt p). rewrite get_lset_eq by lia. rewrite Er. repeat split; auto.
          destruct (i_root I Hlt Hid) as (_ & _ & ->). lia.
        * rewrite get_lset_neq by auto. apply (i_node I1); auto.
  Qed.

  Lemma psize_ok fuel h a f rt d sz u : awf h -> aok h a f -> inv n (arr f) rt d sz -> u < n -> n <= fuel ->
    exists e a' f', pu_size_of fuel h a u = Some (h ++ e, a', sz (rt u)) /\ awf (h ++ e) /\ aok (h ++ e) a' f' /\ inv n (arr f') rt d sz.
  Proof.
    intros W A I Hu Hf. unfold pu_size_of. pose proof (i_depth I Hu).
    destruct (@leader_ok fuel h a f rt d sz u W A I Hu) as (e & a1 & f1 & E1 & W1 & A1 & I1); [lia|]. rewrite E1. cbn [obind].
    pose proof A1 as (_ & G). rewrite G. cbn [obind]. destruct (i_root I1 (i_lt I Hu) (i_idem I Hu)) as (Er & _ & _).
    rewrite get_arr in Er by apply (i_lt I Hu). inversion Er as [Ev]. rewrite Ev, Z.opp_involutive, Nat2Z.id. eauto 10.
  Qed.

  (** The two assignments of [merge]. *)
  Lemma link_inv f rt d ra rb : inv n (arr f) rt d (cnt n rt) -> good n rt d -> ra < n -> rb < n -> rt ra = ra -> rt rb = rb -> ra <> rb ->
    inv n (arr (upd (upd f rb (Z.of_nat ra)) ra (- Z.of_nat (cnt n rt ra + cnt n rt rb))%Z)) (rt' rt ra rb) (d' rt d rb) (cnt n (rt' rt ra rb)) /\
    good n (rt' rt ra rb) (d' rt d rb).
  Proof.
    intros I Gd Ha Hb Ia Ib Hne. destruct (i_root I Ha Ia) as (_ & Pa & Da).
    assert (G2 : good n (rt' rt ra rb) (d' rt d rb)).
    { intros w Hw. unfold rt' at 2, d'. pose proof (Gd w Hw) as Gw. destruct (Nat.eqb_spec (rt w) rb) as [E|E].
      - rewrite cnt_merge by auto. rewrite E in Gw. lia.
      - destruct (Nat.eq_dec (rt w) ra) as [E2|E2].
        + rewrite E2 in *. rewrite cnt_merge by auto. lia.
        + rewrite cnt_other by auto. auto. }
    split; auto. rewrite !arr_upd by auto. pose proof (i_len I) as L.
    split.
    - now rewrite !lset_length.
    - intros w Hw. unfold rt'. destruct (rt w =? rb); auto. apply (i_lt I Hw).
    - intros w Hw. unfold rt'. destruct (Nat.eqb_spec (rt w) rb).
      + rewrite Ia. destruct (Nat.eqb_spec ra rb); auto.
      + rewrite (i_idem I Hw). destruct (Nat.eqb_spec (rt w) rb); congruence.
    - intros w Hw Hr. unfold rt' in Hr. destruct (Nat.eqb_spec (rt w) rb) as [E|E].
      + subst w. congruence.
      + assert (w <> rb) by congruence. destruct (i_root I Hw Hr) as (Gw & P & D).
        unfold d'. replace (rt w =? rb) with false by (symmetry; now apply Nat.eqb_neq).
        destruct (Nat.eq_dec w ra) as [->|].
        * rewrite get_lset_eq by (rewrite lset_length; lia). rewrite cnt_merge by auto. repeat split; auto; lia.
        * rewrite !get_lset_neq by auto. rewrite cnt_other by auto. repeat split; auto.
    - intros w Hw Hr. unfold rt' in Hr. destruct (Nat.eq_dec w rb) as [->|Hwv].
      + exists ra. rewrite get_lset_neq by auto. rewrite get_lset_eq by lia. repeat split; auto.
        * unfold rt'. rewrite Ia, Ib, Nat.eqb_refl. destruct (Nat.eqb_spec ra rb); auto.
        * unfold d'. rewrite Ia, Ib, Nat.eqb_refl. destruct (Nat.eqb_spec ra rb); [contradiction|]. lia.
      + assert (Hnr : rt w <> w). { intro E. rewrite E in Hr. destruct (Nat.eqb_spec w rb); congruence. }
        assert (w <> ra) by congruence. rewrite !get_lset_neq by auto.
        destruct (i_node I Hw Hnr) as (p & Ep & Hp & Er & Hd). exists p. repeat split; auto.
        * unfold rt'. rewrite Er. auto.
        * unfold d'. rewrite Er. destruct (rt w =? rb); lia.
    - intros w Hw. pose proof (G2 w Hw). pose proof (cnt_le n (rt' rt ra rb) (rt' rt ra rb w)). lia.
  Qed.

  (** A version represents the closure of its pairs. *)
  Definition uok h a pairs := exists f, aok h a f /\ ok n (arr f) pairs.
  Lemma uok_ext h e a ps : awf h -> uok h a ps -> uok (h ++ e) a ps.
  Proof. intros W (f & A & O). exists f. split; auto. apply (@aok_ext Z 4 ltac:(lia) h e a f W A). Qed.

  Lemma pmerge_ok fuel h a ps u v : n <= fuel -> awf h -> uok h a ps -> u < n -> v < n ->
    exists e a' r, pu_merge fuel h a u v = Some (h ++ e, a', r) /\ awf (h ++ e) /\ uok (h ++ e) a' ps /\ uok (h ++ e) r ((u, v) :: ps).
  Proof.
    intros Hf W (f & A & rt & d & I & Gd & HP & HC) Hu Hv. unfold pu_merge.
    pose proof (i_depth I Hu). pose proof (i_depth I Hv).
    assert (HP' : forall x y, In (x, y) ((u, v) :: ps) -> x < n /\ y < n).
    { intros x y [E|E]; auto. inversion E; subst; auto. }
    destruct (@leader_ok fuel h a f rt d _ u W A I Hu) as (e1 & a1 & f1 & E1 & W1 & A1 & I1); [lia|]. rewrite E1. cbn [obind].
    destruct (@leader_ok fuel _ a1 f1 rt d _ v W1 A1 I1 Hv) as (e2 & a2 & f2 & E2 & W2 & A2 & I2); [lia|]. rewrite E2. cbn [obind].
    destruct (Nat.eqb_spec (rt u) (rt v)) as [E|E].
    { rewrite <- app_assoc in *. eexists _, _, _. split; [reflexivity|]. split; auto. split.
      - exists f2. split; auto. exists rt, d. auto.
      - exists f2. split; auto. exists rt, d. split; [auto|]. split; [auto|]. split; [auto|]. intros x y Hx Hy. split.
        + intros Er. apply conn_mono, HC; auto.
        + intros C. pose proof (@conn_merge n ps rt u v HP HC Hu Hv (rt u) (rt v) ltac:(auto) x y Hx Hy) as K.
          apply K in C. unfold rt' in C.
          destruct (Nat.eqb_spec (rt x) (rt v)), (Nat.eqb_spec (rt y) (rt v)); congruence. }
    pose proof (i_lt I Hu) as Lu. pose proof (i_lt I Hv) as Lv. pose proof (i_idem I Hu) as Iu. pose proof (i_idem I Hv) as Iv.
    destruct (@psize_ok fuel _ a2 f2 rt d _ (rt u) W2 A2 I2 Lu Hf) as (e3 & a3 & f3 & E3 & W3 & A3 & I3). rewrite E3. cbn [obind].
    destruct (@psize_ok fuel _ a3 f3 rt d _ (rt v) W3 A3 I3 Lv Hf) as (e4 & a4 & f4 & E4 & W4 & A4 & I4). rewrite E4. cbn [obind].
    assert (K : exists ra rb, (if cnt n rt (rt (rt u)) <? cnt n rt (rt (rt v)) then (rt v, rt u) else (rt u, rt v)) = (ra, rb) /\
              ra < n /\ rb < n /\ rt ra = ra /\ rt rb = rb /\ ra <> rb /\ ((ra = rt u /\ rb = rt v) \/ (ra = rt v /\ rb = rt u))).
    { destruct (_ <? _); eexists _, _; split; try reflexivity; repeat split; auto. }
    destruct K as (ra & rb & -> & La & Lb & Ia & Ib & Hne & Hor).
    destruct (@aset_ok _ 4 ltac:(lia) _ a4 f4 rb (Z.of_nat ra) W4 A4) as (e5 & r5 & E5 & W5 & R5). rewrite E5. cbn [obind].
    pose proof (@aok_ext Z 4 ltac:(lia) _ e5 _ _ W4 A4) as A5.
    destruct (@psize_ok fuel _ a4 f4 rt d _ ra W5 A5 I4 La Hf) as (e6 & a6 & f6 & E6 & W6 & A6 & I6). rewrite E6. cbn [obind].
    destruct (@psize_ok fuel _ a6 f6 rt d _ rb W6 A6 I6 Lb Hf) as (e7 & a7 & f7 & E7 & W7 & A7 & I7). rewrite E7. cbn [obind].
    rewrite Ia, Ib.
    pose proof (@aok_ext Z 4 ltac:(lia) _ e7 _ _ W6 (@aok_ext Z 4 ltac:(lia) _ e6 _ _ W5 R5)) as R7.
    destruct (@aset_ok _ 4 ltac:(lia) _ r5 _ ra (- Z.of_nat (cnt n rt ra + cnt n rt rb))%Z W7 R7) as (e8 & r8 & E8 & W8 & R8). rewrite E8. cbn [obind].
    pose proof (@aok_ext Z 4 ltac:(lia) _ e8 _ _ W7 A7) as A8.
    rewrite <- !app_assoc in *. eexists _, _, _. split; [reflexivity|]. split; auto. split.
    - exists f7. split; auto. exists rt, d. auto.
    - eexists. split; [exact R8|]. destruct (@link_inv f4 rt d ra rb I4 Gd La Lb Ia Ib Hne) as (II & GG).
      exists (rt' rt ra rb), (d' rt d rb). split; [exact II|]. split; [exact GG|]. split; auto. apply conn_merge; auto.
  Qed.

  Definition upool h vs pss := Forall2 (uok h) vs pss.
  Lemma upool_ext h e vs fs : awf h -> upool h vs fs -> upool (h ++ e) vs fs.
  Proof. intros W H. induction H; constructor; auto. now apply uok_ext. Qed.
  Lemma upool_get h vs fs k f : upool h vs fs -> get fs k = Some f -> exists a, get vs k = Some a /\ uok h a f.
  Proof.
    intros H. revert k. induction H; intros [|k] E; simpl in *; try discriminate.
    - inversion E; subst. eauto. - apply IHForall2; auto.
  Qed.
  Lemma upool_set h vs fs k f a : upool h vs fs -> get fs k = Some f -> uok h a f -> upool h (lset vs k a) fs.
  Proof.
    intros H. revert k. induction H; intros [|k] E U; simpl in *; try discriminate.
    - inversion E; subst. constructor; auto. - constructor; auto. apply IHForall2; auto.
  Qed.

  Lemma urun_ok fuel : n <= fuel -> forall cs h vs pss, awf h -> upool h vs pss -> pu_valid n (length pss) cs ->
    exists st rs, pu_run fuel (h, vs) cs = Some (st, rs) /\ pu_answers pss cs rs.
  Proof.
    intros Hf. induction cs as [|c cs IH]; intros h vs pss W P V; cbn [pu_run].
    - exists (h, vs), []. simpl. auto.
    - destruct c as [|k u v|o k u v|k u]; simpl in V; cbn [pu_step].
      + cbn [obind]. destruct (IH h (vs ++ [pu_new]) (pss ++ [[]])) as (st & rs & E & An); auto.
        * apply Forall2_app; auto. constructor; auto. exists (fun _ => -1)%Z. split; [apply new_ok|].
          replace (arr (fun _ => (-1)%Z)) with (uf_new n); [apply ok_new|].
          apply get_ext. intros j. destruct (Nat.lt_ge_cases j n).
          -- rewrite get_arr by auto. unfold uf_new. now rewrite get_repeat.
          -- rewrite !get_none; auto. ++ unfold arr. now rewrite map_length, seq_length. ++ unfold uf_new. now rewrite repeat_length.
        * rewrite app_length. simpl. now rewrite Nat.add_1_r.
        * rewrite E. cbn [obind]. exists st, (ANone :: rs). simpl. auto.
      + destruct V as (Vk & Hu & Hv & V). destruct (get_lt pss Vk) as (ps & Eps). destruct (upool_get k P Eps) as (a & Ea & U).
        rewrite Ea. cbn [obind]. destruct (@pmerge_ok fuel h a ps u v Hf W U Hu Hv) as (e & a' & r & E & W' & U' & R). rewrite E. cbn [obind].
        rewrite set_some by (eapply get_some_lt; eauto). cbn [obind].
        destruct (IH (h ++ e) (lset vs k a' ++ [r]) (pss ++ [(u, v) :: ps])) as (st & rs & E2 & An); auto.
        * apply Forall2_app; auto. eapply upool_set; eauto. now apply upool_ext.
        * rewrite app_length. simpl. now rewrite Nat.add_1_r.
        * rewrite E2. cbn [obind]. exists st, (ANone :: rs). simpl. rewrite Eps. auto.
      + destruct V as (Vk & Hu & Hv & V). destruct (get_lt pss Vk) as (ps & Eps). destruct (upool_get k P Eps) as (a & Ea & f & A & rt & d & I & Gd & HP & HC).
        rewrite Ea. cbn [obind]. unfold pu_same.
        assert (K : exists e a' f', (let '(u0, v0) := if o then (u, v) else (v, u) in
            let* (h1, a1, ru) := pu_leader fuel h a u0 in let* (h2, a2, rv) := pu_leader fuel h1 a1 v0 in Some (h2, a2, ru =? rv)) = Some (h ++ e, a', rt u =? rt v) /\ awf (h ++ e) /\ aok (h ++ e) a' f' /\ inv n (arr f') rt d (cnt n rt)).
        { pose proof (i_depth I Hu). pose proof (i_depth I Hv). destruct o.
          - destruct (@leader_ok fuel h a f rt d _ u W A I Hu) as (e1 & a1 & f1 & E1 & W1 & A1 & I1); [lia|]. rewrite E1. cbn [obind].
            destruct (@leader_ok fuel _ a1 f1 rt d _ v W1 A1 I1 Hv) as (e2 & a2 & f2 & E2 & W2 & A2 & I2); [lia|]. rewrite E2. cbn [obind].
            rewrite <- app_assoc in *. eauto 10.
          - destruct (@leader_ok fuel h a f rt d _ v W A I Hv) as (e1 & a1 & f1 & E1 & W1 & A1 & I1); [lia|]. rewrite E1. cbn [obind].
            destruct (@leader_ok fuel _ a1 f1 rt d _ u W1 A1 I1 Hu) as (e2 & a2 & f2 & E2 & W2 & A2 & I2); [lia|]. rewrite E2. cbn [obind].
            rewrite <- app_assoc in *. rewrite Nat.eqb_sym. eauto 10. }
        destruct K as (e & a' & f' & E & W' & A' & I'). rewrite E. cbn [obind]. rewrite set_some by (eapply get_some_lt; eauto). cbn [obind].
        destruct (IH (h ++ e) (lset vs k a') pss) as (st & rs & E2 & An); auto.
        * eapply upool_set; eauto; [now apply upool_ext|]. exists f'. split; auto. exists rt, d. auto.
        * rewrite E2. cbn [obind]. exists st, (ABool (rt u =? rt v) :: rs). split; auto. cbn [pu_answers pu_spec pu_answer]. split; auto.
          exists ps. split; auto. rewrite Nat.eqb_eq. now apply HC.
      + destruct V as (Vk & Hu & V). destruct (get_lt pss Vk) as (ps & Eps). destruct (upool_get k P Eps) as (a & Ea & f & A & rt & d & I & Gd & HP & HC).
        rewrite Ea. cbn [obind]. destruct (@psize_ok fuel h a f rt d _ u W A I Hu Hf) as (e & a' & f' & E & W' & A' & I').
        rewrite E. cbn [obind]. rewrite set_some by (eapply get_some_lt; eauto). cbn [obind].
        destruct (IH (h ++ e) (lset vs k a') pss) as (st & rs & E2 & An); auto.
        * eapply upool_set; eauto; [now apply upool_ext|]. exists f'. split; auto. exists rt, d. auto.
        * rewrite E2. cbn [obind]. exists st, (ANat (cnt n rt (rt u)) :: rs). split; auto. cbn [pu_answers pu_spec pu_answer]. split; auto.
          exists ps, (members n rt (rt u)). split; auto. split; [apply NoDup_filter, seq_NoDup|]. split; auto.
          intros w. rewrite in_members. split.
          -- intros (Hw & E'). apply HC; auto.
          -- intros C. assert (Hw : w < n) by (apply (@conn_lt n ps HP u w C); auto). split; auto. symmetry. apply HC; auto.
  Qed.
End UF.
