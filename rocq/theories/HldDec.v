(** Proofs about [HldModel]: the arrays written by [dfs_hld]. *)
From Verif Require Import Base BaseLemmas ListExtra NthExtra HldModel HldTree HldSz.
Set Implicit Arguments.

Fixpoint hlen (t : tree) : nat := let 'Node _ cs := t in match cs with [] => 1 | c :: _ => S (hlen c) end.
Record facts (a : arrs) (time h d v sz cl : nat) : Prop := {
  f_in : get (a_in a) v = Some (Some time);
  f_rev : get (a_rev a) time = Some (Some v);
  f_head : get (a_head a) v = Some (Some h);
  f_dep : get (a_dep a) v = Some (Some d);
  f_clen : get (a_clen a) v = Some cl }.
Inductive dec (a : arrs) : nat -> nat -> nat -> tree -> Prop :=
  | dec_leaf time h d v : facts a time h d v 1 1 -> get (a_out a) v = Some (Some (S time)) -> dec a time h d (Node v [])
  | dec_heavy time h d v c cs : facts a time h d v 1 (S (hlen c)) -> get (a_out a) v = Some (Some (time + tsize (Node v (c :: cs)))) ->
      dec a (S time) h d c -> light a (S time + tsize c) (S d) cs -> dec a time h d (Node v (c :: cs))
with light (a : arrs) : nat -> nat -> list tree -> Prop :=
  | light_nil time d : light a time d []
  | light_cons time d c cs : dec a time (root c) d c -> light a (time + tsize c) d cs -> light a time d (c :: cs).

Definition cells (a a' : arrs) (x : nat) : Prop :=
  get (a_in a') x = get (a_in a) x /\ get (a_out a') x = get (a_out a) x /\ get (a_head a') x = get (a_head a) x /\ get (a_dep a') x = get (a_dep a) x /\ get (a_clen a') x = get (a_clen a) x.
Definition eq_on (vs : list nat) (lo hi : nat) (a a' : arrs) : Prop :=
  (forall x, In x vs -> cells a a' x) /\ forall i, lo <= i < hi -> get (a_rev a') i = get (a_rev a) i.
Definition eq_off (vs : list nat) (lo hi : nat) (a a' : arrs) : Prop :=
  (forall x, ~ In x vs -> cells a a' x) /\ forall i, ~ lo <= i < hi -> get (a_rev a') i = get (a_rev a) i.

Lemma cells_refl a x : cells a a x. Proof. repeat split. Qed.
Lemma cells_trans a b c x : cells a b x -> cells b c x -> cells a c x.
Proof. intros (A1 & A2 & A3 & A4 & A5) (B1 & B2 & B3 & B4 & B5). split; [congruence|]. split; [congruence|]. split; [congruence|]. split; congruence. Qed.
Lemma eq_off_trans vs lo hi vs1 lo1 hi1 vs2 lo2 hi2 a b c : eq_off vs1 lo1 hi1 a b -> eq_off vs2 lo2 hi2 b c ->
  incl vs1 vs -> incl vs2 vs -> lo <= lo1 -> lo <= lo2 -> hi1 <= hi -> hi2 <= hi -> eq_off vs lo hi a c.
Proof.
  intros [A1 A2] [B1 B2] I1 I2 H1 H2 H3 H4. split.
  - intros x N. eapply cells_trans; [apply A1|apply B1]; intros I; apply N; auto.
  - intros i N. rewrite B2, A2 by lia. auto.
Qed.
Lemma eq_off_mono vs lo hi vs1 lo1 hi1 a b : eq_off vs1 lo1 hi1 a b -> incl vs1 vs -> lo <= lo1 -> hi1 <= hi -> eq_off vs lo hi a b.
Proof. intros [A1 A2] I H1 H2. split; [intros x N; apply A1; intros J; apply N, I, J|intros i N; apply A2; lia]. Qed.
Lemma eq_off_on vs lo hi us lo' hi' a b : eq_off vs lo hi a b -> (forall x, In x us -> In x vs -> False) -> (hi' <= lo \/ hi <= lo') -> eq_on us lo' hi' a b.
Proof. intros [A1 A2] D H. split; [intros x I; apply A1; intros J; eapply D; eauto|]. intros i Hi. apply A2. lia. Qed.
Lemma facts_eq a b time h d v s cl : facts a time h d v s cl -> cells a b v -> get (a_rev b) time = get (a_rev a) time -> facts b time h d v s cl.
Proof. intros [A1 A2 A3 A4 A5] (B1 & B2 & B3 & B4 & B5) R. split; congruence. Qed.

Lemma tsize_cons v c cs : tsize (Node v (c :: cs)) = S (tsize c + length (fverts cs)).
Proof. unfold tsize, fverts. cbn [verts flat_map length]. rewrite app_length. lia. Qed.
Lemma len_fverts_cons c cs : length (fverts (c :: cs)) = tsize c + length (fverts cs).
Proof. unfold fverts. cbn [flat_map]. apply app_length. Qed.

Lemma dec_frame a b t : forall time h d, eq_on (verts t) time (time + tsize t) a b -> dec a time h d t -> dec b time h d t.
Proof.
  induction t as [v cs IH] using tree_ind2. intros time h d [F1 F2] D. destruct cs as [|c cs].
  - inversion D as [? ? ? ? Ff Fo|]; subst. destruct (F1 v) as (C1 & C2 & C3 & C4 & C5); [now left|]. apply dec_leaf; [apply (facts_eq Ff); [repeat split; auto|apply F2; cbn; lia]|congruence].
  - inversion D as [|? ? ? ? ? ? Ff Fo Dc Lc]; subst. destruct (F1 v) as (C1 & C2 & C3 & C4 & C5); [now left|]. rewrite tsize_cons in F2. apply dec_heavy; [apply (facts_eq Ff); [repeat split; auto|apply F2; lia]|congruence| |].
    + apply IH; [now left| |auto]. split; [intros x I; apply F1; right; cbn; apply in_or_app; auto|intros i Hi; apply F2; lia].
    + assert (G : forall l t0, incl l cs -> S time + tsize c <= t0 -> t0 + length (fverts l) <= S time + tsize c + length (fverts cs) -> light a t0 (S d) l -> light b t0 (S d) l).
      { induction l as [|x l IHl]; intros t0 I H0 Hl L; [constructor|]. inversion L as [|? ? ? ? Dx Lx]; subst. rewrite len_fverts_cons in Hl. constructor.
        - apply IH; [right; apply I; now left| |auto]. split; [intros y Iy; apply F1; right; change (In y (fverts (c :: cs))); apply in_fverts; exists x; split; [right; apply I; now left|auto]|intros i Hi; apply F2; lia].
        - apply IHl; [intros y Iy; apply I; now right|lia|lia|auto]. }
      apply G; auto. apply incl_refl.
Qed.
Lemma light_frame a b cs : forall time d, eq_on (fverts cs) time (time + length (fverts cs)) a b -> light a time d cs -> light b time d cs.
Proof.
  induction cs as [|c cs IH]; intros time d [F1 F2] L; [constructor|]. inversion L; subst. rewrite len_fverts_cons in F2. constructor.
  - apply dec_frame with a; [|auto]. split; [intros x I; apply F1; cbn; apply in_or_app; auto|intros i Hi; apply F2; lia].
  - apply IH; [|auto]. split; [intros x I; apply F1; cbn; apply in_or_app; auto|intros i Hi; apply F2; lia].
Qed.
Lemma light_snoc a d c l : forall time, light a time d l -> dec a (time + length (fverts l)) (root c) d c -> light a time d (l ++ [c]).
Proof.
  induction l as [|x l IH]; intros time L D; cbn [app].
  - rewrite Nat.add_0_r in D. constructor; [auto|constructor].
  - inversion L; subst. constructor; [auto|]. apply IH; [auto|]. rewrite len_fverts_cons in D. now rewrite <- Nat.add_assoc.
Qed.
Lemma dec_clen a time h d t : dec a time h d t -> get (a_clen a) (root t) = Some (hlen t).
Proof. intros D. inversion D; subst; cbn [root hlen]; eapply f_clen; eauto. Qed.

Section Dfs.
Variables (n : nat) (E : list (list nat)) (P : list (option nat)) (Sz : list nat).
Definition alens (a : arrs) : Prop := length (a_in a) = n /\ length (a_out a) = n /\ length (a_head a) = n /\ length (a_rev a) = n /\ length (a_dep a) = n /\ length (a_clen a) = n.

Lemma filter_nil_all p l : filter (np p) l = [] -> forall x, In x l -> oeq (Some x) p = true.
Proof. intros F x I. destruct (oeq (Some x) p) eqn:N; [auto|]. assert (In x (filter (np p) l)) as J by (apply filter_In; unfold np; rewrite N; auto). rewrite F in J. destruct J. Qed.

Lemma dfs_hld_ok : forall t fuel p time h d a, height t <= fuel -> good E P Sz p t -> NoDup (verts t) -> (forall x, In x (verts t) -> x < n) -> alens a ->
  get (a_head a) (root t) = Some (Some h) -> get (a_dep a) (root t) = Some (Some d) -> time + tsize t <= n ->
  exists a', dfs_hld fuel E (root t) p (time, a) = Some (time + tsize t, a') /\ alens a' /\ dec a' time h d t /\ eq_off (verts t) time (time + tsize t) a a'.
Proof.
  induction t as [v cs IH] using tree_ind2. intros fuel p time h d a Hh G ND Hn (L1 & L2 & L3 & L4 & L5 & L6) Gh Gd Ht. destruct fuel as [|fuel]; [cbn in Hh; lia|]. cbn [root] in *. inversion G as [? ? ? row Er Fr Hd _ _ Gc]; subst.
  assert (Hv : v < n) by (apply Hn; now left). pose proof (tsize_pos (Node v cs)). cbn [dfs_hld]. rewrite set_some by lia. cbn [obind put_in put_out put_head put_rev put_dep put_clen a_in a_out a_head a_rev a_dep a_clen]. unfold rd at 1. cbn [obind put_in put_out put_head put_rev put_dep put_clen a_in a_out a_head a_rev a_dep a_clen]. rewrite get_lset_eq by lia. cbn [obind put_in put_out put_head put_rev put_dep put_clen a_in a_out a_head a_rev a_dep a_clen]. rewrite set_some by lia. cbn [obind put_in put_out put_head put_rev put_dep put_clen a_in a_out a_head a_rev a_dep a_clen]. rewrite set_some by lia. cbn [obind put_in put_out put_head put_rev put_dep put_clen a_in a_out a_head a_rev a_dep a_clen]. rewrite Er. cbn [obind].
  set (a1 := put_clen _ _). cbn [verts] in ND. fold (fverts cs) in ND. inversion_clear ND as [|? ? Nv NDc].
  assert (X1 : a_head a = a_head a1) by reflexivity. assert (X2 : a_dep a = a_dep a1) by reflexivity.
  assert (A1 : alens a1) by (unfold alens, a1; cbn; rewrite !lset_length; auto 10).
  assert (Ff1 : facts a1 time h d v 1 1) by (unfold a1; split; cbn; rewrite ?get_lset_eq by lia; auto).
  assert (O1 : eq_off [v] time (S time) a a1). { split; [intros x N; assert (v <> x) by (intros ->; apply N; now left); unfold a1; repeat split; cbn; rewrite ?get_lset_neq by auto; auto|]. intros i Hi. unfold a1. cbn. apply get_lset_neq. lia. }
  clearbody a1.
  (* the heavy child *)
  match goal with |- context [obind ?m _] => set (heavy := m) end.
  assert (HV : exists a2 rest t2, heavy = Some (t2, a2) /\ alens a2 /\ facts a2 time h d v 1 (hlen (Node v cs)) /\ eq_off (v :: fverts cs) time t2 a a2 /\ time < t2 /\
    match cs with [] => rest = [] /\ t2 = S time | c :: r => rest = r /\ t2 = S time + tsize c /\ dec a2 (S time) h d c end /\ filter (np p) (tl row) = map root rest).
  { assert (LEAF : cs = [] -> filter (np p) (tl row) = [] -> exists a2 rest t2, Some (S time, a1) = Some (t2, a2) /\ alens a2 /\ facts a2 time h d v 1 (hlen (Node v cs)) /\ eq_off (v :: fverts cs) time t2 a a2 /\ time < t2 /\
      match cs with [] => rest = [] /\ t2 = S time | c :: r => rest = r /\ t2 = S time + tsize c /\ dec a2 (S time) h d c end /\ filter (np p) (tl row) = map root rest).
    { intros -> Ft. exists a1, [], (S time). split; [auto|]. split; [auto|]. split; [auto|]. split; [exact O1|]. split; [lia|]. split; [auto|auto]. }
    unfold heavy. destruct row as [|t0 tl0].
    - apply LEAF; [destruct cs; [auto|discriminate]|auto].
    - destruct (oeq (Some t0) p) eqn:N0.
      + cbn [filter] in Fr. replace (np p t0) with false in Fr by (unfold np; now rewrite N0). destruct cs as [|c r].
        * apply LEAF; auto.
        * exfalso. destruct Hd as [[= Hd] _]. assert (I : In t0 (filter (np p) tl0)) by (rewrite Fr, Hd; now left). apply filter_In in I as [_ I]. unfold np in I. rewrite N0 in I. discriminate.
      + cbn [filter] in Fr. replace (np p t0) with true in Fr by (unfold np; now rewrite N0). destruct cs as [|c r]; [discriminate|]. cbn [map] in Fr. injection Fr as Et Fr. cbn [tl]. clear LEAF heavy.
        unfold fverts in Nv, NDc. cbn [flat_map] in Nv, NDc. fold (fverts r) in Nv, NDc. assert (Nvc : ~ In v (verts c)) by (intros I; apply Nv, in_or_app; auto). apply NoDup_app_iff in NDc as (NDc & _ & _).
        assert (Nt : t0 <> v) by (intros ->; apply Nvc; rewrite Et; apply root_in). assert (Ht0 : t0 < n) by (apply Hn; right; cbn; apply in_or_app; left; rewrite Et; apply root_in).
        destruct A1 as (M1 & M2 & M3 & M4 & M5 & M6). rewrite X1, X2, (f_head Ff1). cbn [obind]. rewrite set_some by lia. cbn [obind put_in put_out put_head put_rev put_dep put_clen a_in a_out a_head a_rev a_dep a_clen]. unfold rd. cbn [obind put_in put_out put_head put_rev put_dep put_clen a_in a_out a_head a_rev a_dep a_clen]. rewrite (f_dep Ff1). cbn [obind]. rewrite set_some by lia. cbn [obind put_in put_out put_head put_rev put_dep put_clen a_in a_out a_head a_rev a_dep a_clen].
        set (a1' := put_dep _ _). assert (C1 : eq_off [t0] time time a1 a1'). { split; [intros x N; assert (t0 <> x) by (intros ->; apply N; now left); unfold a1'; repeat split; cbn; rewrite ?get_lset_neq by auto; auto|auto]. }
        assert (Ff1' : facts a1' time h d v 1 1) by (apply (facts_eq Ff1); [apply C1; intros [I|[]]; congruence|auto]).
        destruct (IH c (or_introl eq_refl) fuel (Some v) (S time) h d a1') as (a2 & E2 & (K1 & K2 & K3 & K4 & K5 & K6) & D2 & O2).
        { pose proof (height_child v (c :: r) c (or_introl eq_refl)). lia. } { apply Gc; now left. } { auto. } { intros x I. apply Hn. right. cbn. apply in_or_app; auto. }
        { unfold alens, a1'. cbn. rewrite !lset_length. auto 10. } { unfold a1'. cbn. rewrite <- Et. apply get_lset_eq; lia. } { unfold a1'. cbn. rewrite <- Et. apply get_lset_eq; lia. } { rewrite tsize_cons in Ht. lia. }
        rewrite <- Et in E2. rewrite E2. cbn [obind].
        assert (Ff2 : facts a2 time h d v 1 1) by (apply (facts_eq Ff1'); [apply O2; auto|apply O2; lia]).
        rewrite (f_clen Ff2). cbn [obind]. pose proof (dec_clen D2) as Ct. rewrite <- Et in Ct. rewrite Ct. cbn [obind]. rewrite set_some by lia. cbn [obind]. set (a3 := put_clen _ _).
        assert (O3 : eq_off [v] time time a2 a3) by (split; [intros x N; assert (v <> x) by (intros ->; apply N; now left); unfold a3; repeat split; cbn; rewrite ?get_lset_neq by auto; auto|auto]).
        exists a3, r, (S time + tsize c). split; [auto|]. split; [unfold alens, a3; cbn; rewrite !lset_length; auto 10|]. split; [destruct Ff2; split; unfold a3; cbn; auto; rewrite get_lset_eq by lia; auto|]. split; [|split; [lia|split; [split; [auto|split; [auto|]]|exact Fr]]].
        * assert (I1 : incl [v] (v :: fverts (c :: r))) by (intros x [<-|[]]; now left). assert (I2 : incl [t0] (v :: fverts (c :: r))) by (intros x [<-|[]]; right; rewrite Et; apply roots_in; now left). assert (I3 : incl (verts c) (v :: fverts (c :: r))) by (intros x I; right; cbn; apply in_or_app; auto).
          assert (J1 : eq_off (v :: fverts (c :: r)) time (S time + tsize c) a a1') by (eapply eq_off_trans; [exact O1|exact C1|exact I1|exact I2|lia..]).
          assert (J2 : eq_off (v :: fverts (c :: r)) time (S time + tsize c) a1' a3) by (eapply eq_off_trans; [exact O2|exact O3|exact I3|exact I1|lia..]).
          eapply eq_off_trans; [exact J1|exact J2|apply incl_refl|apply incl_refl|lia..].
        * apply dec_frame with a2; [|auto]. eapply eq_off_on; [exact O3|intros x I [<-|[]]; auto|lia]. }
  destruct HV as (a2 & rest & t2 & Eh & A2 & Ff2 & O2 & Ht2 & Hc & Ft). rewrite Eh. cbn [obind]. clear Eh heavy.
  assert (Irest : incl rest cs /\ length (fverts cs) + S time = t2 + length (fverts rest)). { destruct cs as [|c r]; [destruct Hc as [-> ->]; split; [apply incl_refl|cbn; lia]|]. destruct Hc as (-> & -> & _). split; [intros x I; now right|rewrite len_fverts_cons; lia]. }
  destruct Irest as [Irest Lrest].
  assert (NDr : NoDup (fverts rest) /\ forall c, hd_error cs = Some c -> forall x, In x (verts c) -> In x (fverts rest) -> False).
  { destruct cs as [|c r]; [destruct Hc as [-> _]; split; [constructor|discriminate]|]. destruct Hc as (-> & _). unfold fverts in NDc. cbn [flat_map] in NDc. fold (fverts r) in NDc. apply NoDup_app_iff in NDc as (_ & N2 & D). split; [auto|]. intros c' [= <-]. auto. }
  destruct NDr as [NDr Dhr].
  match goal with |- context [for_up _ _ ?bd _] => set (body := bd) end.
  destruct (@for_up_rule _ (fun i '(times, b) => exists pre suf don pend, tl row = pre ++ suf /\ S (length pre) = i /\ filter (np p) suf = map root pend /\ rest = don ++ pend /\ times = t2 + length (fverts don) /\ alens b /\
      facts b time h d v 1 (hlen (Node v cs)) /\ (forall c, hd_error cs = Some c -> dec b (S time) h d c) /\ light b t2 (S d) don /\ eq_off (v :: fverts cs) time times a b) body (length row - 1) 1 (t2, a2)) as ((times & b) & Ef & Hinv).
  - exists [], (tl row), [], rest. split; [auto|]. split; [auto|]. split; [auto|]. split; [auto|]. split; [cbn; lia|]. split; [auto|]. split; [auto|]. split; [|split; [constructor|auto]]. intros c Hcs. destruct cs as [|c' r]; [discriminate|]. injection Hcs as ->. apply Hc.
  - intros i [times b] Hi (pre & suf & don & pend & Etl & Lp & Fs & Er' & -> & Ab & Fb & Db & Lb & Ob).
    assert (Ltl : length (tl row) = length row - 1) by (destruct row; cbn; lia). destruct suf as [|t suf]; [rewrite app_nil_r in Etl; rewrite Etl in Ltl; lia|].
    assert (Gt : get2 E v i = Some t). { unfold get2. rewrite Er. cbn [obind]. destruct row as [|r0 tl0]; [destruct pre; discriminate|]. cbn [tl] in Etl. subst i tl0. change (get (pre ++ t :: suf) (length pre) = Some t). apply get_head. }
    unfold body at 1. rewrite Gt. cbn [obind]. cbn [filter] in Fs. destruct (oeq (Some t) p) eqn:N0.
    + replace (np p t) with false in Fs by (unfold np; now rewrite N0). eexists. split; [reflexivity|]. exists (pre ++ [t]), suf, don, pend. rewrite <- app_assoc. split; [auto|]. split; [rewrite app_length; cbn; lia|]. auto 10.
    + replace (np p t) with true in Fs by (unfold np; now rewrite N0). destruct pend as [|c pend]; [discriminate|]. cbn [map] in Fs. injection Fs as Et Fs.
      assert (Icr : In c rest) by (rewrite Er'; apply in_or_app; right; now left). assert (Icc : In c cs) by (apply Irest; auto).
      assert (Nvc : ~ In v (verts c)) by (intros I; apply Nv, in_fverts; eauto). pose proof NDr as NDr'. rewrite Er', fverts_app in NDr'. unfold fverts in NDr' at 2. cbn [flat_map] in NDr'. fold (fverts pend) in NDr'. apply NoDup_app_iff in NDr' as (_ & NDr' & D1). apply NoDup_app_iff in NDr' as (NDcc & _ & _).
      assert (Nt : t <> v) by (intros ->; apply Nvc; rewrite Et; apply root_in). assert (Ht0 : t < n) by (apply Hn; right; apply in_fverts; exists c; split; [auto|rewrite Et; apply root_in]).
      assert (Hsz : length (fverts rest) = length (fverts don) + (tsize c + length (fverts pend))) by (rewrite Er', fverts_app, app_length, len_fverts_cons; auto).
      destruct Ab as (M1 & M2 & M3 & M4 & M5 & M6). rewrite set_some by lia. cbn [obind put_in put_out put_head put_rev put_dep put_clen a_in a_out a_head a_rev a_dep a_clen]. unfold rd. cbn [obind put_in put_out put_head put_rev put_dep put_clen a_in a_out a_head a_rev a_dep a_clen]. rewrite (f_dep Fb). cbn [obind]. rewrite set_some by lia. cbn [obind put_in put_out put_head put_rev put_dep put_clen a_in a_out a_head a_rev a_dep a_clen].
      set (b1 := put_dep _ _). assert (C1 : eq_off [t] time time b b1). { split; [intros x N; assert (t <> x) by (intros ->; apply N; now left); unfold b1; repeat split; cbn; rewrite ?get_lset_neq by auto; auto|auto]. }
      destruct (IH c Icc fuel (Some v) (t2 + length (fverts don)) t (S d) b1) as (b2 & E2 & A2' & D2 & O2').
      { pose proof (height_child v cs c Icc). lia. } { apply Gc; auto. } { auto. } { intros x I. apply Hn. right. apply in_fverts. eauto. }
      { unfold alens, b1. cbn. rewrite !lset_length. auto 10. } { unfold b1. cbn. rewrite <- Et. apply get_lset_eq; lia. } { unfold b1. cbn. rewrite <- Et, Nat.add_1_r. apply get_lset_eq; lia. } { rewrite tsize_node in Ht. lia. }
      rewrite <- Et in E2. rewrite E2. eexists. split; [reflexivity|].
      assert (O3 : eq_off (verts c) (t2 + length (fverts don)) (t2 + length (fverts don) + tsize c) b b2).
      { assert (X : eq_off [t] (t2 + length (fverts don)) (t2 + length (fverts don)) b b1) by (split; [apply C1|intros; apply C1; lia]). eapply eq_off_trans; [exact X|exact O2'|intros x [<-|[]]; rewrite Et; apply root_in|apply incl_refl|lia..]. }
      exists (pre ++ [t]), suf, (don ++ [c]), pend. split; [rewrite <- app_assoc; auto|]. split; [rewrite app_length; cbn; lia|]. split; [auto|]. split; [rewrite <- app_assoc; auto|]. split; [rewrite fverts_app, app_length, len_fverts_cons; cbn; lia|]. split; [auto|].
      split; [apply (facts_eq Fb); [apply O3; auto|apply O3; lia]|]. split.
      * intros c' Hc'. apply dec_frame with b; [|auto]. eapply eq_off_on; [exact O3|intros x I I'; apply (Dhr c' Hc' x I), in_fverts; eauto|]. left. destruct cs as [|c0 r]; [discriminate|]. injection Hc' as ->. destruct Hc as (_ & -> & _). lia.
      * split.
        -- apply light_snoc; [|rewrite <- Et; exact D2]. apply light_frame with b; [|auto]. eapply eq_off_on; [exact O3|intros x I I'; apply (D1 x I), in_or_app; auto|lia].
        -- eapply eq_off_trans; [exact Ob|exact O3|apply incl_refl|intros x I; right; apply in_fverts; eauto|lia..].
  - destruct Hinv as (pre & suf & don & pend & Etl & Lp & Fs & Er' & -> & Ab & Fb & Db & Lb & Ob). rewrite Ef. cbn [obind]. assert (Ltl : length (tl row) = length row - 1) by (destruct row; cbn; lia). assert (suf = []) by (rewrite Etl, app_length in Ltl; destruct suf; cbn in Ltl; [auto|lia]). subst suf. destruct pend; [|discriminate]. rewrite app_nil_r in *. subst don.
    destruct Ab as (M1 & M2 & M3 & M4 & M5 & M6). rewrite set_some by lia. cbn [obind]. replace (t2 + length (fverts rest)) with (time + tsize (Node v cs)) in * by (rewrite tsize_node; lia). set (b1 := put_out _ _).
    assert (O3 : eq_off [v] time time b b1) by (split; [intros x N; assert (v <> x) by (intros ->; apply N; now left); unfold b1; repeat split; cbn; rewrite ?get_lset_neq by auto; auto|auto]).
    assert (Fb1 : facts b1 time h d v 1 (hlen (Node v cs))) by (destruct Fb; split; auto). assert (Go : get (a_out b1) v = Some (Some (time + tsize (Node v cs)))) by (apply get_lset_eq; lia).
    exists b1. split; [auto|]. split; [unfold alens, b1; cbn; rewrite !lset_length; auto 10|]. split.
    + destruct cs as [|c r].
      * apply dec_leaf; [auto|]. rewrite Go. do 2 f_equal. cbn. lia.
      * destruct Hc as (-> & -> & _). apply dec_heavy; [auto|auto| |].
        -- apply dec_frame with b; [|apply Db; auto]. eapply eq_off_on; [exact O3| |lia]. intros x I [<-|[]]. apply Nv. cbn. apply in_or_app; auto.
        -- apply light_frame with b; [|auto]. eapply eq_off_on; [exact O3| |lia]. intros x I [<-|[]]. apply Nv. cbn. apply in_or_app; auto.
    + eapply eq_off_trans; [exact Ob|exact O3|apply incl_refl|intros x [<-|[]]; now left|lia..].
Qed.
End Dfs.
