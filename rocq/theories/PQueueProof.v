From Verif Require Import Base BaseLemmas PQueueModel.
Set Implicit Arguments.

Section Queue.
  Variable T : Type.
  Notation node := (option nat * T)%type.
  Notation stream := (option nat * option nat)%type.
  Implicit Types (h : list node) (ss : list stream) (p q : option nat) (G : nat -> list T) (O : nat -> option nat) (R : nat -> list T).

  Definition ab G p : list T := match p with None => [] | Some a => G a end.
  Definition pok h p := match p with None => True | Some a => a < length h end.

  (** The chain from [p] to [q] carries the values [l]. *)
  Inductive seg h : option nat -> option nat -> list T -> Prop :=
  | seg_nil p : seg h p p []
  | seg_cons a nx v q l : get h a = Some (nx, v) -> seg h nx q l -> seg h (Some a) q (v :: l).

  Lemma seg_none h q l : seg h None q l -> q = None /\ l = [].
  Proof. inversion 1; auto. Qed.
  Lemma seg_app h e p q l : seg h p q l -> seg (h ++ e) p q l.
  Proof. induction 1; econstructor; eauto. rewrite get_app_l; auto. eapply get_some_lt; eauto. Qed.
  Lemma seg_snoc h p a nx v l : seg h p (Some a) l -> get h a = Some (nx, v) -> seg h p nx (l ++ [v]).
  Proof.
    intros H E. remember (Some a) as q. induction H; subst; simpl.
    - econstructor; eauto. constructor.
    - econstructor; eauto.
  Qed.
  Lemma seg_reach h p q l : seg h p q l -> reach h p q.
  Proof. induction 1; econstructor; eauto. Qed.

  (** Chains to the null pointer are no longer than the heap. *)
  Inductive path h : option nat -> list nat -> Prop :=
  | path_nil : path h None []
  | path_cons a nx v l : get h a = Some (nx, v) -> path h nx l -> path h (Some a) (a :: l).
  Lemma path_det h p l : path h p l -> forall l', path h p l' -> l = l'.
  Proof.
    induction 1; intros l' H'; inversion H'; subst; auto. f_equal. apply IHpath.
    match goal with A : get h a = _, B : get h a = _ |- _ => rewrite A in B; inversion B; subst end. auto.
  Qed.
  Lemma path_in h p l b : path h p l -> In b l -> exists l', path h (Some b) l' /\ length l' <= length l.
  Proof.
    induction 1; intros I; [contradiction|]. destruct I as [->|I].
    - eexists; split; [econstructor; eauto|auto].
    - destruct (IHpath I) as (l' & P & L). exists l'. simpl. split; auto.
  Qed.
  Lemma path_nodup h p l : path h p l -> NoDup l.
  Proof.
    induction 1; constructor; auto. intros I. destruct (path_in a H0 I) as (l' & P & L).
    assert (l' = a :: l) by (eapply path_det; eauto; econstructor; eauto). subst. simpl in L. lia.
  Qed.
  Lemma path_lt h p l : path h p l -> incl l (seq 0 (length h)).
  Proof. induction 1; intros x I; [contradiction|]. destruct I as [->|I]; auto. apply in_seq. split; [lia|]. simpl. eapply get_some_lt; eauto. Qed.
  Lemma seg_len h p l : seg h p None l -> length l <= length h.
  Proof.
    intros S. assert (K : exists l', path h p l' /\ length l' = length l).
    { remember None as q. induction S; subst. - exists []. split; auto. constructor.
      - destruct IHS as (l' & P & L); auto. exists (a :: l'). simpl. split; auto. econstructor; eauto. }
    destruct K as (l' & P & L). rewrite <- L, <- (seq_length (length h) 0). apply NoDup_incl_length; [eapply path_nodup; eauto|eapply path_lt; eauto].
  Qed.

  (** The invariant; the nodes in [X] are temporarily exempt. *)
  Record Inv (X : nat -> Prop) h ss G O R : Prop := {
    iN : forall a nx v, ~ X a -> get h a = Some (nx, v) -> exists t, G a = v :: t /\
           match nx with
           | Some b => b < length h /\ t = G b /\ O b = O a
           | None => match O a with None => t = [] | Some s => s < length ss /\ t = R s end
           end;
    iU : forall a b s v w, ~ X a -> ~ X b -> get h a = Some (None, v) -> get h b = Some (None, w) -> O a = Some s -> O b = Some s -> R s <> [] -> a = b;
    iS : forall s sc ro, get ss s = Some (sc, ro) -> pok h sc /\ pok h ro /\
           exists ls lr, seg h sc None ls /\ ab G sc = ls /\ seg h ro None lr /\ ab G ro = lr /\ R s = ls ++ rev lr
  }.
  Definition nox : nat -> Prop := fun _ => False.

  Definition agree h G O G' O' := forall a, a < length h -> G' a = G a /\ O' a = O a.
  Lemma agree_ab h G O G' O' p : agree h G O G' O' -> pok h p -> ab G' p = ab G p.
  Proof. intros A H. destruct p; simpl in *; auto. now apply A. Qed.

  Fixpoint bld (b : nat) (ret : option nat) (l : list T) : list node :=
    match l with [] => [] | v :: l => (ret, v) :: bld (S b) (Some b) l end.
  Fixpoint fin (b : nat) (ret : option nat) (l : list T) : option nat :=
    match l with [] => ret | v :: l => fin (S b) (Some b) l end.
  Lemma get_bld l : forall b ret i v, get l i = Some v -> get (bld b ret l) i = Some (if i =? 0 then ret else Some (b + i - 1), v).
  Proof.
    induction l; intros b ret [|i] v E; try discriminate; simpl in *.
    - inversion E. auto.
    - change (get (bld (S b) (Some b) l) i = Some (Some (b + S i - 1), v)). rewrite (IHl _ _ _ _ E). do 2 f_equal. destruct (Nat.eqb_spec i 0); f_equal; lia.
  Qed.
  Lemma bld_len l : forall b ret, length (bld b ret l) = length l.
  Proof. induction l; simpl; auto. Qed.
  Lemma fin_eq l : forall b ret, fin b ret l = if length l =? 0 then ret else Some (b + length l - 1).
  Proof. induction l; intros; simpl; auto. rewrite IHl. destruct (Nat.eqb_spec (length l) 0); f_equal; lia. Qed.

  Lemma firstn_S_get (l : list T) : forall i v, get l i = Some v -> firstn (S i) l = firstn i l ++ [v].
  Proof. induction l; intros [|i] v E; try discriminate; simpl in *. - inversion E; auto. - f_equal. apply (IHl i v E). Qed.

  Lemma rotate_ok h l : forall fuel e ret p, seg h p None l -> length l < fuel ->
    loop fuel (fun '(h, ret, ro) =>
            match ro with
            | None => Some (inr (h, ret))
            | Some p =>
                let* (nx, v) := get h p in
                let '(h, n) := q_alloc h ret v in
                Some (inl (h, Some n, nx))
            end) (h ++ e, ret, p) = Some (h ++ e ++ bld (length (h ++ e)) ret l, fin (length (h ++ e)) ret l).
  Proof.
    induction l as [|v l IH]; intros fuel e ret p S Hf; (destruct fuel; [simpl in Hf; lia|]).
    - inversion S; subst. simpl. rewrite app_nil_r. auto.
    - inversion S as [|a nx w q l' E S' E1 E2 E3]; subst. cbn [loop].
      rewrite get_app_l by (eapply get_some_lt; eauto). rewrite E. cbn [obind]. unfold q_alloc.
      rewrite <- app_assoc. rewrite IH by (auto; simpl in Hf; lia). f_equal. f_equal.
      + rewrite <- !app_assoc. simpl. do 3 f_equal. rewrite !app_length. simpl. f_equal. lia.
      + simpl. rewrite !app_length. simpl. f_equal. lia.
  Qed.

  Lemma next_ok h ss G O R s : Inv nox h ss G O R -> s < length ss ->
    exists e c p G' O' R', q_next (h, ss) s = Some ((h ++ e, lset ss s c), p) /\ agree h G O G' O' /\
      (forall s', s' <> s -> R' s' = R s') /\ ab G' p = R s /\ pok (h ++ e) p /\
      (forall n, p = Some n -> O' n = Some s /\ length h <= n) /\ (R s = [] -> e = [] /\ p = None) /\ (R s <> [] -> p <> None) /\
      Inv (fun a => a < length h /\ O a = Some s /\ R s <> [] /\ exists v, get h a = Some (None, v)) (h ++ e) (lset ss s c) G' O' R'.
  Proof.
    intros I Hs. destruct (get_lt ss Hs) as ((sc & ro) & Es). destruct (iS I _ Es) as (Psc & Pro & ls & lr & S1 & A1 & S2 & A2 & ER).
    unfold q_next. rewrite Es. cbn [obind]. destruct sc as [p|].
    - (* scan *)
      inversion S1 as [|a nx v q ls' E S' E1 E2 E3]. subst a q. simpl in A1. assert (ER' : R s = v :: ls' ++ rev lr) by (rewrite ER, <- E3; auto). rewrite E. cbn [obind]. unfold q_alloc.
      rewrite set_some by auto. cbn [obind].
      destruct (iN I p (nx := nx) (v := v) ltac:(auto) E) as (t & Gp & K).
      assert (Et : t = ls'). { rewrite Gp in A1. congruence. }
      assert (Ab : ab G nx = ls'). { destruct nx; simpl. - destruct K as (_ & <- & _). auto. - apply seg_none in S'. destruct S' as (_ & ->). auto. }
      assert (Pn : pok h nx). { destruct nx; simpl; auto. apply K. }
      exists [(None, v)], (nx, ro), (Some (length h)), (fun a => if a <? length h then G a else R s), (fun a => if a <? length h then O a else Some s),
        (fun s' => if s' =? s then ls' ++ rev lr else R s').
      assert (AG : agree h G O (fun a => if a <? length h then G a else R s) (fun a => if a <? length h then O a else Some s)).
      { intros a Ha. replace (a <? length h) with true by lia. auto. }
      assert (NN : R s <> []) by (rewrite ER'; discriminate).
      split; auto. split; auto. split. { intros s' Hs'. replace (s' =? s) with false by lia. auto. }
      split. { simpl. rewrite Nat.ltb_irrefl. auto. } split. { simpl. rewrite app_length. simpl. lia. }
      split. { intros n En. inversion En; subst. rewrite Nat.ltb_irrefl. split; auto. } split; [intros; contradiction|]. split; [discriminate|].
      split.
      + intros a nx' v' NX Ea. destruct (Nat.ltb_spec a (length h)).
        * rewrite get_app_l in Ea by auto. destruct (iN I a (nx := nx') (v := v') ltac:(auto) Ea) as (t' & Ga & K'). exists t'. split; auto.
          destruct nx' as [b|].
          -- destruct K' as (Hb & ? & ?). replace (b <? length h) with true by lia. rewrite app_length. split; [lia|auto].
          -- destruct (O a) as [s'|] eqn:Oa; auto. rewrite lset_length. destruct K' as (? & ?). split; auto.
             destruct (Nat.eqb_spec s' s) as [->|]; auto. exfalso. apply NX. repeat split; eauto.
        * rewrite get_app_r in Ea by auto. destruct (a - length h) eqn:D; simpl in Ea; [|destruct n; discriminate]. inversion Ea; subst nx' v'.
          exists (ls' ++ rev lr). rewrite lset_length, Nat.eqb_refl. split; auto.
      + intros a b s' w1 w2 NXa NXb Ea Eb Oa Ob Nr.
        assert (Q : forall a w, ~ (a < length h /\ O a = Some s /\ R s <> [] /\ exists v, get h a = Some (None, v)) -> get (h ++ [(None, v)]) a = Some (None, w) ->
            (if a <? length h then O a else Some s) = Some s' ->
            (a < length h /\ get h a = Some (None, w) /\ O a = Some s' /\ s' <> s) \/ (a = length h /\ s' = s)).
        { clear - NN. intros a w NX Ea Oa. destruct (Nat.ltb_spec a (length h)).
          - rewrite get_app_l in Ea by auto. left. repeat split; auto. intros ->. apply NX. repeat split; eauto.
          - right. apply get_some_lt in Ea. rewrite app_length in Ea. simpl in Ea. inversion Oa. split; auto. lia. }
        destruct (Q a w1 NXa Ea Oa) as [(? & Ga & Oa' & Ns)|(-> & ->)], (Q b w2 NXb Eb Ob) as [(? & Gb & Ob' & Ns')|(-> & ?)]; auto; try congruence.
        replace (s' =? s) with false in Nr by lia. eapply (iU I); eauto.
      + intros s' sc' ro' Es'. rewrite get_lset in Es'. replace (s <? length ss) with true in Es' by lia. rewrite andb_true_r in Es'.
        assert (PA : forall p, pok h p -> pok (h ++ [(None, v)]) p) by (intros [q|]; simpl; auto; rewrite app_length; lia).
        destruct (Nat.eqb_spec s s') as [<-|Hne].
        * inversion Es'; subst sc' ro'. split; auto. split; auto. rewrite Nat.eqb_refl. exists ls', lr. repeat split; auto using seg_app.
          -- rewrite (agree_ab _ AG); auto. -- rewrite (agree_ab _ AG); auto.
        * destruct (iS I _ Es') as (P1 & P2 & l1 & l2 & B1 & B2 & B3 & B4 & B5). split; auto. split; auto.
          replace (s' =? s) with false by lia. exists l1, l2. repeat split; auto using seg_app.
          -- rewrite (agree_ab _ AG); auto. -- rewrite (agree_ab _ AG); auto.
    - (* rotate *)
      apply seg_none in S1. destruct S1 as (_ & ->). simpl in ER.
      assert (HL : length lr < S (length h)) by (apply seg_len in S2; lia).
      pose proof (@rotate_ok h lr (S (length h)) [] None ro S2 HL) as RT. rewrite app_nil_r in RT. rewrite RT. clear RT. cbn [obind].
      rewrite set_some by auto. cbn [obind app].
      set (G' := fun a => if a <? length h then G a else rev (firstn (a - length h + 1) lr)).
      set (O' := fun a => if a <? length h then O a else Some s).
      assert (AG : agree h G O G' O').
      { intros a Ha. unfold G', O'. replace (a <? length h) with true by lia. auto. }
      exists (bld (length h) None lr), (None, None), (fin (length h) None lr), G', O', (fun s' => if s' =? s then [] else R s').
      split; auto. split; auto. split. { intros s' Hs'. replace (s' =? s) with false by lia. auto. }
      rewrite fin_eq. split; [|split; [|split; [|split; [|split]]]].
      + destruct (Nat.eqb_spec (length lr) 0) as [Z|NZ]; simpl.
        * destruct lr; [|discriminate]. auto.
        * unfold G'. replace (_ <? length h) with false by lia. rewrite firstn_all2 by lia. auto.
      + destruct (Nat.eqb_spec (length lr) 0); simpl; auto. rewrite app_length, bld_len. lia.
      + intros n En. destruct (Nat.eqb_spec (length lr) 0); [discriminate|]. inversion En; subst. unfold O'. replace (_ <? length h) with false by lia. split; auto; lia.
      + intros Z. rewrite Z in ER. assert (lr = []) by (destruct lr; auto; simpl in ER; destruct (rev lr); discriminate). subst lr. rewrite H. auto.
      + intros NZ. destruct (Nat.eqb_spec (length lr) 0) as [Z|]; [|discriminate]. destruct lr; [|discriminate]. contradiction.
      + split.
        * intros a nx' v' NX Ea. destruct (Nat.lt_ge_cases a (length h)) as [Ha|Ha].
          -- rewrite get_app_l in Ea by auto. destruct (iN I a (nx := nx') (v := v') ltac:(auto) Ea) as (t' & Ga & K'). exists t'. destruct (AG a Ha) as (-> & ->). split; auto.
             destruct nx' as [b|].
             ++ destruct K' as (Hb & ? & ?). destruct (AG b Hb) as (-> & ->). rewrite app_length. split; [lia|auto].
             ++ destruct (O a) as [s'|] eqn:Oa; auto. rewrite lset_length. destruct K' as (? & ->). split; auto.
                destruct (Nat.eqb_spec s' s) as [->|]; auto. destruct (R s) eqn:Rs; auto. exfalso. apply NX. repeat split; eauto; congruence.
          -- pose proof Ea as Ea'. apply get_some_lt in Ea'. rewrite app_length, bld_len in Ea'. rewrite get_app_r in Ea by auto.
             destruct (get_lt lr (i := a - length h)) as (w & Ew); [lia|]. rewrite (@get_bld lr _ _ _ _ Ew) in Ea. inversion Ea; subst w.
             unfold G', O'. replace (a <? length h) with false by lia. set (i := a - length h) in *.
             assert (F : firstn (i + 1) lr = firstn i lr ++ [v']).
             { rewrite Nat.add_1_r. apply firstn_S_get. auto. }
             exists (rev (firstn i lr)). rewrite F, rev_app_distr. split; auto.
             destruct (Nat.eqb_spec i 0) as [Zi|NZi].
             ++ rewrite lset_length, Nat.eqb_refl, Zi. auto.
             ++ replace (length h + i - 1 <? length h) with false by lia. rewrite app_length, bld_len. split; [lia|]. split; auto. do 2 f_equal. lia.
        * intros a b s' w1 w2 NXa NXb Ea Eb Oa Ob Nr. destruct (Nat.eqb_spec s' s) as [|Ns]; [contradiction|].
          assert (Q : forall a w, get (h ++ bld (length h) None lr) a = Some (None, w) -> O' a = Some s' -> get h a = Some (None, w) /\ O a = Some s').
          { intros c w Ec Oc. unfold O' in Oc. destruct (Nat.ltb_spec c (length h)); [|inversion Oc; congruence]. rewrite get_app_l in Ec by auto. auto. }
          destruct (Q _ _ Ea Oa), (Q _ _ Eb Ob). eapply (iU I); eauto.
        * intros s' sc' ro' Es'. rewrite get_lset in Es'. replace (s <? length ss) with true in Es' by lia. rewrite andb_true_r in Es'.
          assert (PA : forall p, pok h p -> pok (h ++ bld (length h) None lr) p) by (intros [q|]; simpl; auto; rewrite app_length; lia).
          destruct (Nat.eqb_spec s s') as [<-|Hne].
          -- inversion Es'; subst sc' ro'. split; [exact Logic.I|]. split; [exact Logic.I|]. rewrite Nat.eqb_refl. exists [], []. repeat split; constructor.
          -- destruct (iS I _ Es') as (P1 & P2 & l1 & l2 & B1 & B2 & B3 & B4 & B5). split; auto. split; auto.
             replace (s' =? s) with false by lia. exists l1, l2. repeat split; auto using seg_app.
             ++ rewrite (agree_ab _ AG); auto. ++ rewrite (agree_ab _ AG); auto.
  Qed.

  (** Filling in the suspended [next] of a node that has a successor keeps
      every chain. *)
  Lemma seg_fill X h ss G O R a v t n : Inv X h ss G O R -> (forall b, X b -> b = a) -> get h a = Some (None, v) -> G a = v :: t -> t <> [] ->
    forall p q l, seg h p q l -> ab G p = l ++ ab G q -> seg (lset h a (Some n, v)) p q l.
  Proof.
    intros I HX Ea Ga Nt p q l S. induction S as [p|b nx w q l Eb S IH]; intros A; [constructor|].
    assert (Nb : a <> b).
    { intros <-. rewrite Ea in Eb. inversion Eb; subst nx w. apply seg_none in S. destruct S as (-> & ->). simpl in A. congruence. }
    destruct (iN I b (nx := nx) (v := w) (fun Xb => Nb (eq_sym (HX b Xb))) Eb) as (t' & Gb & K). simpl in A. rewrite Gb in A. inversion A as [A'].
    econstructor; [rewrite get_lset_neq by auto; eauto|]. apply IH. destruct nx as [c|].
    - destruct K as (_ & E & _). simpl. congruence.
    - apply seg_none in S. destruct S as (-> & ->). auto.
  Qed.

  (** Changes that keep all pointers, abstract values and chains. *)
  Record ext h G O h' G' O' : Prop := {
    eL : length h <= length h';
    eA : agree h G O G' O';
    eP : forall p q l, pok h p -> pok h q -> seg h p q l -> ab G p = l ++ ab G q -> seg h' p q l
  }.

  Lemma ext_refl h G O : ext h G O h G O.
  Proof. split; auto. intros a Ha; auto. Qed.
  Lemma ext_pok h G O h' G' O' p : ext h G O h' G' O' -> pok h p -> pok h' p.
  Proof. intros E. destruct p; simpl; auto. pose proof (eL E). lia. Qed.
  Lemma ext_trans h G O h1 G1 O1 h2 G2 O2 : ext h G O h1 G1 O1 -> ext h1 G1 O1 h2 G2 O2 -> ext h G O h2 G2 O2.
  Proof.
    intros E1 E2. split.
    - pose proof (eL E1). pose proof (eL E2). lia.
    - intros a Ha. pose proof (eL E1). destruct (eA E1 Ha) as (<- & <-). apply (eA E2). lia.
    - intros p q l Hp Hq S A. apply (eP E2); try (eapply ext_pok; eauto).
      + apply (eP E1); auto. + rewrite !(agree_ab _ (eA E1)); auto.
  Qed.
  Lemma ext_app h G O e G' O' : agree h G O G' O' -> ext h G O (h ++ e) G' O'.
  Proof. intros A. split; auto. - rewrite app_length. lia. - intros. now apply seg_app. Qed.

  Lemma force_ok h ss G O R qu a s : Inv nox h ss G O R -> a < length h -> O a = Some s -> pq_stream qu = Some s ->
    exists h' ss' G' O' R' p v, q_force (h, ss) qu a = Some ((h', ss'), p) /\ Inv nox h' ss' G' O' R' /\ ext h G O h' G' O' /\
      get h' a = Some (p, v) /\ pok h' p /\ G a = v :: ab G' p /\ (forall n, p = Some n -> O' n = Some s).
  Proof.
    intros I Ha Oa Es. unfold q_force. destruct (get_lt h Ha) as ((nx & v) & E). rewrite E. cbn [obind].
    destruct (iN I a (nx := nx) (v := v) ltac:(auto) E) as (t & Ga & K). destruct nx as [b|].
    - destruct K as (Hb & -> & Ob). exists h, ss, G, O, R, (Some b), v. split; auto. split; auto. split; [apply ext_refl|]. split; auto. split; auto. split; auto.
      intros n En. inversion En; subst. congruence.
    - rewrite Oa in K. destruct K as (Hs & ->). rewrite Es. cbn [obind].
      destruct (next_ok I Hs) as (e & c & p & G' & O' & R' & En & AG & HR & Ap & Pp & On & Hnil & Hnn & I'). rewrite En. cbn [obind].
      rewrite get_app_l by auto. rewrite E. cbn [obind]. rewrite set_some by (rewrite app_length; lia). cbn [obind].
      destruct (AG a Ha) as (Ga' & Oa').
      eexists _, _, G', O', R', p, v. split; [reflexivity|].
      destruct (R s) as [|r0 rs] eqn:Rs.
      + destruct (Hnil eq_refl) as (-> & ->). rewrite app_nil_r in *.
        assert (EL : lset h a (None, v) = h).
        { apply get_ext. intros i. rewrite get_lset. destruct (Nat.eqb_spec a i) as [<-|]; simpl; auto. replace (a <? length h) with true by lia. auto. }
        rewrite EL. split; [|split; [|split; [|split; [|split]]]]; auto.
        * split. -- intros b nx w _ Eb. apply (iN I' b (nx := nx) (v := w)); auto. intros (_ & _ & N & _). congruence.
          -- intros b b' s' w w' _ _. apply (iU I'); intros (_ & _ & N & _); congruence.
          -- apply (iS I').
        * rewrite <- (app_nil_r h) at 2. apply ext_app; auto.
        * intros n Hn. now apply On.
      + assert (Nn : r0 :: rs <> []) by discriminate. specialize (Hnn Nn). destruct p as [n|]; [|contradiction]. clear Hnil Hnn.
        destruct (On n eq_refl) as (Onn & Ln). simpl in Ap, Pp.
        assert (XA : forall b, (b < length h /\ O b = Some s /\ r0 :: rs <> [] /\ exists v, get h b = Some (None, v)) -> b = a).
        { intros b (Hb & Ob & _ & w & Eb). eapply (iU I) with (s := s); eauto. congruence. }
        assert (EX : ext h G O (lset (h ++ e) a (Some n, v)) G' O').
        { split; auto. - rewrite lset_length, app_length. lia.
          - intros p q l Pp' Pq S A.
            assert (EL : lset (h ++ e) a (Some n, v) = lset h a (Some n, v) ++ e).
            { clear - Ha. revert a Ha. induction h as [|x h' IH]; intros a Ha; simpl in *; [lia|]. destruct a; simpl; auto. f_equal. apply IH. lia. }
            rewrite EL. apply seg_app. eapply seg_fill with (G := G) (t := r0 :: rs); eauto; try (rewrite Ga; congruence). intros b []. }
        split; [|split; [|split; [|split; [|split]]]]; auto.
        * split.
          -- intros b nx w _ Eb. rewrite get_lset in Eb. replace (a <? length (h ++ e)) with true in Eb by (rewrite app_length; lia). rewrite andb_true_r in Eb.
             destruct (Nat.eqb_spec a b) as [<-|Hne].
             ++ inversion Eb; subst nx w. exists (r0 :: rs). rewrite Ga', Ga. split; [congruence|]. rewrite lset_length. split; auto. split; [congruence|]. congruence.
             ++ destruct (iN I' b (nx := nx) (v := w)) as (t' & Gb & K'); auto. { intros X. apply XA in X. congruence. }
                exists t'. split; auto. destruct nx; auto. now rewrite lset_length.
          -- intros b b' s' w w' _ _ Eb Eb' Ob Ob' Nr.
             assert (Q : forall b w, get (lset (h ++ e) a (Some n, v)) b = Some (None, w) -> get (h ++ e) b = Some (None, w) /\ b <> a).
             { intros d u Ed. rewrite get_lset in Ed. replace (a <? length (h ++ e)) with true in Ed by (rewrite app_length; lia). rewrite andb_true_r in Ed.
               destruct (Nat.eqb_spec a d); [discriminate|]. auto. }
             destruct (Q _ _ Eb), (Q _ _ Eb'). eapply (iU I') with (s := s'); eauto; intros X; apply XA in X; congruence.
          -- intros s' sc ro Es'. destruct (iS I' _ Es') as (P1 & P2 & l1 & l2 & B1 & B2 & B3 & B4 & B5).
             assert (PL : forall p, pok (h ++ e) p -> pok (lset (h ++ e) a (Some n, v)) p) by (intros [d|]; simpl; auto; rewrite lset_length; auto).
             split; auto. split; auto. exists l1, l2. repeat split; auto.
             all: eapply seg_fill with (G := G') (t := r0 :: rs); eauto; try (rewrite Ga', Ga; congruence); try (rewrite get_app_l; auto); simpl; rewrite app_nil_r; auto.
        * rewrite get_lset_eq; auto. rewrite app_length; lia.
        * simpl. now rewrite lset_length.
        * simpl. congruence.
        * intros m Hm. inversion Hm; subst; auto.
  Qed.

  Lemma alloc_ok h ss G O R r x : Inv nox h ss G O R -> pok h r -> (forall b, r = Some b -> O b = None) ->
    exists G' O', Inv nox (h ++ [(r, x)]) ss G' O' R /\ ext h G O (h ++ [(r, x)]) G' O' /\ G' (length h) = x :: ab G r /\ O' (length h) = None.
  Proof.
    intros I Pr Or. set (G' := fun a => if a =? length h then x :: ab G r else G a). set (O' := fun a => if a =? length h then None else O a).
    assert (AG : agree h G O G' O'). { intros a Ha. unfold G', O'. replace (a =? length h) with false by lia. auto. }
    exists G', O'. split; [|split; [now apply ext_app|unfold G', O'; rewrite Nat.eqb_refl; auto]].
    split.
    - intros a nx v _ Ea. destruct (Nat.lt_ge_cases a (length h)) as [Ha|Ha].
      + rewrite get_app_l in Ea by auto. destruct (iN I a (nx := nx) (v := v) ltac:(auto) Ea) as (t & Ga & K). destruct (AG a Ha) as (-> & ->). exists t. split; auto.
        destruct nx as [b|]; auto. destruct K as (Hb & ? & ?). destruct (AG b Hb) as (-> & ->). rewrite app_length. split; [lia|auto].
      + rewrite get_app_r in Ea by auto. destruct (a - length h) eqn:D; simpl in Ea; [|destruct n; discriminate]. inversion Ea; subst nx v.
        assert (a = length h) by lia. subst a. unfold G' at 1, O' at 2 3. rewrite Nat.eqb_refl. exists (ab G r). split; auto. destruct r as [b|]; auto.
        simpl in Pr. destruct (AG b Pr) as (-> & ->). rewrite app_length. split; [lia|]. split; auto.
    - intros a b s v w _ _ Ea Eb Oa Ob Nr.
      assert (Q : forall a v, get (h ++ [(r, x)]) a = Some (None, v) -> O' a = Some s -> get h a = Some (None, v) /\ O a = Some s).
      { intros c u Ec Oc. unfold O' in Oc. destruct (Nat.eqb_spec c (length h)); [discriminate|]. pose proof (get_some_lt _ _ Ec) as L. rewrite app_length in L. simpl in L.
        rewrite get_app_l in Ec by lia. auto. }
      destruct (Q _ _ Ea Oa), (Q _ _ Eb Ob). eapply (iU I); eauto.
    - intros s sc ro Es. destruct (iS I _ Es) as (P1 & P2 & l1 & l2 & B1 & B2 & B3 & B4 & B5).
      assert (PA : forall p, pok h p -> pok (h ++ [(r, x)]) p) by (intros [q|]; simpl; auto; rewrite app_length; lia).
      split; auto. split; auto. exists l1, l2. repeat split; auto using seg_app; rewrite (agree_ab _ AG); auto.
  Qed.

  (** A version and the list it stands for. *)
  Record vok h G O (qu : pqueue) (xs : list T) : Prop := {
    vF : pok h (pq_f qu); vP : pok h (pq_proc qu); vR : pok h (pq_r qu);
    vSeg : exists l, seg h (pq_f qu) (pq_proc qu) l /\ ab G (pq_f qu) = l ++ ab G (pq_proc qu);
    vRs : seg h (pq_r qu) None (ab G (pq_r qu));
    vRo : forall b, pq_r qu = Some b -> O b = None;
    vSize : pq_size qu = length (ab G (pq_f qu)) + length (ab G (pq_r qu));
    vBal : length (ab G (pq_f qu)) = length (ab G (pq_proc qu)) + length (ab G (pq_r qu));
    vOwn : forall a, pq_proc qu = Some a -> exists s, pq_stream qu = Some s /\ O a = Some s;
    vXs : xs = ab G (pq_f qu) ++ rev (ab G (pq_r qu))
  }.
  Lemma vok_ext h G O h' G' O' qu xs : ext h G O h' G' O' -> vok h G O qu xs -> vok h' G' O' qu xs.
  Proof.
    intros E V. pose proof (fun p => agree_ab p (eA E)) as AB. destruct V as [F P Rr (l & S & A) Rs Ro Sz B Ow X].
    split; try (eapply ext_pok; eauto; fail); rewrite ?AB by auto; auto.
    - exists l. split; auto. apply (eP E); auto.
    - apply (eP E); auto; simpl; auto. now rewrite app_nil_r.
    - intros b Eb. rewrite Eb in Rr. destruct (eA E Rr) as (_ & ->). auto.
    - intros a Ea. destruct (Ow a Ea) as (s & ? & ?). exists s. split; auto. rewrite Ea in P. destruct (eA E P) as (_ & ->). auto.
  Qed.

  Lemma from_stream_ok h ss G O R sc ro ls lr n : Inv nox h ss G O R -> pok h sc -> pok h ro -> seg h sc None ls -> ab G sc = ls -> seg h ro None lr -> ab G ro = lr ->
    n = length ls + length lr ->
    exists h' ss' G' O' R' qu, q_from_stream (h, ss) sc ro n = Some ((h', ss'), qu) /\ Inv nox h' ss' G' O' R' /\ ext h G O h' G' O' /\ vok h' G' O' qu (ls ++ rev lr).
  Proof.
    intros I P1 P2 S1 A1 S2 A2 En. unfold q_from_stream.
    set (R1 := fun s => if s =? length ss then ls ++ rev lr else R s).
    assert (I1 : Inv nox h (ss ++ [(sc, ro)]) G O R1).
    { split.
      - intros a nx v _ Ea. destruct (iN I a (nx := nx) (v := v) ltac:(auto) Ea) as (t & Ga & K). exists t. split; auto. destruct nx; auto.
        destruct (O a) as [s|]; auto. destruct K as (Hs & ->). rewrite app_length. split; [lia|]. unfold R1. replace (s =? length ss) with false by lia. auto.
      - intros a b s v w _ _ Ea Eb Oa Ob Nr. unfold R1 in Nr. destruct (iN I a (nx := None) (v := v) ltac:(auto) Ea) as (t & Ga & K). rewrite Oa in K. destruct K as (Hs & _).
        replace (s =? length ss) with false in Nr by lia. eapply (iU I); eauto.
      - intros s sc' ro' Es. destruct (Nat.lt_ge_cases s (length ss)) as [Hs|Hs].
        + rewrite get_app_l in Es by auto. unfold R1. replace (s =? length ss) with false by lia. apply (iS I); auto.
        + rewrite get_app_r in Es by auto. destruct (s - length ss) eqn:D; simpl in Es; [|destruct n0; discriminate]. inversion Es; subst sc' ro'.
          split; auto. split; auto. exists ls, lr. unfold R1. replace (s =? length ss) with true by lia. auto. }
    assert (Hs : length ss < length (ss ++ [(sc, ro)])) by (rewrite app_length; simpl; lia).
    destruct (next_ok I1 Hs) as (e & c & p & G' & O' & R' & Enx & AG & HR & Ap & Pp & On & Hnil & Hnn & I'). rewrite Enx. cbn [obind].
    eexists _, _, G', O', R', _. split; [reflexivity|].
    assert (RS : R1 (length ss) = ls ++ rev lr) by (unfold R1; now rewrite Nat.eqb_refl).
    assert (NX : forall a, ~ (a < length h /\ O a = Some (length ss) /\ R1 (length ss) <> [] /\ exists v, get h a = Some (None, v))).
    { intros a (Ha & Oa & _ & v & Ea). destruct (iN I a (nx := None) (v := v) ltac:(auto) Ea) as (t & Ga & K). rewrite Oa in K. lia. }
    split; [|split].
    - split. + intros; apply (iN I'); auto. + intros a b s v w _ _. apply (iU I'); auto. + apply (iS I').
    - now apply ext_app.
    - split; simpl; auto.
      + exists []. split; auto. constructor.
      + constructor.
      + discriminate.
      + rewrite Ap, RS, app_length, rev_length. lia.
      + intros a Ea. exists (length ss). split; auto. apply On; auto.
      + rewrite Ap, RS, app_nil_r. auto.
  Qed.

  Lemma push_ok h ss G O R qu xs x : Inv nox h ss G O R -> vok h G O qu xs ->
    exists h' ss' G' O' R' qu', q_push (h, ss) qu x = Some ((h', ss'), qu') /\ Inv nox h' ss' G' O' R' /\ ext h G O h' G' O' /\ vok h' G' O' qu' (xs ++ [x]).
  Proof.
    intros I V. unfold q_push, q_alloc. pose proof V as V0. destruct (pq_proc qu) as [a|] eqn:Ep.
    - destruct (vOwn V Ep) as (s & Es & Oa). pose proof (vP V) as Pa. rewrite Ep in Pa. simpl in Pa.
      destruct (@force_ok h ss G O R qu a s I Pa Oa Es) as (h1 & ss1 & G1 & O1 & R1 & p & v & Ef & I1 & E1 & Ga & Pp & GA & Op). rewrite Ef. cbn [obind].
      pose proof (vok_ext E1 V) as V1.
      destruct (@alloc_ok h1 ss1 G1 O1 R1 (pq_r qu) x I1 (vR V1) (vRo V1)) as (G2 & O2 & I2 & E2 & Gn & On).
      pose proof (vok_ext E2 V1) as V2. pose proof (fun p => agree_ab p (eA E2)) as AB.
      eexists _, _, G2, O2, R1, _. split; [reflexivity|]. split; auto. split; [eapply ext_trans; eauto|].
      assert (GA2 : ab G2 (Some a) = v :: ab G2 p). { rewrite AB by (simpl; pose proof (eL E1); lia). rewrite (AB p Pp). rewrite (agree_ab (Some a) (eA E1)) by auto. auto. }
      assert (Ga2 : get (h1 ++ [(pq_r qu, x)]) a = Some (p, v)) by (rewrite get_app_l; auto; eapply get_some_lt; eauto).
      assert (ABn : ab G2 (Some (length h1)) = x :: ab G2 (pq_r qu)) by (rewrite (AB (pq_r qu) (vR V1)); auto).
      destruct (vSeg V2) as (l & S & A). rewrite Ep in S, A. rewrite GA2 in A.
      pose proof (vSize V2) as Z1. pose proof (vBal V2) as Z2. rewrite Ep, GA2 in Z2. simpl in Z2.
      split; cbn [pq_f pq_proc pq_r pq_stream pq_size]; try apply V2.
      + eapply ext_pok; eauto.
      + simpl. rewrite app_length. simpl. lia.
      + exists (l ++ [v]). split; [eapply seg_snoc; eauto|]. rewrite <- app_assoc. auto.
      + rewrite ABn. econstructor; [rewrite get_app_r, Nat.sub_diag by auto; reflexivity|]. apply V2.
      + intros b Eb. inversion Eb; subst. auto.
      + rewrite ABn. simpl. lia.
      + rewrite ABn. simpl. lia.
      + intros b Eb. exists s. split; auto. subst p. simpl in Pp. destruct (eA E2 Pp) as (_ & ->). apply Op; auto.
      + rewrite ABn. rewrite (vXs V2). simpl. now rewrite app_assoc.
    - destruct (@alloc_ok h ss G O R (pq_r qu) x I (vR V) (vRo V)) as (G2 & O2 & I2 & E2 & Gn & On).
      pose proof (vok_ext E2 V) as V2. pose proof (fun p => agree_ab p (eA E2)) as AB.
      assert (ABn : ab G2 (Some (length h)) = x :: ab G2 (pq_r qu)) by (rewrite (AB (pq_r qu) (vR V)); auto).
      destruct (vSeg V2) as (l & S & A). rewrite Ep in S, A. simpl in A. rewrite app_nil_r in A.
      destruct (@from_stream_ok (h ++ [(pq_r qu, x)]) ss G2 O2 R (pq_f qu) (Some (length h)) l (x :: ab G2 (pq_r qu)) (pq_size qu + 1)) as (h3 & ss3 & G3 & O3 & R3 & qu3 & E & I3 & X3 & V3); auto; try apply V2.
      + simpl. rewrite app_length. simpl. lia.
      + econstructor; [rewrite get_app_r, Nat.sub_diag by auto; reflexivity|]. apply V2.
      + rewrite (vSize V2), A. simpl. lia.
      + exists h3, ss3, G3, O3, R3, qu3. split; auto. split; auto. split; [eapply ext_trans; eauto|].
        rewrite (vXs V2), A, <- app_assoc. exact V3.
  Qed.

  Lemma pop_ok h ss G O R qu x xs : Inv nox h ss G O R -> vok h G O qu (x :: xs) ->
    q_front (h, ss) qu = Some x /\
    exists h' ss' G' O' R' qu', q_pop (h, ss) qu = Some ((h', ss'), qu') /\ Inv nox h' ss' G' O' R' /\ ext h G O h' G' O' /\ vok h' G' O' qu' xs.
  Proof.
    intros I V. pose proof (vXs V) as EX. pose proof (vSize V) as Z1. pose proof (vBal V) as Z2.
    assert (NF : ab G (pq_f qu) <> []).
    { intros E. rewrite E in *. simpl in *. destruct (ab G (pq_r qu)); simpl in *; [discriminate|lia]. }
    destruct (pq_f qu) as [b|] eqn:Eb; [|contradiction NF; auto]. simpl in EX, Z1, Z2, NF.
    pose proof (vF V) as Pb. rewrite Eb in Pb. simpl in Pb. destruct (get_lt h Pb) as ((nxb & vb) & Gb).
    destruct (iN I b (nx := nxb) (v := vb) ltac:(auto) Gb) as (tb & GGb & Kb). rewrite GGb in EX. inversion EX as [[Ex Exs]]. subst x.
    split. { unfold q_front. rewrite Eb. cbn [obind fst]. rewrite Gb. auto. }
    unfold q_pop. rewrite GGb in *. simpl in Z1, Z2. replace (pq_size qu =? 0) with false by lia. simpl negb. cbn [guard obind].
    destruct (pq_proc qu) as [a|] eqn:Ep.
    - destruct (vOwn V Ep) as (s & Es & Oa). pose proof (vP V) as Pa. rewrite Ep in Pa. simpl in Pa.
      destruct (@force_ok h ss G O R qu a s I Pa Oa Es) as (h1 & ss1 & G1 & O1 & R1 & p & v & Ef & I1 & E1 & Ga & Pp & GA & Op). rewrite Ef. cbn [obind].
      pose proof (vok_ext E1 V) as V1. pose proof (fun p => agree_ab p (eA E1)) as AB.
      destruct (vSeg V1) as (l & S & A). rewrite Eb, Ep in S, A. pose proof (seg_snoc S Ga) as S'.
      assert (AA : ab G1 (Some a) = v :: ab G1 p) by (rewrite (AB (Some a)) by auto; auto).
      inversion S' as [|b' nx w q l' Gb' S2 B1 B2 B3]. { destruct l; discriminate. }
      subst b' q. rewrite Eb. cbn [obind fst]. rewrite Gb'. cbn [obind].
      eexists _, _, G1, O1, R1, _. split; [reflexivity|]. split; auto. split; auto.
      destruct (iN I1 b (nx := nx) (v := w) ltac:(auto) Gb') as (t & Gb1 & K).
      assert (Pn : pok h1 nx) by (destruct nx; simpl; auto; apply K).
      assert (ABb : ab G1 (Some b) = vb :: tb) by (rewrite (AB (Some b)) by auto; auto).
      rewrite AA in A. replace (l ++ v :: ab G1 p) with ((l ++ [v]) ++ ab G1 p) in A by (rewrite <- app_assoc; auto). rewrite <- B3 in A.
      rewrite ABb in A. simpl in Gb1. simpl in ABb. rewrite ABb in Gb1. inversion Gb1; subst w t. inversion A as [A'].
      assert (ABn : ab G1 nx = tb). { destruct nx as [c|]; simpl. - destruct K as (_ & ? & _). auto. - apply seg_none in S2. destruct S2 as (-> & ->). rewrite A'. auto. }
      pose proof (vSize V1) as Y1. pose proof (vBal V1) as Y2. rewrite Eb in Y1, Y2. rewrite Ep, AA in Y2. simpl ab in Y1, Y2 at 1. rewrite ABb in *. simpl in Y1, Y2.
      split; cbn [pq_f pq_proc pq_r pq_stream pq_size]; try apply V1; auto.
      + exists l'. split; auto. rewrite ABn. auto.
      + rewrite ABn. lia.
      + rewrite ABn. lia.
      + intros c Ec. exists s. split; auto.
      + rewrite ?ABn, <- ?A', (AB (pq_r qu) (vR V)). auto.
    - destruct (vSeg V) as (l & S & A). rewrite Eb, Ep in S, A. simpl in A. rewrite app_nil_r, GGb in A. subst l.
      inversion S as [|b' nx w q l' Gb' S2 B1 B2 B3]. subst b' q. rewrite Gb in Gb'. inversion Gb'; subst nx w. subst l'.
      rewrite Eb. cbn [obind fst]. rewrite Gb. cbn [obind].
      assert (Pn : pok h nxb) by (destruct nxb; simpl; auto; apply Kb).
      assert (ABn : ab G nxb = tb). { destruct nxb as [c|]; simpl. - destruct Kb as (_ & ? & _). auto. - apply seg_none in S2. destruct S2 as (_ & ->). auto. }
      destruct (@from_stream_ok h ss G O R nxb (pq_r qu) tb (ab G (pq_r qu)) (pq_size qu - 1)) as (h3 & ss3 & G3 & O3 & R3 & qu3 & E & I3 & X3 & V3); auto; try apply V.
      + lia.
      + exists h3, ss3, G3, O3, R3, qu3. auto.
  Qed.

  Definition qpool h G O vs ls := Forall2 (vok h G O) vs ls.
  Lemma qpool_ext h G O h' G' O' vs ls : ext h G O h' G' O' -> qpool h G O vs ls -> qpool h' G' O' vs ls.
  Proof. intros E H. induction H; constructor; auto. eapply vok_ext; eauto. Qed.
  Lemma qpool_get h G O vs ls k l : qpool h G O vs ls -> get ls k = Some l -> exists qu, get vs k = Some qu /\ vok h G O qu l.
  Proof.
    intros H. revert k. induction H; intros [|k] E; simpl in *; try discriminate.
    - inversion E; subst. eauto. - apply IHForall2; auto.
  Qed.

  Lemma new_ok h G O : vok h G O q_new [].
  Proof. split; simpl; auto; try discriminate; try constructor. exists []. split; auto. constructor. Qed.

  Lemma run_ok : forall cs h ss G O R vs ls, Inv nox h ss G O R -> qpool h G O vs ls -> q_valid_all ls cs ->
    exists h' ss' vs' rs G' O' R', q_run (h, ss) vs cs = Some ((h', ss'), vs', rs) /\ q_answers ls cs rs /\ Inv nox h' ss' G' O' R' /\ qpool h' G' O' vs' (fold_left (@q_spec T) cs ls).
  Proof.
    induction cs as [|c cs IH]; intros h ss G O R vs ls I P V; cbn [q_run].
    - exists h, ss, vs, [], G, O, R. simpl. auto.
    - destruct V as (V1 & V2). destruct c as [|k x|k|k|k]; cbn [q_step]; cbn [q_valid] in V1; cbn [q_spec] in V2.
      + cbn [obind]. destruct (IH h ss G O R (vs ++ [q_new]) (ls ++ [[]])) as (h' & ss' & vs' & rs & G' & O' & R' & E & A & I' & P'); auto.
        { apply Forall2_app; auto. constructor; auto. apply new_ok. }
        rewrite E. cbn [obind]. exists h', ss', vs', (QNone T :: rs), G', O', R'. simpl. auto.
      + destruct (get_lt ls V1) as (l & El). rewrite El in V2. destruct (qpool_get k P El) as (qu & Eq & Vq). rewrite Eq. cbn [obind].
        destruct (push_ok x I Vq) as (h1 & ss1 & G1 & O1 & R1 & qu1 & Ep & I1 & X1 & Vq1). rewrite Ep. cbn [obind].
        destruct (IH h1 ss1 G1 O1 R1 (vs ++ [qu1]) (ls ++ [l ++ [x]])) as (h' & ss' & vs' & rs & G' & O' & R' & E & A & I' & P'); auto.
        { apply Forall2_app; auto. eapply qpool_ext; eauto. }
        rewrite E. cbn [obind]. exists h', ss', vs', (QNone T :: rs), G', O', R'. split; auto. cbn [q_answers q_answer q_spec fold_left]. rewrite El. auto.
      + destruct V1 as (x & l & El). rewrite El in V2. destruct (qpool_get k P El) as (qu & Eq & Vq). rewrite Eq. cbn [obind].
        destruct (pop_ok I Vq) as (_ & h1 & ss1 & G1 & O1 & R1 & qu1 & Ep & I1 & X1 & Vq1). rewrite Ep. cbn [obind].
        destruct (IH h1 ss1 G1 O1 R1 (vs ++ [qu1]) (ls ++ [l])) as (h' & ss' & vs' & rs & G' & O' & R' & E & A & I' & P'); auto.
        { apply Forall2_app; auto. eapply qpool_ext; eauto. }
        rewrite E. cbn [obind]. exists h', ss', vs', (QNone T :: rs), G', O', R'. split; auto. cbn [q_answers q_answer q_spec fold_left]. rewrite El. auto.
      + destruct V1 as (x & l & El). destruct (qpool_get k P El) as (qu & Eq & Vq). rewrite Eq. cbn [obind].
        destruct (pop_ok I Vq) as (Ef & _). rewrite Ef. cbn [obind].
        destruct (IH h ss G O R vs ls) as (h' & ss' & vs' & rs & G' & O' & R' & E & A & I' & P'); auto.
        rewrite E. cbn [obind]. exists h', ss', vs', (QVal x :: rs), G', O', R'. split; auto. cbn [q_answers q_answer q_spec fold_left]. split; eauto.
      + destruct (get_lt ls V1) as (l & El). destruct (qpool_get k P El) as (qu & Eq & Vq). rewrite Eq. cbn [obind].
        destruct (IH h ss G O R vs ls) as (h' & ss' & vs' & rs & G' & O' & R' & E & A & I' & P'); auto.
        rewrite E. cbn [obind]. exists h', ss', vs', (QNat T (pq_size qu) :: rs), G', O', R'. split; auto. cbn [q_answers q_answer q_spec fold_left]. split; auto. split; auto.
        exists l. split; auto. f_equal. rewrite (vSize Vq), (vXs Vq), app_length, rev_length. auto.
  Qed.
End Queue.
