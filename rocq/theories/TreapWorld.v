(** Treap: several treaps in one memory, and each operation in terms of their contents. *)
From Coq Require Import Sorting.Sorted.
From Verif Require Import TreapModel TreapRot TreapWalk TreapSearch TreapOps BaseLemmas ListExtra.
Set Implicit Arguments.
Arguments ext_mono {K xs ys H H'} _ _.
Arguments erase_at_ok {K H s t xs} z {u c l r xa x xb} _ _ _ _ _.
Arguments split_ok {K H s t xs} z {u r C l ua ub xa xb} _ _ _ _ _ _ _ _.
Arguments absorb_ok {K H s t xs} z {s2 t2 xs2} z2 _ _ _ _.

Lemma lids_app c c' : lids (c ++ c') = lids c' ++ lids c.
Proof. induction c as [|f c IH]; cbn [app]; [now rewrite app_nil_r|]. rewrite !lids_cons, IH, app_assoc. reflexivity. Qed.
Lemma rids_app c c' : rids (c ++ c') = rids c ++ rids c'.
Proof. induction c as [|f c IH]; cbn [app]; [reflexivity|]. rewrite !rids_cons, IH, app_assoc. reflexivity. Qed.

Section Treap.
Context {K : Type}.
Variable eqb ltb : K -> K -> bool.
Variable uniq : bool.
Notation th := (@th K).
Notation ordered := (ordered ltb uniq).
Notation reach := (reach eqb ltb uniq).
Hypothesis OL : order_laws eqb ltb.

Definition cells (T : tr) (t : bt) : list nat := ids t ++ [sent T].
Definition good (sp : bool) (H : th) (T : tr) (t : bt) (xs : list K) : Prop :=
  okt H (sent T) t xs /\ ordered xs /\ (sp = false -> tsize T = szw (Z.of_nat (length xs))).
Record inv (sp : bool) (H : th) (Ts : list tr) (L : list (bt * list K)) : Prop := {
  i_wf : wfH H;
  i_len : length L = length Ts;
  i_ok : forall i T t xs, get Ts i = Some T -> get L i = Some (t, xs) -> good sp H T t xs;
  i_dis : forall i j T t xs T' t' xs', i <> j -> get Ts i = Some T -> get L i = Some (t, xs) -> get Ts j = Some T' -> get L j = Some (t', xs') ->
    forall x, In x (cells T t) -> ~ In x (cells T' t') }.

Arguments i_dis {sp H Ts L} _ {i j T t xs T' t' xs'} _ _ _ _ _ _ _.
Arguments i_ok {sp H Ts L} _ {i T t xs} _ _.
Lemma inv_at sp H Ts L i T : inv sp H Ts L -> get Ts i = Some T -> exists t xs, get L i = Some (t, xs) /\ good sp H T t xs.
Proof. intros I E. destruct (@get_lt _ L i) as [[t xs] EL]; [rewrite (i_len I); exact (get_some_lt _ _ E)|]. exists t, xs. split; [auto|]. exact (i_ok I E EL). Qed.
Arguments inv_at {sp H Ts L i T} _ _.
Lemma good_ext sp H H' T t xs X : wfH H -> good sp H T t xs -> ext X H H' -> (forall x, In x (cells T t) -> ~ In x X) -> good sp H' T t xs.
Proof. intros W (O & S0 & Z0) E D. split; [exact (okt_ext W O E D)|auto]. Qed.
Lemma cells_lt sp H T t xs x : wfH H -> good sp H T t xs -> In x (cells T t) -> x < length (tkey H).
Proof. intros W (O & _) I. exact (rep_lt (t := Nd t (sent T) Lf) W (o_rep O) I). Qed.
(** the treaps numbered [ps] become those numbered [ps'], made of their cells and of new ones *)
Lemma inv_gen sp H Ts L H' Ts' L' (X : list nat) (ps ps' : list nat) : inv sp H Ts L -> wfH H' -> ext X H H' -> length L' = length Ts' ->
  (forall x, In x X -> exists j T t xs, In j ps /\ get Ts j = Some T /\ get L j = Some (t, xs) /\ In x (cells T t)) ->
  (forall j T t xs, get Ts' j = Some T -> get L' j = Some (t, xs) ->
     (~ In j ps /\ ~ In j ps' /\ get Ts j = Some T /\ get L j = Some (t, xs)) \/
     (In j ps' /\ good sp H' T t xs /\ (forall x, In x (cells T t) -> In x X \/ length (tkey H) <= x))) ->
  (forall j T t xs j' T' t' xs', j <> j' -> In j ps' -> In j' ps' -> get Ts' j = Some T -> get L' j = Some (t, xs) -> get Ts' j' = Some T' -> get L' j' = Some (t', xs') -> forall x, In x (cells T t) -> ~ In x (cells T' t')) ->
  inv sp H' Ts' L'.
Proof.
  intros I W' E Len HX Hn Hd. assert (Old : forall j T t xs x, ~ In j ps -> get Ts j = Some T -> get L j = Some (t, xs) -> In x (cells T t) -> ~ In x X).
  { intros j T t xs x Nj G1 G2 Ix J. destruct (HX x J) as (j' & T' & t' & xs' & Ij & G3 & G4 & Ix'). refine (i_dis I _ G1 G2 G3 G4 x Ix Ix'). congruence. }
  split; [auto|auto| |].
  - intros j T t xs G1 G2. destruct (Hn j T t xs G1 G2) as [(Nj & _ & G3 & G4)|(_ & G & _)]; [|exact G]. apply (good_ext (i_wf I) (i_ok I G3 G4) E). intros x Ix. exact (Old j T t xs x Nj G3 G4 Ix).
  - intros j j' T t xs T' t' xs' Njj G1 G2 G1' G2' x Ix Ix'. destruct (Hn j T t xs G1 G2) as [(Nj & Nj2 & G3 & G4)|(Ij & G & Hx)], (Hn j' T' t' xs' G1' G2') as [(Nj' & Nj2' & G3' & G4')|(Ij' & G' & Hx')].
    + exact (i_dis I Njj G3 G4 G3' G4' x Ix Ix').
    + destruct (Hx' x Ix') as [J|J]; [exact (Old j T t xs x Nj G3 G4 Ix J)|]. pose proof (cells_lt _ (i_wf I) (i_ok I G3 G4) Ix). lia.
    + destruct (Hx x Ix) as [J|J]; [exact (Old j' T' t' xs' x Nj' G3' G4' Ix' J)|]. pose proof (cells_lt _ (i_wf I) (i_ok I G3' G4') Ix'). lia.
    + exact (Hd j T t xs j' T' t' xs' Njj Ij Ij' G1 G2 G1' G2' x Ix Ix').
Qed.
Lemma inv_one sp H Ts L i T t xs H' T' t' xs' : inv sp H Ts L -> get Ts i = Some T -> get L i = Some (t, xs) -> wfH H' -> ext (cells T t) H H' ->
  good sp H' T' t' xs' -> (forall x, In x (cells T' t') -> In x (cells T t) \/ length (tkey H) <= x) -> inv sp H' (lset Ts i T') (lset L i (t', xs')).
Proof.
  intros I G1 G2 W' E G Hx. pose proof (get_some_lt _ _ G1) as L1. pose proof (get_some_lt _ _ G2) as L2.
  apply (@inv_gen sp H Ts L H' _ _ (cells T t) [i] [i] I W' E).
  - rewrite !lset_length. exact (i_len I).
  - intros x Ix. exists i, T, t, xs. cbn. auto.
  - intros j T1 t1 xs1 E1 E2. destruct (Nat.eq_dec j i) as [->|N].
    + right. rewrite get_lset_eq in E1 by auto; rewrite get_lset_eq in E2 by auto. injection E1 as <-. injection E2 as <- <-. split; [now left|]. split; auto.
    + left. rewrite get_lset_neq in E1 by auto; rewrite get_lset_neq in E2 by auto. split; [intros [|[]]; congruence|]. split; [intros [|[]]; congruence|]. auto.
  - intros j T1 t1 xs1 j' T2 t2 xs2 N [<-|[]] [<-|[]]. congruence.
Qed.
Arguments inv_one {sp H Ts L i T t xs H' T' t' xs'} _ _ _ _ _ _ _.

Lemma others_ext sp H Ts L i T t xs H' : inv sp H Ts L -> get Ts i = Some T -> get L i = Some (t, xs) -> wfH H' -> ext (cells T t) H H' -> others H H' Ts i.
Proof.
  intros I G1 G2 W' E j T' us ys N G C. destruct (inv_at I G) as (t' & xs' & G' & Go). destruct T' as [s' z']. destruct Go as (O & S0 & _). destruct (contents_inv (i_wf I) O C) as [-> ->].
  apply contents_ok; [auto|]. apply (okt_ext (i_wf I) O E). intros x Ix. exact (i_dis I N G G' G1 G2 x Ix).
Qed.
Arguments others_ext {sp H Ts L i T t xs H'} _ _ _ _ _.
Lemma at_contents sp H Ts L i T us xs : inv sp H Ts L -> get Ts i = Some T -> contents H T us xs -> exists t, get L i = Some (t, xs) /\ good sp H T t xs /\ us = ids t.
Proof.
  intros I G C. destruct (inv_at I G) as (t & xs' & G' & Go). exists t. destruct T as [s z]. pose proof Go as (O & _). destruct (contents_inv (i_wf I) O C) as [-> ->]. auto.
Qed.
Arguments at_contents {sp H Ts L i T us xs} _ _ _.
Lemma contents_of sp H T t xs : wfH H -> good sp H T t xs -> contents H T (ids t) xs.
Proof. intros W (O & _). destruct T as [s z]. exact (contents_ok z W O). Qed.

(** ** Positions *)
Lemma nth_ctx (H : th) s t xs n u : okt H s t xs -> get (ids t) n = Some u -> exists c l r, t = plug c (Nd l u r) /\ firstn n (ids t) = lids c ++ ids l /\ skipn (S n) (ids t) = ids r ++ rids c.
Proof.
  intros O G. assert (Iu : In u (ids t)) by exact (get_In _ _ G). destruct (find_ctx t u Iu) as (c & l & r & Et). exists c, l, r. split; [auto|].
  assert (E1 : ids t = firstn n (ids t) ++ u :: skipn (S n) (ids t)) by (rewrite <- (firstn_skipn n (ids t)) at 1; f_equal; now apply skipn_get_cons).
  assert (E2 : ids t = (lids c ++ ids l) ++ u :: (ids r ++ rids c)) by (rewrite Et, ids_plug; cbn [ids]; rewrite <- !app_assoc; reflexivity).
  pose proof (nodup_t O) as N. destruct (@split_uniq u (firstn n (ids t)) (skipn (S n) (ids t)) (lids c ++ ids l) (ids r ++ rids c)) as [-> ->]; [congruence|rewrite <- E1; exact N|auto].
Qed.
Arguments nth_ctx {H s t xs n u} _ _.
Lemma split_ctx (H : th) s t xs n : okt H s t xs -> n <= length (ids t) -> exists r C l, Nd t s Lf = plug (FL (nth n (ids t) s) r :: C) l /\ (exists c, FL (nth n (ids t) s) r :: C = c ++ [FL s Lf]) /\
  firstn n (ids t) = lids C ++ ids l /\ skipn n (ids t) ++ [s] = nth n (ids t) s :: ids r ++ rids C.
Proof.
  intros O Ln. destruct (Nat.eq_dec n (length (ids t))) as [->|N].
  - rewrite nth_overflow by auto. exists Lf, [], t. split; [reflexivity|]. split; [exists []; reflexivity|]. rewrite firstn_all, skipn_all. auto.
  - destruct (@get_lt _ (ids t) n) as [u Eu]; [lia|]. destruct (nth_ctx O Eu) as (c & l & r & Et & E1 & E2). rewrite (nth_error_nth _ _ s Eu). exists r, (c ++ [FL s Lf]), l. split; [|split; [|split]].
    + change (FL u r :: c ++ [FL s Lf]) with ((FL u r :: c) ++ [FL s Lf]). rewrite plug_s, plug_cons. cbn [fill]. now rewrite <- Et.
    + exists (FL u r :: c). reflexivity.
    + rewrite lids_app. cbn [lids fold_left flids app]. exact E1.
    + rewrite rids_app. rewrite (skipn_get_cons _ _ Eu). cbn [app]. f_equal. rewrite E2, <- app_assoc. reflexivity.
Qed.
Lemma hd_nth {A} (l : list A) n d : hd d (skipn n l) = nth n l d.
Proof. revert l. induction n as [|n IH]; destruct l; cbn; auto. Qed.

(** ** Each operation *)
Section Op.
Variables (sp : bool) (H : th) (Ts : list tr) (L : list (bt * list K)) (i : nat) (T : tr) (us : list nat) (xs : list K).
Hypothesis (I : inv sp H Ts L) (G : get Ts i = Some T) (C : contents H T us xs).

Lemma op_insert p x : (0 <= p)%Z -> exists H' T' v b L', t_insert eqb ltb uniq H T p x = Some (H', T', v, b) /\ inv sp H' (lset Ts i T') L' /\ others H H' Ts i /\
  (if b then (uniq = true -> ~ In x xs) /\ ~ In v us /\ tsize T' = szw (tsize T + 1) /\
     contents H' T' (firstn (rank_le ltb x xs) us ++ v :: skipn (rank_le ltb x xs) us) (firstn (rank_le ltb x xs) xs ++ x :: skipn (rank_le ltb x xs) xs)
   else uniq = true /\ T' = T /\ contents H' T us xs /\ exists n, get us n = Some v /\ get xs n = Some x).
Proof.
  intros Hp. destruct (at_contents I G C) as (t & GL & Go & ->). destruct T as [s z]. pose proof Go as (O & S0 & Z0). cbn [sent tsize] in *.
  destruct (insert_ok OL z x (i_wf I) O S0 Hp) as (H' & z' & v & b & E & W' & X & Hb). exists H', (TR s z'), v, b. destruct b.
  - destruct Hb as (t' & xa & xb & ua & ub & O' & Exs & Pl & Eu & Elen & It' & Ev & ->).
    assert (G' : good sp H' (TR s (szw (z + 1))) t' (xa ++ x :: xb)). { split; [exact O'|]. split; [apply (place_ordered OL); [now rewrite <- Exs|auto]|]. intros Sp. cbn [tsize]. specialize (Z0 Sp). cbn in Z0. rewrite Z0. unfold szw. rewrite Zplus_mod_idemp_l. f_equal. rewrite Exs, !app_length. cbn. lia. }
    exists (lset L i (t', xa ++ x :: xb)). split; [exact E|]. split; [|split; [exact (others_ext I G GL W' X)|]].
    + apply (inv_one I G GL W' X G'). unfold cells. cbn [sent]. rewrite It', Eu. intros y Iy. rewrite !in_app_iff in *. cbn [In] in *. destruct Iy as [[Iy|[<-|Iy]]|Iy]; auto. right. lia.
    + split; [|split; [|split; [auto|]]].
      * intros U Ix. rewrite Exs in Ix. destruct Pl as [A B]. apply in_app_or in Ix as [Ix|Ix]; [apply A in Ix as [_ Ix]; specialize (Ix U)|apply B in Ix]; now rewrite (ol_irr OL) in Ix.
      * intros Iv. pose proof (rep_lt (i_wf I) (o_rep O) (i := v)) as Lv. cbn [ids] in Lv. rewrite in_app_iff in Lv. specialize (Lv (or_introl Iv)). lia.
      * rewrite Exs, (place_rank Pl), firstn_app, skipn_app, Nat.sub_diag, firstn_all, skipn_all. cbn [firstn skipn app]. rewrite app_nil_r, Eu, <- Elen, firstn_app, skipn_app, Nat.sub_diag, firstn_all, skipn_all. cbn [firstn skipn app]. rewrite app_nil_r, <- It'. exact (contents_of W' G').
  - destruct Hb as (U & -> & O' & Hv). exists (lset L i (t, xs)). assert (G' : good sp H' (TR s z) t xs) by (split; auto). split; [exact E|]. split; [|split; [exact (others_ext I G GL W' X)|]].
    + apply (inv_one I G GL W' X G'). auto.
    + split; [auto|]. split; [auto|]. split; [exact (contents_of W' G')|exact Hv].
Qed.

Lemma op_find x : exists v, t_find eqb ltb H T x = Some v /\ ((exists n, get us n = Some v /\ get xs n = Some x) \/ v = t_end T /\ ~ In x xs).
Proof.
  destruct (at_contents I G C) as (t & GL & Go & ->). destruct T as [s z]. pose proof Go as (O & S0 & Z0). exact (find_ok OL (i_wf I) O S0 x z).
Qed.
Lemma op_erase_at n : n < length us -> exists H' T' L', t_erase_at H T (nth n us (t_end T)) = Some (H', T', nth (S n) us (t_end T)) /\ inv sp H' (lset Ts i T') L' /\ others H H' Ts i /\
  contents H' T' (firstn n us ++ skipn (S n) us) (firstn n xs ++ skipn (S n) xs) /\ tsize T' = szw (tsize T - 1).
Proof.
  intros Ln. destruct (at_contents I G C) as (t & GL & Go & ->). destruct T as [s z]. pose proof Go as (O & S0 & Z0). cbn [sent tsize t_end] in *. unfold t_end. cbn [sent].
  destruct (@get_lt _ (ids t) n Ln) as [u Eu]. rewrite (nth_error_nth _ _ s Eu). destruct (nth_ctx O Eu) as (c & l & r & Et & E1 & E2). pose proof (keys_len (o_keys O)) as Lk. destruct (@get_lt _ xs n) as [x Ex]; [lia|].
  assert (Exs : xs = firstn n xs ++ x :: skipn (S n) xs) by (rewrite <- (firstn_skipn n xs) at 1; f_equal; now apply skipn_get_cons).
  destruct (erase_at_ok z (i_wf I) O Et Exs) as (H' & t' & E & W' & X & O' & It'); [rewrite <- E1, !firstn_length; lia|].
  rewrite <- E2, hd_nth in E. rewrite <- E1, <- E2 in It'. exists H', (TR s (szw (z - 1))), (lset L i (t', firstn n xs ++ skipn (S n) xs)).
  assert (G' : good sp H' (TR s (szw (z - 1))) t' (firstn n xs ++ skipn (S n) xs)). { split; [exact O'|]. split.
    - pose proof S0 as S1. rewrite Exs in S1. apply ordered_app in S1 as (S1 & S2 & S3). apply StronglySorted_inv in S2 as [S2 _]. apply ordered_app. split; [auto|]. split; [auto|]. intros a b Ia Ib. apply S3; [auto|now right].
    - intros Sp. cbn [tsize]. rewrite (Z0 Sp). unfold szw. rewrite Zminus_mod_idemp_l. f_equal. rewrite app_length, firstn_length, skipn_length. lia. }
  split; [exact E|]. split; [|split; [exact (others_ext I G GL W' X)|split; [|reflexivity]]].
  - apply (inv_one I G GL W' X G'). unfold cells. cbn [sent]. rewrite It'. intros y Iy. left. rewrite !in_app_iff in *. destruct Iy as [[Iy|Iy]|Iy]; auto; left; rewrite <- (firstn_skipn n (ids t)); apply in_or_app; auto. right. rewrite (skipn_get_cons _ _ Eu). now right.
  - rewrite <- It'. exact (contents_of W' G').
Qed.
Lemma op_erase x : exists H' T' b L', t_erase eqb ltb H T x = Some (H', T', b) /\ inv sp H' (lset Ts i T') L' /\ others H H' Ts i /\
  (if b then exists n, get xs n = Some x /\ contents H' T' (firstn n us ++ skipn (S n) us) (firstn n xs ++ skipn (S n) xs) /\ tsize T' = szw (tsize T - 1)
   else ~ In x xs /\ H' = H /\ T' = T).
Proof.
  destruct (op_find x) as (u & E & [(n & Eu & Ex)|(-> & N)]); unfold t_erase; rewrite E; cbn [obind].
  - assert (Nu : u <> t_end T). { destruct (at_contents I G C) as (t & _ & (O & _) & ->). intros ->. exact (s_notin O (get_In _ _ Eu)). } apply Nat.eqb_neq in Nu. rewrite Nu. destruct (op_erase_at (get_some_lt _ _ Eu)) as (H' & T' & L' & E' & I' & O' & C' & Z'). rewrite (nth_error_nth _ _ (t_end T) Eu) in E'. rewrite E'. cbn [obind]. exists H', T', true, L'. split; [auto|]. split; [auto|]. split; [auto|]. exists n. auto.
  - rewrite Nat.eqb_refl. exists H, T, false, L. split; [auto|]. split; [|split; [intros ? ? ? ?; auto|auto]]. now rewrite lset_same.
Qed.
Lemma op_clear : exists H' T' L', t_clear H T = Some (H', T') /\ inv sp H' (lset Ts i T') L' /\ others H H' Ts i /\ contents H' T' [] [] /\ tsize T' = 0%Z.
Proof.
  destruct (at_contents I G C) as (t & GL & Go & ->). destruct T as [s z]. pose proof Go as (O & S0 & Z0). cbn [sent tsize] in *. destruct (clear_ok z (i_wf I) O) as (H' & E & W' & X & O'). exists H', (TR s 0), (lset L i (Lf, [])).
  assert (X' : ext (cells (TR s z) t) H H') by (apply (ext_mono X); intros j _ [<-|[]]; apply in_or_app; right; now left).
  assert (G' : good sp H' (TR s 0) Lf []) by (split; [exact O'|split; [constructor|reflexivity]]).
  split; [exact E|]. split; [|split; [exact (others_ext I G GL W' X')|split; [exact (contents_of W' G')|reflexivity]]].
  apply (inv_one I G GL W' X' G'). intros x [<-|[]]. left. apply in_or_app. right. now left.
Qed.
Lemma op_split n : (sp = false -> False) -> n <= length us -> exists H' T' L1 L', t_split H T (nth n us (t_end T)) = Some (H', T', L1) /\ inv sp H' (lset Ts i T' ++ [L1]) L' /\ others H H' Ts i /\
  contents H' T' (skipn n us) (skipn n xs) /\ contents H' L1 (firstn n us) (firstn n xs) /\ T' = T /\ tsize L1 = 0%Z.
Proof.
  intros Sp Ln. destruct (at_contents I G C) as (t & GL & Go & ->). destruct T as [s z]. pose proof Go as (O & S0 & Z0). cbn [sent tsize] in *. unfold t_end. cbn [sent].
  destruct (split_ctx O Ln) as (r & C0 & l & Et & Hc & E1 & E2). pose proof (keys_len (o_keys O)) as Lk.
  assert (Exs : xs = firstn n xs ++ skipn n xs) by (now rewrite firstn_skipn).
  assert (Elen : length (firstn n xs) = length (firstn n (ids t))) by (rewrite !firstn_length; lia).
  destruct (split_ok z (i_wf I) O Et Hc E1 E2 Exs Elen) as (H' & s2 & tl & tr0 & E & W' & X & Ls2 & Or & Ol & Ir & Il).
  assert (S1 : ordered (firstn n xs) /\ ordered (skipn n xs)). { pose proof S0 as S1. rewrite Exs in S1. apply ordered_app in S1 as (S1 & S2 & _). auto. } destruct S1 as [S1 S2].
  exists H', (TR s z), (TR s2 0), (lset L i (tr0, skipn n xs) ++ [(tl, firstn n xs)]).
  assert (Gr : good sp H' (TR s z) tr0 (skipn n xs)) by (split; [exact Or|split; [auto|intros; exfalso; auto]]). assert (Gl : good sp H' (TR s2 0) tl (firstn n xs)) by (split; [exact Ol|split; [auto|intros; exfalso; auto]]).
  split; [exact E|]. split; [|split; [exact (others_ext I G GL W' X)|split; [|split; [|auto]]]].
  2: { rewrite <- Ir. exact (contents_of W' Gr). } 2: { rewrite <- Il. exact (contents_of W' Gl). }
  pose proof (get_some_lt _ _ G) as LG. pose proof (get_some_lt _ _ GL) as LGL. pose proof (i_len I) as Len.
  assert (Hcr : forall x, In x (cells (TR s z) tr0) -> In x (cells (TR s z) t)). { unfold cells. cbn [sent]. rewrite Ir. intros x Ix. rewrite in_app_iff in *. destruct Ix as [Ix|Ix]; auto. left. rewrite <- (firstn_skipn n (ids t)). apply in_or_app. auto. }
  assert (Hcl : forall x, In x (cells (TR s2 0) tl) -> In x (ids t) /\ In x (firstn n (ids t)) \/ x = s2). { unfold cells. cbn [sent]. rewrite Il. intros x Ix. apply in_app_or in Ix as [Ix|[<-|[]]]; auto. left. split; [|auto]. rewrite <- (firstn_skipn n (ids t)). apply in_or_app. auto. }
  assert (Hnew : forall j T1 t1 xs1, get (lset Ts i (TR s z) ++ [TR s2 0]) j = Some T1 -> get (lset L i (tr0, skipn n xs) ++ [(tl, firstn n xs)]) j = Some (t1, xs1) ->
    (j <> i /\ j < length Ts /\ get Ts j = Some T1 /\ get L j = Some (t1, xs1)) \/ (j = i /\ T1 = TR s z /\ t1 = tr0 /\ xs1 = skipn n xs) \/ (j = length Ts /\ T1 = TR s2 0 /\ t1 = tl /\ xs1 = firstn n xs)).
  { intros j T1 t1 xs1 G1 G2. destruct (Nat.lt_ge_cases j (length Ts)) as [Lj|Lj].
    - rewrite get_app_l in G1 by (rewrite lset_length; lia); rewrite get_app_l in G2 by (rewrite lset_length, Len; lia). destruct (Nat.eq_dec j i) as [->|N].
      + rewrite get_lset_eq in G1 by auto; rewrite get_lset_eq in G2 by auto. injection G1 as <-. injection G2 as <- <-. right; left; auto.
      + rewrite get_lset_neq in G1 by auto; rewrite get_lset_neq in G2 by auto. auto.
    - rewrite get_app_r in G1 by (rewrite lset_length; lia); rewrite get_app_r in G2 by (rewrite lset_length, Len; lia). rewrite lset_length in G1; rewrite lset_length in G2. rewrite Len in G2. destruct (j - length Ts) as [|m] eqn:Em; [|destruct m; discriminate]. injection G1 as <-. injection G2 as <- <-. right. right. split; [lia|auto]. }
  apply (@inv_gen sp H Ts L H' _ _ (cells (TR s z) t) [i] [i; length Ts] I W' X).
  - rewrite !app_length, !lset_length. cbn. lia.
  - intros x Ix. exists i, (TR s z), t, xs. cbn. auto.
  - intros j T1 t1 xs1 G1 G2. destruct (Hnew _ _ _ _ G1 G2) as [(Nj & Lj & G3 & G4)|[(-> & -> & -> & ->)|(-> & -> & -> & ->)]].
    + left. split; [intros [|[]]; congruence|]. split; [intros [|[|[]]]; [congruence|lia]|auto].
    + right. split; [now left|]. split; [auto|]. intros x Ix. left. auto.
    + right. split; [right; now left|]. split; [auto|]. intros x Ix. destruct (Hcl x Ix) as [[Ix' _]| ->]; [left; apply in_or_app; auto|right; auto].
  - assert (Hd : forall x, In x (cells (TR s z) tr0) -> ~ In x (cells (TR s2 0) tl)).
    { intros x Ix Ix'. pose proof (cells_lt _ (i_wf I) Go (Hcr x Ix)) as Lx. destruct (Hcl x Ix') as [[_ Jx]| ->]; [|lia]. unfold cells in Ix. cbn [sent] in Ix. rewrite Ir in Ix. pose proof (o_nodup O) as N. rewrite <- (firstn_skipn n (ids t)), <- app_assoc in N. apply NoDup_app_iff in N as (_ & _ & D). exact (D x Jx Ix). }
    intros j T1 t1 xs1 j' T2 t2 xs2 N Ij Ij' G1 G2 G3 G4. cbn [In] in Ij, Ij'. destruct (Hnew _ _ _ _ G1 G2) as [(Nj & Lj & _ & _)|[(-> & -> & -> & ->)|(-> & -> & -> & ->)]], (Hnew _ _ _ _ G3 G4) as [(Nj' & Lj' & _ & _)|[(-> & -> & -> & ->)|(-> & -> & -> & ->)]]; try congruence; try (exfalso; lia).
    + intros x Ix. exact (Hd x Ix).
    + intros x Ix Ix'. exact (Hd x Ix' Ix).
Qed.
End Op.
Arguments op_insert {sp H Ts L i T us xs} _ _ _ {p} x _.
Arguments op_find {sp H Ts L i T us xs} _ _ _ x.
Arguments op_erase {sp H Ts L i T us xs} _ _ _ x.
Arguments op_erase_at {sp H Ts L i T us xs} _ _ _ {n} _.
Arguments op_clear {sp H Ts L i T us xs} _ _ _.
Arguments op_split {sp H Ts L i T us xs} _ _ _ {n} _ _.

Definition others2 (H H' : th) (Ts : list tr) (i j : nat) : Prop :=
  forall k T us xs, k <> i -> k <> j -> get Ts k = Some T -> contents H T us xs -> contents H' T us xs.
Lemma assert_ok (H : th) s t xs z s2 t2 ys z2 : wfH H -> okt H s t xs -> okt H s2 t2 ys -> (forall y x, In y ys -> In x xs -> ltb y x = true) -> absorb_assert ltb H (TR s z) (TR s2 z2) = Some true.
Proof.
  intros W O O2 Lt. unfold absorb_assert, t_empty. rewrite (root_ok z2 O2). cbn [obind]. destruct (bptr t2) as [q2|] eqn:E2; [|reflexivity]. rewrite (root_ok z O). cbn [obind]. destruct (bptr t) as [q|] eqn:E1; [|reflexivity].
  unfold t_end. cbn [sent]. rewrite (prev_end W O2). pose proof (bptr_in _ E1) as I1. pose proof (bptr_in _ E2) as I2. pose proof (o_keys O) as Ks. pose proof (o_keys O2) as Ks2.
  assert (Hy : exists l2 a, ids t2 = l2 ++ [a]). { destruct (ids t2) as [|b l2]; [destruct I2|]. exists (removelast (b :: l2)), (last (b :: l2) 0). now apply app_removelast_last. }
  destruct Hy as (l2 & a & Ei2). rewrite Ei2 in *. replace (match l2 ++ [a] with [] => None | us => Some (last us s2) end) with (Some a). 2: { rewrite <- (last_last l2 a s2) at 1. now destruct l2. }
  cbn [obind]. apply keys_app_inv in Ks2 as (ya & yb & -> & _ & Ks2). apply keys_cons_inv in Ks2 as (y & ys & -> & Ey & _). rewrite Ey. cbn [obind]. rewrite (begin_ok z W O). cbn [obind].
  destruct (ids t) as [|b l1]; [destruct I1|]. cbn [hd]. apply keys_cons_inv in Ks as (x & xs' & -> & Ex & _). rewrite Ex. cbn [obind peq]. f_equal. apply Lt; [apply in_or_app; right; now left|now left].
Qed.
Lemma op_absorb sp H Ts L i j T Q us xs vs ys : inv sp H Ts L -> i <> j -> get Ts i = Some T -> get Ts j = Some Q -> contents H T us xs -> contents H Q vs ys ->
  (forall y x, In y ys -> In x xs -> ltb y x = true) ->
  exists H' T' Q' L', t_absorb ltb H T Q = Some (H', T', Q', match us with [] => hd (t_end T) vs | _ => hd (t_end T) us end) /\ inv sp H' (lset (lset Ts i T') j Q') L' /\ others2 H H' Ts i j /\
  contents H' T' (vs ++ us) (ys ++ xs) /\ contents H' Q' [] [] /\ t_end T' = t_end T /\ t_end Q' = t_end Q.
Proof.
  intros I Nij G GQ C CQ Lt. destruct (at_contents I G C) as (t & GL & Go & ->), (at_contents I GQ CQ) as (t2 & GL2 & Go2 & ->). destruct T as [s z], Q as [s2 z2]. pose proof Go as (O & S0 & Z0). pose proof Go2 as (O2 & S2 & Z2). cbn [sent tsize t_end] in *. unfold t_end. cbn [sent].
  destruct (absorb_ok z z2 (i_wf I) O O2) as (H' & t' & z' & z2' & it & E & W' & X & O' & O2' & It' & Ez & Ez2 & Eit). { intros x Ix Ix'. exact (i_dis I Nij G GL GQ GL2 x Ix' Ix). }
  pose proof (keys_len (o_keys O)) as Lk. pose proof (keys_len (o_keys O2)) as Lk2.
  assert (G1 : good sp H' (TR s z') t' (ys ++ xs)). { split; [exact O'|]. split.
    - apply ordered_app. split; [auto|]. split; [auto|]. intros a b Ia Ib. destruct uniq; [apply Lt; auto|]. specialize (Lt a b Ia Ib). destruct (ltb b a) eqn:Eb; [|auto]. pose proof (ol_trans OL _ _ _ Lt Eb) as Ec. now rewrite (ol_irr OL) in Ec.
    - intros Sp. cbn [tsize]. rewrite Ez. specialize (Z0 Sp). specialize (Z2 Sp). cbn in Z0, Z2. rewrite app_length. destruct (ids t2) as [|u2 l2] eqn:E2; [cbn in Lk2; rewrite <- Lk2; cbn; auto|]. destruct (ids t) as [|u1 l1] eqn:E1; [cbn in Lk; rewrite <- Lk, Nat.add_0_r; auto|]. rewrite Z0, Z2. unfold szw. rewrite <- Zplus_mod. f_equal. lia. }
  assert (G2 : good sp H' (TR s2 z2') Lf []). { split; [exact O2'|]. split; [constructor|]. intros Sp. cbn [tsize]. rewrite Ez2. specialize (Z2 Sp). cbn in Z2. destruct (ids t2) as [|u2 l2]; [|reflexivity]. cbn in Lk2. destruct ys; [auto|discriminate]. }
  exists H', (TR s z'), (TR s2 z2'), (lset (lset L i (t', ys ++ xs)) j (Lf, [])). split; [unfold t_absorb; rewrite (assert_ok z z2 (i_wf I) O O2 Lt); cbn [obind]; rewrite E, Eit; reflexivity|]. split; [|split; [|split; [|split; [exact (contents_of W' G2)|auto]]]].
  - pose proof (get_some_lt _ _ G) as LG. pose proof (get_some_lt _ _ GL) as LGL. pose proof (get_some_lt _ _ GQ) as LG2. pose proof (get_some_lt _ _ GL2) as LGL2. pose proof (i_len I) as Len.
    assert (Hc1 : forall x, In x (cells (TR s z') t') -> In x (cells (TR s z) t) \/ In x (ids t2)). { unfold cells. cbn [sent]. rewrite It'. intros x Ix. rewrite !in_app_iff in *. tauto. }
    assert (Hnew : forall k T1 t1 xs1, get (lset (lset Ts i (TR s z')) j (TR s2 z2')) k = Some T1 -> get (lset (lset L i (t', ys ++ xs)) j (Lf, [])) k = Some (t1, xs1) ->
      (k <> i /\ k <> j /\ get Ts k = Some T1 /\ get L k = Some (t1, xs1)) \/ (k = i /\ T1 = TR s z' /\ t1 = t' /\ xs1 = ys ++ xs) \/ (k = j /\ T1 = TR s2 z2' /\ t1 = Lf /\ xs1 = [])).
    { intros k T1 t1 xs1 A B. destruct (Nat.eq_dec k j) as [->|Nj]; [|destruct (Nat.eq_dec k i) as [->|Ni]].
      - rewrite get_lset_eq in A by (rewrite lset_length; auto). rewrite get_lset_eq in B by (rewrite lset_length; auto). injection A as <-. injection B as <- <-. right. right. auto.
      - rewrite get_lset_neq, get_lset_eq in A by auto. rewrite get_lset_neq, get_lset_eq in B by auto. injection A as <-. injection B as <- <-. right. left. auto.
      - rewrite !get_lset_neq in A by auto. rewrite !get_lset_neq in B by auto. left. auto. }
    apply (@inv_gen sp H Ts L H' _ _ (cells (TR s z) t ++ cells (TR s2 z2) t2) [i; j] [i; j] I W' X).
    + now rewrite !lset_length.
    + intros x Ix. apply in_app_or in Ix as [Ix|Ix]; [exists i, (TR s z), t, xs|exists j, (TR s2 z2), t2, ys]; cbn [In]; auto.
    + intros k T1 t1 xs1 A B. destruct (Hnew _ _ _ _ A B) as [(Ni & Nj & G3 & G4)|[(-> & -> & -> & ->)|(-> & -> & -> & ->)]].
      * left. split; [intros [|[|[]]]; congruence|]. split; [intros [|[|[]]]; congruence|auto].
      * right. split; [now left|]. split; [auto|]. intros x Ix. left. apply in_or_app. destruct (Hc1 x Ix) as [J|J]; [auto|right; apply in_or_app; auto].
      * right. split; [right; now left|]. split; [auto|]. intros x [<-|[]]. left. apply in_or_app. right. apply in_or_app. right. now left.
    + assert (Hd : forall x, In x (cells (TR s z') t') -> ~ In x (cells (TR s2 z2') Lf)).
      { intros x Ix [<-|[]]. cbn [sent] in Ix. destruct (Hc1 s2 Ix) as [J|J]; [|exact (s_notin O2 J)]. refine (i_dis I Nij G GL GQ GL2 s2 J _). apply in_or_app. right. now left. }
      intros k T1 t1 xs1 k' T2 t3 xs2 N Ik Ik' A B A' B'. cbn [In] in Ik, Ik'. destruct (Hnew _ _ _ _ A B) as [(Ni & Nj & _ & _)|[(-> & -> & -> & ->)|(-> & -> & -> & ->)]], (Hnew _ _ _ _ A' B') as [(Ni' & Nj' & _ & _)|[(-> & -> & -> & ->)|(-> & -> & -> & ->)]]; try congruence; try (exfalso; lia).
      * intros x Ix. exact (Hd x Ix).
      * intros x Ix Ix'. exact (Hd x Ix' Ix).
  - intros k T1 us1 xs1 Ni Nj Gk Ck. destruct (at_contents I Gk Ck) as (t1 & Gk' & (O1 & _) & ->). destruct T1 as [s1 z1]. apply contents_ok; [auto|]. apply (okt_ext (i_wf I) O1 X). intros x Ix Jx. apply in_app_or in Jx as [Jx|Jx]; [exact (i_dis I Ni Gk Gk' G GL x Ix Jx)|exact (i_dis I Nj Gk Gk' GQ GL2 x Ix Jx)].
  - rewrite <- It'. exact (contents_of W' G1).
Qed.
Arguments op_absorb {sp H Ts L i j T Q us xs vs ys} _ _ _ _ _ _ _.

Lemma inv_prefix sp H Ts Ts' L : inv sp H Ts L -> length Ts' <= length Ts -> (forall i, i < length Ts' -> get Ts i = get Ts' i) -> inv sp H Ts' (firstn (length Ts') L).
Proof.
  intros [W Len Ok Dis] Ln Same. assert (G : forall i T, get Ts' i = Some T -> get Ts i = Some T /\ forall p, get (firstn (length Ts') L) i = Some p -> get L i = Some p).
  { intros i T Ei. pose proof (get_some_lt _ _ Ei) as Li. split; [now rewrite Same|]. intros p Ep. rewrite get_firstn in Ep by auto. exact Ep. }
  split; [auto|rewrite firstn_length; lia| |].
  - intros i T t xs E1 E2. destruct (G i T E1) as [A B]. apply B in E2. exact (Ok i T t xs A E2).
  - intros i j T t xs T' t' xs' N E1 E2 E3 E4. destruct (G i T E1) as [A B], (G j T' E3) as [A' B']. apply B in E2. apply B' in E4. exact (Dis i j T t xs T' t' xs' N A E2 A' E4).
Qed.
Arguments inv_prefix {sp H Ts Ts' L} _ _ _.

Lemma skipn_skipn {A} n m (l : list A) : n <= m -> skipn (m - n) (skipn n l) = skipn m l.
Proof. revert m l. induction n as [|n IH]; intros m l Ln; [now rewrite Nat.sub_0_r|]. destruct m as [|m]; [lia|]. destruct l as [|a l]; [now rewrite skipn_nil|]. cbn [skipn Nat.sub]. apply IH. lia. Qed.
Lemma op_erase_range sp H Ts L i T us xs n m : inv sp H Ts L -> get Ts i = Some T -> contents H T us xs -> (sp = false -> False) -> n <= m <= length us -> (forall y x, In y (firstn n xs) -> In x (skipn m xs) -> ltb y x = true) ->
  exists H' T' L', t_erase_range ltb H T (nth n us (t_end T)) (nth m us (t_end T)) = Some (H', T', if m =? length us then hd (t_end T) (firstn n us) else nth m us (t_end T)) /\
    inv sp H' (lset Ts i T') L' /\ others H H' Ts i /\ contents H' T' (firstn n us ++ skipn m us) (firstn n xs ++ skipn m xs) /\ t_end T' = t_end T.
Proof.
  intros I G C Sp Lnm Lt. pose proof (get_some_lt _ _ G) as LG. assert (S0 : ordered xs) by (destruct (at_contents I G C) as (t & _ & (_ & S0 & _) & _); exact S0).
  assert (Lxs : length us = length xs) by (destruct (at_contents I G C) as (t & _ & (O & _) & ->); exact (keys_len (o_keys O))).
  destruct (op_split I G C Sp (n := n) ltac:(lia)) as (H1 & T1 & Q & L1 & E1 & I1 & Ot1 & C1 & D1 & -> & _).
  assert (G1 : get (lset Ts i T ++ [Q]) i = Some T) by (rewrite get_app_l by (rewrite lset_length; auto); now rewrite get_lset_eq).
  destruct (op_split I1 G1 C1 Sp (n := m - n) ltac:(rewrite skipn_length; lia)) as (H2 & T2 & M & L2 & E2 & I2 & Ot2 & C2 & _ & -> & _).
  rewrite (skipn_skipn us), (skipn_skipn xs) in C2 by lia.
  assert (Ne : nth (m - n) (skipn n us) (t_end T) = nth m us (t_end T)) by (rewrite <- !hd_nth, skipn_skipn by lia; reflexivity). rewrite Ne in E2.
  assert (Li : length (lset Ts i T) = length Ts) by apply lset_length.
  assert (GQ : get (lset Ts i T ++ [Q]) (length Ts) = Some Q) by (rewrite get_app_r, Li, Nat.sub_diag by lia; reflexivity).
  assert (D2 : contents H2 Q (firstn n us) (firstn n xs)) by (apply (Ot2 (length Ts) Q); [lia|auto|auto]).
  set (Ts2 := lset (lset Ts i T ++ [Q]) i T ++ [M]) in *. assert (Li1 : length (lset (lset Ts i T ++ [Q]) i T) = S (length Ts)) by (rewrite lset_length, app_length; cbn; lia).
  assert (G2 : get Ts2 i = Some T) by (unfold Ts2; rewrite get_app_l, get_lset_eq by (rewrite ?lset_length, ?app_length; cbn; lia); reflexivity).
  assert (GQ2 : get Ts2 (length Ts) = Some Q) by (unfold Ts2; rewrite get_app_l, get_lset_neq by (rewrite ?Li1; lia); exact GQ).
  assert (Nij : i <> length Ts) by lia.
  destruct (op_absorb I2 Nij G2 GQ2 C2 D2) as (H3 & T3 & Q3 & L3 & E3 & I3 & Ot3 & C3 & _ & Ee & _).
  { exact Lt. }
  assert (Len3 : length (lset (lset Ts2 i T3) (length Ts) Q3) = S (S (length Ts))) by (rewrite !lset_length; unfold Ts2; rewrite app_length, Li1; cbn; lia).
  assert (I4 : inv sp H3 (lset Ts i T3) (firstn (length (lset Ts i T3)) L3)).
  { apply (inv_prefix I3); rewrite ?(lset_length Ts) in *; [lia|]. intros k Lk. rewrite (get_lset_neq (lset Ts2 i T3)) by lia. destruct (Nat.eq_dec k i) as [->|Nk].
    - rewrite !get_lset_eq; auto. exact (get_some_lt _ _ G2).
    - rewrite !get_lset_neq by auto. unfold Ts2. rewrite get_app_l by (rewrite Li1; lia). rewrite get_lset_neq by auto. rewrite get_app_l by (rewrite lset_length; lia). apply get_lset_neq; auto. }
  exists H3, T3, (firstn (length (lset Ts i T3)) L3). split; [|split; [exact I4|split; [|split; [exact C3|exact Ee]]]].
  - unfold t_erase_range. rewrite E1. cbn [obind]. rewrite E2. cbn [obind]. rewrite E3. cbn [obind]. f_equal. f_equal. destruct (Nat.eqb_spec m (length us)) as [->|Nm]; [now rewrite skipn_all|]. rewrite <- hd_nth. destruct (skipn m us) eqn:Es; [|reflexivity]. apply (f_equal (@length _)) in Es. rewrite skipn_length in Es. cbn in Es. lia.
  - intros k T0 us0 xs0 Nk Gk Ck. pose proof (get_some_lt _ _ Gk) as Lk. assert (Gk1 : get (lset Ts i T ++ [Q]) k = Some T0) by (rewrite get_app_l by lia; rewrite get_lset_neq; auto).
    apply (Ot3 k T0); [auto|lia| |]. { unfold Ts2. rewrite get_app_l by lia. rewrite get_lset_neq; auto. } apply (Ot2 k T0); [auto|auto|]. apply (Ot1 k T0); auto.
Qed.

Arguments op_erase_range {sp H Ts L i T us xs n m} _ _ _ _ _ _.
(** ** Reachable memories *)
Lemma inv_new sp H Ts L H' T : inv sp H Ts L -> tr_new H = (H', T) -> inv sp H' (Ts ++ [T]) (L ++ [(Lf, [])]).
Proof.
  intros I E. destruct (new_ok (i_wf I)) as (H1 & s & E1 & W' & X & Ls & O). rewrite E1 in E. injection E as <- <-. pose proof (i_len I) as Len.
  apply (@inv_gen sp H Ts L H1 _ _ [] [] [length Ts] I W' X).
  - rewrite !app_length. cbn. lia.
  - intros x [].
  - intros j T1 t1 xs1 G1 G2. destruct (Nat.lt_ge_cases j (length Ts)) as [Lj|Lj].
    + rewrite get_app_l in G1 by lia. rewrite get_app_l in G2 by lia. left. split; [intros []|]. split; [intros [|[]]; lia|auto].
    + rewrite get_app_r in G1 by lia. rewrite get_app_r in G2 by lia. rewrite Len in G2. destruct (j - length Ts) as [|m] eqn:Em; [|destruct m; discriminate]. injection G1 as <-. injection G2 as <- <-. right. split; [left; lia|]. split; [split; [exact O|split; [constructor|reflexivity]]|]. intros x [<-|[]]. cbn [sent]. auto.
  - intros j T1 t1 xs1 j' T2 t2 xs2 N [<-|[]] [<-|[]]. congruence.
Qed.
Lemma reach_inv sp H Ts : reach sp H Ts -> exists L, inv sp H Ts L.
Proof.
  induction 1 as [|H Ts H' T _ [L I] E|H Ts i T p x H' T' v b _ [L I] G Hp E|H Ts i T x H' T' b _ [L I] G E|H Ts i T us xs n H' T' r _ [L I] G C Ln E|H Ts i T H' T' _ [L I] G E|H Ts i j T Q us xs vs ys H' T' Q' r _ [L I] N G GQ C CQ Lt E|H Ts i T us xs n H' T' Q Sp _ [L I] G C Ln E|H Ts i T us xs n m H' T' r Sp _ [L I] G C Ln Lt E].
  - exists []. split; [split; try reflexivity; intros i p E; destruct i; discriminate|reflexivity| |]; intros i; destruct i; discriminate.
  - exists (L ++ [(Lf, [])]). exact (inv_new I E).
  - destruct (inv_at I G) as (t & xs & GL & Go). pose proof (contents_of (i_wf I) Go) as C. destruct (op_insert I G C x Hp) as (H1 & T1 & v1 & b1 & L' & E' & I' & _). rewrite E in E'. injection E' as <- <- <- <-. eauto.
  - destruct (inv_at I G) as (t & xs & GL & Go). pose proof (contents_of (i_wf I) Go) as C. destruct (op_erase I G C x) as (H1 & T1 & b1 & L' & E' & I' & _). rewrite E in E'. injection E' as <- <- <-. eauto.
  - destruct (Nat.eq_dec n (length us)) as [->|Nn].
    + rewrite nth_overflow in E by auto. unfold t_erase_at in E. rewrite Nat.eqb_refl in E. injection E as <- <- <-. exists L. now rewrite lset_same.
    + destruct (op_erase_at I G C (n := n)) as (H1 & T1 & L' & E' & I' & _); [lia|]. rewrite E in E'. injection E' as -> -> _. eauto.
  - destruct (inv_at I G) as (t & xs & GL & Go). pose proof (contents_of (i_wf I) Go) as C. destruct (op_clear I G C) as (H1 & T1 & L' & E' & I' & _). rewrite E in E'. injection E' as <- <-. eauto.
  - destruct (op_absorb I N G GQ C CQ Lt) as (H1 & T1 & Q1 & L' & E' & I' & _). rewrite E in E'. injection E' as -> -> -> _. eauto.
  - assert (Sp' : sp = false -> False) by congruence. destruct (op_split I G C Sp' Ln) as (H1 & T1 & Q1 & L' & E' & I' & _). rewrite E in E'. injection E' as <- <- <-. eauto.
  - assert (Sp' : sp = false -> False) by congruence. destruct (op_erase_range I G C Sp' Ln Lt) as (H1 & T1 & L' & E' & I' & _). rewrite E in E'. injection E' as -> -> _. eauto.
Qed.
End Treap.
Arguments nth_ctx {K H s t xs n u} _ _.
Arguments inv_at {K ltb uniq sp H Ts L i T} _ _.
Arguments at_contents {K ltb uniq sp H Ts L i T us xs} _ _ _.
Arguments op_insert {K eqb ltb uniq} _ {sp H Ts L i T us xs} _ _ _ {p} x _.
Arguments op_find {K eqb ltb uniq} _ {sp H Ts L i T us xs} _ _ _ x.
Arguments op_erase {K eqb ltb uniq} _ {sp H Ts L i T us xs} _ _ _ x.
Arguments op_erase_at {K ltb uniq} {sp H Ts L i T us xs} _ _ _ {n} _.
Arguments op_clear {K ltb uniq} {sp H Ts L i T us xs} _ _ _.
Arguments op_split {K ltb uniq} {sp H Ts L i T us xs} _ _ _ {n} _ _.
Arguments op_absorb {K eqb ltb uniq} _ {sp H Ts L i j T Q us xs vs ys} _ _ _ _ _ _ _.
Arguments op_erase_range {K eqb ltb uniq} _ {sp H Ts L i T us xs n m} _ _ _ _ _ _.
