(** Treap: the searches. *)
From Coq Require Import Sorting.Sorted.
From Verif Require Import TreapModel TreapRot TreapWalk BaseLemmas ListExtra.
Set Implicit Arguments.

Section Treap.
Context {K : Type}.
Variable eqb ltb : K -> K -> bool.
Variable uniq : bool.
Notation th := (@th K).
Notation ordered := (ordered ltb uniq).
Hypothesis OL : order_laws eqb ltb.

Lemma ltb_ge_trans x y z : ltb x y = true -> ltb z y = false -> ltb x z = true.
Proof.
  intros A B. destruct (ltb x z) eqn:E; [auto|]. destruct (ltb y z) eqn:E2; [now rewrite (ol_trans OL _ _ _ A E2) in E|]. assert (y = z) by (apply (ol_tot OL); auto). congruence.
Qed.
Lemma le_ltb_trans x y z : ltb y x = false -> ltb y z = true -> ltb x z = true.
Proof.
  intros A B. destruct (ltb x y) eqn:E; [exact (ol_trans OL _ _ _ E B)|]. assert (x = y) by (apply (ol_tot OL); auto). congruence.
Qed.
Lemma ltb_asym x y : ltb x y = true -> ltb y x = false.
Proof. intros A. destruct (ltb y x) eqn:E; [|auto]. pose proof (ol_trans OL _ _ _ A E) as T. now rewrite (ol_irr OL) in T. Qed.
Lemma neq_ge x y : eqb y x = false -> ltb x y = false -> ltb y x = true.
Proof. intros A B. destruct (ltb y x) eqn:E; [auto|]. assert (x = y) by (apply (ol_tot OL); auto). subst. now rewrite (proj2 (ol_eq OL y y) eq_refl) in A. Qed.
Lemma eqb_refl x : eqb x x = true. Proof. now apply (ol_eq OL). Qed.
Lemma eqb_sym x y : eqb x y = eqb y x.
Proof. destruct (eqb x y) eqn:E; [apply (ol_eq OL) in E; subst; now rewrite eqb_refl|]. destruct (eqb y x) eqn:E2; [apply (ol_eq OL) in E2; subst; now rewrite eqb_refl in E|auto]. Qed.

Lemma ordered_app xs ys : ordered (xs ++ ys) <-> ordered xs /\ ordered ys /\ (forall a b, In a xs -> In b ys -> if uniq then ltb a b = true else ltb b a = false).
Proof.
  unfold TreapModel.ordered. induction xs as [|x xs IH]; cbn.
  - split; [intros S; split; [constructor|split; [auto|tauto]]|tauto].
  - split.
    + intros S. apply StronglySorted_inv in S as [S F]. apply IH in S as (S1 & S2 & S3). rewrite Forall_app in F. destruct F as [F1 F2]. split; [constructor; auto|]. split; [auto|]. intros a b [<-|I] J; [rewrite Forall_forall in F2; exact (F2 b J)|exact (S3 a b I J)].
    + intros (S1 & S2 & S3). apply StronglySorted_inv in S1 as [S1 F1]. constructor; [apply IH; split; [auto|split; [auto|intros a b I; apply (S3 a b); auto]]|]. apply Forall_app. split; [auto|]. apply Forall_forall. intros b J. apply (S3 x b); auto.
Qed.
Lemma ord_ge a b : (if uniq then ltb a b = true else ltb b a = false) -> ltb b a = false.
Proof. destruct uniq; [apply ltb_asym|auto]. Qed.
Lemma ordered_mid xs y zs : ordered (xs ++ y :: zs) -> (forall a, In a xs -> ltb y a = false /\ (uniq = true -> ltb a y = true)) /\ (forall b, In b zs -> ltb b y = false /\ (uniq = true -> ltb y b = true)).
Proof.
  intros S. apply ordered_app in S as (S1 & S2 & S3). apply StronglySorted_inv in S2 as [_ F]. rewrite Forall_forall in F. split.
  - intros a I. pose proof (S3 a y I (or_introl eq_refl)) as Hx. split; [exact (ord_ge _ _ Hx)|]. intros ->. exact Hx.
  - intros b I. pose proof (F b I) as Hx. cbv beta in Hx. split; [exact (ord_ge _ _ Hx)|]. intros ->. exact Hx.
Qed.

(** ranks when the list splits *)
Lemma filter_all {A} (f : A -> bool) l : (forall a, In a l -> f a = true) -> filter f l = l.
Proof. induction l as [|a l IH]; intros F; [auto|]. cbn. rewrite (F a) by now left. f_equal. apply IH. intros; apply F; now right. Qed.
Lemma filter_none {A} (f : A -> bool) l : (forall a, In a l -> f a = false) -> filter f l = [].
Proof. induction l as [|a l IH]; intros F; [auto|]. cbn. rewrite (F a) by now left. apply IH. intros; apply F; now right. Qed.
Lemma rank_lt_split x xa xb : (forall a, In a xa -> ltb a x = true) -> (forall b, In b xb -> ltb b x = false) -> rank_lt ltb x (xa ++ xb) = length xa.
Proof. intros A B. unfold rank_lt. rewrite filter_app, filter_all, filter_none, app_nil_r by auto. auto. Qed.
Lemma rank_le_split x xa xb : (forall a, In a xa -> ltb x a = false) -> (forall b, In b xb -> ltb x b = true) -> rank_le ltb x (xa ++ xb) = length xa.
Proof. intros A B. unfold rank_le. rewrite filter_app, filter_all, filter_none, app_nil_r; auto. - intros b I. now rewrite B. - intros a I. now rewrite A. Qed.

Lemma nth_app_len {A} (l r : list A) d : nth (length l) (l ++ r) d = hd d r.
Proof. rewrite app_nth2 by lia. rewrite Nat.sub_diag. now destruct r. Qed.
Lemma nth_last {A} (l r : list A) d : l <> [] -> nth (length l - 1) (l ++ r) d = last l d.
Proof.
  intros N. destruct (exists_last N) as (l' & a & ->). rewrite app_length, last_last. cbn. rewrite Nat.add_sub, <- app_assoc. now rewrite nth_app_len.
Qed.
Lemma rids_FL u (r : bt) c s : hd s (rids (FL u r :: c)) = u.
Proof. rewrite rids_cons. reflexivity. Qed.
Lemma rids_FR (l : bt) u c : rids (FR l u :: c) = rids c.
Proof. now rewrite rids_cons. Qed.
Lemma lids_FL u (r : bt) c : lids (FL u r :: c) = lids c.
Proof. rewrite lids_cons. cbn. apply app_nil_r. Qed.
Lemma lids_FR (l : bt) u c s : last (lids (FR l u :: c)) s = u.
Proof. rewrite lids_cons. cbn. now rewrite app_assoc, last_last. Qed.

Section Search.
Variables (H : th) (s : nat) (t : bt) (xs : list K).
Hypothesis (W : wfH H) (O : okt H s t xs) (S0 : ordered xs).
Variable x : K.

Lemma at_pos c l u r xa xm xb : pos H t xs c (Nd l u r) xa xm xb -> get (pl (tk H)) u = Some (bptr l) /\ get (pr (tk H)) u = Some (bptr r).
Proof. intros P. pose proof (o_rep O) as R. rewrite (p_t P) in R. apply rep_pos in R as [([C1 C2 C3] & _) _]. auto. Qed.
Lemma Lf_pos c xa xm xb : pos H t xs c Lf xa xm xb -> ids t = lids c ++ rids c /\ xs = xa ++ xb /\ length (lids c) = length xa.
Proof.
  intros [P1 P2 P3 P4 P5]. cbn [ids] in P4. apply keys_nil in P4. subst xm. rewrite P1, ids_plug. cbn. split; [auto|]. split; [auto|]. exact (keys_len P3).
Qed.
Arguments at_pos {c l u r xa xm xb} _.
Arguments Lf_pos {c xa xm xb} _.

Definition found (v : nat) : Prop := exists i, get (ids t) i = Some v /\ get xs i = Some x.
Lemma found_pos c l u r xa xl xr xb : pos H t xs c (Nd l u r) xa (xl ++ x :: xr) xb -> tkey_of H u = Some x -> length (ids l) = length xl -> found u.
Proof.
  intros [P1 P2 P3 P4 P5] Ex El. exists (length (xa ++ xl)). rewrite P1, P2, ids_plug. cbn [ids]. rewrite app_length, <- El, <- (keys_len P3), <- app_length. rewrite <- !app_assoc, !app_assoc. split.
  - rewrite <- !app_assoc. rewrite (app_assoc (lids c)). rewrite get_app_r, Nat.sub_diag by lia. reflexivity.
  - rewrite <- !app_assoc. rewrite (app_assoc xa). rewrite get_app_r; [|rewrite !app_length, <- El, <- (keys_len P3); lia]. rewrite !app_length, <- El, <- (keys_len P3). rewrite Nat.sub_diag. reflexivity.
Qed.
Arguments found_pos {c l u r xa xl xr xb} _ _ _.
Lemma find_loop e : forall fuel c t' xa xm xb, pos H t xs c t' xa xm xb -> (forall a, In a xa -> ltb a x = true) -> (forall b, In b xb -> ltb x b = true) -> bsize t' < fuel ->
  exists v, loop fuel (fun o => match o with None => Some (inr e) | Some u => let* y := tkey_of H u in if eqb y x then Some (inr u) else if ltb x y then let* l := get (pl (tk H)) u in Some (inl l) else let* r := get (pr (tk H)) u in Some (inl r) end) (bptr t') = Some v /\
    (found v \/ v = e /\ ~ In x xs).
Proof.
  induction fuel as [|fuel IH]; intros c t' xa xm xb P A B F; [lia|]. cbn [loop]. destruct t' as [|l u r]; cbn [bptr].
  - exists e. split; [auto|]. right. split; [auto|]. destruct (Lf_pos P) as (_ & -> & _). rewrite in_app_iff. intros [I|I]; [apply A in I|apply B in I]; now rewrite (ol_irr OL) in I.
  - destruct (pos_step P) as (xl & y & xr & Ey & -> & Pl & Pr). destruct (at_pos P) as [Gl Gr]. rewrite Ey. cbn [obind]. pose proof (p_xs P) as Exs. pose proof S0 as S1. rewrite Exs in S1. rewrite <- app_assoc, app_assoc in S1. cbn in S1. apply ordered_mid in S1 as [M1 M2]. cbn [bsize] in F.
    destruct (eqb y x) eqn:E1.
    + apply (ol_eq OL) in E1. subst y. exists u. split; [auto|]. left. exact (found_pos P Ey (keys_len (p_m Pl))).
    + destruct (ltb x y) eqn:E2.
      * rewrite Gl. cbn [obind]. apply (IH (FL u r :: c) l _ _ _ Pl); [auto| |lia]. intros b [<-|I]; [auto|]. apply (ltb_ge_trans E2). apply M2, I.
      * rewrite Gr. cbn [obind]. apply (IH (FR l u :: c) r _ _ _ Pr); [|auto|lia]. pose proof (neq_ge E1 E2) as E3. intros a I. rewrite app_assoc in I. apply in_app_or in I as [I|[<-|[]]]; [|auto]. exact (le_ltb_trans (proj1 (M1 a I)) E3).
Qed.
Arguments find_loop e {fuel c t' xa xm xb} _ _ _ _.
Lemma find_ok z : exists v, t_find eqb ltb H (TR s z) x = Some v /\ (found v \/ v = s /\ ~ In x xs).
Proof.
  pose proof (fuel_ok W O) as F. unfold t_find. rewrite (root_ok z O). cbn [obind t_end sent]. apply (find_loop s (pos_root _ (o_keys O))); [now intros ? []|now intros ? []|lia].
Qed.

Lemma lower_loop : uniq = true -> forall fuel c t' xa xm xb, pos H t xs c t' xa xm xb -> (forall a, In a xa -> ltb a x = true) -> (forall b, In b xb -> ltb x b = true) -> bsize t' < fuel ->
  loop fuel (fun '(o, lb) => match o with None => Some (inr lb) | Some u => let* y := tkey_of H u in if eqb y x then Some (inr u) else if ltb x y then let* l := get (pl (tk H)) u in Some (inl (l, u)) else let* r := get (pr (tk H)) u in Some (inl (r, lb)) end) (bptr t', hd s (rids c)) = Some (nth (rank_lt ltb x xs) (ids t) s).
Proof.
  intros U. induction fuel as [|fuel IH]; intros c t' xa xm xb P A B F; [lia|]. cbn [loop]. destruct t' as [|l u r]; cbn [bptr].
  - destruct (Lf_pos P) as (-> & -> & El). rewrite rank_lt_split, <- El, nth_app_len; auto. intros b I. now apply ltb_asym, B.
  - destruct (pos_step P) as (xl & y & xr & Ey & -> & Pl & Pr). destruct (at_pos P) as [Gl Gr]. rewrite Ey. cbn [obind]. pose proof (p_xs P) as Exs. pose proof S0 as S1. rewrite Exs in S1. rewrite <- app_assoc, app_assoc in S1. cbn in S1. apply ordered_mid in S1 as [M1 M2]. cbn [bsize] in F.
    destruct (eqb y x) eqn:E1.
    + apply (ol_eq OL) in E1. subst y. rewrite Exs, <- app_assoc, app_assoc. cbn [app]. rewrite rank_lt_split.
      * rewrite (p_t P), ids_plug. cbn [ids]. rewrite <- !app_assoc, (app_assoc (lids c)). rewrite app_length, <- (keys_len (p_a P)), <- (keys_len (p_m Pl)), <- app_length, nth_app_len. reflexivity.
      * intros a I. now apply M1.
      * intros b [<-|I]; [apply (ol_irr OL)|now apply M2].
    + destruct (ltb x y) eqn:E2.
      * rewrite Gl. cbn [obind]. rewrite <- (rids_FL u r c s). apply (IH (FL u r :: c) l _ _ _ Pl); [auto| |lia]. intros b [<-|I]; [auto|]. apply (ltb_ge_trans E2). apply M2, I.
      * rewrite Gr. cbn [obind]. rewrite <- (rids_FR l u c). apply (IH (FR l u :: c) r _ _ _ Pr); [|auto|lia]. pose proof (neq_ge E1 E2) as E3. intros a I. rewrite app_assoc in I. apply in_app_or in I as [I|[<-|[]]]; [|auto]. exact (le_ltb_trans (proj1 (M1 a I)) E3).
Qed.
Arguments lower_loop _ {fuel c t' xa xm xb} _ _ _ _.
Lemma lower_ok z : uniq = true -> t_lower_bound eqb ltb H (TR s z) x = Some (nth (rank_lt ltb x xs) (ids t) s).
Proof.
  intros U. pose proof (fuel_ok W O) as F. unfold t_lower_bound. rewrite (root_ok z O). cbn [obind sent]. change s with (hd s (rids [])) at 1. apply (lower_loop U (pos_root _ (o_keys O))); [now intros ? []|now intros ? []|lia].
Qed.

Lemma upper_loop : forall fuel c t' xa xm xb, pos H t xs c t' xa xm xb -> (forall a, In a xa -> ltb x a = false) -> (forall b, In b xb -> ltb x b = true) -> bsize t' < fuel ->
  loop fuel (fun '(o, ub) => match o with None => Some (inr ub) | Some u => let* y := tkey_of H u in if ltb x y then let* l := get (pl (tk H)) u in Some (inl (l, u)) else let* r := get (pr (tk H)) u in Some (inl (r, ub)) end) (bptr t', hd s (rids c)) = Some (nth (rank_le ltb x xs) (ids t) s).
Proof.
  induction fuel as [|fuel IH]; intros c t' xa xm xb P A B F; [lia|]. cbn [loop]. destruct t' as [|l u r]; cbn [bptr].
  - destruct (Lf_pos P) as (-> & -> & El). rewrite rank_le_split, <- El, nth_app_len; auto.
  - destruct (pos_step P) as (xl & y & xr & Ey & -> & Pl & Pr). destruct (at_pos P) as [Gl Gr]. rewrite Ey. cbn [obind]. pose proof (p_xs P) as Exs. pose proof S0 as S1. rewrite Exs in S1. rewrite <- app_assoc, app_assoc in S1. cbn in S1. apply ordered_mid in S1 as [M1 M2]. cbn [bsize] in F.
    destruct (ltb x y) eqn:E2.
    + rewrite Gl. cbn [obind]. rewrite <- (rids_FL u r c s). apply (IH (FL u r :: c) l _ _ _ Pl); [auto| |lia]. intros b [<-|I]; [auto|]. apply (ltb_ge_trans E2). apply M2, I.
    + rewrite Gr. cbn [obind]. rewrite <- (rids_FR l u c). apply (IH (FR l u :: c) r _ _ _ Pr); [|auto|lia]. intros a I. rewrite app_assoc in I. apply in_app_or in I as [I|[<-|[]]]; [|auto]. destruct (ltb x a) eqn:E3; [|auto]. now rewrite (ltb_ge_trans E3 (proj1 (M1 a I))) in E2.
Qed.
Arguments upper_loop {fuel c t' xa xm xb} _ _ _ _.
Lemma upper_ok z : t_upper_bound ltb H (TR s z) x = Some (nth (rank_le ltb x xs) (ids t) s).
Proof.
  pose proof (fuel_ok W O) as F. unfold t_upper_bound. rewrite (root_ok z O). cbn [obind sent]. change s with (hd s (rids [])) at 1. apply (upper_loop (pos_root _ (o_keys O))); [now intros ? []|now intros ? []|lia].
Qed.

Lemma pred_loop : forall fuel c t' xa xm xb, pos H t xs c t' xa xm xb -> (forall a, In a xa -> ltb a x = true) -> (forall b, In b xb -> ltb b x = false) -> bsize t' < fuel ->
  loop fuel (fun '(o, pd) => match o with None => Some (inr pd) | Some u => let* y := tkey_of H u in if negb (ltb y x) then let* l := get (pl (tk H)) u in Some (inl (l, pd)) else let* r := get (pr (tk H)) u in Some (inl (r, u)) end) (bptr t', last (lids c) s) =
  Some (if rank_lt ltb x xs =? 0 then s else nth (rank_lt ltb x xs - 1) (ids t) s).
Proof.
  induction fuel as [|fuel IH]; intros c t' xa xm xb P A B F; [lia|]. cbn [loop]. destruct t' as [|l u r]; cbn [bptr].
  - destruct (Lf_pos P) as (-> & -> & El). rewrite rank_lt_split, <- El; auto. destruct (Nat.eqb_spec (length (lids c)) 0) as [E0|E0]; [now destruct (lids c)|]. rewrite nth_last; [auto|]. now destruct (lids c).
  - destruct (pos_step P) as (xl & y & xr & Ey & -> & Pl & Pr). destruct (at_pos P) as [Gl Gr]. rewrite Ey. cbn [obind]. pose proof (p_xs P) as Exs. pose proof S0 as S1. rewrite Exs in S1. rewrite <- app_assoc, app_assoc in S1. cbn in S1. apply ordered_mid in S1 as [M1 M2]. cbn [bsize] in F.
    destruct (ltb y x) eqn:E2; cbn [negb].
    + rewrite Gr. cbn [obind]. rewrite <- (lids_FR l u c s). apply (IH (FR l u :: c) r _ _ _ Pr); [|auto|lia]. intros a I. rewrite app_assoc in I. apply in_app_or in I as [I|[<-|[]]]; [|auto]. exact (le_ltb_trans (proj1 (M1 a I)) E2).
    + rewrite Gl. cbn [obind]. rewrite <- (lids_FL u r c). apply (IH (FL u r :: c) l _ _ _ Pl); [auto| |lia]. intros b [<-|I]; [auto|]. apply in_app_or in I as [I|I]; [|auto]. destruct (ltb b x) eqn:E3; [|auto]. assert (I2 : In b (xr ++ xb)) by (apply in_or_app; auto). now rewrite (le_ltb_trans (proj1 (M2 b I2)) E3) in E2.
Qed.
Arguments pred_loop {fuel c t' xa xm xb} _ _ _ _.
Lemma pred_ok z : t_predecessor ltb H (TR s z) x = Some (if rank_lt ltb x xs =? 0 then s else nth (rank_lt ltb x xs - 1) (ids t) s).
Proof.
  pose proof (fuel_ok W O) as F. unfold t_predecessor. rewrite (root_ok z O). cbn [obind sent]. change s with (last (lids []) s) at 1. apply (pred_loop (pos_root _ (o_keys O))); [now intros ? []|now intros ? []|lia].
Qed.

(** ** Where a new key goes *)
Definition hole (f : frame) : nat * bool := match f with FL i _ => (i, true) | FR _ i => (i, false) end.
Lemma ins_loop : forall fuel c t' u xa xm xb, pos H t xs c t' xa xm xb -> bptr t' = Some u -> (forall a, In a xa -> ltb x a = false /\ (uniq = true -> ltb a x = true)) -> (forall b, In b xb -> ltb x b = true) -> bsize t' < fuel ->
  exists w, loop fuel (fun u =>
    let* eq := (if uniq && negb (u =? s) then let* y := tkey_of H u in Some (eqb x y) else Some false) in
    if (eq : bool) then Some (inr (inl u)) else
    let* toleft := (if u =? s then Some true else let* y := tkey_of H u in Some (ltb x y)) in
    let* c := get (if (toleft : bool) then pl (tk H) else pr (tk H)) u in
    match c with
    | None => Some (inr (inr (u, toleft)))
    | Some c => Some (inl c)
    end) u = Some w /\
  ((uniq = true /\ exists v, w = inl v /\ found v) \/
   (exists f c' xa' xb', w = inr (hole f) /\ pos H t xs (f :: c') Lf xa' [] xb' /\ (forall a, In a xa' -> ltb x a = false /\ (uniq = true -> ltb a x = true)) /\ (forall b, In b xb' -> ltb x b = true))).
Proof.
  induction fuel as [|fuel IH]; intros c t' u0 xa xm xb P Eu A B F; [lia|]. cbn [loop]. destruct t' as [|l u r]; cbn [bptr] in Eu; [discriminate|]. injection Eu as <-.
  destruct (pos_step P) as (xl & y & xr & Ey & -> & Pl & Pr). destruct (at_pos P) as [Gl Gr]. rewrite Ey. cbn [obind]. pose proof (p_xs P) as Exs. pose proof S0 as S1. rewrite Exs in S1. rewrite <- app_assoc, app_assoc in S1. cbn in S1. apply ordered_mid in S1 as [M1 M2]. cbn [bsize] in F.
  assert (Us : u <> s). { intros E. apply (s_notin O). rewrite <- E, (p_t P), plug_in. right. cbn. apply in_or_app. right. now left. }
  apply Nat.eqb_neq in Us. rewrite Us. cbn [negb]. rewrite andb_true_r.
  assert (Hgo : eqb x y = false \/ uniq = false -> exists w : nat + (nat + nat * bool), (let* toleft := Some (ltb x y) in let* c := get (if (toleft : bool) then pl (tk H) else pr (tk H)) u in match c with None => Some (inr (inr (u, toleft))) | Some c => Some (inl c) end) = Some w /\
    match w with inl c1 => exists c' t1 xa' xm' xb', pos H t xs c' t1 xa' xm' xb' /\ bptr t1 = Some c1 /\ (forall a, In a xa' -> ltb x a = false /\ (uniq = true -> ltb a x = true)) /\ (forall b, In b xb' -> ltb x b = true) /\ bsize t1 < fuel
    | inr (inl _) => False | inr (inr w) => exists f c' xa' xb', w = hole f /\ pos H t xs (f :: c') Lf xa' [] xb' /\ (forall a, In a xa' -> ltb x a = false /\ (uniq = true -> ltb a x = true)) /\ (forall b, In b xb' -> ltb x b = true) end).
  { intros Hne. cbn [obind]. destruct (ltb x y) eqn:E2.
    - rewrite Gl. cbn [obind]. assert (B' : forall b, In b (y :: xr ++ xb) -> ltb x b = true). { intros b [<-|I]; [auto|]. apply (ltb_ge_trans E2). apply M2, I. }
      destruct l as [|l1 u1 r1]; cbn [bptr]; eexists; (split; [reflexivity|]).
      + exists (FL u r), c, xa, (y :: xr ++ xb). assert (xl = []) by exact (keys_nil (p_m Pl)). subst xl. split; [reflexivity|auto].
      + exists (FL u r :: c), (Nd l1 u1 r1), xa, xl, (y :: xr ++ xb). split; [auto|]. split; [reflexivity|]. split; [auto|]. split; [auto|]. lia.
    - rewrite Gr. cbn [obind]. assert (A' : forall a, In a (xa ++ xl ++ [y]) -> ltb x a = false /\ (uniq = true -> ltb a x = true)).
      { assert (Ay : uniq = true -> ltb y x = true) by (intros U; destruct Hne as [Hne|Hne]; [|congruence]; apply neq_ge; [now rewrite eqb_sym|auto]). intros a I. rewrite app_assoc in I. apply in_app_or in I as [I|[<-|[]]]; [|auto]. destruct (M1 a I) as [Ma1 Ma2]. split; [destruct (ltb x a) eqn:E3; [|auto]; now rewrite (ltb_ge_trans E3 Ma1) in E2|]. intros U. exact (ol_trans OL _ _ _ (Ma2 U) (Ay U)). }
      destruct r as [|l1 u1 r1]; cbn [bptr]; eexists; (split; [reflexivity|]).
      + exists (FR l u), c, (xa ++ xl ++ [y]), xb. assert (xr = []) by exact (keys_nil (p_m Pr)). subst xr. split; [reflexivity|auto].
      + exists (FR l u :: c), (Nd l1 u1 r1), (xa ++ xl ++ [y]), xr, xb. split; [auto|]. split; [reflexivity|]. split; [auto|]. split; [auto|]. lia. }
  assert (Hfin : eqb x y = false \/ uniq = false -> exists w : nat + nat * bool, match (let* toleft := Some (ltb x y) in let* c := get (if (toleft : bool) then pl (tk H) else pr (tk H)) u in match c with None => Some (inr (inr (u, toleft))) | Some c => Some (inl c) end) : option (nat + (nat + nat * bool)) with Some (inl s') => loop fuel (fun u =>
    let* eq := (if uniq && negb (u =? s) then let* y := tkey_of H u in Some (eqb x y) else Some false) in
    if (eq : bool) then Some (inr (inl u)) else
    let* toleft := (if u =? s then Some true else let* y := tkey_of H u in Some (ltb x y)) in
    let* c := get (if (toleft : bool) then pl (tk H) else pr (tk H)) u in
    match c with
    | None => Some (inr (inr (u, toleft)))
    | Some c => Some (inl c)
    end) s' | Some (inr w) => Some w | None => None end = Some w /\
  ((uniq = true /\ exists v, w = inl v /\ found v) \/
   (exists f c' xa' xb', w = inr (hole f) /\ pos H t xs (f :: c') Lf xa' [] xb' /\ (forall a, In a xa' -> ltb x a = false /\ (uniq = true -> ltb a x = true)) /\ (forall b, In b xb' -> ltb x b = true)))).
  { intros Hne. destruct (Hgo Hne) as (w & -> & Hw). destruct w as [c1|[v|w]].
    - destruct Hw as (c' & t1 & xa' & xm' & xb' & P' & E' & A' & B' & F'). exact (IH c' t1 c1 xa' xm' xb' P' E' A' B' F').
    - destruct Hw.
    - exists (inr w). split; [auto|]. right. destruct Hw as (f & c' & xa' & xb' & -> & Hw). exists f, c', xa', xb'. split; [auto|exact Hw]. }
  destruct (Bool.bool_dec uniq true) as [U|U].
  - rewrite U. cbn [obind]. destruct (eqb x y) eqn:E1.
    + apply (ol_eq OL) in E1. subst y. exists (inl u). split; [auto|]. left. split; [auto|]. exists u. split; [auto|]. exact (found_pos P Ey (keys_len (p_m Pl))).
    + rewrite U in Hfin. destruct Hfin as (w & Ew & Hw); [now left|]. exists w. split; [|exact Hw]. exact Ew.
  - apply Bool.not_true_is_false in U. rewrite U. cbn [obind]. rewrite U in Hfin. destruct Hfin as (w & Ew & Hw); [now right|]. exists w. split; [|exact Hw]. exact Ew.
Qed.
Lemma ins_ok : exists w, ins_find eqb ltb uniq H s s x = Some w /\
  ((uniq = true /\ exists v, w = inl v /\ found v) \/
   (exists f c' xa' xb', w = inr (hole f) /\ (t = Lf /\ f = FL s Lf /\ c' = [] /\ xa' = [] /\ xb' = [] \/ exists c0, c' = c0 ++ [FL s Lf] /\ pos H t xs (f :: c0) Lf xa' [] xb') /\ xs = xa' ++ xb' /\ (forall a, In a xa' -> ltb x a = false /\ (uniq = true -> ltb a x = true)) /\ (forall b, In b xb' -> ltb x b = true))).
Proof.
  pose proof (fuel_ok W O) as F. unfold ins_find. destruct (fuel_of H) as [|fuel]; [lia|]. cbn [loop]. rewrite Nat.eqb_refl. cbn [negb]. rewrite andb_false_r. cbn [obind]. destruct (o_rep O) as ([C1 C2 C3] & _). rewrite C1. cbn [obind].
  destruct t as [|l u r] eqn:Et; cbn [bptr].
  - exists (inr (s, true)). split; [auto|]. right. exists (FL s Lf), [], [], []. split; [auto|]. split; [left; auto|]. split; [exact (keys_nil (o_keys O))|]. split; now intros ? [].
  - rewrite <- Et in *. destruct (@ins_loop fuel [] t u [] xs []) as (w & Ew & Hw); [exact (pos_root _ (o_keys O))|now rewrite Et|now intros ? []|now intros ? []|lia|]. exists w. split; [exact Ew|]. destruct Hw as [Hw|Hw]; [now left|]. right. destruct Hw as (f & c' & xa' & xb' & -> & P & A & B). exists f, (c' ++ [FL s Lf]), xa', xb'. split; [auto|]. split; [right; exists c'; auto|]. split; [|auto]. exact (p_xs P).
Qed.
End Search.
End Treap.
