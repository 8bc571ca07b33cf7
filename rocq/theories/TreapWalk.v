(** Treap: the state invariant, walking and searching. *)
From Coq Require Import Sorting.Sorted.
From Verif Require Import TreapModel TreapRot BaseLemmas ListExtra.
Set Implicit Arguments.

Section Treap.
Context {K : Type}.
Variable eqb ltb : K -> K -> bool.
Variable uniq : bool.
Notation th := (@th K).

Definition keys (H : th) (us : list nat) (xs : list K) : Prop := map (tkey_of H) us = map Some xs.
Record wfH (H : th) : Prop := {
  w_l : length (pl (tk H)) = length (tkey H); w_r : length (pr (tk H)) = length (tkey H);
  w_p : length (pp (tk H)) = length (tkey H); w_q : length (tpri H) = length (tkey H);
  w_pos : forall i p, get (tpri H) i = Some p -> (0 <= p)%Z }.
Record okt (H : th) (s : nat) (t : bt) (xs : list K) : Prop := {
  o_rep : rep (tk H) None (Nd t s Lf);
  o_nodup : NoDup (ids t ++ [s]);
  o_pri : get (tpri H) s = Some 0%Z;
  o_keys : keys H (ids t) xs }.

Lemma keys_app H us vs xs ys : keys H us xs -> keys H vs ys -> keys H (us ++ vs) (xs ++ ys).
Proof. unfold keys. rewrite !map_app. congruence. Qed.
Lemma keys_app_inv H us : forall vs zs, keys H (us ++ vs) zs -> exists xs ys, zs = xs ++ ys /\ keys H us xs /\ keys H vs ys.
Proof.
  unfold keys. induction us as [|u us IH]; intros vs zs E; [exists [], zs; auto|]. destruct zs as [|z zs]; [discriminate|]. cbn in E. injection E as E0 E. destruct (IH _ _ E) as (xs & ys & -> & E1 & E2). exists (z :: xs), ys. cbn. split; [auto|]. split; [congruence|auto].
Qed.
Lemma keys_cons_inv H u us zs : keys H (u :: us) zs -> exists y ys, zs = y :: ys /\ tkey_of H u = Some y /\ keys H us ys.
Proof. unfold keys. destruct zs as [|z zs]; [discriminate|]. cbn. intros [= E0 E]. eauto. Qed.
Lemma keys_len H us xs : keys H us xs -> length us = length xs.
Proof. unfold keys. intros E. apply (f_equal (@length _)) in E. now rewrite !map_length in E. Qed.
Lemma keys_nil H xs : keys H [] xs -> xs = [].
Proof. unfold keys. destruct xs; [auto|discriminate]. Qed.

Lemma rep_lt (H : th) par t i : wfH H -> rep (tk H) par t -> In i (ids t) -> i < length (tkey H).
Proof. intros W R I. destruct (rep_cell R I) as (l & r & p & [C1 C2 C3]). rewrite <- (w_l W). exact (get_some_lt _ _ C1). Qed.
Arguments rep_lt {H par t i} _ _ _.
Lemma ids_small (H : th) par t : wfH H -> rep (tk H) par t -> NoDup (ids t) -> bsize t <= length (tkey H).
Proof. intros W R N. rewrite <- bsize_ids. apply NoDup_bound; [auto|]. intros i I. exact (rep_lt W R I). Qed.

Arguments ids_small {H par t} _ _ _.
(** ** A position in the tree *)
Record pos (H : th) (t : bt) (xs : list K) (c : ctx) (t' : bt) (xa xm xb : list K) : Prop := {
  p_t : t = plug c t'; p_xs : xs = xa ++ xm ++ xb;
  p_a : keys H (lids c) xa; p_m : keys H (ids t') xm; p_b : keys H (rids c) xb }.
Lemma pos_root H t xs : keys H (ids t) xs -> pos H t xs [] t [] xs [].
Proof. intros E. split; auto; [now rewrite app_nil_r|reflexivity|reflexivity]. Qed.
Lemma pos_step H t xs c l u r xa xm xb : pos H t xs c (Nd l u r) xa xm xb -> exists xl y xr, tkey_of H u = Some y /\ xm = xl ++ y :: xr /\
  pos H t xs (FL u r :: c) l xa xl (y :: xr ++ xb) /\ pos H t xs (FR l u :: c) r (xa ++ xl ++ [y]) xr xb.
Proof.
  intros [P1 P2 P3 P4 P5]. cbn [ids] in P4. apply keys_app_inv in P4 as (xl & yr & -> & El & Er). apply keys_cons_inv in Er as (y & xr & -> & Ey & Er). exists xl, y, xr. split; [auto|]. split; [auto|]. split; split.
  - exact P1. - rewrite P2, <- app_assoc. reflexivity. - rewrite lids_cons. cbn [flids]. now rewrite app_nil_r. - auto.
  - rewrite rids_cons. cbn [frids]. change (y :: xr ++ xb) with ((y :: xr) ++ xb). apply keys_app; [unfold keys; cbn; unfold keys in Er; congruence|auto].
  - exact P1. - rewrite P2, <- !app_assoc. reflexivity.
  - rewrite lids_cons. cbn [flids]. apply keys_app; [auto|]. apply keys_app; [auto|]. unfold keys. cbn. congruence.
  - auto.
  - rewrite rids_cons. cbn [frids]. auto.
Qed.
Arguments pos_step {H t xs c l u r xa xm xb} _.
Lemma pos_keys H t xs c t' xa xm xb : pos H t xs c t' xa xm xb -> keys H (ids t) xs.
Proof. intros [-> -> A M B]. rewrite ids_plug. apply keys_app; [auto|]. now apply keys_app. Qed.

Lemma rep_pos k s c t : rep k None (Nd (plug c t) s Lf) -> rep k (cpar (c ++ [FL s Lf]) None) t /\ repc k None (c ++ [FL s Lf]) (bptr t).
Proof. intros R. change (Nd (plug c t) s Lf) with (plug [FL s Lf] (plug c t)) in R. rewrite <- plug_app in R. now apply plug_rep in R. Qed.
Arguments rep_pos {k s c t} _.
Lemma nodup_t H s t xs : okt H s t xs -> NoDup (ids t).
Proof. intros O. apply NoDup_app_remove_r with (r := [s]). apply (o_nodup O). Qed.
Lemma nodup_full H s t xs : okt H s t xs -> NoDup (ids (Nd t s Lf)).
Proof. intros O. apply (o_nodup O). Qed.
Lemma fuel_ok H s t xs : wfH H -> okt H s t xs -> S (bsize t) < fuel_of H.
Proof. intros W O. pose proof (ids_small W (o_rep O) (nodup_full O)) as B. cbn [bsize] in B. unfold fuel_of. lia. Qed.
Lemma s_notin H s t xs : okt H s t xs -> ~ In s (ids t).
Proof. intros O I. pose proof (o_nodup O) as N. apply NoDup_app_iff in N as (_ & _ & D). apply (D s); [auto|now left]. Qed.
Lemma plug_size c t : bsize (plug c t) = bsize t + length (cids c).
Proof.
  revert t. induction c as [|f c IH]; intros t; [cbn; lia|]. rewrite plug_cons, IH. cbn [cids length]. rewrite app_length, bsize_ids. destruct f; cbn; lia.
Qed.
Lemma len_cids c : length c <= length (cids c).
Proof. induction c as [|f c IH]; [auto|]. cbn. rewrite app_length. lia. Qed.
Lemma root_ok H s t xs z : okt H s t xs -> root_of H (TR s z) = Some (bptr t).
Proof. intros O. destruct (o_rep O) as ([C1 C2 C3] & _). exact C1. Qed.

(** ** Walking *)
Lemma leftmost k s t : forall fuel par u l r, rep k par (Nd l u r) -> bsize l < fuel -> t = Nd l u r ->
  loop fuel (fun u => let* l := get (pl k) u in match l with Some l => Some (inl l) | None => Some (inr u) end) u = Some (hd s (ids t)).
Proof.
  intros fuel. revert t. induction fuel as [|fuel IH]; intros t par u l r R F ->; [lia|]. cbn [loop]. destruct R as ([C1 C2 C3] & Rl & Rr). rewrite C1. cbn [obind]. destruct l as [|a v b]; [reflexivity|]. cbn [bptr]. cbn [bsize] in F. erewrite IH; [|exact Rl|lia|reflexivity]. cbn [ids]. now destruct (ids a).
Qed.
Lemma rightmost k s t : forall fuel par u l r, rep k par (Nd l u r) -> bsize r < fuel -> t = Nd l u r ->
  loop fuel (fun u => let* r := get (pr k) u in match r with Some r => Some (inl r) | None => Some (inr (Some u)) end) u = Some (Some (last (ids t) s)).
Proof.
  intros fuel. revert t. induction fuel as [|fuel IH]; intros t par u l r R F ->; [lia|]. cbn [loop]. destruct R as ([C1 C2 C3] & Rl & Rr). rewrite C2. cbn [obind]. destruct r as [|a v b]; [cbn [bptr ids]; now rewrite last_last|]. cbn [bptr]. cbn [bsize] in F. erewrite IH; [|exact Rr|lia|reflexivity]. f_equal. f_equal.
  cbn [ids]. clear. generalize (ids a), (ids b), (ids l). intros A B L. rewrite !app_comm_cons, app_assoc. assert (Hx : forall (X Y : list nat) y d, last (X ++ y :: Y) d = last (y :: Y) d).
  { induction X as [|x X IHX]; intros Y y d; [reflexivity|]. cbn. destruct (X ++ y :: Y) eqn:E; [destruct X; discriminate|]. rewrite <- E. apply IHX. }
  rewrite !Hx. reflexivity.
Qed.
Lemma begin_ok H s t xs z : wfH H -> okt H s t xs -> t_begin H (TR s z) = Some (hd s (ids t)).
Proof.
  intros W O. pose proof (fuel_ok W O) as F. unfold t_begin. cbn [sent]. erewrite (leftmost s); [|exact (o_rep O)|lia|reflexivity]. cbn [ids]. now destruct (ids t).
Qed.
Lemma up_next k s : forall fuel c t u, rep k None (Nd (plug c t) s Lf) -> NoDup (ids (Nd (plug c t) s Lf)) -> bptr t = Some u -> length c < fuel ->
  loop fuel (fun u => let* p := get (pp k) u in let* p := p in let* l := get (pl k) p in if peq l (Some u) then Some (inr p) else Some (inl p)) u = Some (hd s (rids c)).
Proof.
  induction fuel as [|fuel IH]; intros c t u R N Eu F; [lia|]. cbn [loop]. pose proof (rep_pos R) as [R1 Rc]. destruct t as [|a u' b]; [discriminate|]. injection Eu as ->. destruct R1 as ([C1 C2 C3] & _). rewrite C3.
  destruct c as [|f c].
  - cbn [app cpar fid obind]. cbn [app repc] in Rc. destruct Rc as ([D1 D2 D3] & _). rewrite D1. cbn [obind bptr]. rewrite peq_refl. reflexivity.
  - cbn [app cpar obind]. cbn [app] in Rc. destruct f as [i r|l i]; cbn [repc fid] in *; destruct Rc as ([D1 D2 D3] & Rt & Rc); rewrite D1; cbn [obind bptr].
    + rewrite peq_refl. rewrite rids_cons. reflexivity.
    + rewrite peq_neq. 2: { intros E. apply bptr_in in E. cbn [ids] in N. apply NoDup_app_remove_r in N. apply NoDup_plug in N as (_ & D & _). apply (D u); [right; apply in_or_app; now left|cbn; apply in_or_app; right; now left]. }
      rewrite (IH c (Nd l i (Nd a u b)) i); [rewrite rids_cons; reflexivity|exact R|exact N|reflexivity|cbn in F; lia].
Qed.
Lemma next_ok H s t xs c l u r : wfH H -> okt H s t xs -> t = plug c (Nd l u r) -> t_next H u = Some (hd s (ids r ++ rids c)).
Proof.
  intros W O E. pose proof (fuel_ok W O) as F. rewrite E, plug_size in F. cbn [bsize] in F. pose proof (o_rep O) as R. rewrite E in R. pose proof (rep_pos R) as [([C1 C2 C3] & Rl & Rr) Rc]. unfold t_next. rewrite C2. cbn [obind]. destruct r as [|a v b]; cbn [bptr].
  - erewrite (@up_next _ s _ c (Nd l u Lf)); [reflexivity|exact R| |reflexivity|pose proof (len_cids c); lia]. pose proof (nodup_full O) as N. now rewrite E in N.
  - erewrite (leftmost s); [|exact Rr|cbn in F; lia|reflexivity]. cbn [ids]. now destruct (ids a).
Qed.
Arguments next_ok {H s t xs c l u r} _ _ _.
Lemma up_prev k s : forall fuel c t u, rep k None (Nd (plug c t) s Lf) -> NoDup (ids (Nd (plug c t) s Lf)) -> bptr t = Some u -> S (length c) < fuel ->
  loop fuel (fun u => let* p := get (pp k) u in match p with None => Some (inr None) | Some p => let* r := get (pr k) p in if peq r (Some u) then Some (inr (Some p)) else Some (inl p) end) u =
  Some (match lids c with [] => None | _ => Some (last (lids c) s) end).
Proof.
  induction fuel as [|fuel IH]; intros c t u R N Eu F; [lia|]. cbn [loop]. pose proof (rep_pos R) as [R1 Rc]. destruct t as [|a u' b]; [discriminate|]. injection Eu as ->. destruct R1 as ([C1 C2 C3] & _). rewrite C3.
  destruct c as [|f c].
  - cbn [app cpar fid obind]. cbn [app repc] in Rc. destruct Rc as ([D1 D2 D3] & _). rewrite D2. cbn [obind bptr peq]. destruct fuel; [cbn in F; lia|]. cbn [loop]. rewrite D3. reflexivity.
  - cbn [app cpar obind]. cbn [app] in Rc. destruct f as [i r|l i]; cbn [repc fid] in *; destruct Rc as ([D1 D2 D3] & Rt & Rc); rewrite D2; cbn [obind bptr].
    + rewrite peq_neq. 2: { intros E. apply bptr_in in E. cbn [ids] in N. apply NoDup_app_remove_r in N. apply NoDup_plug in N as (_ & D & _). apply (D u); [right; apply in_or_app; now left|cbn; apply in_or_app; right; now left]. }
      rewrite (IH c (Nd (Nd a u b) i r) i); [rewrite lids_cons; cbn [flids]; rewrite app_nil_r; reflexivity|exact R|exact N|reflexivity|cbn in F; lia].
    + rewrite peq_refl. rewrite lids_cons. cbn [flids]. rewrite app_assoc, last_last. destruct ((lids c ++ ids l) ++ [i]) eqn:E; [now apply app_eq_nil in E as [_ ?]|reflexivity].
Qed.
Lemma last_app_ne {A} (X Y : list A) d : Y <> [] -> last (X ++ Y) d = last Y d.
Proof. intros N. induction X as [|x X IH]; [auto|]. cbn. destruct (X ++ Y) eqn:E; [apply app_eq_nil in E as [_ ?]; contradiction|]. exact IH. Qed.
Lemma prev_ok H s t xs c l u r : wfH H -> okt H s t xs -> t = plug c (Nd l u r) -> t_prev H u = Some (match lids c ++ ids l with [] => None | us => Some (last us s) end).
Proof.
  intros W O E. pose proof (fuel_ok W O) as F. rewrite E, plug_size in F. cbn [bsize] in F. pose proof (o_rep O) as R. rewrite E in R. pose proof (rep_pos R) as [([C1 C2 C3] & Rl & Rr) Rc]. unfold t_prev. rewrite C1. cbn [obind]. destruct l as [|a v b]; cbn [bptr].
  - erewrite (@up_prev _ s _ c (Nd Lf u r)); [cbn [ids]; rewrite app_nil_r; destruct (lids c); reflexivity|exact R| |reflexivity|pose proof (len_cids c); lia]. pose proof (nodup_full O) as N. now rewrite E in N.
  - erewrite (rightmost s); [|exact Rl|cbn in F; lia|reflexivity]. rewrite <- (@last_app_ne _ (lids c) (ids (Nd a v b)) s) by (cbn; destruct (ids a); discriminate). destruct (lids c ++ ids (Nd a v b)) eqn:Ex; [apply app_eq_nil in Ex as [_ Ex]; cbn in Ex; destruct (ids a); discriminate|reflexivity].
Qed.
Lemma prev_end H s t xs : wfH H -> okt H s t xs -> t_prev H s = Some (match ids t with [] => None | us => Some (last us s) end).
Proof.
  intros W O. pose proof (fuel_ok W O) as F. destruct (o_rep O) as ([C1 C2 C3] & Rt & _). unfold t_prev. rewrite C1. cbn [obind]. destruct t as [|a v b]; cbn [bptr].
  - destruct (fuel_of H) as [|n]; [lia|]. cbn [loop]. rewrite C3. reflexivity.
  - erewrite (rightmost s); [|exact Rt|cbn in F; lia|reflexivity]. cbn. destruct (ids a); reflexivity.
Qed.

(** ** The contents are the tree *)
Lemma walk_det (H : th) e u us vs : walk H e u us -> walk H e u vs -> us = vs.
Proof.
  intros W. revert vs. induction W as [|u v us N E W IH]; intros vs W2; inversion W2; subst; auto; try contradiction. rewrite E in H1. injection H1 as <-. f_equal. auto.
Qed.
Lemma walk_ids H s t xs : wfH H -> okt H s t xs -> forall us2 us1, ids t = us1 ++ us2 -> walk H s (hd s us2) us2.
Proof.
  intros W O. induction us2 as [|u us2 IH]; intros us1 E; cbn [hd]; [constructor|]. assert (Iu : In u (ids t)) by (rewrite E; apply in_or_app; right; now left).
  destruct (find_ctx t u Iu) as (c & l & r & Et). assert (N : NoDup (ids t)) by exact (nodup_t O).
  assert (Eu : us2 = ids r ++ rids c). { rewrite Et, ids_plug in E, N. cbn [ids] in E, N. rewrite <- !app_assoc in E, N. rewrite app_assoc in E, N. cbn in E, N. clear - E N. revert us1 E N. generalize (lids c ++ ids l) as A, (ids r ++ rids c) as B. induction A as [|x A IH]; intros B us1 E N; destruct us1 as [|y us1]; cbn in E, N.
    - now injection E. - injection E as -> ->. apply NoDup_cons_iff in N as [N _]. exfalso. apply N, in_or_app. right. now left. - injection E as -> E. apply NoDup_cons_iff in N as [N _]. exfalso. apply N, in_or_app. right. now left. - injection E as -> E. apply NoDup_cons_iff in N as [_ N]. exact (IH B us1 E N). }
  econstructor; [intros ->; exact (s_notin O Iu)|exact (next_ok W O Et)|]. rewrite <- Eu. apply (IH (us1 ++ [u])). now rewrite <- app_assoc.
Qed.
Lemma contents_ok H s t xs z : wfH H -> okt H s t xs -> contents H (TR s z) (ids t) xs.
Proof. intros W O. exists (hd s (ids t)). split; [exact (begin_ok z W O)|]. split; [exact (walk_ids W O (ids t) [] eq_refl)|exact (o_keys O)]. Qed.
Lemma map_Some_inj {A} (xs ys : list A) : map Some xs = map Some ys -> xs = ys.
Proof. revert ys. induction xs; destruct ys; cbn; try discriminate; auto. intros [= -> E]. f_equal. auto. Qed.
Lemma contents_inv H s t xs z us ys : wfH H -> okt H s t xs -> contents H (TR s z) us ys -> us = ids t /\ ys = xs.
Proof.
  intros W O (b & Eb & Wk & Ek). rewrite (begin_ok z W O) in Eb. injection Eb as <-. pose proof (walk_ids W O (ids t) [] eq_refl) as Wk2. assert (us = ids t) by exact (walk_det Wk Wk2). subst us. split; [auto|]. pose proof (o_keys O) as Ko. unfold keys in Ko. rewrite Ko in Ek. symmetry. now apply map_Some_inj.
Qed.
End Treap.
Arguments rep_lt {K H par t i} _ _ _.
Arguments ids_small {K H par t} _ _ _.
Arguments pos_step {K H t xs c l u r xa xm xb} _.
Arguments next_ok {K H s t xs c l u r} _ _ _.
Arguments prev_ok {K H s t xs c l u r} _ _ _.
Arguments rep_pos {k s c t} _.
