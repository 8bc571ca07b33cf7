(** Treap: the operations that change it. *)
From Coq Require Import Sorting.Sorted.
From Verif Require Import TreapModel TreapRot TreapWalk TreapSearch BaseLemmas ListExtra.
Set Implicit Arguments.

Section Treap.
Context {K : Type}.
Variable eqb ltb : K -> K -> bool.
Variable uniq : bool.
Notation th := (@th K).
Notation ordered := (ordered ltb uniq).
Hypothesis OL : order_laws eqb ltb.

Lemma split_uniq (u : nat) : forall A B A' B', A ++ u :: B = A' ++ u :: B' -> NoDup (A ++ u :: B) -> A = A' /\ B = B'.
Proof.
  induction A as [|x A IH]; intros B A' B' E N; destruct A' as [|y A']; cbn in E, N.
  - injection E as ->. auto.
  - injection E as -> ->. apply NoDup_cons_iff in N as [N _]. exfalso. apply N, in_or_app. right. now left.
  - injection E as -> E. apply NoDup_cons_iff in N as [N _]. exfalso. apply N, in_or_app. right. now left.
  - injection E as -> E. apply NoDup_cons_iff in N as [_ N]. destruct (IH B A' B' E N) as [-> ->]. auto.
Qed.
Lemma app_len_inj {A} (a b c d : list A) : a ++ b = c ++ d -> length a = length c -> a = c /\ b = d.
Proof. revert c. induction a as [|x a IH]; destruct c as [|y c]; cbn; intros E L; try discriminate; auto. injection E as -> E. destruct (IH c E) as [-> ->]; auto. Qed.
Lemma keys_split (H : th) A B xa xb : keys H (A ++ B) (xa ++ xb) -> length A = length xa -> keys H A xa /\ keys H B xb.
Proof. unfold keys. rewrite !map_app. intros E L. apply app_len_inj in E; [auto|now rewrite !map_length]. Qed.

(** ** What an operation on some cells leaves as it was *)
Record ext (xs : list nat) (H H' : th) : Prop := {
  e_len : length (tkey H) <= length (tkey H');
  e_key : forall i, i < length (tkey H) -> get (tkey H') i = get (tkey H) i;
  e_pri : forall i, i < length (tkey H) -> get (tpri H') i = get (tpri H) i;
  e_out : forall i, i < length (tkey H) -> ~ In i xs ->
    get (pl (tk H')) i = get (pl (tk H)) i /\ get (pr (tk H')) i = get (pr (tk H)) i /\ get (pp (tk H')) i = get (pp (tk H)) i }.
Lemma ext_refl xs H : ext xs H H.
Proof. split; auto. Qed.
Lemma ext_trans xs H1 H2 H3 : ext xs H1 H2 -> ext xs H2 H3 -> ext xs H1 H3.
Proof.
  intros [A1 A2 A3 A4] [B1 B2 B3 B4]. split; [lia| | |].
  - intros i L. rewrite B2, A2; auto; lia.
  - intros i L. rewrite B3, A3; auto; lia.
  - intros i L N. destruct (A4 i L N) as (? & ? & ?), (B4 i ltac:(lia) N) as (? & ? & ?). repeat split; congruence.
Qed.
Lemma ext_mono xs ys H H' : ext xs H H' -> (forall i, i < length (tkey H) -> In i xs -> In i ys) -> ext ys H H'.
Proof. intros [A1 A2 A3 A4] I. split; auto. Qed.
Lemma ext_k xs H k : keep_out xs (tk H) k -> ext xs H (with_tk H k).
Proof. intros O. split; cbn; auto. Qed.
Lemma wf_k (H : th) k : wfH H -> same_len (tk H) k -> wfH (with_tk H k).
Proof. intros [A B C D E] (L1 & L2 & L3). split; cbn; auto; congruence. Qed.
Lemma wf_keys (H : th) us xs : keys H us xs -> forall i, In i us -> i < length (tkey H).
Proof.
  intros E i I. unfold keys in E. assert (J : In (tkey_of H i) (map Some xs)) by (rewrite <- E; now apply in_map). apply in_map_iff in J as (x & Ex & _). unfold tkey_of in Ex. destruct (get (tkey H) i) eqn:G; [exact (get_some_lt _ _ G)|discriminate].
Qed.
Lemma keys_ext H H' ys us xs : ext ys H H' -> keys H us xs -> keys H' us xs.
Proof.
  intros E Ke. pose proof (wf_keys Ke) as L. unfold keys in *. rewrite <- Ke. apply map_ext_in. intros i I. unfold tkey_of. rewrite (e_key E); auto.
Qed.
Lemma okt_ext H H' s t xs ys : wfH H -> okt H s t xs -> ext ys H H' -> (forall i, In i (ids t ++ [s]) -> ~ In i ys) -> okt H' s t xs.
Proof.
  intros W [R N P Ke] E D. assert (L : forall i, In i (ids t ++ [s]) -> i < length (tkey H)) by (intros i I; exact (rep_lt W R I)). split; auto.
  - apply (rep_keep (h := tk H)); [|auto]. intros i I. apply (e_out E); auto.
  - rewrite (e_pri E); auto. apply L, in_or_app. right. now left.
  - exact (keys_ext E Ke).
Qed.
(** a new node *)
Lemma new_ext H p v H' n ys : wfH H -> (0 <= p)%Z -> th_new H p v = (H', n) -> wfH H' /\ ext ys H H' /\ n = length (tkey H) /\ length (tkey H') = S n /\
  cell_is (tk H') n None None None /\ get (tpri H') n = Some p /\ get (tkey H') n = Some v.
Proof.
  intros [A B C D E] Hp [= <- <-]. cbn. split; [split; cbn; rewrite ?app_length; cbn; try congruence; try lia|].
  - intros i q G. destruct (Nat.lt_ge_cases i (length (tpri H))) as [L|L]; [rewrite get_app_l in G by auto; eauto|]. rewrite get_app_r in G by auto. destruct (i - length (tpri H)) as [|m]; cbn in G; [congruence|destruct m; discriminate].
  - split; [split; cbn|].
    + rewrite app_length. cbn. lia.
    + intros i L. now rewrite get_app_l.
    + intros i L. rewrite get_app_l; auto. lia.
    + intros i L _. rewrite !get_app_l by lia. auto.
    + split; [auto|]. split; [rewrite app_length; cbn; lia|]. split; [split; cbn; rewrite get_app_r by lia; rewrite ?A, ?B, ?C, Nat.sub_diag; reflexivity|]. rewrite !get_app_r by lia. rewrite D, Nat.sub_diag. auto.
Qed.
Lemma fresh (H : th) s t xs n : wfH H -> okt H s t xs -> length (tkey H) <= n -> ~ In n (ids t ++ [s]).
Proof. intros W O L I. pose proof (rep_lt (par := None) (t := Nd t s Lf) W (o_rep O) I). lia. Qed.

(** ** Insertion *)
Lemma attach_ok k f c n p0 : rep k None (plug (f :: c) Lf) -> NoDup (ids (plug (f :: c) Lf)) -> ~ In n (ids (plug (f :: c) Lf)) -> cell_is k n None None p0 ->
  exists k', (let* k := (if snd (hole f) then set_pl k (fst (hole f)) (Some n) else set_pr k (fst (hole f)) (Some n)) in set_pp k n (Some (fst (hole f)))) = Some k' /\
    rep k' None (plug (f :: c) (Nd Lf n Lf)) /\ keep_out (n :: ids (plug (f :: c) Lf)) k k' /\ same_len k k'.
Proof.
  intros R N Nn [N1 N2 N3]. pose proof (NoDup_plug N) as (_ & _ & Nc). apply plug_rep in R as [_ Rc]. assert (Nn' : ~ In n (cids (f :: c))) by (intros I; apply Nn; rewrite plug_in; auto).
  assert (Df : n <> fid f) by (intros E; apply Nn'; now left). cbn [bptr] in Rc.
  assert (Hf : exists k1, (if snd (hole f) then set_pl k (fst (hole f)) (Some n) else set_pr k (fst (hole f)) (Some n)) = Some k1 /\
       (match f with FL i _ => get (pl k1) i | FR _ i => get (pr k1) i end) = Some (Some n) /\ (forall i, (match f with FL j _ => i <> j | _ => True end) -> get (pl k1) i = get (pl k) i) /\ (forall i, (match f with FR _ j => i <> j | _ => True end) -> get (pr k1) i = get (pr k) i) /\ pp k1 = pp k /\ same_len k k1).
  { pose proof Rc as Rc0. destruct f as [i r|l i]; cbn [repc bptr fid fother hole fst snd] in *; destruct Rc as ([C1 C2 C3] & Rt & Rc).
    - destruct (set_pl_ok k i (Some n) C1) as (k1 & S1 & S2 & S3 & S4 & S5 & S6). exists k1. rewrite S1, S4, S5. split; [auto|]. split; [auto|]. split; [auto|]. split; [auto|]. split; [auto|]. unfold same_len. rewrite S4, S5. auto.
    - destruct (set_pr_ok k i (Some n) C2) as (k1 & S1 & S2 & S3 & S4 & S5 & S6). exists k1. rewrite S1, S4, S5. split; [auto|]. split; [auto|]. split; [auto|]. split; [auto|]. split; [auto|]. unfold same_len. rewrite S4, S5. auto. }
  destruct Hf as (k1 & E1 & F1 & F2 & F3 & F4 & F5). rewrite E1. cbn [obind].
  assert (P1 : get (pp k1) n = Some p0) by (rewrite F4; auto). destruct (set_pp_ok k1 n (Some (fst (hole f))) P1) as (k2 & S1 & S2 & S3 & S4 & S5 & S6). exists k2. split; [exact S1|]. clear S1.
  assert (Eh : fst (hole f) = fid f) by (destruct f; reflexivity). rewrite Eh in S2.
  split; [|split].
  - apply plug_rep. split.
    + cbn [rep bptr cpar]. split; [|auto]. split; [rewrite S4, F2; auto; destruct f; auto|rewrite S5, F3; auto; destruct f; auto|auto].
    + cbn [bptr]. apply (repc_child (h := k) (o := None)); [auto|auto| | | |].
      * intros i Ii. assert (i <> n) by (intros ->; apply Nn'; now right). assert (Nf : i <> fid f) by (intros ->; cbn [cids] in Nc; apply NoDup_cons_iff in Nc; tauto). rewrite S3, F4, S4, S5, F2, F3; auto; destruct f; auto.
      * rewrite S4, S5. destruct f; auto.
      * rewrite S4, S5. destruct f; [apply F3|apply F2]; auto.
      * rewrite S3, F4; auto.
  - intros i Ni. assert (i <> n) by (intros ->; apply Ni; now left). assert (Nf : i <> fid f) by (intros ->; apply Ni; right; rewrite plug_in; left; now left). rewrite S3, F4, S4, S5, F2, F3; auto; destruct f; auto.
  - destruct F5 as (L1 & L2 & L3). unfold same_len. rewrite S4, S5, S6. auto.
Qed.

Lemma plug_s c s t : plug (c ++ [FL s Lf]) t = Nd (plug c t) s Lf.
Proof. rewrite plug_app. reflexivity. Qed.
Lemma ids_s t s : ids (Nd t s Lf) = ids t ++ [s]. Proof. reflexivity. Qed.

(** bubbling a node of the tree up *)
Lemma bubble_up_ok (H : th) s u c l r : wfH H -> rep (tk H) None (plug (c ++ [FL s Lf]) (Nd l u r)) -> NoDup (ids (plug (c ++ [FL s Lf]) (Nd l u r))) -> get (tpri H) s = Some 0%Z ->
  exists k t', bubble_up H s u = Some (with_tk H k) /\ rep k None (Nd t' s Lf) /\ ids t' ++ [s] = ids (plug (c ++ [FL s Lf]) (Nd l u r)) /\ keep_out (ids t' ++ [s]) (tk H) k /\ same_len (tk H) k.
Proof.
  intros W R N Ps. unfold bubble_up, bubble_up_cond.
  assert (Iu : In u (ids (plug (c ++ [FL s Lf]) (Nd l u r)))) by (rewrite plug_in; right; cbn; apply in_or_app; right; now left).
  assert (Ip : forall i, In i (ids (plug (c ++ [FL s Lf]) (Nd l u r))) -> exists p, get (tpri H) i = Some p). { intros i I. apply get_lt. rewrite (w_q W). exact (rep_lt W R I). }
  destruct (Ip u Iu) as (pu & Eu).
  edestruct (@bubble_loop s u (fun k => let* p := get (pp k) u in let* p := p in comp_priority H u p) (ids (plug (c ++ [FL s Lf]) (Nd l u r))) (fuel_of H) (tk H) c l r) as (k' & c' & l' & r' & E & R' & I' & C' & O' & L'); [|exact R|reflexivity|auto| |].
  - intros k c1 l1 r1 R1 E1. apply plug_rep in R1 as [([U1 U2 U3] & _) Rc]. rewrite U3. unfold comp_priority. rewrite Eu. destruct c1 as [|f c1]; cbn [app cpar obind fid].
    + rewrite Ps. cbn [obind]. exists false. split; [|discriminate]. f_equal. apply Z.ltb_ge. exact (w_pos W u Eu).
    + destruct (Ip (fid f)) as (q & Eq); [rewrite <- E1, plug_in; left; now left|]. rewrite Eq. cbn [obind]. eexists. split; [reflexivity|discriminate].
  - pose proof (ids_small W R N) as B. rewrite plug_size in B. pose proof (len_cids (c ++ [FL s Lf])) as B2. rewrite app_length in B2. unfold fuel_of. cbn in *. lia.
  - rewrite E. cbn [obind]. exists k', (plug c' (Nd l' u r')). rewrite plug_s in R', I'. split; [reflexivity|]. split; [auto|]. cbn [ids] in I'. rewrite <- I' in O'. auto.
Qed.
Arguments bubble_up_ok {H s u c l r} _ _ _ _.
Arguments attach_ok {k f c n p0} _ _ _ _.

(** a key is new: the node that is inserted, at its place *)
Definition new_place (x : K) (xa xb : list K) : Prop := (forall a, In a xa -> ltb x a = false /\ (uniq = true -> ltb a x = true)) /\ (forall b, In b xb -> ltb x b = true).
Lemma place_ordered x xa xb : ordered (xa ++ xb) -> new_place x xa xb -> ordered (xa ++ x :: xb).
Proof.
  intros S0 [A B]. apply ordered_app in S0 as (S1 & S2 & S3). apply ordered_app. split; [auto|]. split.
  - constructor; [auto|]. apply Forall_forall. intros b I. specialize (B b I). destruct uniq; [auto|exact (ltb_asym OL _ _ B)].
  - intros a b I [<-|J]; [|exact (S3 a b I J)]. destruct (A a I) as [A1 A2]. destruct uniq; auto.
Qed.
Lemma place_rank x xa xb : new_place x xa xb -> rank_le ltb x (xa ++ xb) = length xa.
Proof. intros [A B]. apply rank_le_split; [intros a I; apply A, I|auto]. Qed.

Lemma insert_ok H s t xs z p x : wfH H -> okt H s t xs -> ordered xs -> (0 <= p)%Z ->
  exists H' z' v b, t_insert eqb ltb uniq H (TR s z) p x = Some (H', TR s z', v, b) /\ wfH H' /\ ext (ids t ++ [s]) H H' /\
   (if b then exists t' xa xb ua ub, okt H' s t' (xa ++ x :: xb) /\ xs = xa ++ xb /\ new_place x xa xb /\ ids t = ua ++ ub /\ length ua = length xa /\ ids t' = ua ++ v :: ub /\ v = length (tkey H) /\ z' = szw (z + 1)
    else uniq = true /\ z' = z /\ okt H' s t xs /\ exists i, get (ids t) i = Some v /\ get xs i = Some x).
Proof.
  intros W O S0 Hp. unfold t_insert. destruct (th_new H p (Some x)) as [H1 n] eqn:En. destruct (new_ext (ids t ++ [s]) W Hp En) as (W1 & X1 & -> & L1 & Cn & Pn & Kn). set (n := length (tkey H)) in *.
  assert (O1 : okt H1 s t xs). { destruct (new_ext [] W Hp En) as (_ & X2 & _). apply (okt_ext W O X2). intros i _ []. }
  unfold insert_node_subtree. assert (Kx : tkey_of H1 n = Some x) by (unfold tkey_of; now rewrite Kn). rewrite Kx. cbn [obind sent].
  destruct (ins_ok OL W1 O1 S0 x) as (w & Ew & Hw). rewrite Ew. cbn [obind]. destruct Hw as [(U & v & -> & Hv)|(f & c' & xa & xb & -> & Hc & Exs & A & B)].
  - exists H1, z, v, false. split; [reflexivity|]. split; [auto|]. split; [auto|]. split; [auto|]. split; [auto|]. split; [auto|exact Hv].
  - assert (Hc1 : exists c1, f :: c' = c1 ++ [FL s Lf] /\ t = plug c1 Lf /\ keys H1 (lids c1) xa /\ keys H1 (rids c1) xb).
    { destruct Hc as [(-> & -> & -> & -> & ->)|(c0 & -> & P)]; [exists []; repeat split|]. exists (f :: c0). split; [auto|]. split; [exact (p_t P)|]. split; [exact (p_a P)|exact (p_b P)]. }
    destruct Hc1 as (c1 & Ec & Et & Ka & Kb). destruct (hole f) as [q toleft] eqn:Eh. cbn [obind].
    assert (Rf : rep (tk H1) None (plug (f :: c') Lf)) by (rewrite Ec, plug_s, <- Et; apply (o_rep O1)).
    assert (If : ids (plug (f :: c') Lf) = ids t ++ [s]) by (rewrite Ec, plug_s, <- Et; reflexivity).
    assert (Fn : ~ In n (ids t ++ [s])) by (apply (fresh W O); unfold n; lia).
    destruct (attach_ok (n := n) (p0 := None) Rf) as (k1 & A1 & A2 & A3 & A4); [rewrite If; exact (o_nodup O1)|rewrite If; exact Fn|exact Cn|]. rewrite Eh in A1. cbn [fst snd] in A1.
    assert (E3 : forall B (g : ph -> option B), (let* k := if toleft then set_pl (tk H1) q (Some n) else set_pr (tk H1) q (Some n) in let* k := set_pp k n (Some q) in g k) = g k1).
    { intros B0 g. destruct (if toleft then set_pl (tk H1) q (Some n) else set_pr (tk H1) q (Some n)) as [k0|]; [cbn [obind] in *; now rewrite A1|discriminate]. }
    rewrite E3. clear E3 A1. rewrite Ec in A2. rewrite If in A3.
    assert (W2 : wfH (with_tk H1 k1)) by exact (wf_k W1 A4).
    assert (Iall : ids (plug (c1 ++ [FL s Lf]) (Nd Lf n Lf)) = (lids c1 ++ n :: rids c1) ++ [s]) by (rewrite plug_s, ids_s, ids_plug; reflexivity).
    assert (It : ids t = lids c1 ++ rids c1) by (rewrite Et, ids_plug; reflexivity).
    assert (N2 : NoDup (ids (plug (c1 ++ [FL s Lf]) (Nd Lf n Lf)))). { rewrite Iall, <- app_assoc. cbn. apply NoDup_Add with (a := n) (l := (ids t ++ [s])); [rewrite It, <- app_assoc; apply Add_app|]. split; [exact (o_nodup O1)|exact Fn]. }
    edestruct (@bubble_up_ok (with_tk H1 k1)) as (k2 & t' & B1 & B2 & B3 & B4 & B5); [exact W2|exact A2|exact N2|exact (o_pri O1)|]. rewrite B1. cbn [obind].
    exists (with_tk H1 k2), (szw (z + 1)), n, true. split; [reflexivity|]. rewrite Iall in B3. assert (It' : ids t' = lids c1 ++ n :: rids c1) by (now apply app_inj_tail in B3). split; [|split].
    + apply wf_k; [auto|]. exact (same_len_trans A4 B5).
    + split; cbn [tkey tpri tk with_tk]; [apply (e_len X1)|apply (e_key X1)|apply (e_pri X1)|]. intros i Li Ni. assert (Hn : i <> n) by (unfold n; lia). destruct (e_out X1 Li Ni) as (Y1 & Y2 & Y3).
      destruct (A3 i) as (Z1 & Z2 & Z3); [intros [|]; congruence|]. destruct (B4 i) as (V1 & V2 & V3); [rewrite It'; rewrite It in Ni; rewrite !in_app_iff in *; cbn in *; intuition congruence|]. cbn [tk with_tk] in *. repeat split; congruence.
    + exists t', xa, xb, (lids c1), (rids c1). split; [|split; [auto|split; [split; auto|split; [auto|split; [exact (keys_len Ka)|auto]]]]]. split.
      * exact B2.
      * rewrite It'. rewrite Iall in N2. exact N2.
      * exact (o_pri O1).
      * rewrite It'. apply keys_app; [exact Ka|]. unfold keys in *. cbn [map]. f_equal; [exact Kx|exact Kb].
Qed.

(** ** Removal: trickle down, then splice *)
Lemma remove_ok (H : th) s c l u r : wfH H -> rep (tk H) None (plug (c ++ [FL s Lf]) (Nd l u r)) -> NoDup (ids (plug (c ++ [FL s Lf]) (Nd l u r))) ->
  exists k1 c1, tricle_down H u = Some (with_tk H k1) /\ rep k1 None (Nd (plug c1 (Nd Lf u Lf)) s Lf) /\ ids (plug c1 (Nd Lf u Lf)) = ids (plug c (Nd l u r)) /\ keep_out (ids (plug (c ++ [FL s Lf]) (Nd l u r))) (tk H) k1 /\ same_len (tk H) k1 /\
  exists k2, splice (with_tk H k1) u = Some (with_tk H k2) /\ rep k2 None (Nd (plug c1 Lf) s Lf) /\ lids c1 = lids c ++ ids l /\ rids c1 = ids r ++ rids c /\ keep_out (ids (plug (c ++ [FL s Lf]) (Nd l u r))) (tk H) k2 /\ same_len (tk H) k2.
Proof.
  intros W R N. set (X := ids (plug (c ++ [FL s Lf]) (Nd l u r))) in *.
  assert (Ip : forall i, In i X -> exists p, get (tpri H) i = Some p). { intros i I. apply get_lt. rewrite (w_q W). exact (rep_lt W R I). }
  destruct (c ++ [FL s Lf]) as [|f c0] eqn:Ec; [destruct c; discriminate|].
  destruct (@tricle_loop K H u X (fuel_of H) (tk H) f c0 l r) as (k1 & c1 & E1 & R1 & I1 & O1 & L1); [|exact R|reflexivity|exact N| |].
  { intros a b Ia Ib. destruct (Ip a Ia) as (pa & Ea), (Ip b Ib) as (pb & Eb). unfold comp_priority. rewrite Ea, Eb. cbn. eauto. }
  { pose proof (ids_small W R N) as B. rewrite plug_size in B. cbn [bsize] in B. unfold fuel_of. lia. }
  exists k1, (c1 ++ c). unfold tricle_down. rewrite E1. cbn [obind]. split; [reflexivity|]. rewrite <- Ec, app_assoc, plug_s in R1. split; [exact R1|].
  assert (I1' : ids (plug (c1 ++ c) (Nd Lf u Lf)) = ids (plug c (Nd l u r))). { rewrite <- Ec, app_assoc, plug_s in I1. unfold X in I1. rewrite <- Ec, plug_s in I1. cbn [ids] in I1. now apply app_inj_tail in I1. }
  split; [exact I1'|]. split; [exact O1|]. split; [exact L1|].
  assert (N1 : NoDup (ids (plug (c1 ++ f :: c0) (Nd Lf u Lf)))) by (rewrite I1; exact N).
  assert (R1' : rep k1 None (plug (c1 ++ f :: c0) (Nd Lf u Lf))) by (rewrite <- Ec, app_assoc, plug_s; exact R1).
  destruct (c1 ++ f :: c0) as [|g c2] eqn:Eg; [destruct c1; discriminate|].
  destruct (@splice_ok K (with_tk H k1) u g c2 R1' N1) as (k2 & E2 & R2 & O2 & L2). exists k2. split; [exact E2|]. rewrite <- Eg, <- Ec, app_assoc, plug_s in R2. split; [exact R2|].
  assert (Hs : lids (c1 ++ c) = lids c ++ ids l /\ rids (c1 ++ c) = ids r ++ rids c).
  { rewrite !ids_plug in I1'. cbn [ids] in I1'. rewrite <- !app_assoc in I1'. cbn [app] in I1'. rewrite (app_assoc (lids c)) in I1'. assert (N3 : NoDup (lids (c1 ++ c) ++ u :: rids (c1 ++ c))). { rewrite I1', <- app_assoc. unfold X in N. rewrite <- Ec, plug_s in N. cbn [ids] in N. apply NoDup_app_remove_r in N. rewrite ids_plug in N. cbn [ids] in N. rewrite <- app_assoc in N. exact N. }
    exact (split_uniq _ _ _ _ _ I1' N3). }
  destruct Hs as [Hs1 Hs2]. split; [exact Hs1|]. split; [exact Hs2|]. rewrite I1 in O2. split; [exact (keep_out_trans O1 O2)|exact (same_len_trans L1 L2)].
Qed.
Arguments remove_ok {H s c l u r} _ _ _.

Lemma erase_at_ok H s t xs z u c l r xa x xb : wfH H -> okt H s t xs -> t = plug c (Nd l u r) -> xs = xa ++ x :: xb -> length (lids c ++ ids l) = length xa ->
  exists H' t', t_erase_at H (TR s z) u = Some (H', TR s (szw (z - 1)), hd s (ids r ++ rids c)) /\ wfH H' /\ ext (ids t ++ [s]) H H' /\ okt H' s t' (xa ++ xb) /\ ids t' = (lids c ++ ids l) ++ (ids r ++ rids c).
Proof.
  intros W O Et Exs El. pose proof (o_rep O) as R. pose proof (nodup_full O) as N. rewrite Et, <- plug_s in R, N. destruct (remove_ok W R N) as (k1 & c1 & E1 & R1 & I1 & O1 & L1 & k2 & E2 & R2 & Hl & Hr & O2 & L2).
  assert (Iu : In u (ids t)) by (rewrite Et, plug_in; right; cbn; apply in_or_app; right; now left).
  unfold t_erase_at, t_end. cbn [sent]. assert (Us : u <> s) by (intros ->; exact (s_notin O Iu)). apply Nat.eqb_neq in Us. rewrite Us, E1. cbn [obind].
  assert (O' : okt (with_tk H k1) s (plug c1 (Nd Lf u Lf)) xs). { split; [exact R1|rewrite I1, <- Et; exact (o_nodup O)|exact (o_pri O)|rewrite I1, <- Et; exact (o_keys O)]. }
  rewrite (next_ok (wf_k W L1) O' eq_refl). cbn [ids app obind]. rewrite E2. cbn [obind]. rewrite Hr. unfold inc_size. cbn [sent tsize]. replace (z + -1)%Z with (z - 1)%Z by lia.
  exists (with_tk H k2), (plug c1 Lf). split; [reflexivity|]. rewrite plug_s, <- Et in O2. split; [exact (wf_k W L2)|]. split; [exact (ext_k _ O2)|]. assert (It : ids (plug c1 Lf) = (lids c ++ ids l) ++ (ids r ++ rids c)) by (rewrite ids_plug, Hl, Hr; reflexivity). split; [|exact It].
  assert (It0 : ids t = (lids c ++ ids l) ++ u :: ids r ++ rids c) by (rewrite Et, ids_plug; cbn [ids]; rewrite <- !app_assoc; reflexivity).
  split; [exact R2| |exact (o_pri O)|].
  - rewrite It. pose proof (o_nodup O) as No. rewrite It0, <- app_assoc in No. cbn in No. apply NoDup_remove_1 in No. rewrite <- app_assoc. exact No.
  - rewrite It. pose proof (o_keys O) as Ko. rewrite It0, Exs in Ko. apply keys_split in Ko as [K1 K2]; [|exact El]. apply keys_cons_inv in K2 as (y & ys & E0 & _ & K2). injection E0 as <- <-. exact (keys_app K1 K2).
Qed.

(** ** Splitting *)
Lemma graft_ok k u r C l d p0 : rep k None (plug (FL u r :: C) l) -> NoDup (ids (plug (FL u r :: C) l)) -> ~ In d (ids (plug (FL u r :: C) l)) -> cell_is k d None None p0 ->
  exists k', (let* lu := get (pl k) u in let* k := set_pl k d lu in let* k := set_pp k d (Some u) in let* k := set_pl k u (Some d) in set_pp_opt k lu (Some d)) = Some k' /\
    rep k' None (plug (FL u r :: C) (Nd l d Lf)) /\ keep_out (d :: ids (plug (FL u r :: C) l)) k k' /\ same_len k k'.
Proof.
  intros R N Nd0 [N1 N2 N3]. pose proof (NoDup_plug N) as (Nl & D & Nc). apply plug_rep in R as [Rl Rc]. cbn [cpar fid] in Rl. pose proof Rc as Rc0. cbn [repc] in Rc. destruct Rc as ([C1 C2 C3] & Rr & Rc). rewrite C1. cbn [obind].
  assert (Ndc : ~ In d (cids (FL u r :: C))) by (intros I; apply Nd0; rewrite plug_in; auto). assert (Ndl : ~ In d (ids l)) by (intros I; apply Nd0; rewrite plug_in; auto). assert (Du : d <> u) by (intros ->; apply Ndc; now left). assert (Nul : ~ In u (ids l)) by (intros I; apply (D u); [now left|auto]).
  destruct (set_pl_ok k d (bptr l) N1) as (k1 & S1 & S2 & S3 & S4 & S5 & S6). rewrite S1. cbn [obind]. clear S1.
  assert (G1 : get (pp k1) d = Some p0) by (rewrite S5; auto). destruct (set_pp_ok k1 d (Some u) G1) as (k2 & T1 & T2 & T3 & T4 & T5 & T6). rewrite T1. cbn [obind]. clear T1.
  assert (G2 : get (pl k2) u = Some (bptr l)) by (rewrite T4, S3; auto). destruct (set_pl_ok k2 u (Some d) G2) as (k3 & V1 & V2 & V3 & V4 & V5 & V6). rewrite V1. cbn [obind]. clear V1.
  destruct (@set_pp_opt_ok k3 (bptr l) (Some d)) as (k4 & X1 & X2 & X3 & X4 & X5 & X6). { intros i Ei. apply bptr_in in Ei. destruct (rep_cell Rl Ei) as (? & ? & y & Cy). exists y. rewrite V5, T3, S5; [exact (ci_p Cy)|]. intros ->; auto. }
  exists k4. split; [exact X1|]. clear X1. assert (Bd : bptr l <> Some d) by (intros E; apply bptr_in in E; auto). assert (Bu : bptr l <> Some u) by (intros E; apply bptr_in in E; auto).
  assert (Kl : forall i, i <> d -> i <> u -> get (pl k4) i = get (pl k) i) by (intros i A B; rewrite X4, V3, T4, S3; auto). assert (Kr : forall i, get (pr k4) i = get (pr k) i) by (intros i; rewrite X5, V4, T5, S4; auto). assert (Kp : forall i, i <> d -> bptr l <> Some i -> get (pp k4) i = get (pp k) i) by (intros i A B; rewrite X3, V5, T3, S5; auto).
  split; [|split].
  - apply plug_rep. cbn [cpar fid bptr]. split.
    + cbn [rep bptr]. split; [split|split; [|auto]].
      * rewrite X4, V3, T4; auto.
      * rewrite Kr. auto.
      * rewrite X3, V5; auto.
      * apply (rep_reroot (h := k) (par := Some u)); [exact Nl|exact Rl|exact X2| |].
        -- intros i I. split; [apply Kl; intros ->; auto|apply Kr].
        -- intros i I B. apply Kp; auto. intros ->; auto.
    + apply (repc_child (h := k) (o := bptr l)); [exact Rc0|exact Nc| | | |].
      * intros i I. assert (i <> d) by (intros ->; apply Ndc; now right). assert (i <> u) by (intros ->; cbn [cids] in Nc; apply NoDup_cons_iff in Nc; tauto). split; [apply Kl; auto|]. split; [apply Kr|]. apply Kp; auto. intros E. apply bptr_in in E. apply (D i); [now right|auto].
      * cbn [fid]. rewrite X4. auto.
      * apply Kr.
      * cbn [fid]. apply Kp; auto.
  - intros i Ni. assert (i <> d) by (intros ->; apply Ni; now left). assert (Niu : ~ In i (ids (plug (FL u r :: C) l))) by (intros I; apply Ni; now right). rewrite plug_in in Niu. assert (i <> u) by (intros ->; apply Niu; left; now left). split; [apply Kl; auto|]. split; [apply Kr|]. apply Kp; auto. intros E. apply bptr_in in E. apply Niu. now right.
  - unfold same_len. rewrite X4, X5, X6, V4, V5, V6, T4, T5, T6, S4, S5, S6. auto.
Qed.
Arguments graft_ok {k u r C l d p0} _ _ _ _.

Lemma force_ok (H : th) s u c l r : wfH H -> rep (tk H) None (plug (c ++ [FL s Lf]) (Nd l u r)) -> NoDup (ids (plug (c ++ [FL s Lf]) (Nd l u r))) ->
  exists k l' r', bubble_up_force H s u = Some (with_tk H k) /\ rep k None (Nd (Nd l' u r') s Lf) /\ ids l' ++ u :: ids r' ++ [s] = ids (plug (c ++ [FL s Lf]) (Nd l u r)) /\ keep_out (ids (plug (c ++ [FL s Lf]) (Nd l u r))) (tk H) k /\ same_len (tk H) k.
Proof.
  intros W R N. unfold bubble_up_force, bubble_up_cond.
  destruct (@bubble_loop s u (fun k => let* p := get (pp k) u in Some (negb (peq p (Some s)))) (ids (plug (c ++ [FL s Lf]) (Nd l u r))) (fuel_of H) (tk H) c l r) as (k' & c' & l' & r' & E & R' & I' & C' & O' & L'); [|exact R|reflexivity|auto| |].
  - intros k c1 l1 r1 R1 E1. apply plug_rep in R1 as [([U1 U2 U3] & _) Rc]. rewrite U3. cbn [obind]. eexists. split; [reflexivity|]. intros Hb ->. cbn [app cpar fid peq] in Hb. rewrite Nat.eqb_refl in Hb. discriminate.
  - pose proof (ids_small W R N) as B. rewrite plug_size in B. pose proof (len_cids (c ++ [FL s Lf])) as B2. rewrite app_length in B2. unfold fuel_of. cbn in *. lia.
  - rewrite E. cbn [obind]. assert (Ec : c' = []).
    { destruct c' as [|f c']; [auto|]. pose proof R' as R2. apply plug_rep in R2 as [([U1 U2 U3] & _) Rc]. rewrite U3 in C'. cbn [obind app cpar] in C'. injection C' as C'. apply negb_false_iff, Nat.eqb_eq in C'. rewrite <- I' in N. pose proof (NoDup_plug N) as (_ & _ & Nc). cbn [app cids] in Nc. apply NoDup_cons_iff in Nc as [Nc _]. exfalso. apply Nc. rewrite C'. apply in_or_app. right. clear. induction c' as [|g c IH]; cbn; [now left|]. right. apply in_or_app. now right. }
    subst c'. exists k', l', r'. split; [reflexivity|]. cbn [app] in R'. split; [exact R'|]. split; [|auto]. rewrite <- I'. cbn [app plug fold_left fill ids]. rewrite <- app_assoc. reflexivity.
Qed.
Arguments force_ok {H s u c l r} _ _ _.

Lemma cell_lt k i l r p : cell_is k i l r p -> i < length (pl k) /\ i < length (pr k) /\ i < length (pp k).
Proof. intros [A B C]. repeat split; eapply get_some_lt; eauto. Qed.

Lemma split_ok H s t xs z u r C l ua ub xa xb : wfH H -> okt H s t xs -> Nd t s Lf = plug (FL u r :: C) l -> (exists c, FL u r :: C = c ++ [FL s Lf]) ->
  ua = lids C ++ ids l -> ub ++ [s] = u :: ids r ++ rids C -> xs = xa ++ xb -> length xa = length ua ->
  exists H' s2 tl tr, t_split H (TR s z) u = Some (H', TR s z, TR s2 0) /\ wfH H' /\ ext (ids t ++ [s]) H H' /\ length (tkey H) <= s2 /\
    okt H' s tr xb /\ okt H' s2 tl xa /\ ids tr = ub /\ ids tl = ua.
Proof.
  intros W O Et (c & Ec) -> Eub Exs Exa. unfold t_split. destruct (th_new H max_priority None) as [H1 d] eqn:En. assert (Hp : (0 <= max_priority)%Z) by (unfold max_priority; lia). destruct (new_ext (ids t ++ [s]) W Hp En) as (W1 & X1 & Ed & L1 & Cd & Pd & Kd).
  assert (O1 : okt H1 s t xs). { destruct (new_ext [] W Hp En) as (_ & X2 & _). apply (okt_ext W O X2). intros i _ []. }
  assert (Fd : ~ In d (ids t ++ [s])) by (apply (fresh W O); lia).
  assert (If : ids (plug (FL u r :: C) l) = ids t ++ [s]) by (rewrite <- Et; reflexivity).
  assert (It : ids t ++ [s] = (lids C ++ ids l) ++ ub ++ [s]) by (rewrite <- If, ids_plug, lids_cons, rids_cons; cbn [flids frids]; rewrite Eub, app_nil_r, <- !app_assoc; reflexivity).
  destruct (graft_ok (k := tk H1) (d := d) (p0 := None) (l := l) (u := u) (r := r) (C := C)) as (k1 & E1 & R1 & O2 & L2); [rewrite <- Et; apply (o_rep O1)|rewrite If; apply (o_nodup O1)|rewrite If; exact Fd|exact Cd|].
  destruct (get (pl (tk H1)) u) as [lu|]; [cbn [obind] in E1 |- *|discriminate]. destruct (set_pl (tk H1) d lu) as [ka|]; [cbn [obind] in E1 |- *|discriminate]. destruct (set_pp ka d (Some u)) as [kb|]; [cbn [obind] in E1 |- *|discriminate]. destruct (set_pl kb u (Some d)) as [kc|]; [cbn [obind] in E1 |- *|discriminate]. rewrite E1. cbn [obind]. clear E1 ka kb kc lu. cbn [sent].
  rewrite If in O2.
  assert (Ig : ids (plug (FL u r :: C) (Nd l d Lf)) = (lids C ++ ids l) ++ d :: ub ++ [s]) by (rewrite ids_plug, lids_cons, rids_cons; cbn [flids frids ids]; rewrite Eub, app_nil_r, <- !app_assoc; reflexivity).
  assert (Ng : NoDup ((lids C ++ ids l) ++ d :: ub ++ [s])). { apply NoDup_Add with (a := d) (l := (ids t ++ [s])); [rewrite It; apply Add_app|]. split; [exact (o_nodup O1)|exact Fd]. }
  assert (W2 : wfH (with_tk H1 k1)) by exact (wf_k W1 L2).
  rewrite Ec in R1, Ig. destruct (@force_ok (with_tk H1 k1) s d c l Lf) as (k2 & l' & r' & E3 & R3 & I3 & O3 & L3); [exact W2|exact R1|rewrite Ig; exact Ng|]. rewrite E3. cbn [obind]. clear E3. rewrite Ig in I3, O3. cbn [tk with_tk] in O3, L3 |- *.
  assert (Hs : ids l' = lids C ++ ids l /\ ids r' ++ [s] = ub ++ [s]) by (apply (split_uniq d); [exact I3|rewrite I3; exact Ng]). destruct Hs as [Il Ir]. apply app_inj_tail in Ir as [Ir _].
  destruct R3 as ([Cs1 Cs2 Cs3] & ([Cd1 Cd2 Cd3] & Rl & Rr) & _). cbn [bptr] in *. rewrite Cd1. cbn [obind]. rewrite Cd2. cbn [obind].
  rewrite <- Il, <- Ir in Ng. assert (Nds : d <> s). { intros ->. apply Fd, in_or_app. right. now left. }
  apply NoDup_remove in Ng as [Ng Ng2]. apply NoDup_app_iff in Ng as (Nl & Nrs & Dlr). pose proof (NoDup_app_remove_r _ _ Nrs) as Nr.
  assert (Ns : ~ In s (ids r') /\ ~ In s (ids l')). { split; [|intros I; apply (Dlr s I), in_or_app; right; now left]. apply NoDup_app_iff in Nrs as (_ & _ & D). intros I. apply (D s I). now left. }
  destruct Ns as [Nsr Nsl].
  destruct (set_pl_ok k2 s (bptr r') Cs1) as (k3 & S1 & S2 & S3 & S4 & S5 & S6). rewrite S1. cbn [obind]. clear S1.
  destruct (@set_pp_opt_ok k3 (bptr r') (Some s)) as (k4 & T1 & T2 & T3 & T4 & T5 & T6). { intros i Ei. apply bptr_in in Ei. destruct (rep_cell Rr Ei) as (? & ? & y & Cy). exists y. rewrite S5. exact (ci_p Cy). }
  rewrite T1. cbn [obind]. clear T1.
  destruct (@set_pp_opt_ok k4 (bptr l') None) as (k5 & V1 & V2 & V3 & V4 & V5 & V6). { intros i Ei. apply bptr_in in Ei. destruct (rep_cell Rl Ei) as (? & ? & y & Cy). exists y. rewrite T3, S5; [exact (ci_p Cy)|]. intros E. apply bptr_in in E. apply (Dlr i Ei), in_or_app. now left. }
  rewrite V1. cbn [obind]. clear V1. unfold tr_new.
  assert (L5 : same_len (tk H1) k5). { apply (same_len_trans L2). apply (same_len_trans L3). unfold same_len. rewrite V4, V5, V6, T4, T5, T6, S4, S5, S6. auto. }
  assert (W5 : wfH (with_tk (with_tk H1 k1) k5)) by exact (wf_k W1 L5).
  destruct (th_new (with_tk (with_tk (with_tk H1 k1) k2) k5) 0 None) as [H6 s2] eqn:En2. change (with_tk (with_tk (with_tk H1 k1) k2) k5) with (with_tk H1 k5) in En2.
  destruct (@new_ext (with_tk H1 k5) 0 None H6 s2 [] W5 (Z.le_refl 0) En2) as (W6 & X6 & Es2 & L6 & C2 & P2 & K2). cbn [tkey with_tk] in Es2. cbn [sent obind].
  destruct C2 as [C21 C22 C23]. destruct (set_pl_ok (tk H6) s2 (bptr l') C21) as (k7 & Y1 & Y2 & Y3 & Y4 & Y5 & Y6). rewrite Y1. cbn [obind]. clear Y1.
  assert (Lk : forall i, In i ((ids l' ++ d :: ids r' ++ [s])) -> i < length (tkey H1)). { intros i I. rewrite L1. rewrite in_app_iff in I. cbn [In] in I. assert (J : In i (ids t ++ [s]) \/ i = d). { rewrite It, <- Il, <- Ir. rewrite !in_app_iff in *. cbn [In] in *. intuition. } destruct J as [J| ->]; [|lia]. pose proof (rep_lt (t := Nd t s Lf) W (o_rep O) J). lia. }
  assert (X6' : forall i, i < length (tkey H1) -> get (pl (tk H6)) i = get (pl k5) i /\ get (pr (tk H6)) i = get (pr k5) i /\ get (pp (tk H6)) i = get (pp k5) i). { intros i Li. apply (e_out X6); auto. }
  destruct (@set_pp_opt_ok k7 (bptr l') (Some s2)) as (k8 & Z1 & Z2 & Z3 & Z4 & Z5 & Z6). { intros i Ei. apply bptr_in in Ei as Ii. exists None. rewrite Y5. destruct (X6' i) as (_ & _ & ->); [apply Lk, in_or_app; auto|]. apply V2, Ei. }
  rewrite Z1. cbn [obind]. clear Z1.
  assert (Ns2 : forall i, In i (ids l' ++ d :: ids r' ++ [s]) -> i <> s2) by (intros i I ->; apply Lk in I; lia).
  assert (Il' : forall i, In i (ids l') -> i <> s2 /\ i <> s /\ i < length (tkey H1) /\ bptr r' <> Some i). { intros i I. split; [apply Ns2, in_or_app; auto|]. split; [intros ->; auto|]. split; [apply Lk, in_or_app; auto|]. intros E. apply bptr_in in E. apply (Dlr i I), in_or_app. auto. }
  assert (Ir' : forall i, In i (ids r') -> i <> s2 /\ i <> s /\ i < length (tkey H1) /\ bptr l' <> Some i). { intros i I. split; [apply Ns2, in_or_app; right; right; apply in_or_app; auto|]. split; [intros ->; auto|]. split; [apply Lk, in_or_app; right; right; apply in_or_app; auto|]. intros E. apply bptr_in in E. apply (Dlr i E), in_or_app. auto. }
  assert (Ls : s <> s2 /\ s < length (tkey H1)) by (split; [apply Ns2|apply Lk]; apply in_or_app; right; right; apply in_or_app; right; now left). destruct Ls as [Ls1 Ls2].
  assert (Bs : bptr r' <> Some s /\ bptr l' <> Some s) by (split; intros E; apply bptr_in in E; auto). destruct Bs as [Bs1 Bs2].
  assert (Bs3 : bptr l' <> Some s2) by (intros E; apply bptr_in in E; apply Il' in E; tauto).
  assert (X8 : ext (ids t ++ [s]) H (with_tk H6 k8)).
  { split; cbn [tkey tpri tk with_tk].
    - rewrite L6. cbn in *. lia.
    - intros i Li. rewrite (e_key X6) by (cbn; lia). cbn. apply (e_key X1 Li).
    - intros i Li. rewrite (e_pri X6) by (cbn; lia). cbn. apply (e_pri X1 Li).
    - intros i Li Ni. assert (Nid : i <> d) by (intros ->; lia). assert (Lik : i < length (tkey H1)) by lia. assert (Nis : i <> s2) by lia. destruct (e_out X1 Li Ni) as (A1 & A2 & A3). destruct (O2 i) as (A4 & A5 & A6); [intros [|]; congruence|]. destruct (O3 i) as (A7 & A8 & A9); [intros I; apply Ni; rewrite It; rewrite !in_app_iff in *; cbn [In] in I; rewrite in_app_iff in I; intuition congruence|]. cbn [tk with_tk] in *. destruct (X6' i Lik) as (A10 & A11 & A12).
      assert (Q1 : bptr l' <> Some i). { intros E. apply bptr_in in E. rewrite Il in E. apply Ni. rewrite It. apply in_or_app. auto. } assert (Q2 : bptr r' <> Some i). { intros E. apply bptr_in in E. rewrite Ir in E. apply Ni. rewrite It. apply in_or_app. right. apply in_or_app. auto. } assert (Q3 : i <> s) by (intros ->; apply Ni, in_or_app; right; now left).
      split; [|split].
      + rewrite Z4, Y3, A10, V4, T4, S3; auto. congruence.
      + rewrite Z5, Y4, A11, V5, T5, S4. congruence.
      + rewrite Z3, Y5, A12, V3, T3, S5; auto. congruence. }
  exists (with_tk H6 k8), s2, l', r'. split; [reflexivity|]. split; [|split; [exact X8|split; [lia|]]].
  { apply wf_k; [exact W6|]. unfold same_len. rewrite Z4, Z5, Z6, Y4, Y5, Y6. auto. }
  assert (Kx : keys (with_tk H6 k8) (ids l') xa /\ keys (with_tk H6 k8) (ids r') xb).
  { pose proof (keys_ext X8 (o_keys O)) as Kt. assert (It0 : ids t = ids l' ++ ids r') by (rewrite Il, Ir; rewrite app_assoc in It; now apply app_inj_tail in It). rewrite It0, Exs in Kt. apply keys_split in Kt; [exact Kt|]. rewrite Il. auto. }
  destruct Kx as [Kxl Kxr]. split; [|split; [|split; [exact Ir|exact Il]]].
  - split; [|rewrite Ir in *; exact Nrs| |exact Kxr].
    + cbn [rep bptr tk with_tk]. split; [split|split; [|auto]].
      * rewrite Z4, Y3 by auto. destruct (X6' s Ls2) as (-> & _ & _). rewrite V4, T4. auto.
      * rewrite Z5, Y4. destruct (X6' s Ls2) as (_ & -> & _). rewrite V5, T5, S4. auto.
      * rewrite Z3, Y5 by auto. destruct (X6' s Ls2) as (_ & _ & ->). rewrite V3, T3, S5; auto.
      * apply (rep_reroot (h := k2) (par := Some d)); [exact Nr|exact Rr| | |].
        -- intros i Ei. pose proof (bptr_in _ Ei) as Ii. destruct (Ir' i Ii) as (Q1 & Q2 & Q3 & Q4). rewrite Z3, Y5 by auto. destruct (X6' i Q3) as (_ & _ & ->). rewrite V3 by auto. apply T2, Ei.
        -- intros i Ii. destruct (Ir' i Ii) as (Q1 & Q2 & Q3 & Q4). destruct (X6' i Q3) as (A10 & A11 & A12). split; [rewrite Z4, Y3, A10, V4, T4, S3; auto|rewrite Z5, Y4, A11, V5, T5, S4; auto].
        -- intros i Ii Bi. destruct (Ir' i Ii) as (Q1 & Q2 & Q3 & Q4). destruct (X6' i Q3) as (A10 & A11 & A12). rewrite Z3, Y5, A12, V3, T3, S5; auto.
    + cbn [tpri with_tk]. rewrite (e_pri X6) by (cbn; lia). cbn. exact (o_pri O1).
  - split; [| | |exact Kxl].
    + cbn [rep bptr tk with_tk]. split; [split|split; [|auto]].
      * rewrite Z4. auto.
      * rewrite Z5, Y4. auto.
      * rewrite Z3, Y5; auto.
      * apply (rep_reroot (h := k2) (par := Some d)); [exact Nl|exact Rl|exact Z2| |].
        -- intros i Ii. destruct (Il' i Ii) as (Q1 & Q2 & Q3 & Q4). destruct (X6' i Q3) as (A10 & A11 & A12). split; [rewrite Z4, Y3, A10, V4, T4, S3; auto|rewrite Z5, Y4, A11, V5, T5, S4; auto].
        -- intros i Ii Bi. destruct (Il' i Ii) as (Q1 & Q2 & Q3 & Q4). destruct (X6' i Q3) as (A10 & A11 & A12). rewrite Z3, Y5, A12, V3, T3, S5; auto.
    + apply NoDup_app_iff. split; [exact Nl|]. split; [constructor; [tauto|constructor]|]. intros i I [<-|[]]. apply Il' in I. tauto.
    + exact P2.
Qed.

(** ** Clearing *)
Lemma clear_ok H s t xs z : wfH H -> okt H s t xs -> exists H', t_clear H (TR s z) = Some (H', TR s 0) /\ wfH H' /\ ext [s] H H' /\ okt H' s Lf [].
Proof.
  intros W O. destruct (o_rep O) as ([C1 C2 C3] & _). unfold t_clear. cbn [sent]. destruct (set_pl_ok (tk H) s None C1) as (k1 & S1 & S2 & S3 & S4 & S5 & S6). rewrite S1. cbn [obind]. exists (with_tk H k1). split; [reflexivity|]. split; [|split].
  - apply wf_k; [auto|]. unfold same_len. rewrite S4, S5. auto.
  - apply ext_k. intros i Ni. rewrite S4, S5, S3; auto. intros ->. apply Ni. now left.
  - split; [|constructor; [tauto|constructor]|exact (o_pri O)|reflexivity]. cbn [rep bptr tk with_tk]. split; [|auto]. split; [auto|rewrite S4; auto|rewrite S5; auto].
Qed.
Lemma new_ok H : wfH H -> exists H' s, tr_new H = (H', TR s 0) /\ wfH H' /\ ext [] H H' /\ length (tkey H) <= s /\ okt H' s Lf [].
Proof.
  intros W. unfold tr_new. destruct (th_new H 0 None) as [H1 s] eqn:En. destruct (new_ext [] W (Z.le_refl 0) En) as (W1 & X1 & Es & L1 & Cd & Pd & Kd). exists H1, s. split; [reflexivity|]. split; [auto|]. split; [auto|]. split; [lia|]. split; [|constructor; [tauto|constructor]|auto|reflexivity]. cbn [rep bptr]. auto.
Qed.

(** ** Absorbing *)
Lemma move_ok k s2 s t2 : cell_is k s2 (bptr t2) None None -> rep k (Some s2) t2 -> NoDup (ids t2 ++ [s2]) -> cell_is k s None None None -> ~ In s (ids t2 ++ [s2]) ->
  exists k', (let* k := set_pl k s (bptr t2) in set_pp_opt k (bptr t2) (Some s)) = Some k' /\ rep k' None (Nd t2 s Lf) /\ cell_is k' s2 (bptr t2) None None /\ keep_out (s :: ids t2) k k' /\ same_len k k'.
Proof.
  intros [D1 D2 D3] R N [C1 C2 C3] Ns. apply NoDup_app_iff in N as (N & _ & Ds). assert (Ns2 : ~ In s2 (ids t2)) by (intros I; apply (Ds s2 I); now left). assert (Nst : ~ In s (ids t2)) by (intros I; apply Ns, in_or_app; auto). assert (Nss : s <> s2) by (intros ->; apply Ns, in_or_app; right; now left).
  destruct (set_pl_ok k s (bptr t2) C1) as (k1 & S1 & S2 & S3 & S4 & S5 & S6). rewrite S1. cbn [obind]. clear S1.
  destruct (@set_pp_opt_ok k1 (bptr t2) (Some s)) as (k2 & T1 & T2 & T3 & T4 & T5 & T6). { intros i Ei. apply bptr_in in Ei. destruct (rep_cell R Ei) as (? & ? & y & Cy). exists y. rewrite S5. exact (ci_p Cy). }
  assert (B1 : bptr t2 <> Some s) by (intros E; apply bptr_in in E; auto). assert (B2 : bptr t2 <> Some s2) by (intros E; apply bptr_in in E; auto).
  exists k2. split; [exact T1|]. split; [|split; [|split]].
  - cbn [rep bptr]. split; [split|split; [|auto]].
    + rewrite T4. auto.
    + rewrite T5, S4. auto.
    + rewrite T3, S5; auto.
    + apply (rep_reroot (h := k) (par := Some s2)); [exact N|exact R|exact T2| |].
      * intros i I. rewrite T4, T5, S4. split; [apply S3; intros ->; auto|auto].
      * intros i I B. rewrite T3, S5; auto.
  - split; [rewrite T4, S3; auto|rewrite T5, S4; auto|rewrite T3, S5; auto].
  - intros i Ni. assert (i <> s) by (intros ->; apply Ni; now left). rewrite T4, T5, T3, S3, S4, S5; auto. intros E. apply bptr_in in E. apply Ni. now right.
  - unfold same_len. rewrite T4, T5, T6, S4, S5. auto.
Qed.
Arguments move_ok {k s2 s t2} _ _ _ _ _.

Lemma join_ok k s s2 d t t2 : cell_is k s (bptr t) None None -> rep k (Some s) t -> rep k (Some s2) t2 -> NoDup (ids t2 ++ d :: ids t ++ [s]) -> cell_is k d None None None ->
  exists k', (let* rr := get (pl k) s in let* k := set_pl k d (bptr t2) in let* k := set_pr k d rr in let* k := set_pp k d (Some s) in let* k := set_pp_opt k (bptr t2) (Some d) in let* k := set_pp_opt k rr (Some d) in set_pl k s (Some d)) = Some k' /\
    rep k' None (Nd (Nd t2 d t) s Lf) /\ keep_out (ids t2 ++ d :: ids t ++ [s]) k k' /\ same_len k k'.
Proof.
  intros [C1 C2 C3] R R2 N [D1 D2 D3]. pose proof (NoDup_remove _ _ _ N) as [N' Nd0]. apply NoDup_app_iff in N' as (N2 & Nt & Dt). apply NoDup_app_iff in Nt as (N1 & _ & Ds). assert (Nst : ~ In s (ids t)) by (intros I; apply (Ds s I); now left). assert (Ns2 : ~ In s (ids t2)) by (intros I; apply (Dt s I), in_or_app; right; now left). rewrite !in_app_iff in Nd0. cbn [In] in Nd0.
  assert (Hd : d <> s) by (intros ->; tauto). assert (Nd2 : ~ In d (ids t2)) by tauto. assert (Ndt : ~ In d (ids t)) by tauto. clear Nd0.
  assert (B1 : bptr t2 <> Some s) by (intros E; apply bptr_in in E; auto). assert (B2 : bptr t2 <> Some d) by (intros E; apply bptr_in in E; auto). assert (B3 : bptr t <> Some s) by (intros E; apply bptr_in in E; auto). assert (B4 : bptr t <> Some d) by (intros E; apply bptr_in in E; auto).
  rewrite C1. cbn [obind].
  destruct (set_pl_ok k d (bptr t2) D1) as (k1 & S1 & S2 & S3 & S4 & S5 & S6). rewrite S1. cbn [obind]. clear S1.
  assert (G1 : get (pr k1) d = Some None) by (rewrite S4; auto). destruct (set_pr_ok k1 d (bptr t) G1) as (k2 & T1 & T2 & T3 & T4 & T5 & T6). rewrite T1. cbn [obind]. clear T1.
  assert (G2 : get (pp k2) d = Some None) by (rewrite T5, S5; auto). destruct (set_pp_ok k2 d (Some s) G2) as (k3 & V1 & V2 & V3 & V4 & V5 & V6). rewrite V1. cbn [obind]. clear V1.
  destruct (@set_pp_opt_ok k3 (bptr t2) (Some d)) as (k4 & X1 & X2 & X3 & X4 & X5 & X6). { intros i Ei. apply bptr_in in Ei. destruct (rep_cell R2 Ei) as (? & ? & y & Cy). exists y. rewrite V3, T5, S5; [exact (ci_p Cy)|]. intros ->; auto. }
  rewrite X1. cbn [obind]. clear X1.
  assert (B5 : forall i, bptr t = Some i -> bptr t2 <> Some i) by (intros i E1 E2; apply bptr_in in E1, E2; apply (Dt i E2), in_or_app; auto).
  destruct (@set_pp_opt_ok k4 (bptr t) (Some d)) as (k5 & Y1 & Y2 & Y3 & Y4 & Y5 & Y6). { intros i Ei. pose proof (B5 i Ei) as Q. apply bptr_in in Ei. destruct (rep_cell R Ei) as (? & ? & y & Cy). exists y. rewrite X3, V3, T5, S5; [exact (ci_p Cy)|intros ->; auto|auto]. }
  rewrite Y1. cbn [obind]. clear Y1.
  assert (G3 : get (pl k5) s = Some (bptr t)) by (rewrite Y4, X4, V4, T4, S3; auto). destruct (set_pl_ok k5 s (Some d) G3) as (k6 & Z1 & Z2 & Z3 & Z4 & Z5 & Z6). exists k6. split; [exact Z1|]. clear Z1.
  assert (Kl : forall i, i <> d -> i <> s -> get (pl k6) i = get (pl k) i) by (intros i A B; rewrite Z3, Y4, X4, V4, T4, S3; auto). assert (Kr : forall i, i <> d -> get (pr k6) i = get (pr k) i) by (intros i A; rewrite Z4, Y5, X5, V5, T3, S4; auto). assert (Kp : forall i, i <> d -> bptr t2 <> Some i -> bptr t <> Some i -> get (pp k6) i = get (pp k) i) by (intros i A B C; rewrite Z5, Y3, X3, V3, T5, S5; auto).
  split; [|split].
  - cbn [rep bptr]. split; [split|split; [split; [split|split]|auto]].
    + auto. + rewrite Kr; auto. + rewrite Kp; auto.
    + rewrite Z3, Y4, X4, V4, T4; auto. + rewrite Z4, Y5, X5, V5; auto. + rewrite Z5, Y3, X3; auto.
    + apply (rep_reroot (h := k) (par := Some s2)); [exact N2|exact R2| | |].
      * intros i Ei. rewrite Z5, Y3; [apply X2, Ei|]. intros E. exact (B5 i E Ei).
      * intros i I. split; [apply Kl|apply Kr]; intros ->; auto.
      * intros i I B. apply Kp; auto; [intros ->; auto|]. intros E. apply bptr_in in E. apply (Dt i I), in_or_app; auto.
    + apply (rep_reroot (h := k) (par := Some s)); [exact N1|exact R| | |].
      * intros i Ei. rewrite Z5. apply Y2, Ei.
      * intros i I. split; [apply Kl|apply Kr]; intros ->; auto.
      * intros i I B. apply Kp; auto; [intros ->; auto|]. intros E. apply bptr_in in E. apply (Dt i E), in_or_app; auto.
  - intros i Ni. rewrite !in_app_iff in Ni. cbn [In] in Ni. rewrite in_app_iff in Ni. cbn [In] in Ni. split; [apply Kl; intros ->; tauto|]. split; [apply Kr; intros ->; tauto|]. apply Kp; [intros ->; tauto| |]; intros E; apply bptr_in in E; tauto.
  - unfold same_len. rewrite Z4, Z5, Z6, Y4, Y5, Y6, X4, X5, X6, V4, V5, V6, T4, T5, T6, S4, S5, S6. auto.
Qed.
Arguments join_ok {k s s2 d t t2} _ _ _ _ _.

Lemma absorb_ok H s t xs z s2 t2 xs2 z2 : wfH H -> okt H s t xs -> okt H s2 t2 xs2 -> (forall i, In i (ids t2 ++ [s2]) -> ~ In i (ids t ++ [s])) ->
  exists H' t' z' z2' it, absorb_run H (TR s z) (TR s2 z2) = Some (H', TR s z', TR s2 z2', it) /\ wfH H' /\ ext ((ids t ++ [s]) ++ (ids t2 ++ [s2])) H H' /\
    okt H' s t' (xs2 ++ xs) /\ okt H' s2 Lf [] /\ ids t' = ids t2 ++ ids t /\
    z' = (match ids t2, ids t with [], _ => z | _, [] => z2 | _, _ => szw (z + z2) end) /\ z2' = (match ids t2 with [] => z2 | _ => 0%Z end) /\
    it = (match ids t with [] => hd s (ids t2) | _ => hd s (ids t) end).
Proof.
  intros W O O2 D. unfold absorb_run. rewrite (begin_ok z W O). cbn [obind]. unfold t_empty. rewrite (root_ok z2 O2), (root_ok z O). cbn [obind].
  destruct t2 as [|a2 i2 b2] eqn:Et2; cbn [bptr peq].
  { exists H, t, z, z2, (hd s (ids t)). split; [reflexivity|]. split; [auto|]. split; [apply ext_refl|]. assert (xs2 = []) by exact (keys_nil (o_keys O2)). subst xs2. split; [exact O|]. split; [exact O2|]. split; [auto|]. split; [auto|]. split; [auto|]. cbn [ids]. destruct (ids t); reflexivity. }
  rewrite <- Et2 in *. assert (Ene : exists j js, ids t2 = j :: js) by (rewrite Et2; cbn; destruct (ids a2); cbn; eauto). destruct Ene as (j2 & js2 & Ej2). replace (Some i2) with (bptr t2) by (now rewrite Et2).
  destruct (o_rep O2) as (C2 & R2 & _). destruct (o_rep O) as (C & R & _). cbn [bptr] in C, C2.
  assert (Ds : ~ In s (ids t2 ++ [s2])) by (intros I; apply (D s I), in_or_app; right; now left). assert (Ds2 : ~ In s2 (ids t ++ [s])) by (apply D, in_or_app; right; now left).
  destruct t as [|a1 i1 b1] eqn:Et; cbn [bptr peq].
  { destruct (move_ok C2 R2 (o_nodup O2) C Ds) as (k1 & E1 & R1 & C1 & O1 & L1). cbn [sent tsize]. destruct (set_pl (tk H) s (bptr t2)) as [ka|]; [cbn [obind] in E1 |- *|discriminate]. rewrite E1. cbn [obind]. clear E1 ka.
    assert (xs = []) by exact (keys_nil (o_keys O)). subst xs.
    unfold t_clear. cbn [sent tsize tk with_tk]. destruct C1 as [C11 C12 C13]. destruct (set_pl_ok k1 s2 None C11) as (k2 & S1 & S2 & S3 & S4 & S5 & S6). rewrite S1. cbn [obind]. clear S1.
    assert (Nss : s <> s2) by (intros ->; apply Ds, in_or_app; right; now left). assert (Ns2 : ~ In s2 (ids t2)) by (exact (s_notin O2)).
    assert (L2 : same_len (tk H) k2). { apply (same_len_trans L1). unfold same_len. rewrite S4, S5. auto. }
    assert (Wk : wfH (with_tk H k2)) by exact (wf_k W L2).
    assert (Ok : okt (with_tk H k2) s t2 xs2). { split; [| |exact (o_pri O)|exact (o_keys O2)].
      - apply (rep_keep (h := k1)); [|exact R1]. intros i I. cbn [tk with_tk]. rewrite S4, S5, S3; auto. intros ->. cbn in I. apply in_app_or in I as [I|[I|[]]]; auto.
      - apply NoDup_app_iff. split; [exact (nodup_t O2)|]. split; [constructor; [tauto|constructor]|]. intros i I [<-|[]]. apply Ds, in_or_app; auto. }
    change (with_tk (with_tk H k1) k2) with (with_tk H k2). rewrite (begin_ok z2 Wk Ok). cbn [obind].
    exists (with_tk H k2), t2, z2, 0%Z, (hd s (ids t2)). split; [reflexivity|]. split; [exact Wk|]. split; [|split; [|split; [|split; [now rewrite app_nil_r|]]]].
    - apply ext_k. intros i Ni. rewrite !in_app_iff in Ni. cbn [In ids] in Ni. destruct (O1 i) as (Q1 & Q2 & Q3); [cbn [In]; tauto|]. rewrite S4, S5, S3; auto. intros ->; tauto.
    - rewrite app_nil_r. exact Ok.
    - split; [|constructor; [tauto|constructor]|exact (o_pri O2)|reflexivity]. cbn [rep bptr tk with_tk]. split; [|auto]. split; [auto|rewrite S4; auto|rewrite S5; auto].
    - cbn [ids]. rewrite Ej2. auto. }
  rewrite <- Et in *. assert (Ene : exists j js, ids t = j :: js) by (rewrite Et; cbn; destruct (ids a1); cbn; eauto). destruct Ene as (j1 & js1 & Ej1).
  cbn [sent]. destruct (th_new H 0 None) as [H1 d] eqn:En. destruct (new_ext [] W (Z.le_refl 0) En) as (W1 & X1 & Ed & L1 & Cd & Pd & Kd).
  assert (O1 : okt H1 s t xs) by (apply (okt_ext W O X1); intros i _ []). assert (O12 : okt H1 s2 t2 xs2) by (apply (okt_ext W O2 X1); intros i _ []).
  assert (Fd : ~ In d (ids t ++ [s])) by (apply (fresh W O); lia). assert (Fd2 : ~ In d (ids t2 ++ [s2])) by (apply (fresh W O2); lia).
  destruct (o_rep O12) as (C2' & R2' & _). destruct (o_rep O1) as (C' & R' & _). cbn [bptr] in C', C2'.
  assert (N : NoDup (ids t2 ++ d :: ids t ++ [s])). { apply NoDup_Add with (a := d) (l := ids t2 ++ ids t ++ [s]); [apply Add_app|]. split; [apply NoDup_app_iff; split; [exact (nodup_t O2)|split; [exact (o_nodup O)|intros i I J; apply (D i); [apply in_or_app; auto|auto]]]|]. rewrite in_app_iff. intros [I|I]; [apply Fd2, in_or_app; auto|auto]. }
  destruct (join_ok C' R' R2' N Cd) as (k1 & E1 & R1 & O3 & L3).
  assert (Eseq : forall B (g : ph -> option B), (let* rr := get (pl (tk H1)) s in let* k := set_pl (tk H1) d (bptr t2) in let* k := set_pr k d rr in let* k := set_pp k d (Some s) in let* k := set_pp_opt k (bptr t2) (Some d) in let* k := set_pp_opt k rr (Some d) in let* k := set_pl k s (Some d) in g k) = g k1).
  { intros B g. destruct (get (pl (tk H1)) s) as [rr|]; [cbn [obind] in *|discriminate]. destruct (set_pl (tk H1) d (bptr t2)) as [ka|]; [cbn [obind] in *|discriminate]. destruct (set_pr ka d rr) as [kb|]; [cbn [obind] in *|discriminate]. destruct (set_pp kb d (Some s)) as [kc|]; [cbn [obind] in *|discriminate]. destruct (set_pp_opt kc (bptr t2) (Some d)) as [kd|]; [cbn [obind] in *|discriminate]. destruct (set_pp_opt kd rr (Some d)) as [ke|]; [cbn [obind] in *|discriminate]. now rewrite E1. }
  rewrite Eseq. clear Eseq E1. assert (W2 : wfH (with_tk H1 k1)) by exact (wf_k W1 L3).
  assert (IdJ : ids (plug ([] ++ [FL s Lf]) (Nd t2 d t)) = ids t2 ++ d :: ids t ++ [s]) by (cbn; rewrite <- app_assoc; reflexivity).
  destruct (@remove_ok (with_tk H1 k1) s [] t2 d t W2) as (k2 & c1 & E2 & Ra & Ia & Oa & La & k3 & E3 & R3 & Hl & Hr & O4 & L4); [exact R1|rewrite IdJ; exact N|]. rewrite E2. cbn [obind]. change (with_tk (with_tk H1 k1) k2) with (with_tk H1 k2) in *. change (with_tk (with_tk H1 k1) k3) with (with_tk H1 k3) in *. rewrite E3. cbn [obind].
  rewrite IdJ in O4. cbn [tk with_tk] in O4, L4. cbn [lids rids fold_left app] in Hl, Hr. rewrite app_nil_r in Hr.
  assert (Ns2 : ~ In s2 (ids t2 ++ d :: ids t ++ [s])). { rewrite in_app_iff. cbn [In]. intros [I|[I|I]]; [exact (s_notin O2 I)| |auto]. apply Fd2, in_or_app. right. now left. }
  unfold t_clear. cbn [sent tsize tk with_tk]. destruct C2' as [C21 C22 C23]. destruct (O3 s2 Ns2) as (Q1 & Q2 & Q3). destruct (O4 s2 Ns2) as (Q4 & Q5 & Q6).
  assert (G1 : get (pl k3) s2 = Some (bptr t2)) by congruence. destruct (set_pl_ok k3 s2 None G1) as (k4 & S1 & S2 & S3 & S4 & S5 & S6). rewrite S1. cbn [obind]. clear S1. change (with_tk (with_tk H1 k3) k4) with (with_tk H1 k4).
  assert (It : ids (plug c1 Lf) = ids t2 ++ ids t) by (rewrite ids_plug, Hl, Hr; reflexivity).
  exists (with_tk H1 k4), (plug c1 Lf), (szw (z + z2)), 0%Z, (hd s (ids t)). split; [reflexivity|]. split; [|split; [|split; [|split; [|split; [exact It|]]]]].
  - apply wf_k; [exact W1|]. apply (same_len_trans L3). apply (same_len_trans L4). unfold same_len. rewrite S4, S5. auto.
  - split; cbn [tkey tpri tk with_tk]; [apply (e_len X1)|apply (e_key X1)|apply (e_pri X1)|]. intros i Li Ni. assert (Hn : i <> d) by lia. destruct (e_out X1 Li) as (Y1 & Y2 & Y3); [intros []|]. rewrite !in_app_iff in Ni. cbn [In] in Ni.
    assert (Nj : ~ In i (ids t2 ++ d :: ids t ++ [s])) by (rewrite in_app_iff; cbn [In]; rewrite in_app_iff; cbn [In]; intuition congruence). destruct (O3 i Nj) as (Z1 & Z2 & Z3), (O4 i Nj) as (V1 & V2 & V3). rewrite S4, S5, S3 by (intros ->; tauto). repeat split; congruence.
  - split; [| |exact (o_pri O1)|].
    + apply (rep_keep (h := k3)); [|exact R3]. intros i I. cbn [tk with_tk]. rewrite S4, S5, S3; auto. intros ->. cbn [ids] in I. rewrite It in I. apply Ns2. rewrite !in_app_iff in *. cbn [In] in *. rewrite in_app_iff. cbn [In]. tauto.
    + rewrite It, <- app_assoc. apply NoDup_remove_1 in N. exact N.
    + rewrite It. exact (keys_app (o_keys O12) (o_keys O1)).
  - split; [|constructor; [tauto|constructor]|exact (o_pri O12)|reflexivity]. cbn [rep bptr tk with_tk]. split; [|auto]. split; [auto|rewrite S4; congruence|rewrite S5; congruence].
  - rewrite Ej1, Ej2. auto.
Qed.
End Treap.
