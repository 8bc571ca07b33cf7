(** The traversal that writes the parentheses. *)
From Verif Require Import Base BaseLemmas ListExtra NthExtra BitModel BmapModel BmapProof BvModel RmqModel.
Set Implicit Arguments.

Lemma for_each_app2 {A S} (body : A -> S -> option S) l1 : forall l2 s, for_each (l1 ++ l2) body s = (let* s' := for_each l1 body s in for_each l2 body s').
Proof. induction l1 as [|x l1 IH]; intros l2 s; cbn [app for_each obind]; auto. destruct (body x s); cbn [obind]; auto. Qed.

Fixpoint rp (t : tree) : list nat := match t with Leaf => [] | Nd l v r => v :: rp r end.
Fixpoint expand (t : tree) : list (option tree) := match t with Leaf => [] | Nd l v r => Some l :: None :: expand r end.
Fixpoint out (ss : list (option tree)) : list bool :=
  match ss with [] => [] | Some t :: r => true :: pbits t ++ out r | None :: r => false :: out r end.
Lemma out_expand t : forall rest, out (expand t ++ rest) = pbits t ++ out rest.
Proof. induction t as [|l _ v r IH]; intros rest; cbn [expand app out pbits]; auto. rewrite IH. now rewrite <- !app_assoc. Qed.
Lemma rp_length t : length (rp t) <= length (inord t).
Proof. induction t as [|l _ v r IH]; cbn [rp inord length]; auto. rewrite app_length. cbn [length]. lia. Qed.
Lemma pbits_length t : length (pbits t) = 2 * length (inord t).
Proof. induction t as [|l IHl v r IHr]; cbn [pbits inord length]; auto. rewrite !app_length. cbn [length]. lia. Qed.

Section Nodes.
Variable nodes : list node.
Lemma right_path_ok t : forall p o, linked nodes p o t -> length (inord t) <= length nodes -> right_path nodes o = Some (rp t).
Proof.
  assert (K : forall t fuel p o c, linked nodes p o t -> length (rp t) < fuel -> loop fuel (fun '(c, v) => match v with None => Some (inr c) | Some v => let* d := get nodes v in Some (inl (c ++ [v], n_r d)) end) (c, o) = Some (c ++ rp t)).
  { clear t. induction t as [|l _ v r IH]; intros fuel p o c L Hf; destruct fuel as [|fuel]; try (cbn in Hf; lia); cbn [linked] in L.
    - subst o. cbn. now rewrite app_nil_r.
    - destruct L as (-> & d & G & _ & _ & R). cbn [loop]. rewrite G. cbn [obind]. cbn [rp length] in Hf. rewrite (IH fuel (Some v) (n_r d) (c ++ [v]) R) by lia. cbn [rp]. now rewrite <- app_assoc. }
  intros p o L H. unfold right_path. rewrite (K t (length nodes + 1) p o [] L); auto. pose proof (rp_length t). lia.
Qed.
Definition srel (e : option nat * bool) (s : option tree) : Prop :=
  match s with Some t => snd e = true /\ length (inord t) <= length nodes /\ exists p, linked nodes p (fst e) t | None => snd e = false end.
Lemma push_ok t : forall p o st, linked nodes p o t -> length (inord t) <= length nodes ->
  exists es, for_each (rev (rp t)) (fun v st => let* d := get nodes v in Some ((n_l d, true) :: (None, false) :: st)) st = Some (es ++ st) /\ Forall2 srel es (expand t).
Proof.
  induction t as [|l _ v r IH]; intros p o st L H.
  - exists []. cbn. auto.
  - cbn [linked] in L. destruct L as (-> & d & G & P & Ll & Lr). cbn [inord] in H. rewrite app_length in H. cbn [length] in H.
    destruct (IH (Some v) (n_r d) st Lr ltac:(lia)) as (es & E & F). exists ((n_l d, true) :: (None, false) :: es). cbn [rp rev]. rewrite for_each_app2, E. cbn [obind for_each]. rewrite G. cbn [obind]. split; auto.
    cbn [expand]. constructor; [|constructor; auto; reflexivity]. cbn [srel fst snd]. split; auto. split; [lia|eauto].
Qed.
End Nodes.

Lemma firstn_lset_S {A} (l : list A) i x : i < length l -> firstn (i + 1) (lset l i x) = firstn i l ++ [x].
Proof. intros H. rewrite lset_app by auto. rewrite firstn_app. rewrite firstn_firstn, firstn_length. replace (Nat.min (i + 1) i) with i by lia. replace (i + 1 - Nat.min i (length l)) with 1 by lia. reflexivity. Qed.

Lemma parens_ok t d b : linked (d_nodes d) None (d_root d) t -> length (inord t) = length (d_nodes d) ->
  bm_resize (Bm [] 0) (2 * (length (d_nodes d) + 1)) false = Some b ->
  exists b', parens d b = Some b' /\ binv b' (true :: pbits t ++ [false]) /\ clean b'.
Proof.
  intros L N Hb. set (B := true :: pbits t ++ [false]).
  assert (LB : length B = 2 * (length (d_nodes d) + 1)). { unfold B. cbn [length]. rewrite app_length, pbits_length. cbn [length]. lia. }
  assert (B0 : binv (Bm [] 0) []). { repeat split; cbn; auto. intros; lia. }
  destruct (@resize_ok _ _ (2 * (length (d_nodes d) + 1)) false B0 ltac:(cbn; lia)) as (b1 & E & I & C). rewrite E in Hb. injection Hb as ->.
  cbn [app length] in I. rewrite Nat.sub_0_r in I. specialize (C eq_refl).
  unfold parens. match goal with |- context [loop _ ?bd _] => set (body := bd) end.
  apply (@loop_rule _ _ (fun '(st, b, i) => exists l ss, binv b l /\ clean b /\ Forall2 (srel (d_nodes d)) st ss /\ firstn i l ++ out ss = B /\ length l = length B /\ i <= length l)
    (fun '(st, b, i) => length B - i) (fun b' => binv b' B /\ clean b') body).
  - intros ((st & b2) & i) (l & ss & I2 & C2 & F & EB & Hl & Hi). pose proof EB as EL. apply (f_equal (@length _)) in EL. rewrite app_length, firstn_length in EL.
    destruct F as [|[lc k] s st ss H F]; unfold body at 1.
    + eexists. split; [reflexivity|]. cbn [out length] in EL. cbn [out] in EB. rewrite app_nil_r in EB. rewrite firstn_all2 in EB by lia. subst l. auto.
    + destruct s as [t'|]; cbn [srel fst snd] in H.
      * destruct H as (-> & Hn & p & Lt). rewrite (@right_path_ok (d_nodes d) t' p lc Lt Hn). cbn [obind]. destruct (@push_ok (d_nodes d) t' p lc st Lt Hn) as (es & -> & Fe). cbn [obind].
        cbn [out length] in EL. destruct (@put_ok b2 l i true I2 ltac:(lia)) as (b3 & -> & I3 & C3). cbn [obind]. eexists. split; [reflexivity|]. split; [|lia].
        exists (lset l i true), (expand t' ++ ss). split; auto. split; auto. split; [apply Forall2_app; auto|]. rewrite firstn_lset_S by lia. rewrite lset_length. split; [|split; lia].
        rewrite out_expand, <- app_assoc. cbn [out] in EB. exact EB.
      * rewrite H. cbn [out length] in EL. destruct (@put_ok b2 l i false I2 ltac:(lia)) as (b3 & -> & I3 & C3). cbn [obind]. eexists. split; [reflexivity|]. split; [|lia].
        exists (lset l i false), ss. split; auto. split; auto. split; auto. rewrite firstn_lset_S by lia. rewrite lset_length. split; [|split; lia].
        rewrite <- app_assoc. cbn [out] in EB. exact EB.
  - exists (repeat false (2 * (length (d_nodes d) + 1))), [Some t; None]. split; auto. split; auto. split.
    + constructor; [|constructor; [reflexivity|constructor]]. cbn. split; auto. split; [lia|eauto].
    + cbn [firstn app out]. split; auto. rewrite repeat_length. lia.
  - lia.
Qed.
