(** C17: Compressor maps values to ranks order-isomorphically. *)
From Verif Require Import Base BaseLemmas StdAlgo CompressModel CompressProof.

Set Implicit Arguments.

(** Every history of clear / add / release / release_tie on a compressor built
    from any sequence: each map returned is an order isomorphism from exactly
    the values added so far onto 0..k-1, and the vector of [release_tie]
    decodes it. *)
Theorem C17_compressor : forall (T : Type) (ltb eqb : T -> T -> bool),
  strict_order ltb -> (forall x y, eqb x y = true <-> x = y) ->
  forall (xs : list T) (h : list (c_op T)),
  exists rs vs, c_run ltb eqb (c_range xs) h = Some (rs, vs) /\ outs_ok ltb eqb xs h rs.
Proof. intros. apply run_ok; auto. tauto. Qed.

(** The image of a value is the number of distinct smaller values. *)
Theorem C17_compress_rank : forall (T : Type) (ltb eqb : T -> T -> bool),
  strict_order ltb -> (forall x y, eqb x y = true <-> x = y) ->
  forall (dec : forall x y : T, {x = y} + {x <> y}) (xs : list T),
  exists m, c_compress ltb eqb xs = Some m /\
    (forall x, In x xs -> m_find eqb m x = Some (rank_of ltb dec xs x)) /\
    (forall x, ~ In x xs -> m_find eqb m x = None).
Proof.
  intros T ltb eqb SO EQ dec xs. unfold c_compress, c_range.
  destruct (@release_ok T ltb eqb SO EQ xs) as (mp & R & D & RM). rewrite R. cbn [obind].
  exists mp; split; auto. split; intros x Hx.
  - apply (rm_dom RM) in Hx. destruct (m_find eqb mp x) as [i|] eqn:F; [|congruence].
    f_equal. eapply rank_map_count; eauto.
  - destruct (m_find eqb mp x) as [i|] eqn:F; auto. exfalso. apply Hx, (rm_dom RM). congruence.
Qed.

Example C17_order : strict_order Z.ltb.
Proof. constructor; intros; lia. Qed.

Example C17_example :
  c_run Z.ltb Z.eqb (c_range [30; 10; 30]%Z)
    [Add 20%Z; Release _; AddRange [5; 10]%Z; ReleaseTie _; Release _]
  = Some ([ONone _; OMap [(10%Z, 0); (20%Z, 1); (30%Z, 2)]; ONone _;
           OTie [(5%Z, 0); (10%Z, 1); (20%Z, 2); (30%Z, 3)] [5; 10; 20; 30]%Z; OMap []], []).
Proof. reflexivity. Qed.

Print Assumptions C17_compressor.
Print Assumptions C17_compress_rank.
