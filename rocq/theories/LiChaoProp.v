From Verif Require Import Base LiChaoModel LiChaoProof.
Local Open Scope Z_scope.

(** C27.  Every query answers the best value offered at that point by the lines
    and segments added so far, or the sentinel when there is none. *)
Theorem C27_li_chao : forall (w : Z) (mx : bool) (c : init) (ops : list op),
  1 <= w -> init_ok c -> (0 < length (points c))%nat -> sorted (points c) ->
  Forall (op_ok w mx (points c)) ops ->
  exists t rs, build w mx c = Some t /\ run w mx t ops = Some rs /\ spec_run w mx (points c) [] ops rs.
Proof.
  intros w mx c ops Hw Ic L Srt Ok. destruct (build_ok w mx c Ic L) as (K & HK & E).
  destruct (run_ok w mx Hw _ K (points c) eq_refl HK Srt ops _ [] (start_ok w mx _ K (points c) eq_refl HK) Ok) as (rs & E2 & S).
  rewrite E. eauto.
Qed.

Example C27_example :
  (let* t := build 64 false (InitRange [-3; 0; 2; 5; 9; 12]) in
   run 64 false t [GetIdx 2; AddLine 2 1; AddSeg (-1) 3 0 9; Get 2; Get 5; AddSegIdx 0 (-7) 4 6; Get 9; GetIdx 0; AddLine (-5) 0; Get 12]) =
  Some [Some (2 ^ 63 - 1); None; None; Some 1; Some (-2); None; Some (-7); Some (-5); None; Some (-60)].
Proof. reflexivity. Qed.

(** A line whose constant term is the sentinel is dropped although its values
    are better than the sentinel. *)
Theorem C27_sentinel_refuted : ~ forall (c : init) (a b : Z) (i : nat),
  (i < length (points c))%nat -> fits 64 b -> line_ok 64 true (points c) a b i ->
  exists t rs, build 64 true c = Some t /\ run 64 true t [AddLine a b; GetIdx i] = Some rs /\
    spec_run 64 true (points c) [] [AddLine a b; GetIdx i] rs.
Proof.
  intros H. destruct (H (InitRange [1]) 1 (- 2 ^ 63) 0%nat) as (t & rs & E1 & E2 & Sp).
  - cbn. lia.
  - unfold fits. lia.
  - unfold line_ok, fits. cbn. lia.
  - injection E1 as <-. vm_compute in E2. injection E2 as <-.
    inversion Sp as [|? ? ? ? ? _ S2]; subst. inversion S2 as [|? ? ? ? ? S3 _]; subst. inversion S3.
Qed.

Print Assumptions C27_li_chao.
Print Assumptions C27_sentinel_refuted.
