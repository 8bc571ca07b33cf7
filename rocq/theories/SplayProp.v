(** Properties of SplayTreeList (splay_tree.hpp, splay_tree_list.hpp): C43. *)
From Coq Require Import ZArith.
From Verif Require Import SplayModel SplayTree SplayKth SplayList BaseLemmas ListExtra LazySegProp.
Set Implicit Arguments.

Section Splay.
Variables (M A : Type) (op : M -> M -> M) (e : M) (comp : A -> A -> A) (aid : A) (act : A -> M -> M).
Hypothesis Mon : monoid_laws op e.
Hypothesis Act : action_laws op comp aid act.
Notation sl_step := (sl_step op comp aid act).
Notation sl_run := (sl_run op comp aid act).
Notation list_step := (list_step op act e).
Notation list_run := (list_run op act e).
Notation SL := (SL op e aid act).

Lemma step_ok s xs c xs' o : SL s xs -> list_step xs c = Some (xs', o) -> exists s', sl_step s c = Some (s', o) /\ SL s' xs'.
Proof.
  intros H E. destruct c as [i m|i|l r|l r|i m|i f|l r f]; cbn [SplayModel.list_step SplayModel.sl_step] in *.
  - destruct (Nat.leb_spec i (length xs)) as [L|]; [|discriminate]. injection E as <- <-. destruct (insert_ok Mon Act m H L) as (s' & -> & H'). cbn [obind]. eauto.
  - destruct (Nat.ltb_spec i (length xs)) as [L|]; [|discriminate]. injection E as <- <-. destruct (erase_ok Mon Act H L) as (s' & -> & H'). cbn [obind]. eauto.
  - destruct (Nat.ltb_spec l r) as [L|]; [|discriminate]. destruct (Nat.leb_spec r (length xs)) as [L'|]; [|discriminate]. injection E as <- <-. destruct (prod_ok Mon Act H L L') as (s' & -> & H'). cbn [obind]. eauto.
  - destruct (Nat.leb_spec l r) as [L|]; [|discriminate]. destruct (Nat.leb_spec r (length xs)) as [L'|]; [|discriminate]. injection E as <- <-. destruct (reverse_ok Mon Act H L L') as (s' & -> & H'). cbn [obind]. eauto.
  - destruct (Nat.ltb_spec i (length xs)) as [L|]; [|discriminate]. injection E as <- <-. destruct (@get_lt _ xs i L) as (x & Gx). unfold sl_set. destruct (point_ok Mon Act i (fun _ => m) H Gx) as (s' & -> & H'). cbn [obind]. eauto.
  - destruct (get xs i) as [x|] eqn:Gx; [|discriminate]. injection E as <- <-. unfold sl_update1. destruct (point_ok Mon Act i (act f) H Gx) as (s' & -> & H'). cbn [obind]. eauto.
  - destruct (Nat.ltb_spec l r) as [L|]; [|discriminate]. destruct (Nat.leb_spec r (length xs)) as [L'|]; [|discriminate]. injection E as <- <-. destruct (update_ok Mon Act f H L L') as (s' & -> & H'). cbn [obind]. eauto.
Qed.
Lemma run_ok h : forall s xs xs' vs, SL s xs -> list_run xs h = Some (xs', vs) -> exists s', sl_run s h = Some (s', vs) /\ SL s' xs'.
Proof.
  induction h as [|c h IH]; intros s xs xs' vs H E; cbn [SplayModel.list_run SplayModel.sl_run] in *; [injection E as <- <-; eauto|].
  destruct (list_step xs c) as [[xs1 o]|] eqn:E1; [|discriminate]. cbn [obind] in E. destruct (list_run xs1 h) as [[xs2 vs2]|] eqn:E2; [|discriminate]. injection E as <- <-.
  destruct (step_ok _ H E1) as (s1 & -> & H1). cbn [obind]. destruct (IH _ _ _ _ H1 E2) as (s2 & -> & H2). cbn [obind]. eauto.
Qed.
Lemma new_SL : SL (@sl_new M A) [].
Proof. exists Lf, []. split; [reflexivity|]. split; [|reflexivity]. split; [repeat split|]. split; [split; [exact I|reflexivity|constructor|intros i []|exact I]|split; [exact I|reflexivity]]. Qed.
Lemma build_SL xs : exists s, sl_build op aid xs = Some s /\ SL s xs.
Proof.
  unfold sl_build. destruct (@build_ok M A op e comp aid act Mon Act (S (length xs)) (@sh_empty M A) xs) as (h & t & E & W & B & R & N & V & D & L & K); [repeat split|auto|]. rewrite E. eexists. split; [reflexivity|]. exists t. eexists. split; [reflexivity|]. cbn [fst]. split; [|exact D]. split; [auto|]. split; [|split; [auto|reflexivity]]. split; [auto|reflexivity|auto| |exact I].
  intros i Ii. apply B in Ii. destruct (@get_lt _ (sd h) i) as (d & Gd); [lia|]. rewrite Gd. f_equal. unfold Dh. symmetry. apply nth_error_nth, Gd.
Qed.

(** Starting from an empty list or from any range, any history of insert, erase, prod, reverse,
    set and update runs without undefined behaviour or failing assertion and returns the products
    of the plain list. *)
Theorem C43_from_empty h xs' vs : list_run [] h = Some (xs', vs) -> exists s, sl_run (@sl_new M A) h = Some (s, vs).
Proof. intros E. destruct (run_ok h new_SL E) as (s & E' & _). eauto. Qed.
Theorem C43_from_range xs h xs' vs : list_run xs h = Some (xs', vs) -> exists s0 s, sl_build op aid xs = Some s0 /\ sl_run s0 h = Some (s, vs).
Proof. intros E. destruct (build_SL xs) as (s0 & E0 & H0). destruct (run_ok h H0 E) as (s & E' & _). eauto. Qed.

(** After any history the list has the right length, and reading any element shows it. *)
Theorem C43_contents xs h xs' vs : list_run xs h = Some (xs', vs) -> exists s0 s, sl_build op aid xs = Some s0 /\ sl_run s0 h = Some (s, vs) /\
  (xs' <> [] -> root_size s = Some (length xs')) /\ (xs' = [] <-> snd s = None) /\
  forall i x, get xs' i = Some x -> exists s', sl_prod op comp aid act s i (S i) = Some (s', x).
Proof.
  intros E. destruct (build_SL xs) as (s0 & E0 & H0). destruct (run_ok h H0 E) as (s & E' & H'). exists s0, s. split; [auto|]. split; [auto|]. pose proof H' as (t & ds & Er & H1 & Ex). assert (Lx : length xs' = length ds) by (rewrite <- Ex; apply map_length). split; [|split].
  - intros Nx. destruct s as [hh root]. cbn [fst snd] in *. subst root. rewrite Lx. eapply root_size_ok; [exact H1|]. rewrite <- Lx. destruct xs'; [congruence|cbn; lia].
  - rewrite Er. destruct H1 as (_ & _ & _ & De). assert (Ls : bsize t = length xs') by (rewrite Lx, <- De; symmetry; apply den_length). destruct t, xs'; cbn in Ls; try lia; split; try easy.
  - intros i x Gx. assert (Hi : i < length xs') by exact (get_some_lt _ _ Gx). destruct (prod_ok Mon Act (l := i) (r := S i) H') as (s' & Es & _); [lia|lia|]. exists s'. rewrite Es. do 2 f_equal. rewrite (@slice_cons _ i (S i) xs' x) by (auto; lia). rewrite slice_nil by lia. cbn. apply (mon_right Mon).
Qed.
End Splay.

(** Outside those conditions: an empty product, and any position but 0 of an empty list, read
    through a null pointer. *)
Theorem C43_prod_empty_null {M A} (op : M -> M -> M) (comp : A -> A -> A) aid act (x : M) : exists s, sl_insert op comp aid act (@sl_new M A) 0 x = Some s /\ sl_prod op comp aid act s 0 0 = None.
Proof. eexists. split; reflexivity. Qed.
Theorem C43_empty_null {M A} (op : M -> M -> M) (comp : A -> A -> A) aid act i (x : M) : sl_insert op comp aid act (@sl_new M A) (S i) x = None /\ sl_prod op comp aid act (@sl_new M A) 0 0 = None.
Proof. split; reflexivity. Qed.

(** Strings under concatenation with "shift every letter by d" as operators: every place and the
    order of all elements is visible. *)
Definition sh_comp (a b : Z) : Z := (a + b)%Z.
Definition sh_act (a : Z) (m : list Z) : list Z := map (Z.add a) m.
Example C43_laws : monoid_laws (@app Z) [] /\ action_laws (@app Z) sh_comp 0%Z sh_act.
Proof.
  split; [split; [intros; now rewrite app_assoc|reflexivity|apply app_nil_r]|]. split.
  - intros v. unfold sh_act. rewrite <- (map_id v) at 2. apply map_ext. intros. reflexivity.
  - intros a b v. unfold sh_act, sh_comp. rewrite map_map. apply map_ext. intros. lia.
  - intros a u v. unfold sh_act. apply map_app.
Qed.
Definition C43_hist : list (sl_op (list Z) Z) :=
  [Rev _ _ 1 4; Upd _ 0 3 10%Z; Ins _ 2 [7%Z]; Prd _ _ 0 7; Era _ _ 1; Prd _ _ 1 4; Rev _ _ 0 6; Put _ 3 [0%Z]; Upd1 _ 2 5%Z; Prd _ _ 0 6].
Example C43_example : (let* s := sl_build (@app Z) 0%Z [[1%Z]; [2%Z]; [3%Z]; [4%Z]; [5%Z]; [6%Z]] in let* (_, vs) := sl_run (@app Z) sh_comp 0%Z sh_act s C43_hist in Some vs) =
  Some [[11; 14; 7; 13; 2; 5; 6]; [7; 13; 2]; [6; 5; 7; 0; 7; 11]]%Z.
Proof. vm_compute. reflexivity. Qed.
Example C43_example_spec : list_run (@app Z) sh_act [] [[1%Z]; [2%Z]; [3%Z]; [4%Z]; [5%Z]; [6%Z]] C43_hist = Some ([[6]; [5]; [7]; [0]; [7]; [11]], [[11; 14; 7; 13; 2; 5; 6]; [7; 13; 2]; [6; 5; 7; 0; 7; 11]])%Z.
Proof. vm_compute. reflexivity. Qed.

Print Assumptions C43_from_empty.
Print Assumptions C43_from_range.
Print Assumptions C43_contents.
Print Assumptions C43_prod_empty_null.
Print Assumptions C43_empty_null.
