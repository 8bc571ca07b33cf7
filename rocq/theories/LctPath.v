(** Link-cut trees: rooted forests given by parents, and the paths to the root. *)
From Coq Require Import Permutation.
From Verif Require Import LctModel BaseLemmas ListExtra.
Set Implicit Arguments.

Section Par.
Implicit Types (par f : nat -> option nat) (L K : list nat).

(** a path downwards, below [rp] *)
Fixpoint chain par (rp : option nat) L : Prop := match L with [] => True | a :: L => par a = rp /\ chain par (Some a) L end.
(** the path from the root to a node *)
Inductive line par : nat -> list nat -> Prop :=
| line_root i : par i = None -> line par i [i]
| line_step i j L : par i = Some j -> line par j L -> line par i (L ++ [i]).

Definition lst (rp : option nat) L : option nat := match List.rev L with [] => rp | a :: _ => Some a end.
Lemma lst_snoc rp L a : lst rp (L ++ [a]) = Some a.
Proof. unfold lst. now rewrite rev_app_distr. Qed.
Lemma chain_app par L1 L2 : forall rp, chain par rp (L1 ++ L2) <-> chain par rp L1 /\ chain par (lst rp L1) L2.
Proof.
  induction L1 as [|a L1 IH]; intros rp; cbn [chain app]; [cbn; tauto|]. rewrite IH. assert (E : lst rp (a :: L1) = lst (Some a) L1). { unfold lst. cbn. destruct (List.rev L1); reflexivity. } rewrite E. tauto.
Qed.
Lemma chain_ext par f rp L : (forall i, In i L -> f i = par i) -> chain par rp L -> chain f rp L.
Proof. revert rp. induction L as [|a L IH]; intros rp E C; [auto|]. destruct C as [C1 C2]. split; [rewrite E; [auto|now left]|]. apply IH; [|auto]. intros i I. apply E. now right. Qed.
Lemma chain_sub par rp L1 L2 : chain par rp (L1 ++ L2) -> chain par (lst rp L1) L2.
Proof. intros C. now apply chain_app in C. Qed.

Lemma line_fun par i L : line par i L -> forall K, line par i K -> L = K.
Proof.
  induction 1 as [i E|i j L E H IH]; intros K H'; inversion H' as [a E' E1|a b K' E' H'' E1]; subst; try congruence. rewrite E in E'. injection E' as <-. now rewrite (IH K').
Qed.
Lemma line_last par i L : line par i L -> exists K, L = K ++ [i].
Proof. destruct 1; [now exists []|eauto]. Qed.
Lemma line_self par i L : line par i L -> In i L.
Proof. intros H. apply line_last in H as (K & ->). apply in_or_app. right. now left. Qed.
Lemma line_in par i L : line par i L -> forall j, In j L -> exists L1 L2, L = L1 ++ L2 /\ line par j L1.
Proof.
  induction 1 as [i E|i j L E H IH]; intros k I.
  - destruct I as [<-|[]]. exists [i], []. split; [reflexivity|now constructor].
  - apply in_app_or in I as [I|[<-|[]]].
    + destruct (IH k I) as (L1 & L2 & -> & Hk). exists L1, (L2 ++ [i]). split; [now rewrite app_assoc|auto].
    + exists (L ++ [i]), []. split; [now rewrite app_nil_r|]. now apply line_step with j.
Qed.
Lemma line_nodup par i L : line par i L -> NoDup L.
Proof.
  induction 1 as [i E|i j L E H IH]; [constructor; [intros []|constructor]|].
  apply NoDup_app_iff. split; [auto|]. split; [constructor; [intros []|constructor]|]. intros x Ix [<-|[]]. destruct (line_in H _ Ix) as (L1 & L2 & Eq & H1). pose proof (line_fun H1 (line_step _ E H)) as Q. apply (f_equal (@length _)) in Q, Eq. rewrite app_length in *. cbn in Q. lia.
Qed.
Lemma line_chain par i L : line par i L -> chain par None L.
Proof.
  induction 1 as [i E|i j L E H IH]; [cbn; auto|]. apply chain_app. split; [auto|]. apply line_last in H as (K & ->). rewrite lst_snoc. cbn. auto.
Qed.
Lemma chain_line par rp w : (match rp with None => w = [] | Some a => line par a w end) -> forall L1 a, chain par rp (L1 ++ [a]) -> line par a (w ++ L1 ++ [a]).
Proof.
  intros Hw L1. induction L1 as [|b L1 IH] using rev_ind; intros a C.
  - cbn in *. destruct C as [C _]. destruct rp as [r|]; [now apply line_step with r|subst w; now constructor].
  - pose proof C as C'. apply chain_app in C' as [C1 C2]. rewrite lst_snoc in C2. cbn in C2. destruct C2 as [C2 _]. rewrite (app_assoc w). apply line_step with b; [auto|]. apply IH, C1.
Qed.
Lemma chain_none_line par L a : chain par None (L ++ [a]) -> line par a (L ++ [a]).
Proof. intros C. exact (@chain_line par None [] eq_refl L a C). Qed.

(** every node has a root *)
Definition rooted par : Prop := forall i, exists L, line par i L.
(** a node below [w] is longer from the root *)
Lemma chain_len par w L i Lw Li : chain par (Some w) L -> In i L -> line par w Lw -> line par i Li -> length Lw < length Li.
Proof.
  intros C I Hw Hi. apply in_split in I as (L1 & L2 & ->). rewrite (app_assoc L1 [i] L2 : L1 ++ i :: L2 = (L1 ++ [i]) ++ L2) in C. apply chain_app in C as [C _].
  pose proof (line_fun (@chain_line par (Some w) Lw Hw L1 i C) Hi) as <-. rewrite !app_length. cbn. lia.
Qed.
Lemma chain_notin par w L : rooted par -> chain par (Some w) L -> ~ In w L.
Proof. intros R C I. destruct (R w) as (Lw & Hw). pose proof (@chain_len par w L w Lw Lw C I Hw Hw). lia. Qed.

(** * Turning a path around *)
Fixpoint nxt L (i : nat) : option nat := match L with [] => None | a :: L' => if a =? i then hd_error L' else nxt L' i end.
Definition inb (i : nat) L : bool := existsb (Nat.eqb i) L.
Definition flip par L (i : nat) : option nat := if inb i L then nxt L i else par i.
Lemma inb_in i L : inb i L = true <-> In i L.
Proof. unfold inb. rewrite existsb_exists. split; [intros (x & I & E); apply Nat.eqb_eq in E; now subst|intros I; exists i; split; [auto|apply Nat.eqb_refl]]. Qed.
Lemma inb_not i L : ~ In i L -> inb i L = false.
Proof. intros N. destruct (inb i L) eqn:E; [|auto]. apply inb_in in E. contradiction. Qed.
Lemma nxt_at L1 a L2 : NoDup (L1 ++ a :: L2) -> nxt (L1 ++ a :: L2) a = hd_error L2.
Proof.
  induction L1 as [|b L1 IH]; intros N; cbn; [now rewrite Nat.eqb_refl|]. cbn in N. apply NoDup_cons_iff in N as [Nb N]. destruct (Nat.eqb_spec b a) as [->|]; [exfalso; apply Nb, in_or_app; right; now left|auto].
Qed.
Lemma flip_at par L1 a L2 : NoDup (L1 ++ a :: L2) -> flip par (L1 ++ a :: L2) a = hd_error L2.
Proof. intros N. unfold flip. rewrite (proj2 (inb_in a _)) by (apply in_or_app; right; now left). now apply nxt_at. Qed.
Lemma flip_out par L i : ~ In i L -> flip par L i = par i.
Proof. intros N. unfold flip. now rewrite inb_not. Qed.
Lemma chain_rev f K : forall S, (forall L1 a L2, K = L1 ++ a :: L2 -> f a = hd_error (L2 ++ S)) -> chain f (hd_error S) (List.rev K).
Proof.
  induction K as [|b K IH] using rev_ind; intros S H; [exact I|]. rewrite rev_app_distr. cbn. split; [apply (H K b []); reflexivity|].
  apply (IH (b :: S)). intros L1 a L2 ->. rewrite (H L1 a (L2 ++ [b])) by (now rewrite <- app_assoc). now rewrite <- app_assoc.
Qed.
Lemma flip_chain par L : NoDup L -> chain (flip par L) None (List.rev L).
Proof. intros N. apply (@chain_rev (flip par L) L []). intros L1 a L2 E. rewrite app_nil_r. subst L. now apply flip_at. Qed.
Lemma chain_prev par L j i : chain par None L -> In j L -> par j = Some i -> exists L1 L2, L = L1 ++ i :: j :: L2.
Proof.
  intros C I E. apply in_split in I as (L1 & L2 & ->). apply chain_app in C as [_ [C _]]. rewrite E in C. unfold lst in C. destruct (List.rev L1) as [|b K] eqn:R; [discriminate|]. injection C as ->. apply (f_equal (@List.rev _)) in R. rewrite rev_involutive in R. subst L1. cbn. exists (List.rev K), L2. now rewrite <- app_assoc.
Qed.
Lemma flip_prev par L i j : NoDup L -> chain par None L -> In i L -> flip par L i = Some j -> In j L /\ par j = Some i.
Proof.
  intros N C I E. apply in_split in I as (L1 & L2 & ->). rewrite flip_at in E by auto. destruct L2 as [|b L2]; [discriminate|]. injection E as ->. split; [apply in_or_app; right; right; now left|].
  apply chain_app in C as [_ C]. cbn in C. tauto.
Qed.
Definition padj par i j : Prop := par i = Some j \/ par j = Some i.
Lemma padj_sym par i j : padj par i j -> padj par j i.
Proof. unfold padj. tauto. Qed.
Lemma flip_padj par L i j : NoDup L -> chain par None L -> padj (flip par L) i j <-> padj par i j.
Proof.
  intros N C. assert (Q1 : forall i j, flip par L i = Some j -> padj par i j).
  { intros a b E. destruct (in_dec Nat.eq_dec a L) as [I|I]; [right; exact (proj2 (@flip_prev par L a b N C I E))|left; now rewrite flip_out in E]. }
  assert (Q2 : forall i j, par i = Some j -> padj (flip par L) i j).
  { intros a b E. destruct (in_dec Nat.eq_dec a L) as [I|I]; [|left; now rewrite flip_out]. right. destruct (@chain_prev par L a b C I E) as (L1 & L2 & ->). rewrite flip_at; auto. }
  split; intros [H|H]; auto using padj_sym.
Qed.
Lemma flip_rooted par L : rooted par -> NoDup L -> chain par None L -> rooted (flip par L).
Proof.
  intros R N C i. assert (Q : forall i, In i L -> exists K, line (flip par L) i K).
  { intros a I. pose proof (flip_chain par N) as Cr. apply in_rev in I. apply in_split in I as (L1 & L2 & E). rewrite E in Cr. rewrite (app_assoc L1 [a] L2 : L1 ++ a :: L2 = (L1 ++ [a]) ++ L2) in Cr. apply chain_app in Cr as [Cr _]. eexists. apply chain_none_line, Cr. }
  destruct (R i) as (Li & Hi). induction Hi as [i E|i j K E H IH].
  - destruct (in_dec Nat.eq_dec i L) as [I|I]; [auto|]. exists [i]. constructor. now rewrite flip_out.
  - destruct (in_dec Nat.eq_dec i L) as [I|I]; [auto|]. destruct IH as (K' & H'). exists (K' ++ [i]). apply line_step with j; [now rewrite flip_out|auto].
Qed.

(** * Changing one parent *)
Definition pset par (c : nat) (x : option nat) (i : nat) : option nat := if i =? c then x else par i.
Lemma pset_eq par c x : pset par c x c = x. Proof. unfold pset. now rewrite Nat.eqb_refl. Qed.
Lemma pset_neq par c x i : i <> c -> pset par c x i = par i. Proof. intros N. unfold pset. apply Nat.eqb_neq in N. now rewrite N. Qed.
Lemma pset_line par c x i L : line par i L -> ~ In c L -> line (pset par c x) i L.
Proof.
  induction 1 as [i E|i j L E H IH]; intros N.
  - constructor. rewrite pset_neq; [auto|]. intros ->. apply N. now left.
  - apply line_step with j; [|apply IH; intros I; apply N, in_or_app; auto]. rewrite pset_neq; [auto|]. intros ->. apply N, in_or_app. right. now left.
Qed.
Lemma pset_rooted_none par c : rooted par -> rooted (pset par c None).
Proof.
  intros R i. destruct (R i) as (L & H). induction H as [i E|i j L E H IH]; destruct (Nat.eq_dec i c) as [->|N]; try (exists [c]; constructor; apply pset_eq).
  - exists [i]. constructor. now rewrite pset_neq.
  - destruct IH as (K & HK). exists (K ++ [i]). apply line_step with j; [now rewrite pset_neq|auto].
Qed.
Lemma pset_rooted par c p Lp : rooted par -> line par p Lp -> ~ In c Lp -> rooted (pset par c (Some p)).
Proof.
  intros R Hp N i. assert (Hc : line (pset par c (Some p)) c (Lp ++ [c])) by (apply line_step with p; [apply pset_eq|now apply pset_line]).
  destruct (R i) as (L & H). induction H as [i E|i j L E H IH]; (destruct (Nat.eq_dec i c) as [->|Ni]; [eauto|]).
  - exists [i]. constructor. now rewrite pset_neq.
  - destruct IH as (K & HK). exists (K ++ [i]). apply line_step with j; [now rewrite pset_neq|auto].
Qed.

(** * The graph of a rooted forest *)
Definition graph (E : edges) par : Prop := forall i j, joined E i j <-> padj par i j.
Lemma conn_trans E u v w : conn E u v -> conn E v w -> conn E u w.
Proof. induction 1; auto. intros H'. apply conn_step with v; auto. Qed.
Lemma joined_sym E u v : joined E u v -> joined E v u.
Proof. unfold joined. tauto. Qed.
Lemma conn_sym E u v : conn E u v -> conn E v u.
Proof. induction 1 as [|u v w J C IH]; [constructor|]. apply (conn_trans IH). apply conn_step with u; [now apply joined_sym|constructor]. Qed.
Lemma line_conn E par i L : graph E par -> line par i L -> forall j, In j L -> conn E i j.
Proof.
  intros G. induction 1 as [i Ei|i j L Ei H IH]; intros k I; [destruct I as [<-|[]]; constructor|].
  apply in_app_or in I as [I|[<-|[]]]; [|constructor]. apply conn_step with j; [apply G; now left|auto].
Qed.
Lemma walk_chain E par v : graph E par -> forall p a rp, walk E a (a :: p) v -> NoDup (a :: p) -> par a = rp -> (forall r, rp = Some r -> ~ In r p) -> chain par rp (a :: p) /\ exists K, a :: p = K ++ [v].
Proof.
  intros G p. induction p as [|b p IH]; intros a rp W N Er Nr.
  - cbn in W. destruct W as [_ ->]. split; [cbn; auto|now exists []].
  - cbn in W. destruct W as (_ & J & W). apply NoDup_cons_iff in N as [Na N]. assert (Eb : par b = Some a). { apply G in J as [J|J]; [|auto]. exfalso. apply (Nr b); [congruence|now left]. }
    destruct (IH b (Some a)) as (C & K & EK); auto; [intros r [= <-] I; apply Na; now right|]. split; [split; [auto|exact C]|]. exists (a :: K). now rewrite EK.
Qed.
(** the simple path from the root is the path of the parents *)
Lemma spath_line E par u v p : graph E par -> spath E u v p -> par u = None -> line par v p.
Proof.
  intros G [W N] Eu. destruct p as [|a p]; [destruct W|]. assert (u = a) as -> by (destruct p; cbn in W; tauto). destruct (walk_chain G W N Eu) as (C & K & EK); [discriminate|]. rewrite EK in *. now apply chain_none_line.
Qed.
Lemma graph_flip E par L : graph E par -> NoDup L -> chain par None L -> graph E (flip par L).
Proof. intros G N C i j. rewrite (G i j). symmetry. now apply flip_padj. Qed.
Lemma graph_link E par c p : graph E par -> par c = None -> graph ((p, c) :: E) (pset par c (Some p)).
Proof.
  intros G Ec i j. unfold joined. cbn [In]. assert (Q : (In (i, j) E \/ In (j, i) E) <-> padj par i j) by apply G.
  transitivity (((p, c) = (i, j) \/ (p, c) = (j, i)) \/ padj par i j); [tauto|]. unfold padj, pset. destruct (Nat.eqb_spec i c) as [->|Ni], (Nat.eqb_spec j c) as [->|Nj]; rewrite ?Ec.
  - split; [intros [[E1|E1]|[E1|E1]]; try discriminate; injection E1 as ->; auto|intros [E1|E1]; injection E1 as ->; auto].
  - split; [intros [[E1|E1]|[E1|E1]]; try discriminate; auto; injection E1; intros; subst; auto; congruence|intros [E1|E1]; auto; injection E1 as ->; auto].
  - split; [intros [[E1|E1]|[E1|E1]]; try discriminate; auto; injection E1; intros; subst; auto; congruence|intros [E1|E1]; auto; injection E1 as ->; auto].
  - split; [intros [[E1|E1]|E1]; auto; injection E1; intros; congruence|auto].
Qed.
Lemma joined_cut E u v i j : joined (cut_edges E u v) i j <-> joined E i j /\ ~ (i = u /\ j = v) /\ ~ (i = v /\ j = u).
Proof.
  unfold joined, cut_edges. rewrite !filter_In. assert (Q : forall a b, negb ((a =? u) && (b =? v) || (a =? v) && (b =? u)) = true <-> ~ (a = u /\ b = v) /\ ~ (a = v /\ b = u)) by (intros; lia). rewrite !Q. tauto.
Qed.
Lemma graph_cut E par u v : graph E par -> par v = Some u -> par u <> Some v -> graph (cut_edges E u v) (pset par v None).
Proof.
  intros G Ev Eu i j. rewrite joined_cut, (G i j). unfold padj, pset. destruct (Nat.eqb_spec i v) as [->|Ni], (Nat.eqb_spec j v) as [->|Nj]; rewrite ?Ev.
  - split; [intros ([E1|E1] & E2 & E3); exfalso; injection E1 as ->; tauto|intros [|]; discriminate].
  - split; [intros ([E1|E1] & E2 & E3); [injection E1 as ->; tauto|auto]|]. intros [|E1]; [discriminate|]. split; [auto|]. split; intros [E2 E3]; subst; tauto.
  - split; [intros ([E1|E1] & E2 & E3); [auto|injection E1 as ->; tauto]|]. intros [E1|]; [|discriminate]. split; [auto|]. split; intros [E2 E3]; subst; tauto.
  - split; [tauto|]. intros H. split; [auto|]. split; intros [E2 E3]; subst; tauto.
Qed.
End Par.
