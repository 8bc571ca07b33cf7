(** * C93: the fast Fourier transform ([Fft] of fft.hpp), over a ring *)
From Coq Require Import Ring.
From Verif Require Import Base BaseLemmas ListExtra FftModel FftProof FftDft FftInv.
Set Implicit Arguments.

(** [z s] is a [2^s]th root of unity for [s <= K], each the square of the next, and [z 1 = -1]: in the
    complex numbers the [exp(-2 pi i / 2^s)], or their inverses. *)
Record roots A (one : A) (mul : A -> A -> A) (opp : A -> A) (K : nat) (z : nat -> A) : Prop := Roots {
  r_0 : z 0 = one;
  r_1 : 1 <= K -> z 1 = opp one;
  r_2 : forall s, s < K -> mul (z (S s)) (z (S s)) = z s }.
(** The factors of the stages: [tw m i] is the [i]th power of the root of order [2 * m]. *)
Definition factors A (one : A) (mul : A -> A -> A) (K : nat) (z : nat -> A) (tw : nat -> nat -> A) : Prop :=
  forall s i, s < K -> i < 2 ^ s -> tw (2 ^ s) i = pw one mul (z (S s)) i.

(** The constructor takes the least power of two that is not below the size. *)
Theorem C93_size size : exists K, fft_n size = Some (2 ^ K) /\ size <= 2 ^ K /\ forall k, size <= 2 ^ k -> 2 ^ K <= 2 ^ k.
Proof. apply size_ok. Qed.

Section P.
Variable A : Type.
Variables (zero one : A) (add mul sub : A -> A -> A) (opp : A -> A).
Hypothesis RT : ring_theory zero one add mul sub opp eq.
Lemma resized n f : length (fft_resize zero n f) = n /\ forall p, p < n -> get (fft_resize zero n f) p = Some (nth p f zero).
Proof.
  unfold fft_resize. split; [rewrite app_length, firstn_length, repeat_length; lia|]. intros p Hp. destruct (Nat.lt_ge_cases p (length f)) as [L|L].
  - rewrite get_app_l by (rewrite firstn_length; lia). rewrite get_firstn by lia. now apply nth_error_nth'.
  - rewrite get_app_r by (rewrite firstn_length; lia). rewrite firstn_length. rewrite get_repeat by lia. now rewrite nth_overflow by lia.
Qed.
(** [fft] is the discrete Fourier transform of its argument, cut or filled with zeros to [n_] values. *)
Theorem C93_fft K z tw f : roots one mul opp K z -> factors one mul K z tw ->
  exists g, fft add sub mul zero tw (2 ^ K) f = Some g /\ length g = 2 ^ K /\
  forall i, i < 2 ^ K -> get g i = Some (total zero add (2 ^ K) (fun j => mul (nth j f zero) (pw one mul (z K) (i * j)))).
Proof.
  intros R T. destruct (resized (2 ^ K) f) as (L & G). unfold fft. apply (@impl_ok _ _ _ _ _ _ _ RT tw K z (r_0 R) (r_1 R) (r_2 R) T); auto.
Qed.
(** [ifft] after [fft] gives the argument back. *)
Theorem C93_inverse K z z' tw tw' divn f : roots one mul opp K z -> factors one mul K z tw ->
  roots one mul opp K z' -> factors one mul K z' tw' -> mul (z K) (z' K) = one ->
  (forall x, divn (mul (total zero add (2 ^ K) (fun _ => one)) x) = x) ->
  exists g, fft add sub mul zero tw (2 ^ K) f = Some g /\ ifft add sub mul zero tw' divn (2 ^ K) g = Some (fft_resize zero (2 ^ K) f).
Proof.
  intros R T R' T' ZY D. destruct (C93_fft f R T) as (g & E & Lg & G). exists g. split; [exact E|]. unfold ifft. destruct (C93_fft g R' T') as (h & E2 & Lh & H). unfold fft in E2. rewrite E2. cbn [obind]. f_equal. destruct (resized (2 ^ K) f) as (Lr & Gr).
  apply get_ext. intros l. destruct (Nat.lt_ge_cases l (2 ^ K)) as [Hl|Hl]; [|unfold get; rewrite !(proj2 (nth_error_None _ _)); [reflexivity|lia|rewrite map_length; lia]]. rewrite get_map, H by lia. cbn [option_map]. rewrite Gr by lia. f_equal. rewrite <- (D (nth l f zero)). f_equal.
  rewrite <- (@invert _ _ _ _ _ _ _ RT K z z' (r_1 R) (r_2 R) (r_1 R') (r_2 R') ZY (fun j => nth j f zero)) by lia. apply (@total_ext A zero add (fun _ _ => zero)). intros i Hi. f_equal. specialize (G i Hi). now apply nth_error_nth.
Qed.
End P.

(** ** Concrete cases: the Gaussian integers *)
Definition gadd (a b : Z * Z) : Z * Z := (fst a + fst b, snd a + snd b)%Z.
Definition gsub (a b : Z * Z) : Z * Z := (fst a - fst b, snd a - snd b)%Z.
Definition gmul (a b : Z * Z) : Z * Z := (fst a * fst b - snd a * snd b, fst a * snd b + snd a * fst b)%Z.
Definition gopp (a : Z * Z) : Z * Z := (- fst a, - snd a)%Z.
Definition groot (c : Z) (s : nat) : Z * Z := match s with O => (1, 0)%Z | S O => (-1, 0)%Z | _ => (0%Z, c) end.
Definition gtw (c : Z) (m i : nat) : Z * Z := pw (1, 0)%Z gmul (groot c (if m =? 1 then 1 else 2)) i.
Lemma gauss_ring : ring_theory (0, 0)%Z (1, 0)%Z gadd gmul gsub gopp eq.
Proof. unfold gadd, gmul, gsub, gopp. constructor; intros; repeat match goal with x : (Z * Z)%type |- _ => destruct x end; cbn [fst snd]; f_equal; ring. Qed.
Lemma gauss_roots c : (c * c = 1)%Z -> roots (1, 0)%Z gmul gopp 2 (groot c) /\ factors (1, 0)%Z gmul 2 (groot c) (gtw c).
Proof.
  intros Hc. split; [split|].
  - reflexivity.
  - reflexivity.
  - intros [|[|s]] Hs; [reflexivity| |lia]. unfold gmul, groot. cbn [fst snd]. f_equal; lia.
  - intros [|[|s]] i Hs _; [reflexivity|reflexivity|lia].
Qed.
Example C93_case : fft gadd gsub gmul (0, 0)%Z (gtw (-1)) 4 [(1, 0); (2, 0); (3, 0); (4, 0)]%Z = Some [(10, 0); (-2, 2); (-2, 0); (-2, -2)]%Z.
Proof. vm_compute. reflexivity. Qed.
Example C93_case_inverse : exists g, fft gadd gsub gmul (0, 0)%Z (gtw (-1)) 4 [(1, 5); (2, 0); (3, 7)]%Z = Some g /\
  ifft gadd gsub gmul (0, 0)%Z (gtw 1) (fun x => (fst x / 4, snd x / 4)%Z) 4 g = Some [(1, 5); (2, 0); (3, 7); (0, 0)]%Z.
Proof.
  destruct (@gauss_roots (-1) eq_refl) as (R & T). destruct (@gauss_roots 1 eq_refl) as (R' & T').
  apply (@C93_inverse _ _ _ _ _ _ _ gauss_ring 2 (groot (-1)) (groot 1) (gtw (-1)) (gtw 1) (fun x => (fst x / 4, snd x / 4)%Z) [(1, 5); (2, 0); (3, 7)]%Z R T R' T' eq_refl).
  intros (a & b). assert (E : total (0, 0)%Z gadd (2 ^ 2) (fun _ => (1, 0)%Z) = (4, 0)%Z) by reflexivity. rewrite E. unfold gmul. cbn [fst snd].
  replace (4 * a - 0 * b)%Z with (a * 4)%Z by lia. replace (4 * b + 0 * a)%Z with (b * 4)%Z by lia. now rewrite !Z.div_mul.
Qed.

Print Assumptions C93_size.
Print Assumptions C93_fft.
Print Assumptions C93_inverse.
