(** Properties C48, C50-C53: smoothing, the Kramers-Kronig transform and numerical
    derivatives (vocabulary in Spec_MathFn.v; nsum n f is f 0 + ... + f (n-1)). *)
From Coq Require Import List ZArith Bool Lia Reals Lra.
From Coquelicot Require Import Complex.
From Verif Require Import Base Float NumPy Proof_NumPy Model_MathFn Spec_MathFn Model_QtCurrent Proof_IVModels Proof_Filters Proof_Slope Proof_KK.
Import ListNotations.
Open Scope R_scope.

(** ** C48 *)
(** Accepted: a window radius of at least one sample and a window no longer than the data. *)
Theorem C48_accepted : forall x sigma ext,
  ((exists y, gauss_conv x sigma ext = Ok y) <-> exists m, 1 <= sigma * ext /\ window_points (sigma * ext) m /\ (m <= length x)%nat) /\
  (forall er, gauss_conv x sigma ext = Err er -> er = AssertionError).
Proof. exact (fun x s e => conj (conv_ok x s e) (conv_err x s e)). Qed.
Print Assumptions C48_accepted.

(** As many points as the data; constants; bounds; linear. *)
Theorem C48_smoothing : forall sigma ext,
  (forall x y, gauss_conv x sigma ext = Ok y -> length y = length x) /\
  (forall c n y, gauss_conv (repeat c n) sigma ext = Ok y -> y = repeat c n) /\
  (forall x y lo hi, gauss_conv x sigma ext = Ok y -> Forall (fun v => lo <= v <= hi) x -> Forall (fun v => lo <= v <= hi) y) /\
  (forall a b x x' y y', length x = length x' -> gauss_conv x sigma ext = Ok y -> gauss_conv x' sigma ext = Ok y' ->
     gauss_conv (mix a b x x') sigma ext = Ok (mix a b y y')).
Proof. exact (fun s e => conj (fun x y => conv_length x s e y) (conj (fun c n y => conv_constant c n s e y) (conj (fun x y lo hi => conv_bounds x s e y lo hi) (fun a b x x' y y' => conv_linear a b x x' s e y y')))). Qed.
Print Assumptions C48_smoothing.

(** Reversing commutes with smoothing when the window reaches a whole number of samples. *)
Theorem C48_reversal_partial : forall x sigma ext M y, (1 <= M)%nat -> sigma * ext = INR M ->
  gauss_conv x sigma ext = Ok y -> gauss_conv (rev x) sigma ext = Ok (rev y).
Proof. exact conv_reverse. Qed.
Print Assumptions C48_reversal_partial.

(** In that case it is the bell-shaped average of the data mirrored at its ends. *)
Theorem C48_weighted_average : forall x sigma ext M y, (1 <= M)%nat -> sigma * ext = INR M -> gauss_conv x sigma ext = Ok y ->
  length y = length x /\ forall k, (k < length x)%nat ->
    nth k y 0 = nsum (2 * M + 1) (fun j => bell sigma (INR j - INR M) * nth (mirror (length x) (Z.of_nat k + Z.of_nat M - Z.of_nat j)) x 0)
                / nsum (2 * M + 1) (fun j => bell sigma (INR j - INR M)).
Proof. exact conv_integer. Qed.
Print Assumptions C48_weighted_average.

(** Otherwise reversal may change the result: sigma = 1, extent 3/2. *)
Theorem C48_refuted : exists x y y', gauss_conv x 1 (3 / 2) = Ok y /\ gauss_conv (rev x) 1 (3 / 2) = Ok y' /\ y' <> rev y.
Proof. exact reverse_fails. Qed.
Print Assumptions C48_refuted.

Example C48_case : exists y, gauss_conv [0; 1; 5; 7; 8; 2] 1 2 = Ok y.
Proof. apply conv_ok. exists 5%nat. split; [lra|]. split; [|simpl; lia]. replace (1 * 2) with (INR 2) by (simpl; ring). exact (integer_points 2 ltac:(lia)). Qed.

(** ** C50 *)
Theorem C50_resistor_gives_zero : forall v n, (2 <= length v)%nat -> (1 <= n)%Z -> even_grid v -> kk_trans v v n = Ok (repeat 0 (length v)).
Proof. exact kk_resistor. Qed.
Print Assumptions C50_resistor_gives_zero.

Theorem C50_length : forall v i n, length i = length v -> (2 <= length v)%nat -> (1 <= n)%Z -> even_grid v ->
  exists r, kk_trans v i n = Ok r /\ length r = length v.
Proof. exact kk_length. Qed.
Print Assumptions C50_length.

(** The deviation from i = v enters linearly. *)
Theorem C50_affine : forall v i j w n a b, length i = length v -> length j = length v -> length w = length v -> (1 <= n)%Z ->
  (forall k, (k < length v)%nat -> nth k w 0 = a * nth k i 0 + b * nth k j 0 + (1 - a - b) * nth k v 0) ->
  forall ri rj rw, kk_trans v i n = Ok ri -> kk_trans v j n = Ok rj -> kk_trans v w n = Ok rw ->
  forall t, (t < length v)%nat -> nth t rw 0 = a * nth t ri 0 + b * nth t rj 0.
Proof. exact kk_affine. Qed.
Print Assumptions C50_affine.

Theorem C50_odd_to_even : forall v i n r t, length i = length v -> (1 <= n)%Z -> kk_trans v i n = Ok r ->
  odd_list v -> odd_list i -> (t < length v)%nat -> nth (length v - 1 - t) r 0 = nth t r 0.
Proof. exact kk_even. Qed.
Print Assumptions C50_odd_to_even.

(** The transform is a sum with the discrete Hilbert kernel, whatever the padding. *)
Theorem C50_kernel : forall v i n r t, length i = length v -> (1 <= n)%Z -> kk_trans v i n = Ok r -> (t < length v)%nat ->
  nth t r 0 = nsum (length v) (fun s => (nth s v 0 - nth s i 0) * hilbert_kernel (length v * Z.to_nat n) (Z.of_nat t - Z.of_nat s)).
Proof. exact kk_formula. Qed.
Print Assumptions C50_kernel.

(** Check of the model of scipy.signal.hilbert: the real part of the analytic signal is the
    signal. *)
Theorem C50_analytic_signal : forall x N t, (0 < N)%nat -> (t < N)%nat ->
  exists a, hilbert x (Z.of_nat N) = Ok a /\ Re (nth t a (RtoC 0)) = nth t x 0.
Proof. exact hilbert_real. Qed.
Print Assumptions C50_analytic_signal.

(** The same for the trapezoidal version. *)
Theorem C50_trapezoid : forall v, (2 <= length v)%nat ->
  (shrinks_ok v -> kk_trans_trapz v v = Ok (repeat 0 (length v))) /\
  (forall i j w a b, length i = length v -> length j = length v -> length w = length v ->
     (forall k, (k < length v)%nat -> nth k w 0 = a * nth k i 0 + b * nth k j 0 + (1 - a - b) * nth k v 0) ->
     forall ri rj rw, kk_trans_trapz v i = Ok ri -> kk_trans_trapz v j = Ok rj -> kk_trans_trapz v w = Ok rw ->
     forall t, (t < length v)%nat -> nth t rw 0 = a * nth t ri 0 + b * nth t rj 0) /\
  (forall i r t, length i = length v -> kk_trans_trapz v i = Ok r -> odd_list v -> odd_list i -> (t < length v)%nat ->
     nth (length v - 1 - t) r 0 = nth t r 0).
Proof.
  exact (fun v HV => conj (trapz_resistor v HV) (conj (fun i j w a b Li Lj Lw => trapz_affine v i j w a b Li Lj Lw HV) (fun i r t HL => trapz_even v i r t HL HV))).
Qed.
Print Assumptions C50_trapezoid.

(** Three points -1, 0, 1 and a curve that is not the resistor. *)
Example C50_case : even_grid [-1; 0; 1] /\ odd_list [-1; 0; 1] /\ odd_list [-3; 0; 3] /\ shrinks_ok [-1; 0; 1] /\
  hilbert_kernel 4 1 = 1 / 2.
Proof.
  assert (0 < / 10 ^ 5) by (apply Rinv_0_lt_compat, pow_lt; lra).
  split; [|split; [|split; [|split]]].
  - intros [|[|[|k]]] Hk; simpl in Hk; try lia; simpl nth; match goal with |- Rabs ?e < _ => replace e with 0 by ring end; rewrite Rabs_R0; assumption.
  - intros [|[|[|k]]] Hk; simpl in Hk; try lia; simpl; ring.
  - intros [|[|[|k]]] Hk; simpl in Hk; try lia; simpl; ring.
  - intros [|[|[|k]]] Hk; simpl in Hk; try lia; simpl nth; match goal with |- ?e < _ => replace e with 0 by ring end; assumption.
  - unfold hilbert_kernel. change (1 mod Z.of_nat 4 =? 0)%Z with false. change (Nat.even 4) with true. change (Z.even 1) with false. cbv iota zeta.
    replace (PI * 1 / INR 4) with (PI / 4) by (simpl; field). rewrite sin_PI4, cos_PI4. simpl (INR 4). assert (0 < sqrt 2) by (apply sqrt_lt_R0; lra). field. lra.
Qed.

(** ** C51 *)
Theorem C51_kk_trans_rejects : forall v i n, length i = length v -> (2 <= length v)%nat -> (1 <= n)%Z ->
  (even_grid v <-> exists r, kk_trans v i n = Ok r) /\ (~ even_grid v <-> kk_trans v i n = Err AssertionError).
Proof. exact kk_rejects. Qed.
Print Assumptions C51_kk_trans_rejects.

Theorem C51_kk_trans_other_errors : forall v i n,
  ((length v < 2)%nat -> kk_trans v i n = Err IndexError) /\
  (length i = length v -> (2 <= length v)%nat -> (n <= 0)%Z -> even_grid v -> kk_trans v i n = Err ValueError).
Proof. exact (fun v i n => conj (kk_short v i n) (kk_nopad v i n)). Qed.
Print Assumptions C51_kk_trans_other_errors.

(** kk_trans_trapz only rejects steps that are too long. *)
Theorem C51_trapezoid_rejects_partial : forall v i, length i = length v -> (2 <= length v)%nat ->
  (shrinks_ok v -> exists r, kk_trans_trapz v i = Ok r) /\ (~ shrinks_ok v -> kk_trans_trapz v i = Err AssertionError).
Proof. exact trapz_rejects. Qed.
Print Assumptions C51_trapezoid_rejects_partial.

(** Steps of 1 and then 1/2 are accepted. *)
Theorem C51_refuted : let v := [0; 1; 3 / 2] in ~ even_grid v /\ exists r, kk_trans_trapz v v = Ok r.
Proof. exact uneven_accepted. Qed.
Print Assumptions C51_refuted.

(** ** C52 *)
Theorem C52_slope_exact : forall a b x y, on_line a b x y -> NoDup x -> (2 <= length x)%nat -> slope x y = Ok (repeat (FV a) (length x)).
Proof. exact slope_line. Qed.
Print Assumptions C52_slope_exact.

(** A span of n points needs (3n+1)/2 samples. *)
Theorem C52_span_exact : forall a b x y n nozeros, on_line a b x y -> NoDup x ->
  (n mod 2 = 1)%Z -> (3 <= n)%Z -> (3 * n + 1 <= 2 * Z.of_nat (length x))%Z ->
  slope_span_n x y n nozeros = Ok (repeat (if nozeros && Reqb a 0 then FV (/ 10 ^ 10) else FV a) (length x)).
Proof. exact span_line. Qed.
Print Assumptions C52_span_exact.

Theorem C52_no_zeros : forall x y n d, length y = length x -> (n mod 2 = 1)%Z -> (3 <= n)%Z -> slope_span_n x y n true = Ok d ->
  Forall (fun v => v <> FV 0) d.
Proof. exact span_nonzero. Qed.
Print Assumptions C52_no_zeros.

(** Which sizes are valid. *)
Theorem C52_sizes : forall x y, length y = length x ->
  ((length x < 2)%nat -> slope x y = Err IndexError) /\
  (forall n nozeros, (n mod 2 = 1)%Z -> (3 <= n)%Z -> (2 * Z.of_nat (length x) < 3 * n + 1)%Z -> slope_span_n x y n nozeros = Err IndexError) /\
  (forall n nozeros, (n mod 2 = 0)%Z -> slope_span_n x y n nozeros = Err AssertionError).
Proof. exact sizes. Qed.
Print Assumptions C52_sizes.

Example C52_case : on_line 2 1 [0; 1; 3; 4; 10] [1; 3; 7; 9; 21] /\ NoDup [0; 1; 3; 4; 10].
Proof.
  split.
  - split; [reflexivity|]. intros [|[|[|[|[|k]]]]] Hk; simpl in Hk; try lia; simpl; ring.
  - repeat constructor; simpl; intuition lra.
Qed.

(** ** C53 *)
(** The difference quotient is taken from (n+1)/2 samples before to (n-1)/2 samples after
    the point, for spans of at least three points. *)
Theorem C53_span_partial : forall x y n i d, length y = length x -> (n mod 2 = 1)%Z -> (3 <= n)%Z -> slope_span_n x y n false = Ok d ->
  let h := Z.to_nat ((n - 1) / 2) in (h + 1 <= i)%nat -> (i + h + 1 < length x)%nat ->
  nth i d (FV 0) = secant x y (i - h - 1) (i + h).
Proof. exact span_interior. Qed.
Print Assumptions C53_span_partial.

(** So it is not centred: the derivative of x^2 at x = i comes out as 2i - 1, not 2i. *)
Theorem C53_refuted_parabola : forall n N i d, (n mod 2 = 1)%Z -> (3 <= n)%Z ->
  let x := map INR (seq 0 N) in let y := map (fun k => INR k ^ 2) (seq 0 N) in
  slope_span_n x y n false = Ok d ->
  let h := Z.to_nat ((n - 1) / 2) in (h + 1 <= i)%nat -> (i + h + 1 < N)%nat -> nth i d (FV 0) = FV (2 * INR i - 1).
Proof. exact span_square. Qed.
Print Assumptions C53_refuted_parabola.

(** A span of one point is always an error (for three samples or more). *)
Theorem C53_refuted_single : forall x y nozeros, length y = length x -> (3 <= length x)%nat -> slope_span_n x y 1 nozeros = Err ValueError.
Proof. exact span_one. Qed.
Print Assumptions C53_refuted_single.

(** slope is a centred difference. *)
Theorem C53_slope_centred : forall x y, length y = length x -> (2 <= length x)%nat -> exists d, slope x y = Ok d /\ length d = length x /\
  nth 0 d (FV 0) = secant x y 0 1 /\ nth (length x - 1) d (FV 0) = secant x y (length x - 2) (length x - 1) /\
  forall i, (1 <= i)%nat -> (i + 1 < length x)%nat -> nth i d (FV 0) = secant x y (i - 1) (i + 1).
Proof. exact slope_spec. Qed.
Print Assumptions C53_slope_centred.

Example C53_case : exists d, slope_span_n (map INR (seq 0 8)) (map (fun k => INR k ^ 2) (seq 0 8)) 3 false = Ok d.
Proof. destruct (span_spec (map INR (seq 0 8)) (map (fun k => INR k ^ 2) (seq 0 8)) eq_refl 1 ltac:(lia) false ltac:(simpl; lia)) as [d [E _]]. exists d. exact E. Qed.
