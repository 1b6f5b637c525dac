(** Properties C31-C41: harmonic balance.

    The vocabulary is in Spec_HB.v: [residual_at] is the error of Kirchhoff's equation
    vt - zt * I(v) - v at one tone, harmonic and bias point, [balanced e] says it is at
    most e * |v| everywhere, [corrections n v v'] that v' comes from v by n Newton
    corrections.  [inverts inv]: np.linalg.inv is exact and fails for singular matrices
    only.  [r_ret call] is what a call returns, [r_cct call] and [r_guess call] the
    caller's circuit and initial guess afterwards. *)
From Coq Require Import List ZArith Bool Reals String.
From Coquelicot Require Import Complex.
From Verif Require Import Base Sums Round Bessel Model_QtCurrent Spec_QtCurrent Spec_QtApi Model_Circuit Model_HB Spec_HB
  Proof_QtWit Proof_HB Proof_HB2 Proof_HB3 Proof_HB4 Proof_HB5 Proof_HB6 Proof_HBWit Proof_HBWit2 Proof_HBWit3 Proof_HBWit4.
Import ListNotations.
Open Scope C_scope.

(** The assumption on np.linalg.inv can be met. *)
Example exact_inverse_exists : inverts exact_inv.
Proof. exact exact_inv_inverts. Qed.

(** ** C31 *)

(** Missing: if the error of some signal but the last is 0/0, the flag can be True although
    the target is missed (C31_refuted). *)
Theorem C31_convergence_means_balance_partial : forall J inv c resp num_b max_it stop vj0 damp zj v it,
  let call := harmonic_balance J inv c resp num_b max_it stop vj0 damp "x" zj in
  simulates c num_b -> (0 <= max_it)%Z -> inverts inv ->
  r_ret call = Ok (RetX v it true) ->
  everywhere (h_q c) (fun f p i => ~ undefined J (r_cct call) resp num_b v f p i) ->
  balanced J (r_cct call) resp num_b stop v.
Proof. exact converged_balanced. Qed.
Print Assumptions C31_convergence_means_balance_partial.

(** At the last signal the target is met in any case; so with one signal nothing is missing. *)
Theorem C31_last_signal : forall J inv c resp num_b max_it stop vj0 damp zj v it,
  let call := harmonic_balance J inv c resp num_b max_it stop vj0 damp "x" zj in
  simulates c num_b -> (0 <= max_it)%Z -> inverts inv ->
  r_ret call = Ok (RetX v it true) ->
  forall i, (i < q_npts (h_q c))%nat -> let f := q_num_f (h_q c) in let p := q_num_p (h_q c) in
  ~ undefined J (r_cct call) resp num_b v f p i /\
  (Cmod (residual_at J (r_cct call) resp num_b v f p i) <= stop * Cmod (v f p i))%R.
Proof. exact converged_last. Qed.
Print Assumptions C31_last_signal.

Theorem C31_refuted : forall inv, exists c resp num_b g v it,
  simulates c num_b /\
  let call := harmonic_balance besselJ inv c resp num_b 10 (/ 10 ^ 3) (Some g) 1 "x" (RtoC 1) in
  r_ret call = Ok (RetX v it true) /\
  undefined besselJ (r_cct call) resp num_b v 1 1 0 /\
  signal (h_q c) 1 1 /\ (1 < q_npts (h_q c))%nat /\
  v 1%nat 1%nat 1%nat = RtoC 3 /\ residual_at besselJ (r_cct call) resp num_b v 1 1 1 = RtoC (-2).
Proof. exact nan_swallowed. Qed.
Print Assumptions C31_refuted.

(** A run that converges (after no correction). *)
Example C31_case : forall J inv, exists c num_b g v it,
  simulates c num_b /\
  r_ret (harmonic_balance J inv c no_resp num_b 5 (/ 10 ^ 3) (Some g) 1 "x" (RtoC 1)) = Ok (RetX v it true) /\
  everywhere (h_q c) (fun f p i => ~ undefined J (r_cct (harmonic_balance J inv c no_resp num_b 5 (/ 10 ^ 3) (Some g) 1 "x" (RtoC 1))) no_resp num_b v f p i).
Proof. exact converges. Qed.

(** ** C32 *)

(** Missing: the count of corrections can be one larger than reported, if an undefined error
    at the last signal is met in the last iteration; a target met in the last iteration is
    reported as False (the C32_refuted theorems). *)
Theorem C32_iterations_partial : forall J inv c resp num_b max_it stop vj0 damp zj v it flag,
  let call := harmonic_balance J inv c resp num_b max_it stop vj0 damp "x" zj in
  simulates c num_b -> (0 <= max_it)%Z -> inverts inv ->
  r_ret call = Ok (RetX v it flag) ->
  (0 <= it <= max_it)%Z /\ (flag = true <-> (it < max_it)%Z) /\
  (corrections J (r_cct call) resp num_b damp (Z.to_nat it) (start c vj0 zj) v \/
   (it = max_it /\ corrections J (r_cct call) resp num_b damp (Z.to_nat max_it + 1) (start c vj0 zj) v /\
    exists u i, corrections J (r_cct call) resp num_b damp (Z.to_nat max_it) (start c vj0 zj) u /\
      (i < q_npts (h_q c))%nat /\ undefined J (r_cct call) resp num_b u (q_num_f (h_q c)) (q_num_p (h_q c)) i)).
Proof. exact iteration_count. Qed.
Print Assumptions C32_iterations_partial.

(** Before the last iteration, the flag is right: True means the target is met (C31) and a met
    target ends the run. *)
Theorem C32_met_target_ends : forall J inv c resp num_b max_it stop g damp mode zj,
  let call := harmonic_balance J inv c resp num_b max_it stop (Some g) damp mode zj in
  simulates c num_b -> (0 <= max_it)%Z -> (0 <= stop)%R ->
  everywhere (h_q c) (fun f p i => g f p i <> RtoC 0) -> balanced J (r_cct call) resp num_b stop g ->
  mode = "x"%string ->
  exists v, r_ret call = Ok (RetX v 0 (0 <? max_it)%Z) /\ agree (h_q c) g v.
Proof. exact met_target_ends. Qed.
Print Assumptions C32_met_target_ends.

Theorem C32_refuted_last_iteration : forall J inv, exists c num_b g v it,
  simulates c num_b /\
  let call := harmonic_balance J inv c no_resp num_b 0 (/ 10 ^ 3) (Some g) 1 "x" (RtoC 1) in
  r_ret call = Ok (RetX v it false) /\
  everywhere (h_q c) (fun f p i => v f p i <> RtoC 0) /\ balanced J (r_cct call) no_resp num_b (/ 10 ^ 3) v.
Proof. exact flag_false_converged. Qed.
Print Assumptions C32_refuted_last_iteration.

Theorem C32_refuted_negative_limit : forall J inv, exists c num_b g v it,
  simulates c num_b /\
  let call := harmonic_balance J inv c no_resp num_b (-1) (/ 10 ^ 3) (Some g) 1 "x" (RtoC 1) in
  r_ret call = Ok (RetX v it true) /\
  everywhere (h_q c) (fun f p i => v f p i <> RtoC 0) /\ ~ balanced J (r_cct call) no_resp num_b (/ 10 ^ 3) v.
Proof. exact flag_true_not_run. Qed.
Print Assumptions C32_refuted_negative_limit.

Theorem C32_refuted_extra_correction : forall inv, inverts inv -> exists c resp num_b g v,
  simulates c num_b /\
  r_ret (harmonic_balance besselJ inv c resp num_b 0 (/ 10 ^ 3) (Some g) 10 "x" (RtoC 1)) = Ok (RetX v 0 false) /\
  signal (h_q c) 1 1 /\ (1 < q_npts (h_q c))%nat /\ v 1%nat 1%nat 1%nat <> g 1%nat 1%nat 1%nat.
Proof. exact one_too_many. Qed.
Print Assumptions C32_refuted_extra_correction.

(** ** C33 *)

(** An undefined error at the last signal prevents the flag; elsewhere it may not. *)
Theorem C33_undefined_last_partial : forall J inv c resp num_b max_it stop vj0 damp zj v it flag i,
  let call := harmonic_balance J inv c resp num_b max_it stop vj0 damp "x" zj in
  simulates c num_b -> (0 <= max_it)%Z -> inverts inv ->
  r_ret call = Ok (RetX v it flag) -> (i < q_npts (h_q c))%nat ->
  undefined J (r_cct call) resp num_b v (q_num_f (h_q c)) (q_num_p (h_q c)) i -> flag = false.
Proof. exact undefined_last. Qed.
Print Assumptions C33_undefined_last_partial.

Theorem C33_refuted : forall inv, exists c resp num_b g v it f p i,
  simulates c num_b /\
  let call := harmonic_balance besselJ inv c resp num_b 10 (/ 10 ^ 3) (Some g) 1 "x" (RtoC 1) in
  signal (h_q c) f p /\ (i < q_npts (h_q c))%nat /\ undefined besselJ (r_cct call) resp num_b v f p i /\
  r_ret call = Ok (RetX v it true).
Proof. exact undefined_converged. Qed.
Print Assumptions C33_refuted.

(** ** C34 *)
Theorem C34_type_by_mode_partial : forall J inv c resp num_b max_it stop vj0 damp zj mode x,
  simulates c num_b -> r_ret (harmonic_balance J inv c resp num_b max_it stop vj0 damp mode zj) = Ok x ->
  match mode, x with
  | "o", RetV _ | "x", RetX _ _ _ | "m", RetM _ _ => True
  | "o", _ | "x", _ | "m", _ => False
  | _, RetNone => True
  | _, _ => False
  end%string.
Proof. exact mode_type. Qed.
Print Assumptions C34_type_by_mode_partial.

Theorem C34_same_voltages : forall J inv c resp num_b max_it stop vj0 damp zj v it flag,
  let call mode := harmonic_balance J inv c resp num_b max_it stop vj0 damp mode zj in
  simulates c num_b -> r_ret (call "x"%string) = Ok (RetX v it flag) ->
  r_ret (call "o"%string) = Ok (RetV v) /\ ((0 <= max_it)%Z -> exists mask, r_ret (call "m"%string) = Ok (RetM v mask)).
Proof. exact same_voltages. Qed.
Print Assumptions C34_same_voltages.

(** Without impedance the bare voltages are returned in every mode. *)
Theorem C34_refuted : forall J inv, exists c num_b v v',
  args_ok (h_q c) num_b /\ h_wvt c = true /\
  r_ret (harmonic_balance J inv c no_resp num_b 10 (/ 10 ^ 3) None 1 "x" (RtoC 1)) = Ok (RetV v) /\
  r_ret (harmonic_balance J inv c no_resp num_b 10 (/ 10 ^ 3) None 1 "m" (RtoC 1)) = Ok (RetV v').
Proof. exact mode_ignored. Qed.
Print Assumptions C34_refuted.

(** ** C35 *)

(** What is kept of the circuit: everything but source voltages below 1e-10 and those at index 0. *)
Theorem C35_circuit_partial : forall J inv c resp num_b max_it stop vj0 damp zj mode,
  let call := harmonic_balance J inv c resp num_b max_it stop vj0 damp mode zj in
  h_q (r_cct call) = h_q c /\ h_zt (r_cct call) = h_zt c /\ h_wvt (r_cct call) = h_wvt c /\
  (forall f p, (/ 10 ^ 10 <= Cmod (h_vt c f p))%R -> (1 <= f)%nat -> (1 <= p)%nat -> h_vt (r_cct call) f p = h_vt c f p) /\
  (forall f p, (f = 0 \/ p = 0)%nat -> h_vt c f p = RtoC 0 -> h_vt (r_cct call) f p = RtoC 0) /\
  (h_wvt c = false -> r_cct call = c) /\
  ((forall f p, (f <= q_num_f (h_q c))%nat -> (p <= q_num_p (h_q c))%nat -> h_zt c f p = RtoC 0) -> r_cct call = c).
Proof. exact circuit_after. Qed.
Print Assumptions C35_circuit_partial.

Theorem C35_sources_after : forall J inv c resp num_b max_it stop vj0 damp zj mode f p,
  simulates c num_b -> signal (h_q c) f p ->
  h_vt (r_cct (harmonic_balance J inv c resp num_b max_it stop vj0 damp mode zj)) f p = source (h_vt c f p).
Proof. exact source_after. Qed.
Print Assumptions C35_sources_after.

Theorem C35_guess_kept_partial : forall J inv c resp num_b max_it stop vj0 damp zj mode,
  (2 <= q_num_f (h_q c))%nat -> (2 <= q_num_p (h_q c))%nat ->
  r_guess (harmonic_balance J inv c resp num_b max_it stop vj0 damp mode zj) = vj0.
Proof. exact guess_kept. Qed.
Print Assumptions C35_guess_kept_partial.

(** With one tone or one harmonic the caller's guess is overwritten with the result. *)
Theorem C35_guess_overwritten : forall J inv c resp num_b max_it stop vj0 damp zj v mode g,
  let call := harmonic_balance J inv c resp num_b max_it stop vj0 damp mode zj in
  simulates c num_b -> (q_num_f (h_q c) = 1 \/ q_num_p (h_q c) = 1)%nat -> vj0 = Some g -> mode = "o"%string ->
  r_ret call = Ok (RetV v) ->
  exists g', r_guess call = Some g' /\ agree (h_q c) g' v /\ (forall f p i, (f = 0 \/ p = 0)%nat -> g' f p i = g f p i).
Proof. exact guess_becomes_result. Qed.
Print Assumptions C35_guess_overwritten.

Theorem C35_refuted_guess : forall J inv, inverts inv -> exists c num_b g g',
  simulates c num_b /\
  r_guess (harmonic_balance J inv c no_resp num_b 1 (/ 10 ^ 3) (Some g) 1 "o" (RtoC 1)) = Some g' /\
  g' 1%nat 1%nat 0%nat <> g 1%nat 1%nat 0%nat.
Proof. exact guess_overwritten. Qed.
Print Assumptions C35_refuted_guess.

Theorem C35_refuted_source : forall J inv, exists c num_b g,
  simulates c num_b /\ h_vt c 1%nat 1%nat = RtoC 0 /\
  h_vt (r_cct (harmonic_balance J inv c no_resp num_b 1 (/ 10 ^ 3) (Some g) 1 "o" (RtoC 1))) 1%nat 1%nat = RtoC (/ 10 ^ 10).
Proof. exact source_overwritten. Qed.
Print Assumptions C35_refuted_source.

(** ** C36 *)

(** A locked circuit with some impedance cannot be simulated. *)
Theorem C36_refuted : forall J inv cc resp num_b max_it stop vj0 damp mode zj f p,
  (f <= c_num_f cc)%nat -> (p <= c_num_p cc)%nat -> h_zt (of_circ cc) f p <> RtoC 0 ->
  r_ret (harmonic_balance J inv (of_circ (lock cc)) resp num_b max_it stop vj0 damp mode zj) = Err ValueError.
Proof. exact locked_refused_at. Qed.
Print Assumptions C36_refuted.

Theorem C36_no_impedance_partial : forall J inv cc resp num_b max_it stop vj0 damp mode zj,
  (forall f p, (f <= c_num_f cc)%nat -> (p <= c_num_p cc)%nat -> h_zt (of_circ cc) f p = RtoC 0) ->
  r_ret (harmonic_balance J inv (of_circ (lock cc)) resp num_b max_it stop vj0 damp mode zj) =
  r_ret (harmonic_balance J inv (of_circ cc) resp num_b max_it stop vj0 damp mode zj).
Proof. exact locked_trivial. Qed.
Print Assumptions C36_no_impedance_partial.

Theorem C36_unlocking_restores : forall J inv cc resp num_b max_it stop vj0 damp mode zj, w_vt cc = true ->
  r_ret (harmonic_balance J inv (of_circ (unlock (lock cc))) resp num_b max_it stop vj0 damp mode zj) =
  r_ret (harmonic_balance J inv (of_circ cc) resp num_b max_it stop vj0 damp mode zj).
Proof. exact unlock_lock. Qed.
Print Assumptions C36_unlocking_restores.

(** A circuit as built by the constructor, with one impedance set. *)
Example C36_case : exists cc cc', init 1 2 (PInt 1) (PInt 1) 0 2 (PInt 5) None (Some (28 / 10000)%R) (Some 10%R) "ex" = Ok cc /\
  cc' = with_zt cc [[RtoC 0; RtoC 0]; [RtoC 0; RtoC 1]] /\ w_vt cc' = true /\
  (1 <= c_num_f cc')%nat /\ (1 <= c_num_p cc')%nat /\ h_zt (of_circ cc') 1 1 <> RtoC 0.
Proof. exact built_circuit. Qed.

(** ** C37 *)
Theorem C37_affine_correction : forall J c resp num_b d v v' f p i,
  affine_row J c resp num_b f p i -> signal (h_q c) f p -> (i < q_npts (h_q c))%nat ->
  corrected J c resp num_b d v v' ->
  residual_at J c resp num_b v' f p i = RtoC (1 - d) * residual_at J c resp num_b v f p i.
Proof. exact affine_correction. Qed.
Print Assumptions C37_affine_correction.

Theorem C37_affine_run : forall J inv c resp num_b max_it stop vj0 damp zj v it flag f p i,
  let call := harmonic_balance J inv c resp num_b max_it stop vj0 damp "x" zj in
  simulates c num_b -> (0 <= max_it)%Z -> inverts inv ->
  signal (h_q c) f p -> (i < q_npts (h_q c))%nat -> affine_row J c resp num_b f p i ->
  r_ret call = Ok (RetX v it flag) ->
  exists n, (n = Z.to_nat it \/ n = Z.to_nat it + 1)%nat /\
    residual_at J (r_cct call) resp num_b v f p i =
    RtoC ((1 - damp) ^ n) * residual_at J (r_cct call) resp num_b (start c vj0 zj) f p i.
Proof. exact affine_call. Qed.
Print Assumptions C37_affine_run.

(** Undamped: solved exactly after the first correction. *)
Theorem C37_undamped_exact : forall J inv c resp num_b max_it stop vj0 zj v it flag f p i,
  let call := harmonic_balance J inv c resp num_b max_it stop vj0 1 "x" zj in
  simulates c num_b -> (0 <= max_it)%Z -> inverts inv ->
  signal (h_q c) f p -> (i < q_npts (h_q c))%nat -> affine_row J c resp num_b f p i -> (1 <= it)%Z ->
  r_ret call = Ok (RetX v it flag) ->
  residual_at J (r_cct call) resp num_b v f p i = RtoC 0.
Proof. exact affine_exact'. Qed.
Print Assumptions C37_undamped_exact.

(** With Bessel functions cut after the first order, the junction is linear for every response. *)
Example C37_case : forall resp vt zt, affine_row J_lin (w1 vt zt) resp (NbInt 1) 1 1 0.
Proof. exact lin_affine. Qed.
Example C37_case_drawn : current_at J_lin (wit_cct 1) (fun x => (0, x)%R) (NbInt 1) (fun _ _ _ => RtoC 1) 1 1 0 = RtoC 1.
Proof. exact lin_not_constant. Qed.
(** A run making one correction. *)
Example C37_case_run : forall J inv, inverts inv -> exists v,
  r_ret (harmonic_balance J inv (w1 (RtoC 1) (RtoC 1)) no_resp (NbInt 1) 1 (/ 10 ^ 3) (Some (fun _ _ _ => RtoC 5)) 1 "x" (RtoC 1)) = Ok (RetX v 1 false) /\
  v 1%nat 1%nat 0%nat = RtoC 1.
Proof. exact one_correction_call. Qed.

(** ** C38 *)
Theorem C38_numbering : forall F P, (1 <= P)%nat ->
  (forall f p, (1 <= f <= F)%nat -> (1 <= p <= P)%nat -> exists k, (k < F * P)%nat /\ k_to_fp k P = (INR f, p)) /\
  (forall k, (k < F * P)%nat -> exists f p, (1 <= f <= F)%nat /\ (1 <= p <= P)%nat /\ k_to_fp k P = (INR f, p)) /\
  (forall k k', k_to_fp k P = k_to_fp k' P -> k = k').
Proof. exact numbering. Qed.
Print Assumptions C38_numbering.

(** The error of signal k in the Newton loop is that of its own tone and harmonic: own source
    voltage, own impedance, and the current at that harmonic's frequency. *)
Theorem C38_own_current : forall J c resp num_b rm v k f p i,
  args_ok (h_q c) num_b -> interpolate_respfn (h_q c) resp num_b = Ok rm ->
  k_to_fp k (q_num_p (h_q c)) = (INR f, p) -> signal (h_q c) f p -> (i < q_npts (h_q c))%nat ->
  exists ij, qt_current_for_hb J (h_q c) resp num_b (Some rm) v = Ok ij /\
    ij k i = current_at J (h_q c) resp num_b (unflat (q_num_p (h_q c)) v) f p i /\
    unflat (q_num_p (h_q c)) v f p i = v k i /\
    flat2 (q_num_p (h_q c)) (h_vt c) k = h_vt c f p /\ flat2 (q_num_p (h_q c)) (h_zt c) k = h_zt c f p.
Proof. exact own_current. Qed.
Print Assumptions C38_own_current.

Theorem C38_check_current : forall J q resp num_b v, args_ok q num_b ->
  exists ij, qtcurrent_all_freq J v q resp num_b = Ok ij /\
  everywhere q (fun f p i => ij f p i = current_at J q resp num_b v f p i).
Proof. exact all_freq. Qed.
Print Assumptions C38_check_current.

Example C38_case : k_to_fp 5 3 = (INR 2, 3%nat).
Proof. exact k_to_fp_5_3. Qed.

(** ** C39 *)
Theorem C39_check_partial : forall J c resp num_b s v, args_ok (h_q c) num_b -> (1 <= q_npts (h_q c))%nat ->
  (everywhere (h_q c) (fun f p i => v f p i <> RtoC 0 /\ (Cmod (residual_at J c resp num_b v f p i) < s * Cmod (v f p i))%R) ->
   check_hb_error J v c resp num_b s = Ok tt) /\
  (~ everywhere (h_q c) (fun f p i => v f p i <> RtoC 0 /\ (Cmod (residual_at J c resp num_b v f p i) < s * Cmod (v f p i))%R) ->
   check_hb_error J v c resp num_b s = Err AssertionError).
Proof. exact check_spec. Qed.
Print Assumptions C39_check_partial.

(** A converged result passes with any larger target. *)
Theorem C39_converged_accepted_partial : forall J inv c resp num_b max_it stop vj0 damp zj v it stop',
  let call := harmonic_balance J inv c resp num_b max_it stop vj0 damp "x" zj in
  simulates c num_b -> (0 <= max_it)%Z -> inverts inv -> (stop < stop')%R ->
  r_ret call = Ok (RetX v it true) -> everywhere (h_q c) (fun f p i => v f p i <> RtoC 0) ->
  check_hb_error J v (r_cct call) resp num_b stop' = Ok tt.
Proof. exact converged_accepted. Qed.
Print Assumptions C39_converged_accepted_partial.

(** With the same target it can be rejected: the check is strict. *)
Theorem C39_refuted : forall J inv, exists c num_b g v it,
  simulates c num_b /\
  let call := harmonic_balance J inv c no_resp num_b 1 0 (Some g) 1 "x" (RtoC 1) in
  r_ret call = Ok (RetX v it true) /\ check_hb_error J v (r_cct call) no_resp num_b 0 = Err AssertionError.
Proof. exact check_rejects_converged. Qed.
Print Assumptions C39_refuted.

(** ** C40 *)

(** Missing: after an extra correction (see C32) the mask is out of date. *)
Theorem C40_mask_partial : forall J inv c resp num_b max_it stop vj0 damp zj v mask,
  let call := harmonic_balance J inv c resp num_b max_it stop vj0 damp "m" zj in
  let meets u i := forall f p, signal (h_q c) f p -> u f p i <> RtoC 0 /\
    (Cmod (residual_at J (r_cct call) resp num_b u f p i) < stop * Cmod (u f p i))%R in
  simulates c num_b -> (0 <= max_it)%Z -> inverts inv ->
  r_ret call = Ok (RetM v mask) ->
  (forall i, (i < q_npts (h_q c))%nat -> mask i = true <-> meets v i) \/
  (exists u, corrections J (r_cct call) resp num_b damp (Z.to_nat max_it) (start c vj0 zj) u /\
     corrected J (r_cct call) resp num_b damp u v /\
     (forall i, (i < q_npts (h_q c))%nat -> mask i = true <-> meets u i) /\
     exists i, (i < q_npts (h_q c))%nat /\ undefined J (r_cct call) resp num_b u (q_num_f (h_q c)) (q_num_p (h_q c)) i).
Proof. exact mask_meets. Qed.
Print Assumptions C40_mask_partial.

Theorem C40_refuted : forall inv, inverts inv -> exists c resp num_b g v mask,
  simulates c num_b /\
  let call := harmonic_balance besselJ inv c resp num_b 0 (/ 10 ^ 3) (Some g) 10 "m" (RtoC 1) in
  r_ret call = Ok (RetM v mask) /\ mask 1%nat = true /\ (1 < q_npts (h_q c))%nat /\ signal (h_q c) 1 1 /\
  ~ (Cmod (residual_at besselJ (r_cct call) resp num_b v 1 1 1) <= / 10 ^ 3 * Cmod (v 1%nat 1%nat 1%nat))%R.
Proof. exact stale_mask. Qed.
Print Assumptions C40_refuted.

(** ** C41 *)

(** With target 0.  ([v] zero somewhere: see C31.) *)
Theorem C41_converged_partial : forall J inv c resp num_b max_it stop vj0 damp zj v it f p i,
  let call := harmonic_balance J inv c resp num_b max_it stop vj0 damp "x" zj in
  simulates c num_b -> (0 <= max_it)%Z -> inverts inv -> stop = 0%R ->
  signal (h_q c) f p -> (i < q_npts (h_q c))%nat -> h_zt c f p = RtoC 0 ->
  everywhere (h_q c) (fun f p i => v f p i <> RtoC 0) ->
  r_ret call = Ok (RetX v it true) -> v f p i = source (h_vt c f p).
Proof. exact no_impedance_converged. Qed.
Print Assumptions C41_converged_partial.

(** Undamped, after one correction the source voltage is there, converged or not. *)
Theorem C41_one_correction : forall J inv c resp num_b max_it stop vj0 damp zj v it flag f p i,
  let call := harmonic_balance J inv c resp num_b max_it stop vj0 damp "x" zj in
  simulates c num_b -> (0 <= max_it)%Z -> inverts inv -> damp = 1%R -> (1 <= it)%Z ->
  signal (h_q c) f p -> (i < q_npts (h_q c))%nat -> h_zt c f p = RtoC 0 ->
  r_ret call = Ok (RetX v it flag) -> v f p i = source (h_vt c f p).
Proof. exact no_impedance_reached. Qed.
Print Assumptions C41_one_correction.

Theorem C41_no_impedance_at_all : forall J inv c resp num_b max_it stop vj0 damp zj mode,
  (forall f p, (f <= q_num_f (h_q c))%nat -> (p <= q_num_p (h_q c))%nat -> h_zt c f p = RtoC 0) ->
  exists v, r_ret (harmonic_balance J inv c resp num_b max_it stop vj0 damp mode zj) = Ok (RetV v) /\
    forall f p i, v f p i = h_vt c f p.
Proof. exact no_impedance_at_all. Qed.
Print Assumptions C41_no_impedance_at_all.
