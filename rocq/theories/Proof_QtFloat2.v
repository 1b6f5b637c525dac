(** A tone frequency for which a request by the same number is not recognised. *)
From Coq Require Import List ZArith Bool Reals Lia Lra Psatz.
From Coquelicot Require Import Rcomplements Complex.
From Flocq Require Import Core.
From Verif Require Import Base Sums Round Bessel Model_QtCurrent Spec_QtCurrent Proof_QtCurrent Proof_QtCurrent2 Proof_QtSym Spec_QtApi Proof_QtApi2 Spec_Power Spec_Phase Proof_Converge Proof_Ohm Proof_Limit Model_QtFloat Spec_QtFloat Proof_QtFloat.
Import ListNotations.
Local Notation length := List.length.
Local Notation Forall := List.Forall.
Open Scope R_scope.

Lemma rnd_at x n e : (-1074 <= e)%Z -> bpow radix2 (e + 52) <= Rabs x < bpow radix2 (e + 53) -> Rabs (x * bpow radix2 (- e) - IZR n) < / 2 -> rnd x = IZR n * bpow radix2 e.
Proof.
  intros He Hx Hn. unfold rnd, round, F2R, scaled_mantissa, cexp. cbn [Fnum Fexp].
  rewrite (mag_unique radix2 x (e + 53)) by (replace (e + 53 - 1)%Z with (e + 52)%Z by lia; assumption).
  unfold FLT_exp. replace (Z.max (e + 53 - 53) (-1074)) with e by lia. f_equal. f_equal. apply Znearest_imp. exact Hn.
Qed.
(** The binary64 number 0.30025. *)
Definition f0 : R := 5408823152471966 / 18014398509481984.
Lemma pow_m2 : bpow radix2 (-2) = / 4. Proof. reflexivity. Qed.
Lemma f0_nearest : f0 = rnd (30025 / 100000).
Proof.
  rewrite (rnd_at (30025 / 100000) 5408823152471966 (-54)).
  - unfold f0, Rdiv. f_equal.
  - lia.
  - change (bpow radix2 (-54 + 52)) with (/ 4). change (bpow radix2 (-54 + 53)) with (/ 2). rewrite Rabs_pos_eq; lra.
  - change (bpow radix2 (- -54)) with 18014398509481984. apply Rabs_lt_between. lra.
Qed.
Lemma f0_double : rnd f0 = f0.
Proof. rewrite f0_nearest. unfold rnd. apply round_generic; auto with typeclass_instances. apply generic_format_round; auto with typeclass_instances. apply FLT_exp_valid. unfold Prec_gt_0. lia. Qed.
Lemma rnd_0 : rnd 0 = 0. Proof. apply (rnd_int 0). lia. Qed.
Lemma f0_times : rnd (f0 * 10000) = IZR 3002 + / 2.
Proof.
  rewrite (rnd_at (f0 * 10000) 6602567324794880 (-41)).
  - change (bpow radix2 (-41)) with (/ 2199023255552). lra.
  - lia.
  - change (bpow radix2 (-41 + 52)) with 2048. change (bpow radix2 (-41 + 53)) with 4096. unfold f0. rewrite Rabs_pos_eq; lra.
  - change (bpow radix2 (- -41)) with 2199023255552. unfold f0. apply Rabs_lt_between. lra.
Qed.
Lemma f0_py : py_round4 f0 = rnd (IZR 3003 / 10000).
Proof. unfold py_round4. rewrite (rint_near _ 3003); [reflexivity|]. unfold f0. apply Rabs_lt_between. lra. Qed.
Lemma f0_np : np_round4 f0 = rnd (IZR 3002 / 10000).
Proof. unfold np_round4. rewrite f0_times, rint_tie. reflexivity. Qed.
Lemma fm_1 : fmul 1 f0 = f0. Proof. unfold fmul. rewrite Rmult_1_l. apply f0_double. Qed.
Lemma fm_0 : fmul 0 f0 = 0. Proof. unfold fmul. rewrite Rmult_0_l. apply rnd_0. Qed.
Lemma fm_m1 : fmul (-1) f0 = - f0. Proof. unfold fmul. replace (-1 * f0) with (- f0) by ring. rewrite rnd_opp. now rewrite f0_double. Qed.
Lemma np_0 : np_round4 0 = rnd (IZR 0 / 10000). Proof. unfold np_round4. rewrite Rmult_0_l, rnd_0. now rewrite (rint_IZR 0). Qed.
Lemma np_m1 : np_round4 (- f0) = rnd (IZR (-3002) / 10000).
Proof. unfold np_round4. rewrite Ropp_mult_distr_l_reverse, rnd_opp, f0_times, rint_opp, rint_tie. reflexivity. Qed.
Lemma small_grid n : (Z.abs n <= 4000)%Z -> Rabs (IZR n) <= 10000000001.
Proof. intros H. rewrite <- abs_IZR. apply Rle_trans with 4000; [now apply IZR_le|lra]. Qed.
Lemma grid_np n : (Z.abs n <= 4000)%Z -> np_round4 (rnd (IZR n / 10000)) = rnd (IZR n / 10000).
Proof.
  intros H. assert (G := grid n (small_grid n H)). apply np_near; [|lra]. assert (S : Rabs (IZR n) <= 4000) by (rewrite <- abs_IZR; now apply IZR_le).
  apply Rabs_le_between in G, S. apply Rabs_le. lra.
Qed.
Lemma grid_py n : (Z.abs n <= 4000)%Z -> py_round4 (rnd (IZR n / 10000)) = rnd (IZR n / 10000).
Proof. intros H. assert (G := grid n (small_grid n H)). apply py_near. lra. Qed.
Lemma hit_grid n m : (Z.abs n <= 4000)%Z -> (Z.abs m <= 4000)%Z -> Reqb (rnd (IZR n / 10000)) (rnd (IZR m / 10000)) = (n =? m)%Z.
Proof.
  intros Hn Hm. unfold Reqb. destruct (Req_EM_T _ _) as [E|E]; symmetry; [apply Z.eqb_eq|apply Z.eqb_neq].
  - apply grid_inj in E; try apply small_grid; assumption.
  - now intros ->.
Qed.
Lemma harm1 : harm_range 1 = [1; 0; -1]%Z. Proof. reflexivity. Qed.
Lemma one_scalar ccc freq rm b1 : freq 1%nat = f0 -> current_1_tone_f (round_f (PyFloat f0)) ccc freq rm 1 b1 = Ok vzero.
Proof.
  intros Ef. unfold current_1_tone_f. cbv zeta. cbn [round_f value]. rewrite f0_py, grid_py by lia. rewrite harm1, Ef. cbn [foreach].
  rewrite fm_1, fm_0, fm_m1, f0_np, np_0, np_m1, !hit_grid by lia. reflexivity.
Qed.
Lemma one_list ccc freq rm b1 : freq 1%nat = f0 -> current_1_tone_f (round_f (NpFloat f0)) ccc freq rm 1 b1 = current_1_tone (round4 f0) ccc freq rm 1 b1.
Proof.
  intros Ef. unfold current_1_tone_f, current_1_tone. cbv zeta. cbn [round_f value]. rewrite f0_np, grid_np by lia. rewrite harm1, Ef, round4_idem. cbn [foreach].
  rewrite fm_1, fm_0, fm_m1, f0_np, np_0, np_m1, !hit_grid by lia.
  assert (H1 : forall a n, rint (IZR a * f0 * 10000) = n -> Reqb (round4 (IZR a * f0)) (round4 f0) = (n =? 3003)%Z).
  { intros a n H. assert (E3 : rint (f0 * 10000) = 3003%Z) by (apply rint_near; unfold f0; apply Rabs_lt_between; lra).
    unfold Reqb. destruct (Req_EM_T _ _) as [E|E]; symmetry; [apply Z.eqb_eq; apply round4_eq in E; lia|apply Z.eqb_neq; intros ->; apply E, round4_eq; lia]. }
  rewrite (H1 1%Z 3003%Z), (H1 0%Z 0%Z), (H1 (-1)%Z (-3003)%Z); try (apply rint_near; unfold f0; apply Rabs_lt_between; lra). reflexivity.
Qed.

Definition tie_cct (npts : nat) (vb : nat -> R) : qcct := {| q_num_f := 1; q_num_p := 1; q_npts := npts; q_freq := fun _ => f0; q_vb := vb |}.
Lemma tie_args npts vb b : args_ok (tie_cct npts vb) (NbInt b).
Proof. unfold args_ok. cbn [tie_cct q_num_f q_num_p q_freq]. repeat split; try lia. intros. unfold f0. lra. Qed.
(** With one harmonic there is no convolution. *)
Lemma factor_one J vj freq nf num_b : calculate_phase_factor_coeff_f J vj freq nf 1 num_b = calculate_phase_factor_coeff J vj freq nf 1 num_b.
Proof.
  unfold calculate_phase_factor_coeff_f, calculate_phase_factor_coeff. cbv zeta. destruct (guard _ _); cbn [bind]; [|reflexivity].
  destruct (build_jac J vj freq nf 1 _) as [jac|e] eqn:E; cbn [bind]; [|reflexivity].
  unfold build_jac in E. cbv zeta in E. match type of E with bind ?x _ = _ => destruct x as [r|]; cbn [bind] in E; [|discriminate] end.
  injection E as <-. unfold convolve_coefficients_f, convolve_coefficients. cbn [j_np]. cbv zeta. destruct (nbidx _ _); cbn [bind]; reflexivity.
Qed.
Lemma tie_requests J vj resp npts vb b :
  qtcurrent_f J vj (tie_cct npts vb) resp (SScalar f0) (NbInt b) None = Ok (QRow (repeat (RtoC 0) npts)) /\
  qtcurrent_f J vj (tie_cct npts vb) resp (SList [NpFloat f0]) (NbInt b) None = qtcurrent J vj (tie_cct npts vb) resp (FList [f0]) (NbInt b) None.
Proof.
  pose proof (qt_list J vj (tie_cct npts vb) resp [f0] (NbInt b) (tie_args npts vb b)) as Q.
  assert (F : calculate_phase_factor_coeff_f J vj (fun _ => f0) 1 1 (NbInt b) = calculate_phase_factor_coeff J vj (fun _ => f0) 1 1 (NbInt b)).
  { apply factor_one. }
  unfold qtcurrent_f, qtcurrent in *. cbn [tie_cct q_num_f q_num_p q_npts q_freq map] in *. cbv zeta in *.
  destruct (guard _ _); cbn [bind] in *; [|discriminate]. rewrite F.
  assert (N1 : unpack_num_b (NbInt b) 1 = Ok [b]) by reflexivity. rewrite N1 in *. cbn [bind] in *.
  destruct (calculate_phase_factor_coeff _ _ _ _ _ _) as [ccc|]; cbn [bind] in *; [|discriminate].
  destruct (interpolate_respfn _ _ _) as [rm|]; cbn [bind] in *; [|discriminate].
  cbn [mapM current_n_tones_f current_n_tones] in *. rewrite one_scalar, one_list by reflexivity. split; [|reflexivity].
  cbn [bind map]. cbn [round_f value]. rewrite f0_py. replace 0 with (rnd (IZR 0 / 10000)) at 1 by (unfold Rdiv; rewrite Rmult_0_l; apply rnd_0).
  rewrite hit_grid by lia. cbn [Z.eqb]. f_equal. f_equal. unfold tab. 
  assert (G : forall n s, map vzero (seq s n) = repeat (RtoC 0) n) by (induction n as [|n IH]; intros s; [reflexivity|]; cbn [seq map repeat]; now rewrite IH).
  apply G.
Qed.
(** With a resistor instead of the junction the current is, in the limit, the applied voltage. *)
Lemma tie_alone npts vb : alone (tie_cct npts vb) f0 [1]%Z.
Proof.
  intros a Ha E. apply in_index_vectors in Ha. destruct Ha as [L _]. destruct a as [|x [|y a]]; try discriminate. f_equal.
  apply (multiples_distinct f0); [unfold f0; lra|]. rewrite Rmult_1_l, <- E. unfold freqs. cbn [tie_cct q_num_f q_freq map seq dot]. f_equal. ring.
Qed.
Lemma tie_nonzero : exists b row,
  qtcurrent_f besselJ (fun _ _ _ => RtoC 1) (tie_cct 1 (fun _ => 0)) (fun v => (0, 1 * v)) (SList [NpFloat f0]) (NbInt b) None = Ok (QRows [row]) /\ nth 0 row (RtoC 0) <> RtoC 0.
Proof.
  destruct (ohm_limits (fun _ _ _ => RtoC 1) (tie_cct 1 (fun _ => 0)) 1 (/ 2) ltac:(lra)) as [K [K0 H]].
  destruct (pow_lt_1_zero (/ 2) ltac:(rewrite Rabs_pos_eq; lra) (/ (K + 1)) ltac:(apply Rinv_0_lt_compat; lra)) as [n Hn].
  specialize (Hn n (le_n n)). rewrite Rabs_pos_eq in Hn by (apply pow_le; lra).
  exists n. rewrite (proj2 (tie_requests besselJ _ _ 1 (fun _ => 0) n)). rewrite qt_list by apply tie_args. cbn [map]. eexists. split; [reflexivity|].
  pose proof (qt_list besselJ (fun _ _ _ => RtoC 1) (tie_cct 1 (fun _ => 0)) (fun v => (0, 1 * v)) [f0] (NbInt n) (tie_args _ _ n)) as Q. cbn [map] in Q.
  destruct (H (NbInt n) n [f0] _ 0%nat 0%nat (tie_args _ _ n) (trunc_int (tie_cct 1 (fun _ => 0)) n n (le_n n)) Q) as (_ & H2 & _); [cbn; lia|cbn; lia|].
  cbn [nth] in H2. specialize (H2 1%nat 1%nat ltac:(cbn; lia) ltac:(cbn; lia)).
  cbn [INR] in H2. rewrite Rmult_1_l in H2. specialize (H2 eq_refl (tie_alone 1 (fun _ => 0))).
  intros E0. rewrite E0 in H2. replace (Cminus (RtoC 0) (Cmult (RtoC 1) (RtoC 1))) with (RtoC (-1)) in H2 by (apply injective_projections; cbn; ring).
  rewrite Cmod_R, Rabs_left in H2 by lra.
  assert (K * (/ 2) ^ n < 1). { apply Rle_lt_trans with (K * / (K + 1)); [apply Rmult_le_compat_l; lra|]. apply Rmult_lt_reg_r with (K + 1); [lra|]. rewrite Rmult_assoc, Rinv_l; lra. }
  lra.
Qed.
Lemma own_frequency : f0 = round radix2 (FLT_exp (-1074) 53) ZnearestE (30025 / 100000) /\
  (forall J vj resp npts vb b, let cct := tie_cct npts vb in
    qtcurrent_f J vj cct resp (SScalar f0) (NbInt b) None = Ok (QRow (repeat (RtoC 0) npts)) /\
    qtcurrent_f J vj cct resp (SList [NpFloat f0]) (NbInt b) None = qtcurrent J vj cct resp (FList [f0]) (NbInt b) None) /\
  exists vj resp npts vb b row, let cct := tie_cct npts vb in
    qtcurrent_f besselJ vj cct resp (SList [NpFloat f0]) (NbInt b) None = Ok (QRows [row]) /\ nth 0 row (RtoC 0) <> RtoC 0.
Proof.
  split; [exact f0_nearest|]. split; [exact tie_requests|]. destruct tie_nonzero as (b & row & E & N). now exists (fun _ _ _ => RtoC 1), (fun v => (0, 1 * v)), 1%nat, (fun _ => 0), b, row.
Qed.
Lemma request_kinds J vj cct resp w num_b rm row : moderate cct num_b (SScalar w) -> clear w ->
  (forall a, In a (index_vectors (q_num_p cct) (q_num_f cct)) -> clear (dot a (freqs cct))) ->
  qtcurrent_f J vj cct resp (SList [NpFloat w]) num_b rm = Ok (QRows [row]) ->
  qtcurrent_f J vj cct resp (SList [PyFloat w]) num_b rm = Ok (QRows [row]) /\
  qtcurrent_f J vj cct resp (SScalar w) num_b rm = Ok (if Reqb (round4 w) 0 then QReal (map Re row) else QRow row).
Proof.
  intros M Cw Ca. assert (M1 : moderate cct num_b (SList [NpFloat w])) by exact M. assert (M2 : moderate cct num_b (SList [PyFloat w])) by exact M.
  assert (C1 : forall x, In x (requested (SScalar w)) -> clear x) by (intros x [<- |[]]; assumption).
  rewrite !qt_same by assumption. cbn [exact_request map value]. intros E. split; [exact E|].
  revert E. unfold qtcurrent. cbv zeta. cbn [map].
  destruct (guard _ _); cbn [bind]; [|discriminate]. destruct (unpack_num_b _ _); cbn [bind]; [|discriminate].
  destruct (calculate_phase_factor_coeff _ _ _ _ _ _); cbn [bind]; [|discriminate].
  match goal with |- bind ?x _ = _ -> _ => destruct x as [m|]; cbn [bind]; [|discriminate] end.
  cbn [mapM]. destruct (current_n_tones _ _ _ _ _ _ _); cbn [bind map]; [|discriminate].
  intros E. injection E as <-. now destruct (Reqb _ _).
Qed.
