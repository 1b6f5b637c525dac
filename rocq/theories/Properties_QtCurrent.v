(** Properties C01-C18: the quasiparticle tunnelling current.

    The specification they refer to is in Spec_QtCurrent.v (the multi-tone
    formula) and Spec_QtApi.v (what the arguments stand for).  [J] is the Bessel
    function; theorems that need a fact about it take [bessel_like J], which
    [besselJ_like] shows for the power series. *)
From Coq Require Import List ZArith Bool Reals Permutation Lia Lra.
From Coquelicot Require Import Complex.
From Verif Require Import Base Sums Round Bessel Model_QtCurrent Spec_QtCurrent Spec_QtApi Model_Tucker
  Proof_QtCurrent Proof_QtCurrent2 Proof_QtSym Proof_QtApi Proof_QtApi2 Proof_QtWit.
Import ListNotations.
Open Scope C_scope.

(** A concrete case used below: two tones, two harmonics, three bias points. *)
Definition ex_cct : qcct :=
  {| q_num_f := 2; q_num_p := 2; q_npts := 3;
     q_freq := fun f => match f with 1%nat => (3 / 10)%R | _ => (35 / 100)%R end;
     q_vb := fun i => INR i |}.
Definition ex_vj (f p i : nat) : C := ((1 / INR (f + p))%R, (INR i / 10)%R).
Definition ex_nb : numb := NbTuple [5%nat; 3%nat].
Definition ex_resp (x : R) : C := ((x * x)%R, (x * x * x)%R).   (* even real part, odd imaginary part *)

Example ex_args : args_ok ex_cct ex_nb.
Proof. unfold args_ok; simpl. repeat split; try lia. intros f Hf. destruct f as [|[|f]]; lra. Qed.
Example ex_args_int n : args_ok ex_cct (NbInt n).
Proof. unfold args_ok; simpl. repeat split; try lia. intros f Hf. destruct f as [|[|f]]; lra. Qed.
Definition ex1_cct : qcct :=
  {| q_num_f := 1; q_num_p := 2; q_npts := 3; q_freq := fun f => (3 / 10)%R; q_vb := fun i => INR i |}.
Example ex1_args n : args_ok ex1_cct (NbInt n).
Proof. unfold args_ok; simpl. repeat split; try lia. intros f Hf. lra. Qed.

(** ** C01 *)
(** The result is exactly the table of the multi-tone currents: one row per
    requested frequency, one column per bias point. *)
Theorem C01_multi_tone_formula : forall J vj cct resp l num_b,
  args_ok cct num_b ->
  qtcurrent J vj cct resp (FList l) num_b None =
  Ok (QRows (map (fun w => tab (q_npts cct) (fun i =>
        current (q_num_p cct) (tones J vj cct num_b i) (freqs cct) (q_vb cct i) resp w)) l)).
Proof. intros J vj cct resp l num_b H. exact (qtcurrent_spec J vj cct resp (FList l) num_b None H I). Qed.
Print Assumptions C01_multi_tone_formula.

Theorem C01_scalar_request : forall J vj cct resp w num_b,
  args_ok cct num_b ->
  qtcurrent J vj cct resp (FScalar w) num_b None =
  Ok (let row := tab (q_npts cct) (fun i =>
        current (q_num_p cct) (tones J vj cct num_b i) (freqs cct) (q_vb cct i) resp w) in
      if Reqb (round4 w) 0 then QReal (map Re row) else QRow row).
Proof. intros J vj cct resp w num_b H. exact (qtcurrent_spec J vj cct resp (FScalar w) num_b None H I). Qed.
Print Assumptions C01_scalar_request.

Example C01_case : exists rows, qtcurrent besselJ ex_vj ex_cct ex_resp (FList [0; 3 / 10; 5 / 100]%R) ex_nb None = Ok (QRows rows)
  /\ length rows = 3%nat.
Proof. eexists. split; [apply (C01_multi_tone_formula _ _ _ _ _ _ ex_args)|reflexivity]. Qed.

(** ** C02 *)
Theorem C02_phase_factor_coefficients : forall J vj freq num_f num_p num_b,
  (1 <= num_f)%nat -> (1 <= num_p)%nat -> (num_f <= length (nbtuple num_b num_f))%nat ->
  let nbt := nbtuple num_b num_f in
  let N := list_max nbt in
  exists ccc, calculate_phase_factor_coeff J vj freq num_f num_p num_b = Ok ccc /\
    forall f k i, (1 <= f <= num_f)%nat -> (- Z.of_nat N <= k <= Z.of_nat N)%Z ->
      exists v, cc_get ccc (Z.of_nat f) k = Ok v /\
      v i = phase_factor N (nth (f - 1) nbt O)
        (fun p n => jacobi_anger J (Cmod (vj f p i) / (INR p * freq f)) (angle (vj f p i)) n) num_p k.
Proof.
  intros J vj freq num_f num_p num_b H1 H2 H3 nbt N.
  destruct (calculate_phase_factor_coeff_spec J vj freq num_f num_p num_b H1 H2 H3) as [c [E [Ef [Ek H]]]].
  exists c. split; [exact E|]. intros f k i Hf Hk. fold nbt in H, Ek. fold N in H, Ek.
  exists (c_at c f (wrapk N k)). split; [|apply H; assumption].
  unfold cc_get, nbidx. rewrite Ef, Ek, pyidx_nonneg by lia. rewrite pyidx_sym by assumption. cbn [bind]. now rewrite Nat2Z.id.
Qed.
Print Assumptions C02_phase_factor_coefficients.

Example C02_case : exists ccc, calculate_phase_factor_coeff besselJ ex_vj (q_freq ex_cct) 2 2 ex_nb = Ok ccc.
Proof. destruct (C02_phase_factor_coefficients besselJ ex_vj (q_freq ex_cct) 2 2 ex_nb) as [c [E _]]; eauto; simpl; lia. Qed.

(** ** C03 *)
(** Internally built matrix: no access fails (a failing access would give
    [Err OutOfBounds] or [Err IndexError]). *)
Theorem C03_in_range : forall J vj cct resp fl num_b, args_ok cct num_b ->
  exists out, qtcurrent J vj cct resp fl num_b None = Ok out.
Proof. intros J vj cct resp fl num_b H. rewrite (qtcurrent_spec J vj cct resp fl num_b None H I). destruct fl; eexists; reflexivity. Qed.
Print Assumptions C03_in_range.

(** A matrix made for at least as many Bessel terms gives the same result. *)
Theorem C03_larger_matrix : forall J vj cct cct0 resp fl num_b num_b0 rm, args_ok cct num_b ->
  q_num_f cct0 = q_num_f cct -> q_npts cct0 = q_npts cct ->
  (forall i, q_vb cct0 i = q_vb cct i) -> (forall f, (1 <= f <= q_num_f cct)%nat -> q_freq cct0 f = q_freq cct f) ->
  (q_num_f cct <= length (nbtuple num_b0 (q_num_f cct)))%nat ->
  Forall2 le (truncations num_b (q_num_f cct)) (truncations num_b0 (q_num_f cct)) ->
  interpolate_respfn cct0 resp num_b0 = Ok rm ->
  qtcurrent J vj cct resp fl num_b (Some rm) = qtcurrent J vj cct resp fl num_b None.
Proof. exact supplied_matrix. Qed.
Print Assumptions C03_larger_matrix.

Example C03_larger_case : exists rm, interpolate_respfn ex_cct ex_resp (NbInt 7) = Ok rm /\
  qtcurrent besselJ ex_vj ex_cct ex_resp (FList [0%R]) ex_nb (Some rm) = qtcurrent besselJ ex_vj ex_cct ex_resp (FList [0%R]) ex_nb None.
Proof.
  destruct (matrix_built ex_cct ex_resp (NbInt 7) (ex_args_int 7)) as [rm E]. exists rm. split; [exact E|].
  apply (supplied_matrix besselJ ex_vj ex_cct ex_cct ex_resp _ ex_nb (NbInt 7) rm ex_args); try reflexivity; auto; simpl; try lia.
  repeat constructor; lia.
Qed.

(** A matrix made for too few terms is accepted; the compiled loops then leave
    the array (one tone, 2b'+1 <= b) ... *)
Theorem C03_smaller_matrix_out_of_bounds_refuted : forall J vj cct cct0 resp num_b0 b rm w l,
  args_ok cct (NbInt b) -> q_num_f cct = 1%nat -> q_num_f cct0 = 1%nat -> q_npts cct0 = q_npts cct ->
  interpolate_respfn cct0 resp (NbInt num_b0) = Ok rm ->
  (2 * num_b0 + 1 <= b)%nat -> round4 w = 0%R ->
  qtcurrent J vj cct resp (FList (w :: l)) (NbInt b) (Some rm) = Err OutOfBounds.
Proof. exact small_matrix. Qed.
Print Assumptions C03_smaller_matrix_out_of_bounds_refuted.

Example C03_out_of_bounds_case : exists rm, interpolate_respfn ex1_cct ex_resp (NbInt 2) = Ok rm /\
  qtcurrent besselJ ex_vj ex1_cct ex_resp (FList [0%R]) (NbInt 5) (Some rm) = Err OutOfBounds.
Proof.
  destruct (matrix_built ex1_cct ex_resp (NbInt 2) (ex1_args 2)) as [rm E]. exists rm. split; [exact E|].
  apply (small_matrix besselJ ex_vj ex1_cct ex1_cct ex_resp 2 5 rm 0 [] (ex1_args 5)); try apply round4_0; auto; lia.
Qed.

(** ... or, when b' < b <= 2b', silently read the wrong entries. *)
Theorem C03_smaller_matrix_wrong_value_refuted : exists vj cct resp rm r1 r2,
  args_ok cct (NbInt 2) /\ interpolate_respfn cct resp (NbInt 1) = Ok rm /\
  qtcurrent besselJ vj cct resp (FList [0%R]) (NbInt 2) (Some rm) = Ok (QRows [[r1]]) /\
  qtcurrent besselJ vj cct resp (FList [0%R]) (NbInt 2) None = Ok (QRows [[r2]]) /\ r1 <> r2.
Proof. exact small_matrix_wrong. Qed.
Print Assumptions C03_smaller_matrix_wrong_value_refuted.

(** ** C04 *)
Theorem C04_no_drive : forall J vj cct resp l num_b, bessel_like J -> args_ok cct num_b ->
  (forall f p i, (1 <= f <= q_num_f cct)%nat -> (1 <= p <= q_num_p cct)%nat -> (i < q_npts cct)%nat ->
      vj f p i = RtoC 0) ->
  qtcurrent J vj cct resp (FList l) num_b None =
  Ok (QRows (map (fun w => tab (q_npts cct) (fun i =>
        if Req_EM_T (round4 w) 0 then RtoC (Im (resp (q_vb cct i))) else RtoC 0)) l)).
Proof. exact no_drive. Qed.
Print Assumptions C04_no_drive.

Example C04_case : qtcurrent besselJ (fun _ _ _ => RtoC 0) ex_cct ex_resp (FList [0%R]) ex_nb None =
  Ok (QRows [[RtoC (Im (ex_resp 0)); RtoC (Im (ex_resp 1)); RtoC (Im (ex_resp 2))]]).
Proof.
  rewrite C04_no_drive; [|apply besselJ_like|apply ex_args|reflexivity]. unfold tab. cbn [map seq q_npts ex_cct].
  destruct (Req_EM_T (round4 0) 0) as [_|N]; [|exfalso; apply N; apply round4_0]. reflexivity.
Qed.

(** ** C05 *)
Theorem C05_relabelling : forall J vj cct resp fl num_b sigma,
  args_ok cct num_b -> match num_b with NbInt _ => True | NbTuple l => length l = q_num_f cct end ->
  Permutation (map sigma (seq 1 (q_num_f cct))) (seq 1 (q_num_f cct)) ->
  qtcurrent J (fun f => vj (sigma f)) (permute_cct sigma cct) resp fl (permute_nb sigma num_b) None =
  qtcurrent J vj cct resp fl num_b None.
Proof. exact relabel. Qed.
Print Assumptions C05_relabelling.

Example C05_case : qtcurrent besselJ (fun f => ex_vj (3 - f)) (permute_cct (fun f => 3 - f)%nat ex_cct) ex_resp (FList [1 / 20]%R) (NbTuple [3%nat; 5%nat]) None =
  qtcurrent besselJ ex_vj ex_cct ex_resp (FList [1 / 20]%R) ex_nb None.
Proof.
  apply (C05_relabelling besselJ ex_vj ex_cct ex_resp (FList [1 / 20]%R) ex_nb (fun f => 3 - f)%nat ex_args eq_refl).
  simpl. apply perm_swap.
Qed.

(** ** C06 *)
(** Proved when the extra truncation does not exceed the others or at most two
    harmonics are used; refuted otherwise (C06_idle_tone_refuted). *)
Theorem C06_idle_tone_partial : forall J vj vj' cct cct' resp fl num_b b,
  bessel_like J -> args_ok cct num_b -> args_ok cct' (extend_nb num_b b) ->
  match num_b with NbInt _ => True | NbTuple l => length l = q_num_f cct end ->
  q_num_f cct' = S (q_num_f cct) -> q_num_p cct' = q_num_p cct -> q_npts cct' = q_npts cct ->
  (forall i, (i < q_npts cct)%nat -> q_vb cct' i = q_vb cct i) ->
  (forall f, (1 <= f <= q_num_f cct)%nat -> q_freq cct' f = q_freq cct f) ->
  (forall f p i, (1 <= f <= q_num_f cct)%nat -> (1 <= p <= q_num_p cct)%nat -> (i < q_npts cct)%nat ->
      vj' f p i = vj f p i) ->
  (forall p i, (1 <= p <= q_num_p cct)%nat -> (i < q_npts cct)%nat -> vj' (S (q_num_f cct)) p i = RtoC 0) ->
  (q_num_p cct <= 2)%nat \/ (b <= list_max (nbtuple num_b (q_num_f cct)))%nat ->
  qtcurrent J vj' cct' resp fl (extend_nb num_b b) None = qtcurrent J vj cct resp fl num_b None.
Proof. exact idle_tone. Qed.
Print Assumptions C06_idle_tone_partial.

Theorem C06_idle_tone_refuted : exists vj vj' cct cct' resp l b,
  args_ok cct (NbTuple l) /\ args_ok cct' (NbTuple (l ++ [b])) /\ length l = q_num_f cct /\
  q_num_f cct' = S (q_num_f cct) /\ q_num_p cct' = q_num_p cct /\ q_npts cct' = q_npts cct /\ q_vb cct' = q_vb cct /\
  (forall f, (1 <= f <= q_num_f cct)%nat -> q_freq cct' f = q_freq cct f) /\
  (forall f p i, (1 <= f <= q_num_f cct)%nat -> vj' f p i = vj f p i) /\
  (forall p i, vj' (S (q_num_f cct)) p i = RtoC 0) /\
  qtcurrent besselJ vj' cct' resp (FList [0%R]) (NbTuple (l ++ [b])) None <>
  qtcurrent besselJ vj cct resp (FList [0%R]) (NbTuple l) None.
Proof. exact idle_tone_matters. Qed.
Print Assumptions C06_idle_tone_refuted.

Definition ex3_cct : qcct :=
  {| q_num_f := 3; q_num_p := 2; q_npts := 3;
     q_freq := fun f => match f with 3%nat => (7 / 10)%R | _ => q_freq ex_cct f end; q_vb := q_vb ex_cct |}.
Example C06_case : qtcurrent besselJ (fun f p i => if (f =? 3)%nat then RtoC 0 else ex_vj f p i) ex3_cct ex_resp
    (FList [0; 7 / 10]%R) (NbTuple [5; 3; 9]%nat) None =
  qtcurrent besselJ ex_vj ex_cct ex_resp (FList [0; 7 / 10]%R) ex_nb None.
Proof.
  apply (C06_idle_tone_partial besselJ ex_vj _ ex_cct ex3_cct ex_resp _ ex_nb 9 besselJ_like ex_args); try reflexivity.
  - unfold args_ok; simpl. repeat split; try lia. intros f Hf. destruct f as [|[|[|[|f]]]]; try lra; lia.
  - intros f Hf. simpl in Hf. destruct f as [|[|[|f]]]; try lia; reflexivity.
  - intros f p i Hf _ _. simpl in Hf. destruct (Nat.eqb_spec f 3); [lia|reflexivity].
  - left. simpl. lia.
Qed.

(** ** C07 *)
Theorem C07_negative_frequency : forall J vj cct resp w num_b row, args_ok cct num_b ->
  qtcurrent J vj cct resp (FList [w]) num_b None = Ok (QRows [row]) ->
  qtcurrent J vj cct resp (FList [(- w)%R]) num_b None = Ok (QRows [map Cconj row]).
Proof. exact negative_frequency. Qed.
Print Assumptions C07_negative_frequency.

Theorem C07_dc_real : forall J vj cct resp w num_b row, args_ok cct num_b -> round4 w = 0%R ->
  qtcurrent J vj cct resp (FList [w]) num_b None = Ok (QRows [row]) -> map RtoC (map Re row) = row.
Proof. exact dc_real. Qed.
Print Assumptions C07_dc_real.

Example C07_case : exists row, qtcurrent besselJ ex_vj ex_cct ex_resp (FList [0%R]) ex_nb None = Ok (QRows [row])
  /\ map RtoC (map Re row) = row.
Proof.
  pose proof (C01_multi_tone_formula besselJ ex_vj ex_cct ex_resp [0%R] ex_nb ex_args) as E. cbn [map] in E.
  eexists. split; [exact E|]. exact (C07_dc_real besselJ ex_vj ex_cct ex_resp 0 ex_nb _ ex_args round4_0 E).
Qed.

(** ** C08 *)
(** [psi] is the common phase sum(a_f*theta_f) of the products that contribute at
    w; for products that do not coincide it is determined by a. *)
Theorem C08_time_shift : forall J vj vj' cct resp w num_b theta psi row, bessel_like J -> args_ok cct num_b ->
  (forall f p i, (1 <= f <= q_num_f cct)%nat -> (1 <= p <= q_num_p cct)%nat -> (i < q_npts cct)%nat ->
     vj' f p i = cis (INR p * theta f) * vj f p i) ->
  (forall a, length a = q_num_f cct -> Forall (fun x => (- Z.of_nat (q_num_p cct) <= x <= Z.of_nat (q_num_p cct))%Z) a ->
     round4 (dot a (freqs cct)) = round4 w -> dot a (map theta (seq 1 (q_num_f cct))) = psi) ->
  qtcurrent J vj cct resp (FList [w]) num_b None = Ok (QRows [row]) ->
  qtcurrent J vj' cct resp (FList [w]) num_b None = Ok (QRows [map (Cmult (cis psi)) row]).
Proof. exact time_shift. Qed.
Print Assumptions C08_time_shift.

Theorem C08_one_tone : forall J vj vj' cct resp num_b theta a row, bessel_like J -> args_ok cct num_b ->
  q_num_f cct = 1%nat -> (/ 10000 < q_freq cct 1)%R ->
  (forall p i, (1 <= p <= q_num_p cct)%nat -> (i < q_npts cct)%nat ->
     vj' 1%nat p i = cis (INR p * theta) * vj 1%nat p i) ->
  qtcurrent J vj cct resp (FList [(IZR a * q_freq cct 1)%R]) num_b None = Ok (QRows [row]) ->
  qtcurrent J vj' cct resp (FList [(IZR a * q_freq cct 1)%R]) num_b None =
    Ok (QRows [map (Cmult (cis (IZR a * theta))) row]).
Proof. exact time_shift_one_tone. Qed.
Print Assumptions C08_one_tone.

Example C08_case : exists row,
  qtcurrent besselJ ex_vj ex1_cct ex_resp (FList [(IZR 2 * (3 / 10))%R]) (NbInt 4) None = Ok (QRows [row]) /\
  qtcurrent besselJ (fun f p i => cis (INR p * (PI / 3)) * ex_vj f p i) ex1_cct ex_resp (FList [(IZR 2 * (3 / 10))%R]) (NbInt 4) None =
    Ok (QRows [map (Cmult (cis (IZR 2 * (PI / 3)))) row]).
Proof.
  pose proof (C01_multi_tone_formula besselJ ex_vj ex1_cct ex_resp [(IZR 2 * (3 / 10))%R] (NbInt 4) (ex1_args 4)) as E.
  cbn [map] in E. eexists. split; [exact E|].
  refine (C08_one_tone besselJ ex_vj _ ex1_cct ex_resp (NbInt 4) (PI / 3) 2 _ besselJ_like (ex1_args 4) eq_refl _ _ E).
  - simpl. lra.
  - reflexivity.
Qed.

(** ** C09 *)
Theorem C09_reversal : forall J vj cct resp l num_b rows, bessel_like J -> args_ok cct num_b ->
  (forall x, Im (resp (- x)%R) = (- Im (resp x))%R /\ Re (resp (- x)%R) = Re (resp x)) ->
  qtcurrent J vj cct resp (FList l) num_b None = Ok (QRows rows) ->
  qtcurrent J (fun f p i => - vj f p i)
    {| q_num_f := q_num_f cct; q_num_p := q_num_p cct; q_npts := q_npts cct; q_freq := q_freq cct;
       q_vb := fun i => (- q_vb cct i)%R |} resp (FList l) num_b None = Ok (QRows (map (map Copp) rows)).
Proof. exact reversal. Qed.
Print Assumptions C09_reversal.

Example C09_case : forall x, Im (ex_resp (- x)%R) = (- Im (ex_resp x))%R /\ Re (ex_resp (- x)%R) = Re (ex_resp x).
Proof. intros x. unfold ex_resp. simpl. split; ring. Qed.

(** ** C10 *)
Theorem C10_linearity : forall J vj cct r1 r2 l num_b rows1 rows2 (x y : R), args_ok cct num_b ->
  qtcurrent J vj cct r1 (FList l) num_b None = Ok (QRows rows1) ->
  qtcurrent J vj cct r2 (FList l) num_b None = Ok (QRows rows2) ->
  qtcurrent J vj cct (fun v => RtoC x * r1 v + RtoC y * r2 v) (FList l) num_b None =
    Ok (QRows (map2 (map2 (fun u v => RtoC x * u + RtoC y * v)) rows1 rows2)).
Proof. exact linearity. Qed.
Print Assumptions C10_linearity.

Example C10_case : exists rows, qtcurrent besselJ ex_vj ex_cct ex_resp (FList [0%R]) ex_nb None = Ok (QRows rows).
Proof. eexists. apply (C01_multi_tone_formula _ _ _ _ _ _ ex_args). Qed.

(** ** C11 *)
Theorem C11_bias_points_independent : forall J vj vj' cct cct' resp l num_b (phi : nat -> nat) rows, args_ok cct num_b ->
  q_num_f cct' = q_num_f cct -> q_num_p cct' = q_num_p cct ->
  (forall f, (1 <= f <= q_num_f cct)%nat -> q_freq cct' f = q_freq cct f) ->
  (forall i, (i < q_npts cct')%nat -> (phi i < q_npts cct)%nat /\ q_vb cct' i = q_vb cct (phi i)) ->
  (forall f p i, (1 <= f <= q_num_f cct)%nat -> (1 <= p <= q_num_p cct)%nat -> (i < q_npts cct')%nat ->
     vj' f p i = vj f p (phi i)) ->
  qtcurrent J vj cct resp (FList l) num_b None = Ok (QRows rows) ->
  qtcurrent J vj' cct' resp (FList l) num_b None =
    Ok (QRows (map (fun row => tab (q_npts cct') (fun i => nth (phi i) row (RtoC 0))) rows)).
Proof. exact bias_points. Qed.
Print Assumptions C11_bias_points_independent.

Definition ex_rev : qcct :=
  {| q_num_f := 2; q_num_p := 2; q_npts := 3; q_freq := q_freq ex_cct; q_vb := fun i => INR (2 - i) |}.
Example C11_case : (* the sweep reversed *) forall rows,
  qtcurrent besselJ ex_vj ex_cct ex_resp (FList [0%R]) ex_nb None = Ok (QRows rows) ->
  qtcurrent besselJ (fun f p i => ex_vj f p (2 - i)) ex_rev ex_resp (FList [0%R]) ex_nb None
  = Ok (QRows (map (fun row => [nth 2 row (RtoC 0); nth 1 row (RtoC 0); nth 0 row (RtoC 0)]) rows)).
Proof.
  intros rows H.
  refine (C11_bias_points_independent besselJ ex_vj _ ex_cct ex_rev ex_resp [0%R] ex_nb (fun i => 2 - i)%nat rows ex_args eq_refl eq_refl _ _ _ H); auto.
  intros i Hi. split; [cbn [q_npts ex_cct]; lia|reflexivity].
Qed.

(** ** C12, C13 *)
Theorem C12_list_scalar_agree : forall J vj cct resp num_b, args_ok cct num_b ->
  exists row : R -> list C,
    (forall l, qtcurrent J vj cct resp (FList l) num_b None = Ok (QRows (map row l))) /\
    (forall w, qtcurrent J vj cct resp (FScalar w) num_b None =
               Ok (if Req_EM_T (round4 w) 0 then QReal (map Re (row w)) else QRow (row w))) /\
    (forall w, length (row w) = q_npts cct) /\
    (forall w, round4 w = 0%R -> map RtoC (map Re (row w)) = row w) /\
    (forall w w', round4 w = round4 w' -> row w = row w').
Proof. exact rows_independent. Qed.
Print Assumptions C12_list_scalar_agree.

Theorem C13_four_decimals : forall J vj cct resp num_b w w', args_ok cct num_b -> round4 w = round4 w' ->
  qtcurrent J vj cct resp (FScalar w) num_b None = qtcurrent J vj cct resp (FScalar w') num_b None /\
  forall l1 l2, qtcurrent J vj cct resp (FList (l1 ++ w :: l2)) num_b None =
                qtcurrent J vj cct resp (FList (l1 ++ w' :: l2)) num_b None.
Proof.
  intros J vj cct resp num_b w w' H E. destruct (rows_independent J vj cct resp num_b H) as [row [H1 [H2 [_ [_ H3]]]]].
  split.
  - rewrite !H2, E, (H3 w w' E). reflexivity.
  - intros l1 l2. rewrite !H1, !map_app. cbn [map]. now rewrite (H3 w w' E).
Qed.
Print Assumptions C13_four_decimals.

(** Two tones below the resolution: an undriven tone is given the current of the
    driven one. *)
Theorem C13_tones_not_separated_refuted : exists vj cct resp num_b row,
  args_ok cct num_b /\ q_num_f cct = 2%nat /\ q_num_p cct = 1%nat /\ q_npts cct = 1%nat /\
  q_freq cct 1%nat <> q_freq cct 2%nat /\
  (forall i, vj 1%nat 1%nat i = RtoC 0) /\
  (forall a2, (-1 <= a2 <= 1)%Z -> (IZR a2 * q_freq cct 2)%R <> q_freq cct 1%nat) /\
  qtcurrent besselJ vj cct resp (FList [q_freq cct 1%nat]) num_b None = Ok (QRows [[row]]) /\ row <> RtoC 0.
Proof. exact tones_merge. Qed.
Print Assumptions C13_tones_not_separated_refuted.

Example C13_case : round4 (3 / 10) = round4 (3 / 10 + / 100000).
Proof.
  rewrite (round4_near 3000), (round4_near 3000 (3 / 10 + / 100000)); [reflexivity| |].
  - replace (IZR 3000 - (3 / 10 + / 100000) * 10000)%R with (- / 10)%R by field. rewrite Rabs_Ropp, Rabs_pos_eq; lra.
  - replace (IZR 3000 - 3 / 10 * 10000)%R with 0%R by field. rewrite Rabs_R0. lra.
Qed.

(** ** C14 *)
Theorem C14_matrix_reuse : forall J cct resp num_b rm (calls : list ((nat -> nat -> vec) * freq_arg)), args_ok cct num_b ->
  interpolate_respfn cct resp num_b = Ok rm ->
  map (fun c => qtcurrent J (fst c) cct resp (snd c) num_b (Some rm)) calls =
  map (fun c => qtcurrent J (fst c) cct resp (snd c) num_b None) calls.
Proof. exact matrix_reuse. Qed.
Print Assumptions C14_matrix_reuse.

Example C14_case : exists rm, interpolate_respfn ex_cct ex_resp ex_nb = Ok rm.
Proof. exact (matrix_built _ _ _ ex_args). Qed.

(** ** C15 *)
Theorem C15_int_and_tuple : forall J vj cct resp fl n rmo,
  qtcurrent J vj cct resp fl (NbInt n) rmo = qtcurrent J vj cct resp fl (NbTuple (repeat n (q_num_f cct))) rmo.
Proof. exact num_b_int_tuple. Qed.
Print Assumptions C15_int_and_tuple.

Theorem C15_too_short : forall J vj cct resp fl l rmo, (length l < q_num_f cct)%nat ->
  qtcurrent J vj cct resp fl (NbTuple l) rmo = Err AssertionError.
Proof. exact num_b_too_short. Qed.
Print Assumptions C15_too_short.

Theorem C15_extra_entries_partial : forall J vj cct resp fl l extra, args_ok cct (NbTuple l) -> length l = q_num_f cct ->
  (q_num_p cct <= 2)%nat \/ Forall (fun b => (b <= list_max l)%nat) extra ->
  qtcurrent J vj cct resp fl (NbTuple (l ++ extra)) None = qtcurrent J vj cct resp fl (NbTuple l) None.
Proof. exact num_b_extra. Qed.
Print Assumptions C15_extra_entries_partial.

Theorem C15_extra_entries_refuted : exists vj cct resp l extra,
  args_ok cct (NbTuple l) /\ length l = q_num_f cct /\
  qtcurrent besselJ vj cct resp (FList [0%R]) (NbTuple (l ++ extra)) None <>
  qtcurrent besselJ vj cct resp (FList [0%R]) (NbTuple l) None.
Proof. exact extra_entries_matter. Qed.
Print Assumptions C15_extra_entries_refuted.

Example C15_case : qtcurrent besselJ ex_vj ex_cct ex_resp (FList [0%R]) (NbTuple [5; 3; 8; 1]%nat) None =
  qtcurrent besselJ ex_vj ex_cct ex_resp (FList [0%R]) ex_nb None.
Proof. apply (C15_extra_entries_partial besselJ ex_vj ex_cct ex_resp _ [5; 3]%nat [8; 1]%nat ex_args eq_refl). left. simpl. lia. Qed.

(** ** C16 *)
Theorem C16_response_matrix : forall cct resp num_b,
  (1 <= q_num_f cct <= 4)%nat -> (q_num_f cct <= length (nbtuple num_b (q_num_f cct)))%nat ->
  let bs := firstn (q_num_f cct) (nbtuple num_b (q_num_f cct)) in
  exists rm, interpolate_respfn cct resp num_b = Ok rm /\
    rm_shape rm = map (fun b => (2 * b + 1)%nat) bs /\ rm_npts rm = q_npts cct /\
    forall ks, Forall2 (fun b k => (- Z.of_nat b <= k <= Z.of_nat b)%Z) bs ks ->
      exists v, rm_get rm ks = Ok v /\ forall i, v i = resp (q_vb cct i + dot ks (freqs cct))%R.
Proof.
  intros cct resp num_b H1 H2 bs. destruct (interp_ok cct resp num_b H1 H2) as [rm [E [S [N H]]]].
  exists rm. split; [exact E|]. split; [|split; [exact N|exact H]]. rewrite S. unfold box_shape. apply map_ext. intros; lia.
Qed.
Print Assumptions C16_response_matrix.

Theorem C16_other_tone_counts : forall cct resp n, (q_num_f cct = 0 \/ 5 <= q_num_f cct)%nat ->
  interpolate_respfn cct resp (NbInt n) = Err ValueError /\
  (forall l, (q_num_f cct <= length l)%nat -> interpolate_respfn cct resp (NbTuple l) = Err ValueError).
Proof.
  intros cct resp n H. unfold interpolate_respfn, unpack_num_b. split.
  - cbn [bind]. destruct (q_num_f cct) as [|[|[|[|[|F]]]]]; try lia; reflexivity.
  - intros l Hl. apply Nat.leb_le in Hl. rewrite Hl. cbn [guard bind]. destruct (q_num_f cct) as [|[|[|[|[|F]]]]]; try lia; reflexivity.
Qed.
Print Assumptions C16_other_tone_counts.

Example C16_case : exists rm v, interpolate_respfn ex_cct ex_resp ex_nb = Ok rm /\
  rm_get rm [(-5)%Z; 2%Z] = Ok v /\ v 1%nat = ex_resp (1 + (-5 * (3 / 10) + (2 * (35 / 100) + 0)))%R.
Proof.
  destruct (C16_response_matrix ex_cct ex_resp ex_nb) as [rm [E [_ [_ H]]]]; [simpl; lia|simpl; lia|].
  destruct (H [(-5)%Z; 2%Z]) as [v [G V]]; [repeat constructor; simpl; lia|].
  exists rm, v. split; [exact E|]. split; [exact G|]. apply V.
Qed.

(** ** C17 *)
Theorem C17_pumped_iv_curve : forall vj cct resp num_b alpha row,
  args_ok cct (NbInt num_b) -> q_num_f cct = 1%nat -> q_num_p cct = 1%nat -> (/ 10000 < q_freq cct 1)%R ->
  (forall i, (i < q_npts cct)%nat -> vj 1%nat 1%nat i = RtoC (alpha * q_freq cct 1)) ->
  qtcurrent besselJ vj cct resp (FScalar 0) (NbInt num_b) None = Ok (QReal row) ->
  row = find_pumped_iv_curve besselJ (fun v => Im (resp v)) (tab (q_npts cct) (q_vb cct)) (q_freq cct 1) alpha num_b.
Proof. exact tucker_dc. Qed.
Print Assumptions C17_pumped_iv_curve.

(** [edge] (Proof_QtWit.v) is the explicit pair of terms with an index just
    outside the truncation, which the AC-current helper keeps. *)
Theorem C17_ac_current : forall vj cct resp num_b alpha row,
  args_ok cct (NbInt num_b) -> q_num_f cct = 1%nat -> q_num_p cct = 1%nat -> (/ 10000 < q_freq cct 1)%R ->
  (forall i, (i < q_npts cct)%nat -> vj 1%nat 1%nat i = RtoC (alpha * q_freq cct 1)) ->
  qtcurrent besselJ vj cct resp (FList [q_freq cct 1]) (NbInt num_b) None = Ok (QRows [row]) ->
  row = map2 Cminus
    (find_ac_current besselJ (fun v => Im (resp v)) (fun v => Re (resp v)) (tab (q_npts cct) (q_vb cct)) (q_freq cct 1) alpha num_b)
    (map (fun vb =>
        let b := Z.of_nat num_b in
        let up := (besselZ besselJ b alpha * besselZ besselJ (b + 1) alpha)%R in
        let dn := (besselZ besselJ (- b) alpha * besselZ besselJ (- b - 1) alpha)%R in
        ((up * Im (resp (vb + IZR b * q_freq cct 1)) + dn * Im (resp (vb - IZR b * q_freq cct 1)))%R,
         (dn * Re (resp (vb - IZR b * q_freq cct 1)) - up * Re (resp (vb + IZR b * q_freq cct 1)))%R))
      (tab (q_npts cct) (q_vb cct))).
Proof. exact tucker_ac. Qed.
Print Assumptions C17_ac_current.

Definition ex11_cct : qcct :=
  {| q_num_f := 1; q_num_p := 1; q_npts := 3; q_freq := fun f => (3 / 10)%R; q_vb := fun i => INR i |}.
Example C17_case : exists row,
  qtcurrent besselJ (fun _ _ _ => RtoC (2 * (3 / 10))) ex11_cct ex_resp (FScalar 0) (NbInt 4) None = Ok (QReal row).
Proof.
  assert (A : args_ok ex11_cct (NbInt 4)) by (unfold args_ok; simpl; repeat split; try lia; intros; lra).
  eexists. rewrite (C01_scalar_request _ _ _ _ _ _ A). cbv zeta. unfold Reqb.
  destruct (Req_EM_T (round4 0) 0) as [_|N]; [reflexivity|exfalso; apply N; apply round4_0].
Qed.

(** ** C18 *)
Theorem C18_idle_harmonics_coefficients : forall J vj freq num_f num_p num_p' num_b c c', bessel_like J ->
  (1 <= num_f)%nat -> (1 <= num_p <= num_p')%nat -> (num_f <= length (nbtuple num_b num_f))%nat ->
  (forall f p i, (1 <= f <= num_f)%nat -> (num_p < p <= num_p')%nat -> vj f p i = RtoC 0) ->
  calculate_phase_factor_coeff J vj freq num_f num_p num_b = Ok c ->
  calculate_phase_factor_coeff J vj freq num_f num_p' num_b = Ok c' ->
  let N := list_max (nbtuple num_b num_f) in
  forall f k i, (1 <= f <= num_f)%nat -> (- Z.of_nat N <= k <= Z.of_nat N)%Z ->
    c_at c' f (wrapk N k) i = c_at c f (wrapk N k) i.
Proof.
  intros J vj freq num_f num_p num_p' num_b c c' HJ Hf Hp Hl Hv E E' N f k i Hf' Hk.
  destruct (calculate_phase_factor_coeff_spec J vj freq num_f num_p num_b Hf (proj1 Hp) Hl) as [c0 [E0 [_ [_ H]]]].
  destruct (calculate_phase_factor_coeff_spec J vj freq num_f num_p' num_b Hf ltac:(lia) Hl) as [c0' [E0' [_ [_ H']]]].
  assert (c0 = c) by congruence. assert (c0' = c') by congruence. subst c0 c0'. fold N in H, H'.
  rewrite H, H' by assumption. apply phase_factor_idle; try lia; try assumption.
  intros m n Hm. apply JA_zero; [assumption|]. now apply Hv.
Qed.
Print Assumptions C18_idle_harmonics_coefficients.

Theorem C18_idle_harmonics_one_tone : forall J vj vj' cct cct' resp a num_b, bessel_like J -> args_ok cct num_b ->
  q_num_f cct = 1%nat -> (/ 10000 < q_freq cct 1)%R -> (Z.abs a <= Z.of_nat (q_num_p cct))%Z ->
  q_num_f cct' = 1%nat -> (q_num_p cct <= q_num_p cct')%nat -> q_npts cct' = q_npts cct ->
  (forall i, (i < q_npts cct)%nat -> q_vb cct' i = q_vb cct i) -> q_freq cct' 1%nat = q_freq cct 1%nat ->
  (forall p i, (1 <= p <= q_num_p cct')%nat -> (i < q_npts cct)%nat ->
     vj' 1%nat p i = if (p <=? q_num_p cct)%nat then vj 1%nat p i else RtoC 0) ->
  qtcurrent J vj' cct' resp (FScalar (IZR a * q_freq cct 1)) num_b None =
  qtcurrent J vj cct resp (FScalar (IZR a * q_freq cct 1)) num_b None.
Proof. exact idle_harmonics_one_tone. Qed.
Print Assumptions C18_idle_harmonics_one_tone.

(** More generally for several tones, at any frequency to which only products of
    the old order contribute. *)
Theorem C18_idle_harmonics : forall J vj vj' cct cct' resp w num_b, bessel_like J -> args_ok cct num_b ->
  q_num_f cct' = q_num_f cct -> (q_num_p cct <= q_num_p cct')%nat -> q_npts cct' = q_npts cct ->
  (forall i, (i < q_npts cct)%nat -> q_vb cct' i = q_vb cct i) ->
  (forall f, (1 <= f <= q_num_f cct)%nat -> q_freq cct' f = q_freq cct f) ->
  (forall f p i, (1 <= f <= q_num_f cct)%nat -> (1 <= p <= q_num_p cct')%nat -> (i < q_npts cct)%nat ->
     vj' f p i = if (p <=? q_num_p cct)%nat then vj f p i else RtoC 0) ->
  (forall a, length a = q_num_f cct -> Forall (fun x => (- Z.of_nat (q_num_p cct') <= x <= Z.of_nat (q_num_p cct'))%Z) a ->
     round4 (dot a (freqs cct)) = round4 w -> Forall (fun x => (- Z.of_nat (q_num_p cct) <= x <= Z.of_nat (q_num_p cct))%Z) a) ->
  qtcurrent J vj' cct' resp (FScalar w) num_b None = qtcurrent J vj cct resp (FScalar w) num_b None.
Proof. exact idle_harmonics. Qed.
Print Assumptions C18_idle_harmonics.

Example C18_case : qtcurrent besselJ (fun f p i => if (p <=? 2)%nat then ex_vj f p i else RtoC 0)
   {| q_num_f := 1; q_num_p := 5; q_npts := 3; q_freq := fun f => (3 / 10)%R; q_vb := fun i => INR i |} ex_resp (FScalar (IZR 2 * (3 / 10))) (NbInt 4) None =
  qtcurrent besselJ ex_vj ex1_cct ex_resp (FScalar (IZR 2 * (3 / 10))) (NbInt 4) None.
Proof.
  apply (C18_idle_harmonics_one_tone besselJ ex_vj _ ex1_cct _ ex_resp 2 (NbInt 4) besselJ_like (ex1_args 4)); try reflexivity; simpl; try lia; try lra.
Qed.
