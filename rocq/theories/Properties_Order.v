(** C154: order, slopes and gap of the pumped I-V curve. *)
From Coq Require Import List ZArith Lia Bool Arith Reals Lra.
From Coquelicot Require Import Complex.
From Verif Require Import Base Bessel Model_QtCurrent Spec_QtCurrent Spec_QtApi Spec_Power Spec_Order Proof_QtApi Proof_QtWit Proof_Order Properties_Power.
Import ListNotations.
Open Scope R_scope.

(** C154 — any number of tones and harmonics, any truncation, any Bessel functions.  [alone cct 0 …]: no mixing product but
    the trivial one falls on frequency 0. *)
Theorem C154_order : forall J vj cct resp resp' num_b row row' i, args_ok cct num_b -> alone cct 0 (repeat 0%Z (q_num_f cct)) -> (i < q_npts cct)%nat ->
  (forall v, shifted (q_vb cct i) (truncations num_b (q_num_f cct)) (freqs cct) v -> Im (resp v) <= Im (resp' v)) ->
  qtcurrent J vj cct resp (FScalar 0) num_b None = Ok (QReal row) -> qtcurrent J vj cct resp' (FScalar 0) num_b None = Ok (QReal row') ->
  nth i row 0 <= nth i row' 0.
Proof. exact dc_order. Qed.
Print Assumptions C154_order.
Theorem C154_monotone : forall J vj cct resp num_b row i j, args_ok cct num_b -> alone cct 0 (repeat 0%Z (q_num_f cct)) -> (i < q_npts cct)%nat -> (j < q_npts cct)%nat -> same_drive vj cct i j ->
  (forall x y, x <= y -> Im (resp x) <= Im (resp y)) -> q_vb cct i <= q_vb cct j -> qtcurrent J vj cct resp (FScalar 0) num_b None = Ok (QReal row) -> nth i row 0 <= nth j row 0.
Proof. exact dc_monotone. Qed.
Print Assumptions C154_monotone.
(** With a and b the bounds of the slope of the I-V curve. *)
Theorem C154_slopes : forall vj cct resp num_b row i j a b, args_ok cct num_b -> q_num_p cct = 1%nat -> alone cct 0 (repeat 0%Z (q_num_f cct)) -> (i < q_npts cct)%nat -> (j < q_npts cct)%nat -> same_drive vj cct i j ->
  (forall x y, x <= y -> a * (y - x) <= Im (resp y) - Im (resp x) <= b * (y - x)) -> q_vb cct i <= q_vb cct j -> qtcurrent besselJ vj cct resp (FScalar 0) num_b None = Ok (QReal row) ->
  let w := captured_all (truncations num_b (q_num_f cct)) (levels vj cct i) in
  w * a * (q_vb cct j - q_vb cct i) <= nth j row 0 - nth i row 0 <= w * b * (q_vb cct j - q_vb cct i).
Proof. exact dc_slopes. Qed.
Print Assumptions C154_slopes.
(** No current if all photons together do not reach the gap g. *)
Theorem C154_gap : forall J vj cct resp num_b row i g, args_ok cct num_b -> alone cct 0 (repeat 0%Z (q_num_f cct)) -> (i < q_npts cct)%nat ->
  (forall v, Rabs v < g -> Im (resp v) = 0) -> Rabs (q_vb cct i) + reach (truncations num_b (q_num_f cct)) (freqs cct) < g ->
  qtcurrent J vj cct resp (FScalar 0) num_b None = Ok (QReal row) -> nth i row 0 = 0.
Proof. exact dc_gap. Qed.
Print Assumptions C154_gap.

(** Two tones of 0.3 and 0.35; a curve with a kink at 1 and one with a gap of 3. *)
Definition od_vj : nat -> nat -> vec := fun f _ _ => RtoC (if Nat.eqb f 1 then 1 / 2 else 1 / 5).
Definition od_kink (v : R) : C := (0, v + Rabs (v - 1)).
Definition od_gap (v : R) : C := (0, if Rlt_dec (Rabs v) 3 then 0 else v).
Example C154_case : (exists row, qtcurrent besselJ od_vj pw_cct od_kink (FScalar 0) (NbInt 2) None = Ok (QReal row) /\ nth 0 row 0 <= nth 1 row 0 /\
    0 <= nth 2 row 0 - nth 1 row 0 <= captured_all (truncations (NbInt 2) 2) (levels od_vj pw_cct 1) * 2 * (q_vb pw_cct 2 - q_vb pw_cct 1)) /\
  (exists row, qtcurrent besselJ od_vj pw_cct od_gap (FScalar 0) (NbInt 2) None = Ok (QReal row) /\ nth 1 row 0 = 0).
Proof.
  assert (K : forall x y, x <= y -> 0 * (y - x) <= Im (od_kink y) - Im (od_kink x) <= 2 * (y - x)). { intros x y L. unfold od_kink, Im. cbn [snd]. unfold Rabs. destruct (Rcase_abs (y - 1)), (Rcase_abs (x - 1)); lra. }
  split.
  - destruct (qt_dc_runs od_vj pw_cct od_kink (NbInt 2) (pw_args 2)) as [row E]. exists row. split; [exact E|]. split.
    + refine (C154_monotone _ _ _ _ _ _ 0 1 (pw_args 2) pw_alone_dc _ _ _ _ _ E); try (cbn; lia); [intros f p _ _; reflexivity|intros x y L; pose proof (K x y L); lra|cbn; lra].
    + pose proof (C154_slopes od_vj pw_cct od_kink (NbInt 2) row 1 2 0 2 (pw_args 2) eq_refl pw_alone_dc ltac:(cbn; lia) ltac:(cbn; lia) ltac:(intros f p _ _; reflexivity) K ltac:(cbn; lra) E) as G. cbv zeta in G. rewrite Rmult_0_r, Rmult_0_l in G. exact G.
  - destruct (qt_dc_runs od_vj pw_cct od_gap (NbInt 2) (pw_args 2)) as [row E]. exists row. split; [exact E|].
    refine (C154_gap _ _ _ _ _ _ 1 3 (pw_args 2) pw_alone_dc _ _ _ E); [cbn; lia|intros v L; unfold od_gap, Im; cbn [snd]; destruct (Rlt_dec (Rabs v) 3); [reflexivity|contradiction]|].
    unfold freqs, reach. cbn. rewrite !Rabs_pos_eq by lra. lra.
Qed.
