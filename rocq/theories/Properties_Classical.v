(** C152: the classical limit of the tunnelling currents. *)
From Coq Require Import List ZArith Lia Bool Arith Reals Lra.
From Coquelicot Require Import Coquelicot.
From Verif Require Import Base Bessel Model_QtCurrent Spec_QtCurrent Spec_QtApi Spec_Classical Proof_QtApi Proof_QtApi2 Proof_QtWit Proof_Power3 Proof_Classical Properties_Power.
Import ListNotations.
Open Scope R_scope.

(** C152 — a single tone of amplitude alpha f and photon voltage f; g 0 is the I-V curve of the
    response function and g k its k-th derivative. *)
Theorem C152_dc (vj : nat -> nat -> vec) (cct : qcct) (resp : R -> C) (alpha : R) :
  q_num_f cct = 1%nat -> q_num_p cct = 1%nat -> / 10000 < q_freq cct 1 ->
  (forall i, (i < q_npts cct)%nat -> vj 1%nat 1%nat i = RtoC (alpha * q_freq cct 1)) ->
  forall (g : nat -> R -> R) (M : R), (forall v, Im (resp v) = g 0%nat v) ->
  forall (dc : nat -> list R) (i : nat), derivatives 4 g -> (forall v, Rabs (g 4%nat v) <= M) ->
  (forall b, qtcurrent besselJ vj cct resp (FScalar 0) (NbInt b) None = Ok (QReal (dc b))) -> (i < q_npts cct)%nat ->
  settles_within (M / 24 * (3 * (alpha * q_freq cct 1) ^ 4 / 8 + q_freq cct 1 ^ 2 * (alpha * q_freq cct 1) ^ 2 / 2))
    (fun b => nth i (dc b) 0) (g 0%nat (q_vb cct i) + (alpha * q_freq cct 1) ^ 2 / 4 * g 2%nat (q_vb cct i)).
Proof. exact (classical_dc vj cct resp alpha). Qed.
Print Assumptions C152_dc.

Theorem C152_ac (vj : nat -> nat -> vec) (cct : qcct) (resp : R -> C) (alpha : R) :
  q_num_f cct = 1%nat -> q_num_p cct = 1%nat -> / 10000 < q_freq cct 1 ->
  (forall i, (i < q_npts cct)%nat -> vj 1%nat 1%nat i = RtoC (alpha * q_freq cct 1)) ->
  forall (g : nat -> R -> R) (M : R), (forall v, Im (resp v) = g 0%nat v) ->
  forall (ac : nat -> list C) (i : nat), derivatives 3 g -> (forall v, Rabs (g 3%nat v) <= M) ->
  (forall b, qtcurrent besselJ vj cct resp (FList [q_freq cct 1]) (NbInt b) None = Ok (QRows [ac b])) -> (i < q_npts cct)%nat ->
  settles_within (M * (Rabs (alpha * q_freq cct 1) ^ 3 / 8 + q_freq cct 1 ^ 2 * Rabs (alpha * q_freq cct 1) / 6))
    (fun b => Re (nth i (ac b) (RtoC 0))) (alpha * q_freq cct 1 * g 1%nat (q_vb cct i)).
Proof. exact (classical_ac vj cct resp alpha). Qed.
Print Assumptions C152_ac.

(** A cubic curve 5 v + v^3, a tone of photon voltage 3/10 and drive level 2: the direct current
    tends to 5 V + V^3 + 3 (6/10)^2 V / 2 exactly. *)
Definition cl_resp (v : R) : C := (0, 5 * v + v ^ 3).
Definition cl_vj : nat -> nat -> vec := fun _ _ _ => RtoC (2 * (3 / 10)).
Definition cl_g (k : nat) (v : R) : R := match k with 0%nat => 5 * v + v ^ 3 | 1%nat => 5 + 3 * v ^ 2 | 2%nat => 6 * v | 3%nat => 6 | _ => 0 end.
Lemma cl_derivatives : derivatives 4 cl_g.
Proof. intros k v H. destruct k as [|[|[|[|k]]]]; [| | | |lia]; unfold cl_g; auto_derive; try exact I; ring. Qed.
Example C152_case : exists dc ac, (forall b, qtcurrent besselJ cl_vj pw1_cct cl_resp (FScalar 0) (NbInt b) None = Ok (QReal (dc b))) /\
  (forall b, qtcurrent besselJ cl_vj pw1_cct cl_resp (FList [3 / 10]) (NbInt b) None = Ok (QRows [ac b])) /\
  settles_within 0 (fun b => nth 1 (dc b) 0) (6 + (6 / 10) ^ 2 / 4 * 6) /\ settles_within (225 / 1000) (fun b => Re (nth 1 (ac b) (RtoC 0))) (6 / 10 * 8).
Proof.
  assert (E1 : forall b, exists dc, qtcurrent besselJ cl_vj pw1_cct cl_resp (FScalar 0) (NbInt b) None = Ok (QReal dc)) by (intros b; exact (qt_dc_runs cl_vj pw1_cct cl_resp (NbInt b) (pw1_args b))).
  assert (E2 : forall b, exists ac, qtcurrent besselJ cl_vj pw1_cct cl_resp (FList [3 / 10]) (NbInt b) None = Ok (QRows [ac])) by (intros b; exact (qt_ac_runs cl_vj pw1_cct cl_resp (NbInt b) (3 / 10) (pw1_args b))).
  set (dc := fun b => match qtcurrent besselJ cl_vj pw1_cct cl_resp (FScalar 0) (NbInt b) None with Ok (QReal l) => l | _ => [] end).
  set (ac := fun b => match qtcurrent besselJ cl_vj pw1_cct cl_resp (FList [3 / 10]) (NbInt b) None with Ok (QRows [l]) => l | _ => [] end).
  exists dc, ac. assert (D1 : forall b, qtcurrent besselJ cl_vj pw1_cct cl_resp (FScalar 0) (NbInt b) None = Ok (QReal (dc b))) by (intros b; unfold dc; destruct (E1 b) as [l ->]; reflexivity).
  assert (D2 : forall b, qtcurrent besselJ cl_vj pw1_cct cl_resp (FList [3 / 10]) (NbInt b) None = Ok (QRows [ac b])) by (intros b; unfold ac; destruct (E2 b) as [l ->]; reflexivity).
  split; [exact D1|]. split; [exact D2|]. split.
  - assert (T := C152_dc cl_vj pw1_cct cl_resp 2 eq_refl eq_refl ltac:(cbn; lra) ltac:(intros; reflexivity) cl_g 0 ltac:(reflexivity) dc 1 cl_derivatives ltac:(intros; cbn; rewrite Rabs_R0; lra) D1 ltac:(cbn; lia)).
    cbn [pw1_cct q_vb q_freq INR] in T. intros eps He. destruct (T eps He) as [N HN]. exists N. intros b Hb. specialize (HN b Hb). unfold cl_g in HN.
    match type of HN with Rabs (_ - ?y) < ?z => replace y with (6 + (6 / 10) ^ 2 / 4 * 6) in HN by field; replace z with (0 + eps) in HN by field end. exact HN.
  - assert (T := C152_ac cl_vj pw1_cct cl_resp 2 eq_refl eq_refl ltac:(cbn; lra) ltac:(intros; reflexivity) cl_g 6 ltac:(reflexivity) ac 1 ltac:(intros k v H; apply cl_derivatives; lia) ltac:(intros; cbn; rewrite Rabs_pos_eq; lra) D2 ltac:(cbn; lia)).
    cbn [pw1_cct q_vb q_freq INR] in T. intros eps He. destruct (T eps He) as [N HN]. exists N. intros b Hb. specialize (HN b Hb). unfold cl_g in HN. rewrite (Rabs_pos_eq (2 * (3 / 10))) in HN by lra.
    match type of HN with Rabs (_ - ?y) < _ => replace y with (6 / 10 * 8) in HN by field end. lra.
Qed.
