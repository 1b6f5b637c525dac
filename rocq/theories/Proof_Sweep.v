(** How the simulated currents change along the bias sweep. *)
From Coq Require Import List ZArith Lia Bool Arith Reals Lra String.
From Coquelicot Require Import Coquelicot.
From Verif Require Import Base Sums Round Bessel Model_QtCurrent Spec_QtCurrent Spec_QtApi Spec_Power Proof_QtApi Proof_QtApi2 Proof_QtWit Proof_Power2 Model_Circuit Model_HB Spec_HB Spec_HBConv Proof_HB3 Proof_HBConv Proof_HBLip2 Proof_HBConv3 Proof_Lip1 Spec_LipMany Proof_LipMany Spec_TruncMany Spec_BiasLip Proof_BiasLip Proof_RunCurrent.
Import ListNotations.
Local Notation length := List.length.
Open Scope R_scope.

(** The two bounds put together. *)
Lemma together M L nu Z X S D E dv : 0 <= M -> 0 < nu -> 4 * M * Z < nu -> X <= 4 * M * S + 2 * L * dv -> nu * S <= D -> (1 - 4 * M * Z / nu) * D <= E + 2 * L * Z * dv ->
  (nu - 4 * M * Z) * X <= 2 * L * nu * dv + 4 * M * E.
Proof.
  intros M0 N0 HZ HX HS HD. assert (HD' : (nu - 4 * M * Z) * D <= nu * (E + 2 * L * Z * dv)). { replace ((nu - 4 * M * Z) * D) with (nu * ((1 - 4 * M * Z / nu) * D)) by (field; lra). apply Rmult_le_compat_l; lra. }
  set (g := nu - 4 * M * Z) in *. assert (G : 0 < g) by (unfold g; lra).
  apply Rmult_le_reg_l with nu; [assumption|]. apply Rle_trans with (nu * (g * (4 * M * S + 2 * L * dv))); [apply Rmult_le_compat_l; [lra|]; apply Rmult_le_compat_l; lra|].
  replace (nu * (g * (4 * M * S + 2 * L * dv))) with (4 * M * (g * (nu * S)) + g * nu * (2 * L * dv)) by ring.
  apply Rle_trans with (4 * M * (nu * (E + 2 * L * Z * dv)) + g * nu * (2 * L * dv)); [|right; unfold g; ring]. apply Rplus_le_compat_r. apply Rmult_le_compat_l; [lra|]. eapply Rle_trans; [|exact HD']. apply Rmult_le_compat_l; lra.
Qed.
Lemma steps_sweep c nu v i j : q_num_p (h_q c) = 1%nat -> 0 < nu -> (forall f, (1 <= f <= q_num_f (h_q c))%nat -> nu <= q_freq (h_q c) f) -> nu * steps_apart (h_q c) v i j <= apart (h_q c) v i j.
Proof. intros HP N0 HN. exact (steps_distance c nu HP N0 HN v (fun f p _ => v f p j) i). Qed.

Theorem sweep_solution : forall c resp num_b M L nu s w a r, args_ok (h_q c) num_b -> q_num_p (h_q c) = 1%nat -> separate (h_q c) -> 0 <= M -> 0 < nu -> (forall f, (1 <= f <= q_num_f (h_q c))%nat -> nu <= q_freq (h_q c) f) -> 4 * M * impedances c < nu ->
  (forall i x, (i < q_npts (h_q c))%nat -> shifted (q_vb (h_q c) i) (truncations num_b (q_num_f (h_q c))) (freqs (h_q c)) x -> Cmod (resp x) <= M) -> slope_at_most resp L ->
  solution besselJ c resp num_b s -> alone (h_q c) w a -> qtcurrent besselJ s (h_q c) resp (FList [w]) num_b None = Ok (QRows [r]) ->
  forall i j, (i < q_npts (h_q c))%nat -> (j < q_npts (h_q c))%nat -> (nu - 4 * M * impedances c) * Cmod (nth i r (RtoC 0) - nth j r (RtoC 0))%C <= 2 * L * nu * Rabs (q_vb (h_q c) i - q_vb (h_q c) j).
Proof.
  intros c resp num_b M L nu s w a r A HP HT P0 N0 HN HZ B SL SOL AL E i j Hi Hj.
  pose proof (points_call (h_q c) resp num_b M L s w a r i j A HP AL Hi Hj (fun x => B i x Hi) SL E) as X.
  pose proof (solution_points c resp num_b M L nu A HP HT P0 N0 HN B SL s i j SOL Hi Hj) as D.
  pose proof (together M L nu (impedances c) _ _ _ 0 _ P0 N0 HZ X (steps_sweep c nu s i j HP N0 HN) ltac:(rewrite Rplus_0_l; exact D)) as H. lra.
Qed.
Theorem sweep_run : forall c resp num_b M L nu inv max_it stop vj0 d zj v it w a r, q_num_p (h_q c) = 1%nat -> separate (h_q c) -> 0 <= M -> 0 < nu -> (forall f, (1 <= f <= q_num_f (h_q c))%nat -> nu <= q_freq (h_q c) f) -> 4 * M * impedances c < nu ->
  (forall i x, (i < q_npts (h_q c))%nat -> shifted (q_vb (h_q c) i) (truncations num_b (q_num_f (h_q c))) (freqs (h_q c)) x -> Cmod (resp x) <= M) -> slope_at_most resp L ->
  simulates c num_b -> inverts inv -> (0 <= max_it)%Z -> r_ret (harmonic_balance besselJ inv c resp num_b max_it stop vj0 d "x" zj) = Ok (RetX v it true) ->
  everywhere (h_q c) (fun f p i => ~ undefined besselJ (driven c) resp num_b v f p i) ->
  alone (h_q c) w a -> qtcurrent besselJ v (h_q c) resp (FList [w]) num_b None = Ok (QRows [r]) ->
  forall i j, (i < q_npts (h_q c))%nat -> (j < q_npts (h_q c))%nat -> (nu - 4 * M * impedances c) * Cmod (nth i r (RtoC 0) - nth j r (RtoC 0))%C <= 2 * L * nu * Rabs (q_vb (h_q c) i - q_vb (h_q c) j) + 4 * M * (stop * (total (h_q c) (fun f p => Cmod (v f p i)) + total (h_q c) (fun f p => Cmod (v f p j)))).
Proof.
  intros c resp num_b M L nu inv max_it stop vj0 d zj v it w a r HP HT P0 N0 HN HZ B SL HS INV MI R1 U AL E i j Hi Hj.
  pose proof (points_call (h_q c) resp num_b M L v w a r i j (proj1 HS) HP AL Hi Hj (fun x => B i x Hi) SL E) as X.
  pose proof (run_points c resp num_b M L nu inv max_it stop vj0 d zj v it HP HT P0 N0 HN B SL HS INV MI R1 U i j Hi Hj) as D.
  exact (together M L nu (impedances c) _ _ _ _ _ P0 N0 HZ X (steps_sweep c nu v i j HP N0 HN) D).
Qed.
Theorem sweep_dc : forall c resp num_b M L nu inv max_it stop vj0 d zj v it a r, q_num_p (h_q c) = 1%nat -> separate (h_q c) -> 0 <= M -> 0 < nu -> (forall f, (1 <= f <= q_num_f (h_q c))%nat -> nu <= q_freq (h_q c) f) -> 4 * M * impedances c < nu ->
  (forall i x, (i < q_npts (h_q c))%nat -> shifted (q_vb (h_q c) i) (truncations num_b (q_num_f (h_q c))) (freqs (h_q c)) x -> Cmod (resp x) <= M) -> slope_at_most resp L ->
  simulates c num_b -> inverts inv -> (0 <= max_it)%Z -> r_ret (harmonic_balance besselJ inv c resp num_b max_it stop vj0 d "x" zj) = Ok (RetX v it true) ->
  everywhere (h_q c) (fun f p i => ~ undefined besselJ (driven c) resp num_b v f p i) ->
  alone (h_q c) 0 a -> qtcurrent besselJ v (h_q c) resp (FScalar 0) num_b None = Ok (QReal r) ->
  forall i j, (i < q_npts (h_q c))%nat -> (j < q_npts (h_q c))%nat -> (nu - 4 * M * impedances c) * Rabs (nth i r 0 - nth j r 0) <= 2 * L * nu * Rabs (q_vb (h_q c) i - q_vb (h_q c) j) + 4 * M * (stop * (total (h_q c) (fun f p => Cmod (v f p i)) + total (h_q c) (fun f p => Cmod (v f p j)))).
Proof.
  intros c resp num_b M L nu inv max_it stop vj0 d zj v it a r HP HT P0 N0 HN HZ B SL HS INV MI R1 U AL E i j Hi Hj. assert (A := proj1 HS).
  assert (E' := qt_list besselJ v (h_q c) resp [0] num_b A). cbn [map] in E'.
  eapply Rle_trans; [|exact (sweep_run c resp num_b M L nu inv max_it stop vj0 d zj v it 0 a _ HP HT P0 N0 HN HZ B SL HS INV MI R1 U AL E' i j Hi Hj)]. apply Rmult_le_compat_l; [lra|].
  rewrite (dc_row v (h_q c) resp num_b r A E i Hi), (dc_row v (h_q c) resp num_b r A E j Hj). unfold spec_row. rewrite !nth_tab by assumption. apply (proj1 (part_le (_ - _)%C)).
Qed.
