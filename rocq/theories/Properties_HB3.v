(** Properties C145 and C146: the numbering of the tones and the choice of the inverse in
    harmonic_balance, and the uniqueness of its corrections.  Vocabulary in Spec_HB.v and
    Spec_HB2.v. *)
From Coq Require Import List ZArith Lia Bool Arith Reals Lra String Permutation.
From Coquelicot Require Import Complex.
From Verif Require Import Base Sums Round Model_QtCurrent Spec_QtCurrent Spec_QtApi Model_Circuit Model_HB Spec_HB Spec_HB2 
  Proof_HB3 Proof_HB5 Proof_HB9 Proof_HB10 Proof_HBWit Proof_HBWit2 Proof_HBWit5.
Import ListNotations.
Open Scope C_scope.

(** ** C145 *)
(** Numbering the tones differently renumbers the voltages and changes nothing else. *)
Theorem C145_relabel : forall J inv inv' sigma c resp num_b max_it stop vj0 damp zj v it flag,
  let call := harmonic_balance J inv c resp num_b max_it stop vj0 damp "x" zj in
  let call' := harmonic_balance J inv' (relabel_circuit sigma c) resp (permute_nb sigma num_b) max_it stop (relabel_guess sigma vj0) damp "x" zj in
  inverts inv -> inverts inv' -> relabels sigma (q_num_f (h_q c)) -> simulates c num_b -> one_per_tone (q_num_f (h_q c)) num_b ->
  (forall m u, corrections J (r_cct call) resp num_b damp m (start c vj0 zj) u -> everywhere (h_q c) (fun f p i => ~ undefined J (r_cct call) resp num_b u f p i)) ->
  r_ret call = Ok (RetX v it flag) ->
  exists v', r_ret call' = Ok (RetX v' it flag) /\ everywhere (h_q c) (fun f p i => v' f p i = v (sigma f) p i).
Proof. intros J inv inv' sigma c resp num_b max_it stop vj0 damp zj v it flag call call' H1 H2 H3 H4 H5. now apply (relabel_x J inv inv' H1 H2 sigma c resp num_b H3 H4 H5). Qed.
Print Assumptions C145_relabel.
(** The mask of the bias points that met the target stays. *)
Theorem C145_mask : forall J inv inv' sigma c resp num_b max_it stop vj0 damp zj v mask,
  let call := harmonic_balance J inv c resp num_b max_it stop vj0 damp "m" zj in
  let call' := harmonic_balance J inv' (relabel_circuit sigma c) resp (permute_nb sigma num_b) max_it stop (relabel_guess sigma vj0) damp "m" zj in
  inverts inv -> inverts inv' -> relabels sigma (q_num_f (h_q c)) -> simulates c num_b -> one_per_tone (q_num_f (h_q c)) num_b ->
  (forall m u, corrections J (r_cct call) resp num_b damp m (start c vj0 zj) u -> everywhere (h_q c) (fun f p i => ~ undefined J (r_cct call) resp num_b u f p i)) ->
  r_ret call = Ok (RetM v mask) ->
  exists v' mask', r_ret call' = Ok (RetM v' mask') /\ everywhere (h_q c) (fun f p i => v' f p i = v (sigma f) p i) /\
    forall i, (i < q_npts (h_q c))%nat -> mask' i = mask i.
Proof. intros J inv inv' sigma c resp num_b max_it stop vj0 damp zj v mask call call' H1 H2 H3 H4 H5. now apply (relabel_m J inv inv' H1 H2 sigma c resp num_b H3 H4 H5). Qed.
Print Assumptions C145_mask.
(** Which exact matrix inverse is used does not matter. *)
Theorem C145_inverse : forall J inv inv' c resp num_b max_it stop vj0 damp zj v it flag,
  let call := harmonic_balance J inv c resp num_b max_it stop vj0 damp "x" zj in
  inverts inv -> inverts inv' -> simulates c num_b -> one_per_tone (q_num_f (h_q c)) num_b ->
  (forall m u, corrections J (r_cct call) resp num_b damp m (start c vj0 zj) u -> everywhere (h_q c) (fun f p i => ~ undefined J (r_cct call) resp num_b u f p i)) ->
  r_ret call = Ok (RetX v it flag) ->
  exists v', r_ret (harmonic_balance J inv' c resp num_b max_it stop vj0 damp "x" zj) = Ok (RetX v' it flag) /\ agree (h_q c) v v'.
Proof. exact same_inverse. Qed.
Print Assumptions C145_inverse.

(** Two tones with sources of 1 and 2 gap voltages, swapped, for a junction that draws no
    current. *)
Definition two_tones : hcct := {| h_q := {| q_num_f := 2; q_num_p := 1; q_npts := 1; q_freq := fun f => INR f; q_vb := fun _ => 1%R |};
  h_vt := fun f _ => RtoC (INR f); h_zt := fun _ _ => RtoC 1; h_wvt := true |}.
Definition swap (f : nat) : nat := match f with 1 => 2 | 2 => 1 | _ => f end%nat.
Example C145_case : forall J, let c := two_tones in let nb := NbTuple [3; 4]%nat in
  inverts exact_inv /\ relabels swap (q_num_f (h_q c)) /\ simulates c nb /\ one_per_tone (q_num_f (h_q c)) nb /\
  let call := harmonic_balance J exact_inv c no_resp nb 2 (/ 10 ^ 3) (Some (fun f _ _ => RtoC (INR f))) 1 "x" (RtoC 1) in
  (forall m u, corrections J (r_cct call) no_resp nb 1 m (start c (Some (fun f _ _ => RtoC (INR f))) (RtoC 1)) u ->
     everywhere (h_q c) (fun f p i => ~ undefined J (r_cct call) no_resp nb u f p i)) /\
  exists v, r_ret call = Ok (RetX v 0 true) /\ v 1%nat 1%nat 0%nat = RtoC 1 /\
  exists v', r_ret (harmonic_balance J exact_inv (relabel_circuit swap c) no_resp (NbTuple [4; 3]%nat) 2 (/ 10 ^ 3) (Some (fun f _ _ => RtoC (INR (swap f)))) 1 "x" (RtoC 1)) =
    Ok (RetX v' 0 true) /\ v' 1%nat 1%nat 0%nat = RtoC 2.
Proof.
  intros J c nb. set (g := (fun f _ _ => RtoC (INR f)) : arr3).
  assert (Hr : relabels swap (q_num_f (h_q c))) by (split; [reflexivity|]; cbn; constructor).
  assert (Hs : simulates c nb).
  { split; [split; [cbn; lia|split; [cbn; lia|split; [|cbn; lia]]]|].
    - intros f Hf. cbn in Hf |- *. apply lt_0_INR. lia.
    - split; [cbn; lia|]. split; [reflexivity|]. exists 1%nat, 1%nat. split; [cbn; lia|]. split; [cbn; lia|]. apply one_neq0. }
  assert (Hbig : forall f, (1 <= f)%nat -> source (RtoC (INR f)) = RtoC (INR f) /\ (1 <= INR f)%R).
  { intros f Hf. assert (1 <= INR f)%R by (apply (le_INR 1); exact Hf). split; [|assumption]. apply source_big. rewrite Cmod_R, Rabs_pos_eq by lra.
    apply Rle_trans with 1%R; [|assumption]. rewrite <- Rinv_1. apply Rinv_le_contravar; [lra|]. lra. }
  assert (Hres : forall u f p i, (1 <= f)%nat -> (1 <= p)%nat -> residual_at J (clamped c) no_resp nb u f p i = RtoC (INR f) - u f p i).
  { intros u f p i Hf Hp. unfold residual_at. cbn [h_vt h_zt h_q clamped]. rewrite clamp_source by assumption. unfold no_resp. rewrite current_at_no_response.
    change (h_vt c f p) with (RtoC (INR f)). destruct (Hbig f Hf) as [-> _]. ring. }
  assert (Hnz : forall f, (1 <= f)%nat -> RtoC (INR f) <> RtoC 0).
  { intros f Hf E. apply (f_equal fst) in E. cbn in E. destruct (Hbig f Hf). lra. }
  split; [exact exact_inv_inverts|]. split; [exact Hr|]. split; [exact Hs|]. split; [reflexivity|]. intros call.
  assert (Ec : r_cct call = clamped c) by (destruct (sim_parts c nb Hs) as [_ [_ [Hz Hw]]]; apply cct_after; assumption).
  assert (Hd : forall m u, corrections J (r_cct call) no_resp nb 1 m (start c (Some g) (RtoC 1)) u ->
     everywhere (h_q c) (fun f p i => ~ undefined J (r_cct call) no_resp nb u f p i)).
  { intros m u _ f p i [Hf Hp] Hi [U1 U2]. rewrite Ec in U2. rewrite Hres in U2 by lia. rewrite U1 in U2. apply (Hnz f); [lia|]. rewrite <- U2. ring. }
  split; [exact Hd|].
  assert (Hnz' : everywhere (h_q c) (fun f p i => g f p i <> RtoC 0)) by (intros f p i [Hf _] _; unfold g; apply Hnz; lia).
  assert (Hb : balanced J (clamped c) no_resp nb (/ 10 ^ 3) g).
  { intros f p i [Hf Hp] Hi. rewrite Hres by lia. unfold g. replace (RtoC (INR f) - RtoC (INR f)) with (RtoC 0) by ring. rewrite Cmod_0. apply Rmult_le_pos; [lra|apply Cmod_ge_0]. }
  destruct (hb_immediate J exact_inv c no_resp nb 2 (/ 10 ^ 3) g 1 "x" (RtoC 1) Hs ltac:(lia) ltac:(lra) Hnz' Hb) as [v [o [A [E [W [_ [R Cc]]]]]]].
  unfold ret_of in R. rewrite E in R. exists v. split; [exact R|].
  assert (Sg : forall f, (1 <= f <= 2)%nat -> v f 1%nat 0%nat = RtoC (INR f)) by (intros f Hf; rewrite <- (A f 1%nat 0%nat); [reflexivity|split; cbn; lia|cbn; lia]).
  split; [rewrite Sg by lia; reflexivity|].
  destruct (C145_relabel J exact_inv exact_inv swap c no_resp nb 2%Z (/ 10 ^ 3)%R (Some g) 1%R (RtoC 1) v 0%Z true exact_inv_inverts exact_inv_inverts Hr Hs eq_refl Hd R) as [v' [R' V]].
  exists v'. split; [exact R'|]. rewrite (V 1%nat 1%nat 0%nat); [|split; cbn; lia|cbn; lia]. cbn [swap]. rewrite Sg by lia. f_equal. 
Qed.

(** ** C146 *)
(** If the run converges, its result is the only outcome of that many Newton corrections of the
    starting voltages. *)
Theorem C146_unique : forall J inv c resp num_b max_it stop vj0 damp zj v it u,
  let call := harmonic_balance J inv c resp num_b max_it stop vj0 damp "x" zj in
  simulates c num_b -> (0 <= max_it)%Z -> inverts inv -> r_ret call = Ok (RetX v it true) ->
  corrections J (r_cct call) resp num_b damp (Z.to_nat it) (start c vj0 zj) u -> agree (h_q c) v u.
Proof. exact result_unique. Qed.
Print Assumptions C146_unique.
Example C146_case : forall J, exists v,
  r_ret (harmonic_balance J exact_inv (w1 (RtoC 1) (RtoC 1)) no_resp (NbInt 1) 2 (/ 10 ^ 3) (Some (fun _ _ _ => RtoC 5)) 1 "x" (RtoC 1)) = Ok (RetX v 1 true) /\
  simulates (w1 (RtoC 1) (RtoC 1)) (NbInt 1) /\ inverts exact_inv /\ v 1%nat 1%nat 0%nat = RtoC 1.
Proof.
  intros J. destruct (one_correction_converged J exact_inv exact_inv_inverts) as [v [R V]]. exists v. split; [exact R|].
  split; [apply w1_simulates, one_neq0|]. split; [exact exact_inv_inverts|exact V].
Qed.
