(** How fast the tunnelling currents of several tones can change with the junction voltages:
    bounds that do not depend on the truncation. *)
From Coq Require Import List ZArith Lia Bool Arith Reals Lra String.
From Coquelicot Require Import Coquelicot.
From Verif Require Import Base Sums Round Bessel Model_QtCurrent Spec_QtCurrent Spec_QtApi Spec_Power Proof_QtCurrent Proof_QtCurrent2 Proof_QtSym
  Proof_QtApi Proof_QtApi2 Proof_QtWit Proof_Bessel Proof_Bessel2 Proof_Weights Proof_Classical Proof_JacobiAnger Proof_Known Proof_Power Proof_Power2 Model_Circuit Model_HB Spec_HB Spec_HBConv Proof_HB3 Proof_HBConv Proof_HBConv2 Proof_HBLip Proof_HBLip2 Proof_HBConv3 Proof_Lip1 Spec_LipMany.
Import ListNotations.
Local Notation length := List.length.
Open Scope R_scope.

(** ** The sums over all tones *)
Definition plain (b : nat) (a : R) (v : C) : tone := Tone b (cut b (coef v a)).
Definition drive := (nat * R * (C * C))%type.
Definition d_b (d : drive) : nat := fst (fst d).
Definition d_a (d : drive) : R := snd (fst d).
Definition d_v (d : drive) : C := fst (snd d).
Definition d_w (d : drive) : C := snd (snd d).
Definition at_v (d : drive) : tone := plain (d_b d) (d_a d) (d_v d).
Definition at_w (d : drive) : tone := plain (d_b d) (d_a d) (d_w d).
Definition d_gap (d : drive) : R := Cmod (d_v d - d_w d)%C / d_a d.

Lemma plain_1 b a v : rsum (sym b) (fun k => Cmod (cut b (coef v a) k) ^ 2) <= 1 ^ 2.
Proof. rewrite <- (rsum_ext _ (fun k => Cmod (cut b (cut b (coef v a)) (k + 0)%Z) ^ 2)); [apply cuts_1|]. intros k _. now rewrite Z.add_0_r, cut_cut. Qed.
Lemma plain_lip b a v w : 0 < a -> rsum (sym b) (fun k => Cmod (cut b (coef v a) k - cut b (coef w a) k)%C ^ 2) <= (Cmod (v - w)%C / a) ^ 2.
Proof. intros A. rewrite <- (rsum_ext _ (fun k => Cmod (cut b (cut b (coef v a)) (k + 0)%Z - cut b (cut b (coef w a)) (k + 0)%Z)%C ^ 2)); [now apply cuts_lip|]. intros k _. now rewrite Z.add_0_r, !cut_cut. Qed.
Lemma gap_nonneg d : 0 < d_a d -> 0 <= d_gap d.
Proof. intros A. unfold d_gap. apply Rmult_le_pos; [apply Cmod_ge_0|]. apply Rlt_le, Rinv_0_lt_compat, A. Qed.
Lemma same_voltage (x y : C) : Cmod (x - y)%C = 0 -> x = y.
Proof. intros D. apply Cmod_eq_0 in D. transitivity (x - y + y)%C; [ring|rewrite D; ring]. Qed.

Lemma many_1 ds : forall a rk M, length a = length ds -> 0 <= M -> (forall ks, in_box (map d_b ds) ks -> Cmod (rk ks) <= M) -> Cmod (rs_sum (map at_v ds) a rk) <= M.
Proof.
  induction ds as [|d ds IH]; intros [|a0 a] rk M L HM H; try discriminate L.
  - cbn [map rs_sum]. apply H. constructor.
  - cbn [map rs_sum at_v plain t_b t_C]. apply (pair_1 (d_b d) (cut (d_b d) (coef (d_v d) (d_a d))) (fun k => cut (d_b d) (cut (d_b d) (coef (d_v d) (d_a d))) (k + a0)%Z) (fun k => rs_sum (map at_v ds) a (fun ks => rk (k :: ks)))); [assumption| |apply plain_1|apply cuts_1].
    intros k Hk. apply IH; [now injection L|assumption|]. intros ks K. apply H. cbn [map]. constructor; [now apply in_sym|assumption].
Qed.
Lemma many_lip ds : forall a rk M, length a = length ds -> 0 <= M -> (forall d, In d ds -> 0 < d_a d) -> (forall ks, in_box (map d_b ds) ks -> Cmod (rk ks) <= M) ->
  Cmod (rs_sum (map at_v ds) a rk - rs_sum (map at_w ds) a rk)%C <= 2 * M * rsum ds d_gap.
Proof.
  induction ds as [|d ds IH]; intros [|a0 a] rk M L HM HA H; try discriminate L.
  - cbn [map rs_sum]. replace (rk [] - rk [])%C with (RtoC 0) by ring. rewrite Cmod_0. cbn. lra.
  - cbn [map rs_sum at_v at_w plain t_b t_C]. set (b := d_b d). set (f := cut b (coef (d_v d) (d_a d))). set (f' := cut b (coef (d_w d) (d_a d))).
    set (X := fun k => rs_sum (map at_v ds) a (fun ks => rk (k :: ks))). set (X' := fun k => rs_sum (map at_w ds) a (fun ks => rk (k :: ks))).
    assert (L' : length a = length ds) by now injection L.
    assert (B : forall k, In k (sym b) -> forall ks, in_box (map d_b ds) ks -> Cmod (rk (k :: ks)) <= M) by (intros k Hk ks K; apply H; cbn [map]; constructor; [now apply in_sym|assumption]).
    assert (BX : forall k, In k (sym b) -> Cmod (X k) <= M) by (intros k Hk; apply many_1; [assumption|assumption|now apply B]).
    assert (DX : forall k, In k (sym b) -> Cmod (X k - X' k)%C <= 2 * M * rsum ds d_gap) by (intros k Hk; apply IH; [assumption|assumption|intros; apply HA; now right|now apply B]).
    assert (A0 : 0 < d_a d) by (apply HA; now left).
    change (Cmod (pair_sum b f (fun k => cut b f (k + a0)%Z) X - pair_sum b f' (fun k => cut b f' (k + a0)%Z) X')%C <= 2 * M * (d_gap d + rsum ds d_gap)).
    assert (S : 0 <= rsum ds d_gap) by (apply rsum_nonneg; intros x Hx; apply gap_nonneg, HA; now right).
    assert (T1 : Cmod (pair_sum b f (fun k => cut b f (k + a0)%Z) X - pair_sum b f' (fun k => cut b f' (k + a0)%Z) X)%C <= 2 * M * d_gap d).
    { destruct (Rle_lt_or_eq_dec _ _ (Cmod_ge_0 (d_v d - d_w d)%C)) as [D|D].
      - apply pair_lip; [assumption|unfold d_gap; now apply Rdiv_lt_0_compat|assumption|apply cuts_1|apply plain_1|now apply plain_lip|now apply cuts_lip].
      - symmetry in D. unfold d_gap. rewrite D. unfold f, f'. rewrite (same_voltage _ _ D). match goal with |- Cmod (?Y - ?Y)%C <= _ => replace (Y - Y)%C with (RtoC 0) by ring end. rewrite Cmod_0. unfold Rdiv. rewrite Rmult_0_l. lra. }
    assert (T2 : Cmod (pair_sum b f' (fun k => cut b f' (k + a0)%Z) (fun k => X k - X' k)%C) <= 2 * M * rsum ds d_gap).
    { apply pair_1; [apply Rmult_le_pos; lra|assumption|apply plain_1|apply cuts_1]. }
    set (P := pair_sum b f _ X) in *. set (P' := pair_sum b f' _ X) in *.
    assert (E : pair_sum b f' (fun k => cut b f' (k + a0)%Z) X' = (P' - pair_sum b f' (fun k => cut b f' (k + a0)%Z) (fun k => X k - X' k))%C).
    { unfold P', pair_sum, Cminus. rewrite <- csum_opp, <- csum_plus. apply csum_ext. intros k _. ring. }
    rewrite E. set (Q := pair_sum b f' _ (fun k => X k - X' k)%C) in *. replace (P - (P' - Q))%C with ((P - P') + Q)%C by ring. eapply Rle_trans; [apply Cmod_triangle|]. lra.
Qed.
Lemma coeff_lip ds a rk M : length a = length ds -> 0 <= M -> (forall d, In d ds -> 0 < d_a d) -> (forall ks, in_box (map d_b ds) ks -> Cmod (rk ks) <= M) ->
  Cmod (coeff (map at_v ds) a rk - coeff (map at_w ds) a rk)%C <= (if forallb (fun x => x =? 0)%Z a then 2 else 4) * M * rsum ds d_gap.
Proof.
  intros L HM HA H. assert (P1 := many_lip ds a rk M L HM HA H). assert (P2 := many_lip ds (map Z.opp a) rk M ltac:(now rewrite map_length) HM HA H).
  destruct (forallb _ a) eqn:E.
  - unfold coeff. rewrite E. rewrite <- RtoC_minus, Cmod_R. eapply Rle_trans; [|exact P1]. apply (proj2 (part_le (_ - _)%C)).
  - rewrite !coeff_parts by assumption. set (A := rs_sum (map at_v ds) a rk) in *. set (A' := rs_sum (map at_w ds) a rk) in *. set (B := rs_sum (map at_v ds) (map Z.opp a) rk) in *. set (B' := rs_sum (map at_w ds) (map Z.opp a) rk) in *.
    replace (- Ci * A + Ci * Cconj B - (- Ci * A' + Ci * Cconj B'))%C with (- Ci * (A - A') + Ci * (Cconj B - Cconj B'))%C by ring.
    eapply Rle_trans; [apply Cmod_triangle|]. rewrite conj_minus, !Cmod_mult, Cmod_opp, Ci_mod, conj_mod, !(Rmult_1_l (Cmod _)). lra.
Qed.
Lemma coeff_le ds a rk M : length a = length ds -> 0 <= M -> (forall ks, in_box (map d_b ds) ks -> Cmod (rk ks) <= M) -> Cmod (coeff (map at_v ds) a rk) <= 2 * M.
Proof.
  intros L HM H. assert (P1 := many_1 ds a rk M L HM H). assert (P2 := many_1 ds (map Z.opp a) rk M ltac:(now rewrite map_length) HM H).
  destruct (forallb (fun x => x =? 0)%Z a) eqn:E.
  - unfold coeff. rewrite E, Cmod_R. apply Rle_trans with M; [|lra]. eapply Rle_trans; [apply (proj2 (part_le _))|exact P1].
  - rewrite coeff_parts by assumption. eapply Rle_trans; [apply Cmod_triangle|]. rewrite !Cmod_mult, Cmod_opp, Ci_mod, conj_mod, !(Rmult_1_l (Cmod _)). lra.
Qed.

(** ** The currents *)
Section Many.
Variables (q : qcct) (resp : R -> C) (num_b : numb) (M : R) (i : nat).
Hypothesis A : args_ok q num_b.
Hypothesis HP : q_num_p q = 1%nat.
Hypothesis HM : forall x, shifted (q_vb q i) (truncations num_b (q_num_f q)) (freqs q) x -> Cmod (resp x) <= M.
Definition drives (v w : arr3) : list drive := map (fun f => (nth (f - 1) (nbtuple num_b (q_num_f q)) O, q_freq q f, (v f 1%nat i, w f 1%nat i))) (seq 1 (q_num_f q)).
Lemma drives_v v w : tones besselJ v q num_b i = map at_v (drives v w).
Proof. unfold tones, drives. rewrite map_map, HP. apply map_ext. intros f. rewrite tone_of_phase, phase_factor_1. unfold at_v, plain, d_b, d_a, d_v, coef, JA. cbn [fst snd]. simpl INR. now rewrite Rmult_1_l. Qed.
Lemma drives_w v w : tones besselJ w q num_b i = map at_w (drives v w).
Proof. unfold tones, drives. rewrite map_map, HP. apply map_ext. intros f. rewrite tone_of_phase, phase_factor_1. unfold at_w, plain, d_b, d_a, d_w, coef, JA. cbn [fst snd]. simpl INR. now rewrite Rmult_1_l. Qed.
Lemma drives_b v w : map d_b (drives v w) = truncations num_b (q_num_f q).
Proof. rewrite <- (tones_trunc besselJ v q num_b i A), (drives_v v w), map_map. apply map_ext. reflexivity. Qed.
Lemma drives_length v w : length (drives v w) = q_num_f q.
Proof. unfold drives. now rewrite map_length, seq_length. Qed.
Lemma drives_a v w d : In d (drives v w) -> 0 < d_a d.
Proof. unfold drives. intros H. apply in_map_iff in H. destruct H as [f [<- F]]. apply in_seq in F. cbn. destruct A as (_ & _ & A3 & _). apply A3. lia. Qed.
Lemma rsum_seq g n : rsum (seq 1 n) g = rsum_to n (fun f => g (S f)).
Proof. induction n as [|n IH]; [reflexivity|]. rewrite seq_S, rsum_app, IH. cbn. ring. Qed.
Lemma drives_gap v w : rsum (drives v w) d_gap = photon_steps q v w i.
Proof. unfold photon_steps. rewrite <- (rsum_seq (fun f => Cmod (v f 1%nat i - w f 1%nat i)%C / q_freq q f)). unfold drives. generalize (seq 1 (q_num_f q)). induction l as [|f l IH]; [reflexivity|]. cbn [map rsum]. now rewrite IH. Qed.
Lemma many_M : 0 <= M.
Proof.
  eapply Rle_trans; [apply Cmod_ge_0|]. apply (HM (q_vb q i + dot (repeat 0%Z (q_num_f q)) (freqs q))). exists (repeat 0%Z (q_num_f q)). split; [|reflexivity].
  rewrite <- (tones_trunc besselJ (fun _ _ _ => RtoC 0) q num_b i A). rewrite <- (tones_length besselJ (fun _ _ _ => RtoC 0) q num_b i). generalize (tones besselJ (fun _ _ _ => RtoC 0) q num_b i). unfold in_box. induction l as [|t l IH]; cbn [map length repeat]; constructor; [lia|assumption].
Qed.
Lemma many_resp v w ks : in_box (map d_b (drives v w)) ks -> Cmod (resp (q_vb q i + dot ks (freqs q))) <= M.
Proof. intros K. rewrite drives_b in K. apply HM. exists ks. auto. Qed.
(** Only the lone mixing product counts. *)
Lemma lone ts vb w a : length ts = q_num_f q -> alone q w a -> In a (index_vectors (q_num_p q) (q_num_f q)) -> round4 (dot a (freqs q)) = round4 w ->
  current (q_num_p q) ts (freqs q) vb resp w = coeff ts a (fun ks => resp (vb + dot ks (freqs q))).
Proof.
  intros LT AL IN E. unfold current. rewrite LT. rewrite (csum_single _ a); [|apply index_vectors_NoDup|assumption|].
  - unfold same_freq. destruct (Req_EM_T _ _); [reflexivity|contradiction].
  - intros a' Ha Na. unfold same_freq. destruct (Req_EM_T _ _) as [Q|]; [|reflexivity]. exfalso. apply Na. now apply AL.
Qed.
Lemma none ts vb w a : length ts = q_num_f q -> alone q w a -> ~ (In a (index_vectors (q_num_p q) (q_num_f q)) /\ round4 (dot a (freqs q)) = round4 w) ->
  current (q_num_p q) ts (freqs q) vb resp w = RtoC 0.
Proof.
  intros LT AL NI. unfold current. rewrite LT. apply csum_0. intros a' Ha. unfold same_freq. destruct (Req_EM_T _ _) as [Q|]; [|reflexivity]. exfalso. apply NI. pose proof (AL a' Ha Q). subst a'. auto.
Qed.
Lemma steps_nonneg v w : 0 <= photon_steps q v w i.
Proof. rewrite <- drives_gap. apply rsum_nonneg. intros d Hd. apply gap_nonneg. exact (drives_a v w d Hd). Qed.
Definition growth (a : list Z) : R := if forallb (fun x => x =? 0)%Z a then 2 else 4.
Theorem many_current_lip v v' w a : alone q w a ->
  Cmod (current (q_num_p q) (tones besselJ v q num_b i) (freqs q) (q_vb q i) resp w - current (q_num_p q) (tones besselJ v' q num_b i) (freqs q) (q_vb q i) resp w)%C
  <= growth a * M * photon_steps q v v' i.
Proof.
  intros AL. assert (M0 := many_M). assert (S0 := steps_nonneg v v').
  destruct (in_dec (list_eq_dec Z.eq_dec) a (index_vectors (q_num_p q) (q_num_f q))) as [IN|NI]; [destruct (Req_EM_T (round4 (dot a (freqs q))) (round4 w)) as [E|NE]|].
  - rewrite !(lone _ _ w a) by (auto using tones_length). rewrite (drives_v v v'), (drives_w v v'), <- drives_gap. apply coeff_lip.
    + rewrite drives_length. now apply index_vectors_length in IN.
    + assumption.
    + apply drives_a.
    + intros ks K. now apply (many_resp v v').
  - rewrite !(none _ _ w a) by (try apply tones_length; try assumption; tauto). replace (RtoC 0 - RtoC 0)%C with (RtoC 0) by ring. rewrite Cmod_0. apply Rmult_le_pos; [apply Rmult_le_pos; [unfold growth; destruct (forallb _ a); lra|assumption]|assumption].
  - rewrite !(none _ _ w a) by (try apply tones_length; try assumption; tauto). replace (RtoC 0 - RtoC 0)%C with (RtoC 0) by ring. rewrite Cmod_0. apply Rmult_le_pos; [apply Rmult_le_pos; [unfold growth; destruct (forallb _ a); lra|assumption]|assumption].
Qed.
Theorem many_current_le v w a : alone q w a -> Cmod (current (q_num_p q) (tones besselJ v q num_b i) (freqs q) (q_vb q i) resp w) <= 2 * M.
Proof.
  intros AL. assert (M0 := many_M).
  destruct (in_dec (list_eq_dec Z.eq_dec) a (index_vectors (q_num_p q) (q_num_f q))) as [IN|NI]; [destruct (Req_EM_T (round4 (dot a (freqs q))) (round4 w)) as [E|NE]|].
  - rewrite (lone _ _ w a) by (auto using tones_length). rewrite (drives_v v v). apply coeff_le; [rewrite drives_length; now apply index_vectors_length in IN|assumption|]. intros ks K. now apply (many_resp v v).
  - rewrite (none _ _ w a) by (try apply tones_length; try assumption; tauto). rewrite Cmod_0. lra.
  - rewrite (none _ _ w a) by (try apply tones_length; try assumption; tauto). rewrite Cmod_0. lra.
Qed.
End Many.

(** ** What a call returns *)
Theorem many_call q resp num_b M v v' w a r r' i : args_ok q num_b -> q_num_p q = 1%nat -> alone q w a -> (i < q_npts q)%nat ->
  (forall x, shifted (q_vb q i) (truncations num_b (q_num_f q)) (freqs q) x -> Cmod (resp x) <= M) ->
  qtcurrent besselJ v q resp (FList [w]) num_b None = Ok (QRows [r]) -> qtcurrent besselJ v' q resp (FList [w]) num_b None = Ok (QRows [r']) ->
  Cmod (nth i r (RtoC 0) - nth i r' (RtoC 0))%C <= 4 * M * photon_steps q v v' i.
Proof.
  intros A P1 AL Hi B E E'. rewrite qt_list in E, E' by assumption. cbn [map] in E, E'. inversion E; subst r. inversion E'; subst r'. unfold spec_row. rewrite !nth_tab by assumption.
  eapply Rle_trans; [apply (many_current_lip q resp num_b M i A P1 B v v' w a AL)|]. pose proof (many_M q resp num_b M i A P1 B) as M0. pose proof (steps_nonneg q num_b i A P1 v v') as S0. apply Rmult_le_compat_r; [assumption|]. apply Rmult_le_compat_r; [assumption|]. unfold growth. destruct (forallb _ a); lra.
Qed.
Theorem many_dc q resp num_b M v v' r r' i : args_ok q num_b -> q_num_p q = 1%nat -> alone q 0 (repeat 0%Z (q_num_f q)) -> (i < q_npts q)%nat ->
  (forall x, shifted (q_vb q i) (truncations num_b (q_num_f q)) (freqs q) x -> Cmod (resp x) <= M) ->
  qtcurrent besselJ v q resp (FScalar 0) num_b None = Ok (QReal r) -> qtcurrent besselJ v' q resp (FScalar 0) num_b None = Ok (QReal r') ->
  Rabs (nth i r 0 - nth i r' 0) <= 2 * M * photon_steps q v v' i.
Proof.
  intros A P1 AL Hi B E E'. rewrite (dc_row v q resp num_b r A E i Hi), (dc_row v' q resp num_b r' A E' i Hi).
  pose proof (many_current_lip q resp num_b M i A P1 B v v' 0 _ AL) as H. unfold growth in H. rewrite zero_vec in H. eapply Rle_trans; [|exact H]. apply (proj1 (part_le (_ - _)%C)).
Qed.

(** ** Harmonic balance *)
Lemma margin n (g : nat -> R) : (forall k, (k < n)%nat -> 0 < g k) -> exists m, 0 < m /\ forall k, (k < n)%nat -> m <= g k.
Proof.
  induction n as [|n IH]; intros H. { exists 1. split; [lra|]. intros k K. lia. }
  destruct IH as [m [M0 IH]]; [intros; apply H; lia|]. exists (Rmin m (g n)). split; [apply Rmin_glb_lt; [assumption|apply H; lia]|].
  intros k K. destruct (Nat.eq_dec k n) as [->|N]; [apply Rmin_r|]. eapply Rle_trans; [apply Rmin_l|apply IH; lia].
Qed.
Lemma rsum_to_le n f g : (forall k, (k < n)%nat -> f k <= g k) -> rsum_to n f <= rsum_to n g.
Proof. induction n as [|n IH]; intros H; [apply Rle_refl|]. cbn [rsum_to]. apply Rplus_le_compat; [apply IH; intros; apply H; lia|apply H; lia]. Qed.
Lemma rsum_to_scal n c f : rsum_to n (fun k => c * f k) = c * rsum_to n f.
Proof. induction n as [|n IH]; cbn [rsum_to]; [ring|]. rewrite IH. ring. Qed.
Lemma rsum_to_ext n f g : (forall k, (k < n)%nat -> f k = g k) -> rsum_to n f = rsum_to n g.
Proof. induction n as [|n IH]; intros H; [reflexivity|]. cbn [rsum_to]. rewrite IH by (intros; apply H; lia). f_equal. apply H. lia. Qed.

Section ManyHB.
Variables (c : hcct) (resp : R -> C) (num_b : numb) (M : R).
Local Notation q := (h_q c).
Hypothesis A : args_ok q num_b.
Hypothesis HP : q_num_p q = 1%nat.
Hypothesis HT : separate q.
Hypothesis HM : forall i x, (i < q_npts q)%nat -> shifted (q_vb q i) (truncations num_b (q_num_f q)) (freqs q) x -> Cmod (resp x) <= M.
Hypothesis P0 : 0 <= M.
Definition zsum_c : R := rsum_to (q_num_f q) (fun f => Cmod (h_zt c (S f) 1%nat)).
Lemma many_total a : total q a = rsum_to (q_num_f q) (fun f => a (S f) 1%nat).
Proof. unfold total. rewrite HP. apply rsum_to_ext. intros k _. cbn [rsum_to]. ring. Qed.
Lemma many_freq f : q_freq q f * INR 1 = q_freq q f.
Proof. cbn [INR]. ring. Qed.
Lemma zsum_nonneg : 0 <= zsum_c.
Proof. unfold zsum_c. generalize (q_num_f q). induction n as [|n IH]; cbn [rsum_to]; [lra|]. pose proof (Cmod_ge_0 (h_zt c (S n) 1%nat)). lra. Qed.
Lemma many_follows nu : 0 < nu -> (forall f, (1 <= f <= q_num_f q)%nat -> nu <= q_freq q f) -> follows besselJ c resp num_b (4 * M * zsum_c / nu).
Proof.
  intros N0 HN v w i Hi. unfold distance. rewrite !many_total.
  assert (D : photon_steps q v w i <= / nu * rsum_to (q_num_f q) (fun f => Cmod (v (S f) 1%nat i - w (S f) 1%nat i)%C)).
  { unfold photon_steps. rewrite <- rsum_to_scal. apply rsum_to_le. intros k K. unfold Rdiv. rewrite (Rmult_comm (/ nu)). apply Rmult_le_compat_l; [apply Cmod_ge_0|]. apply Rinv_le_contravar; [assumption|]. apply HN. lia. }
  assert (S : forall f, (f < q_num_f q)%nat -> Cmod (h_zt c (S f) 1%nat * (current_at besselJ q resp num_b v (S f) 1 i - current_at besselJ q resp num_b w (S f) 1 i))%C <= (4 * M * photon_steps q v w i) * Cmod (h_zt c (S f) 1%nat)).
  { intros f F. rewrite Cmod_mult, Rmult_comm. apply Rmult_le_compat_r; [apply Cmod_ge_0|]. unfold current_at. rewrite many_freq. destruct (HT (S f)) as [a AL]; [lia|].
    eapply Rle_trans; [apply (many_current_lip q resp num_b M i A HP (fun x => HM i x Hi) v w (q_freq q (S f)) a AL)|]. apply Rmult_le_compat_r; [exact (steps_nonneg q num_b i A HP v w)|]. apply Rmult_le_compat_r; [assumption|]. unfold growth. destruct (forallb _ a); lra. }
  eapply Rle_trans; [apply rsum_to_le; exact S|]. rewrite rsum_to_scal. fold zsum_c. set (d := rsum_to _ _) in *.
  replace (4 * M * zsum_c / nu * d) with (4 * M * (/ nu * d) * zsum_c) by (field; lra). apply Rmult_le_compat_r; [apply zsum_nonneg|]. apply Rmult_le_compat_l; [lra|assumption].
Qed.
Lemma many_at v f i : (1 <= f <= q_num_f q)%nat -> (i < q_npts q)%nat -> Cmod (current_at besselJ q resp num_b v f 1 i) <= 2 * M.
Proof. intros F Hi. unfold current_at. rewrite many_freq. destruct (HT f F) as [a AL]. exact (many_current_le q resp num_b M i A HP (fun x => HM i x Hi) v (q_freq q f) a AL). Qed.
Theorem many_converges : simulates c num_b -> (forall f, (1 <= f <= q_num_f q)%nat -> 16 * M * zsum_c < q_freq q f) -> (forall f, (1 <= f <= q_num_f q)%nat -> 2 * M * Cmod (h_zt c f 1%nat) < Cmod (source (h_vt c f 1%nat))) ->
  exists s, solution besselJ (driven c) resp num_b s /\ (forall s', solution besselJ (driven c) resp num_b s' -> agree q s s') /\
    forall inv d vj0 zj stop, inverts inv -> 0 < d <= 1 -> can_start c vj0 zj -> 0 < stop -> exists N, forall max_it, (Z.of_nat N < max_it)%Z ->
      exists v m, r_ret (harmonic_balance besselJ inv c resp num_b max_it stop vj0 d "x" zj) = Ok (RetX v (Z.of_nat m) true) /\ (m <= N)%nat.
Proof.
  intros HS HZ HV.
  destruct (margin (q_num_f q) (fun f => q_freq q (S f) - 16 * M * zsum_c)) as [m1 [M1 H1]]. { intros k K. cbv beta. assert (H := HZ (S k) ltac:(lia)). lra. }
  destruct (margin (q_num_f q) (fun f => Cmod (source (h_vt c (S f) 1%nat)) - 2 * M * Cmod (h_zt c (S f) 1%nat))) as [m2 [M2 H2]]. { intros k K. cbv beta. assert (H := HV (S k) ltac:(lia)). lra. }
  assert (Z0 := zsum_nonneg). assert (MZ : 0 <= M * zsum_c) by now apply Rmult_le_pos. set (nu := 16 * M * zsum_c + m1). assert (NU : 0 < nu) by (unfold nu; lra).
  set (k := 4 * M * zsum_c / nu).
  assert (K : 0 <= k < 1 / 4).
  { unfold k. split; [apply Rmult_le_pos; [lra|apply Rlt_le, Rinv_0_lt_compat; lra]|]. apply Rmult_lt_reg_r with nu; [lra|]. replace (4 * M * zsum_c / nu * nu) with (4 * M * zsum_c) by (field; lra). unfold nu. lra. }
  assert (F : follows besselJ c resp num_b k). { apply many_follows; [assumption|]. intros f Hf. destruct f as [|f]; [lia|]. assert (H := H1 f ltac:(lia)). unfold nu. lra. }
  assert (FD : follows besselJ (driven c) resp num_b k) by exact F.
  destruct (solution_exists besselJ (driven c) resp num_b k ltac:(lra) FD) as [s SOL]. exists s. split; [assumption|]. split.
  { intros s' SOL'. exact (solution_unique besselJ (driven c) resp num_b k FD s s' ltac:(lra) SOL SOL'). }
  intros inv d vj0 zj stop INV D CS ST.
  destruct (reaches besselJ inv c resp num_b k s d vj0 zj m2 stop HS INV F K D CS SOL M2) as [N HN]; [intros f p i S I|assumption|].
  - pose proof (SOL f p i S I) as E. destruct S as [SF SP]. rewrite HP in SP. assert (p = 1%nat) by lia. subst p. unfold residual_at in E. cbn [h_q h_vt h_zt driven] in E.
    assert (HI := many_at s f i SF I). set (J := current_at besselJ q resp num_b s f 1 i) in *.
    assert (ES : source (h_vt c f 1%nat) = (s f 1%nat i + h_zt c f 1%nat * J)%C).
    { transitivity ((source (h_vt c f 1%nat) - h_zt c f 1%nat * J - s f 1%nat i) + (s f 1%nat i + h_zt c f 1%nat * J))%C; [ring|]. rewrite E. ring. }
    assert (T := Cmod_triangle (s f 1%nat i) (h_zt c f 1%nat * J)%C). rewrite <- ES, Cmod_mult in T. apply (Rmult_le_compat_l _ _ _ (Cmod_ge_0 (h_zt c f 1%nat))) in HI.
    destruct f as [|f]; [lia|]. assert (H := H2 f ltac:(lia)). cbv beta in H. lra.
  - exists N. intros max_it HMX. destruct (HN max_it HMX) as [v [m [R1 [R2 _]]]]. eauto.
Qed.
End ManyHB.
