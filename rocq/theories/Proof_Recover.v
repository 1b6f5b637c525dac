(** Proofs about the error function of impedance recovery. *)
From Coq Require Import List ZArith Reals Lra Lia Bool Arith Classical_Prop.
From Coquelicot Require Import Coquelicot.
From Verif Require Import Base Float NumPy Model_QtCurrent Model_IVData Model_ExpData Spec_ExpData Proof_NumPy Proof_Circuit Proof_HB.
Import ListNotations.
Open Scope R_scope.
Local Notation length := List.length.
Local Notation Forall := List.Forall.

Lemma ceqb_spec a b : reflect (a = b) (ceqb a b).
Proof.
  unfold ceqb, Re, Im. destruct a as [a1 a2], b as [b1 b2]. cbn [fst snd].
  destruct (Reqb_spec a1 b1) as [E|E], (Reqb_spec a2 b2) as [F|F]; cbn [andb]; constructor; congruence.
Qed.
Lemma cdiv_some a b : b <> RtoC 0 -> cdiv a b = Some (Cdiv a b).
Proof. intros H. unfold cdiv. destruct (ceqb_spec b (RtoC 0)); [contradiction|reflexivity]. Qed.
Lemma cdiv_none a : cdiv a (RtoC 0) = None.
Proof. unfold cdiv. destruct (ceqb_spec (RtoC 0) (RtoC 0)); [reflexivity|contradiction]. Qed.
Lemma finite_some {A} (l : list A) : finite (map Some l) = Some l.
Proof. induction l as [|a l IH]; [reflexivity|]. cbn [map finite]. now rewrite IH. Qed.
Lemma finite_none {A} (l : list (option A)) : In None l -> finite l = None.
Proof. induction l as [|[a|] l IH]; intros H; [destruct H| |reflexivity]. cbn [finite]. destruct H as [H|H]; [discriminate|]. now rewrite IH. Qed.
Lemma finite_inv {A} (l : list (option A)) r : finite l = Some r -> l = map Some r.
Proof.
  revert r. induction l as [|[a|] l IH]; intros r H; cbn [finite] in H.
  - injection H as <-. reflexivity.
  - destruct (finite l) as [r'|]; [|discriminate]. injection H as <-. cbn [map]. now rewrite (IH r').
  - discriminate.
Qed.

(** ** Least squares in one parameter *)
Section Fit.
Variable A : Type.
Variables a k : A -> R.
Definition S2 l := rsum (map (fun p => a p ^ 2) l).
Definition SK l := rsum (map (fun p => k p ^ 2) l).
Definition SP l := rsum (map (fun p => a p * k p) l).
Definition dev l V := rsum (map (fun p => (a p - V * k p) ^ 2) l).
Lemma dev_eq l V : dev l V = S2 l - 2 * V * SP l + V ^ 2 * SK l.
Proof. unfold dev, S2, SK, SP, rsum. induction l as [|p l IH]; cbn [map fold_right]; [ring|]. rewrite IH. ring. Qed.
Lemma SK_nonneg l : 0 <= SK l.
Proof. unfold SK, rsum. induction l as [|p l IH]; cbn [map fold_right]; [lra|]. pose proof (pow2_ge_0 (k p)). lra. Qed.
Lemma dev_nonneg l V : 0 <= dev l V.
Proof. unfold dev, rsum. induction l as [|p l IH]; cbn [map fold_right]; [lra|]. pose proof (pow2_ge_0 (a p - V * k p)). lra. Qed.
Lemma SK_zero l : SK l = 0 <-> forall p, In p l -> k p = 0.
Proof.
  split.
  - unfold SK. induction l as [|q l IH]; intros H p Hp; [easy|]. cbn [map] in H. unfold rsum in H. cbn [fold_right] in H. pose proof (pow2_ge_0 (k q)). pose proof (SK_nonneg l) as N. unfold SK, rsum in N.
    destruct Hp as [<-|Hp]; [apply Rsqr_0_uniq; rewrite Rsqr_pow2; lra|]. apply IH; [unfold rsum; lra|assumption].
  - intros H. unfold SK, rsum. induction l as [|q l IH]; [reflexivity|]. cbn [map fold_right]. rewrite IH by (intros; apply H; now right). rewrite (H q (or_introl eq_refl)). ring.
Qed.
Lemma dev_zero l V : dev l V = 0 <-> forall p, In p l -> a p = V * k p.
Proof.
  split.
  - induction l as [|q l IH]; intros H p Hp; [easy|]. unfold dev, rsum in H. cbn [map fold_right] in H. pose proof (pow2_ge_0 (a q - V * k q)). pose proof (dev_nonneg l V) as N. unfold dev, rsum in N.
    destruct Hp as [<-|Hp]; [apply Rminus_diag_uniq, Rsqr_0_uniq; rewrite Rsqr_pow2; lra|]. apply IH; [unfold dev, rsum; lra|assumption].
  - intros H. unfold dev, rsum. induction l as [|q l IH]; [reflexivity|]. cbn [map fold_right]. rewrite IH by (intros; apply H; now right). rewrite (H q (or_introl eq_refl)). ring.
Qed.
Lemma SP_zero l : SK l = 0 -> SP l = 0.
Proof. intros H. rewrite SK_zero in H. unfold SP, rsum. induction l as [|q l IH]; [reflexivity|]. cbn [map fold_right]. rewrite IH by (intros; apply H; now right). rewrite (H q (or_introl eq_refl)). ring. Qed.
Lemma fit_min l V : SK l <> 0 -> dev l V = S2 l - SP l ^ 2 / SK l + SK l * (V - SP l / SK l) ^ 2.
Proof. intros H. rewrite dev_eq. field. assumption. Qed.
End Fit.

(** ** The error function *)
Definition amp (p : C * C) : R := Cmod (fst p).
Definition kf (zs : C) (p : C * C) : R := Cmod (Cdiv (snd p) (Cplus zs (snd p))).
Lemma mismatch_dev pts zs V : mismatch pts zs V = dev _ amp (kf zs) pts V / INR (length pts).
Proof. reflexivity. Qed.

Lemma divider_some zs z : Cplus zs z <> RtoC 0 -> divider zs (Some z) = Some (Cdiv z (Cplus zs z)).
Proof. intros. cbn [divider]. now apply cdiv_some. Qed.
Lemma connect_finite (pts : list (C * C)) zs : (forall p, In p pts -> Cplus zs (snd p) <> RtoC 0) ->
  zipwith (fun v z => match divider zs z with Some k => Some (Cmod (Cmult v k)) | None => None end) (map fst pts) (map (fun p => Some (snd p)) pts)
    = map Some (map (fun p => amp p * kf zs p) pts) /\
  map (divider zs) (map (fun p => Some (snd p)) pts) = map Some (map (fun p => Cdiv (snd p) (Cplus zs (snd p))) pts).
Proof.
  induction pts as [|p pts IH]; intros H; [split; reflexivity|]. destruct IH as [I1 I2]; [intros; apply H; now right|]. cbn [map zipwith].
  rewrite divider_some by (apply H; now left). split; [rewrite I1, Cmod_mult; reflexivity|now rewrite I2].
Qed.
Lemma error_eq (pts : list (C * C)) zs : (forall p, In p pts -> Cplus zs (snd p) <> RtoC 0) ->
  error_function (map fst pts) (map (fun p => Some (snd p)) pts) zs =
    Ok (fdiv (fsub (FV (S2 _ amp pts)) (fdiv (FV (SP _ amp (kf zs) pts ^ 2)) (FV (SK _ (kf zs) pts)))) (FV (INR (length pts)))) /\
  find_source_voltage (map fst pts) (map (fun p => Some (snd p)) pts) zs = Ok (fdiv (FV (SP _ amp (kf zs) pts)) (FV (SK _ (kf zs) pts))).
Proof.
  intros H. destruct (connect_finite pts zs H) as [E1 E2]. unfold error_function, find_source_voltage. rewrite bcast_eq by now rewrite !map_length. cbn [bind].
  rewrite E1, E2, !finite_some, !map_length. unfold S2, SP, SK. rewrite !map_map. split; reflexivity.
Qed.

Lemma connectable_SK pts zs : connectable pts zs -> 0 < SK _ (kf zs) pts /\ 0 < INR (length pts).
Proof.
  intros [H [p [Hp Z]]]. split.
  - destruct (SK_nonneg _ (kf zs) pts) as [L|E]; [assumption|]. symmetry in E. rewrite SK_zero in E. specialize (E p Hp). unfold kf in E. rewrite Cmod_div in E by now apply H.
    exfalso. apply Rmult_integral in E. destruct E as [E|E]; [now apply Z, Cmod_eq_0|]. assert (0 < Cmod (Cplus zs (snd p))) by (apply Cmod_gt_0; auto). apply Rinv_0_lt_compat in H0. lra.
  - apply lt_0_INR. destruct pts; [easy|cbn [List.length]; lia].
Qed.

Lemma error_minimum pts zs : connectable pts zs -> exists e V,
  error_function (map fst pts) (map (fun p => Some (snd p)) pts) zs = Ok (FV e) /\
  find_source_voltage (map fst pts) (map (fun p => Some (snd p)) pts) zs = Ok (FV V) /\
  0 <= V /\ e = mismatch pts zs V /\ (forall V', e <= mismatch pts zs V') /\ (forall V', mismatch pts zs V' = e -> V' = V) /\ 0 <= e.
Proof.
  intros H. destruct (connectable_SK _ _ H) as [K N]. destruct (error_eq pts zs (proj1 H)) as [E1 E2].
  exists ((S2 _ amp pts - SP _ amp (kf zs) pts ^ 2 / SK _ (kf zs) pts) / INR (length pts)), (SP _ amp (kf zs) pts / SK _ (kf zs) pts).
  assert (NK : SK _ (kf zs) pts <> 0) by lra. assert (NN : INR (length pts) <> 0) by lra.
  assert (D : forall V, mismatch pts zs V = (S2 _ amp pts - SP _ amp (kf zs) pts ^ 2 / SK _ (kf zs) pts) / INR (length pts) + SK _ (kf zs) pts * (V - SP _ amp (kf zs) pts / SK _ (kf zs) pts) ^ 2 / INR (length pts)).
  { intros V. rewrite mismatch_dev, fit_min by assumption. unfold Rdiv. ring. }
  assert (P : forall V, 0 <= SK _ (kf zs) pts * (V - SP _ amp (kf zs) pts / SK _ (kf zs) pts) ^ 2 / INR (length pts)).
  { intros V. apply Rmult_le_pos; [apply Rmult_le_pos; [lra|apply pow2_ge_0]|left; now apply Rinv_0_lt_compat]. }
  repeat split.
  - rewrite E1. cbn [fdiv]. destruct (Reqb_spec (SK _ (kf zs) pts) 0); [contradiction|]. cbn [fsub fopp fadd fdiv]. destruct (Reqb_spec (INR (length pts)) 0); [contradiction|]. reflexivity.
  - rewrite E2. cbn [fdiv]. destruct (Reqb_spec (SK _ (kf zs) pts) 0); [contradiction|]. reflexivity.
  - apply Rmult_le_pos; [|left; now apply Rinv_0_lt_compat]. unfold SP, rsum. clear. induction pts as [|p l IH]; cbn [map fold_right]; [lra|]. pose proof (Rmult_le_pos _ _ (Cmod_ge_0 (fst p)) (Cmod_ge_0 (Cdiv (snd p) (Cplus zs (snd p))))). unfold amp, kf in *. lra.
  - rewrite D. set (c := SP _ amp (kf zs) pts / SK _ (kf zs) pts). replace (c - c) with 0 by ring. unfold Rdiv. ring.
  - intros V'. rewrite D. specialize (P V'). lra.
  - intros V' E. rewrite D in E. assert (Z : SK _ (kf zs) pts * (V' - SP _ amp (kf zs) pts / SK _ (kf zs) pts) ^ 2 / INR (length pts) = 0) by lra.
    apply Rminus_diag_uniq, Rsqr_0_uniq. rewrite Rsqr_pow2. apply Rmult_integral in Z. destruct Z as [Z|Z]; [|apply Rinv_neq_0_compat in NN; contradiction]. apply Rmult_integral in Z. destruct Z; [contradiction|assumption].
  - replace ((S2 _ amp pts - SP _ amp (kf zs) pts ^ 2 / SK _ (kf zs) pts) / INR (length pts)) with (mismatch pts zs (SP _ amp (kf zs) pts / SK _ (kf zs) pts)).
    + rewrite mismatch_dev. apply Rmult_le_pos; [apply dev_nonneg|left; now apply Rinv_0_lt_compat].
    + rewrite D. set (c := SP _ amp (kf zs) pts / SK _ (kf zs) pts). replace (c - c) with 0 by ring. unfold Rdiv. ring.
Qed.

Lemma error_exact pts zs Vs : connectable pts zs -> (forall p, In p pts -> fst p = Cmult Vs (Cdiv (snd p) (Cplus zs (snd p)))) ->
  error_function (map fst pts) (map (fun p => Some (snd p)) pts) zs = Ok (FV 0) /\
  find_source_voltage (map fst pts) (map (fun p => Some (snd p)) pts) zs = Ok (FV (Cmod Vs)).
Proof.
  intros H G. destruct (error_minimum pts zs H) as [e [V [E [EV [_ [EM [M [U N]]]]]]]].
  assert (Z : mismatch pts zs (Cmod Vs) = 0).
  { rewrite mismatch_dev. replace (dev _ amp (kf zs) pts (Cmod Vs)) with 0; [unfold Rdiv; ring|]. symmetry. apply dev_zero. intros p Hp. unfold amp, kf. rewrite (G p Hp). apply Cmod_mult. }
  assert (e = 0) by (specialize (M (Cmod Vs)); lra). subst e. rewrite E, EV. split; [now rewrite H0|]. rewrite (U (Cmod Vs)); [reflexivity|lra].
Qed.
Lemma error_zero pts zs : connectable pts zs -> error_function (map fst pts) (map (fun p => Some (snd p)) pts) zs = Ok (FV 0) ->
  exists V, find_source_voltage (map fst pts) (map (fun p => Some (snd p)) pts) zs = Ok (FV V) /\
  forall p, In p pts -> Cmod (fst p) = V * Cmod (Cdiv (snd p) (Cplus zs (snd p))).
Proof.
  intros H Z. destruct (error_minimum pts zs H) as [e [V [E [EV [_ [EM _]]]]]]. rewrite Z in E. injection E as <-. exists V. split; [assumption|].
  destruct (connectable_SK _ _ H) as [_ N]. rewrite mismatch_dev in EM. apply (dev_zero _ amp (kf zs)). symmetry in EM. apply Rmult_integral in EM. destruct EM as [EM|EM]; [assumption|]. apply Rinv_0_lt_compat in N. lra.
Qed.

(** A sample without a finite impedance, or one to which the circuit cannot be connected. *)
Lemma error_undefined (pts : list (C * option C)) zs p : In p pts -> divider zs (snd p) = None ->
  error_function (map fst pts) (map snd pts) zs = Ok FNaN /\ find_source_voltage (map fst pts) (map snd pts) zs = Ok FNaN.
Proof.
  intros H D. unfold error_function, find_source_voltage. rewrite bcast_eq by now rewrite !map_length. cbn [bind].
  rewrite (finite_none (map (divider zs) (map snd pts))); [destruct (finite _); split; reflexivity|]. rewrite <- D. now apply in_map, in_map.
Qed.
Lemma none_or_all {A} (l : list (option A)) : In None l \/ exists r, l = map Some r.
Proof.
  induction l as [|[a|] l IH]; [right; now exists []| |now left; left]. destruct IH as [H|[r ->]]; [left; now right|]. right. now exists (a :: r).
Qed.
Lemma error_never_negative (pts : list (C * option C)) zs : exists e, error_function (map fst pts) (map snd pts) zs = Ok e /\ (e = FNaN \/ exists x, e = FV x /\ 0 <= x).
Proof.
  destruct (none_or_all (map (divider zs) (map snd pts))) as [H|[r H]].
  - apply in_map_iff in H. destruct H as [z [D H]]. apply in_map_iff in H. destruct H as [p [<- H]]. exists FNaN. split; [now apply (error_undefined pts zs p)|now left].
  - assert (G : exists q : list (C * C), pts = map (fun p => (fst p, Some (snd p))) q /\ forall p, In p q -> Cplus zs (snd p) <> RtoC 0).
    { revert r H. induction pts as [|[v z] pts IH]; intros r H; [now exists []|]. cbn [map snd] in H. destruct r as [|k r]; [discriminate|]. cbn [map] in H. injection H as D H. destruct (IH r H) as [q [-> Q]].
      destruct z as [z|]; [|discriminate]. exists ((v, z) :: q). split; [reflexivity|]. intros p [<-|Hp]; [|now apply Q]. cbn [snd]. intros E. unfold divider in D. rewrite E, cdiv_none in D. discriminate. }
    destruct G as [q [-> Q]]. rewrite !map_map. cbn [fst snd]. change (map (fun x : C * C => fst x) q) with (map fst q).
    destruct (Req_EM_T (SK _ (kf zs) q) 0) as [Z|Z].
    + destruct (error_eq q zs Q) as [E _]. rewrite E, Z, (SP_zero _ amp (kf zs) q Z). eexists. split; [reflexivity|]. left. cbn [fdiv]. destruct (Reqb_spec 0 0); [|contradiction].
      replace (0 ^ 2) with 0 by ring. destruct (Reqb_spec 0 0); [reflexivity|contradiction].
    + assert (CN : connectable q zs).
      { split; [assumption|]. apply Classical_Prop.NNPP. intros N. apply Z, SK_zero. intros p Hp. unfold kf. destruct (ceqb_spec (snd p) (RtoC 0)) as [E|E]; [|exfalso; apply N; now exists p]. rewrite E. unfold Cdiv. rewrite Cmult_0_l. apply Cmod_0. }
      destruct (error_minimum q zs CN) as [e [V [E [_ [_ [_ [_ [_ N]]]]]]]]. rewrite E. eexists. split; [reflexivity|]. right. now exists e.
Qed.
