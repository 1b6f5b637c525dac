(** Rounding errors: statements about the whole function. *)
From Coq Require Import List ZArith Lia Bool Arith Reals Lra Psatz.
From Coquelicot Require Import Rcomplements Complex.
From Verif Require Import Base Sums Round Bessel Model_QtCurrent Spec_QtCurrent Spec_Power Spec_QtApi Proof_QtCurrent Proof_QtCurrent2 Proof_QtSym Proof_QtApi2
  Proof_Bessel Proof_Bessel2 Proof_Weights Proof_Power Proof_Power2 Model_QtFloat Spec_QtFloat Proof_QtFloat Model_QtRound Spec_Rounding Proof_Round Proof_Round2 Proof_Round3 Proof_Round4.
Import ListNotations.
Local Notation length := List.length.
Open Scope R_scope.

Lemma mapM_each {A B} (f : A -> res B) (Q : A -> B -> Prop) l : (forall x, In x l -> exists v, f x = Ok v /\ Q x v) ->
  exists vs, mapM f l = Ok vs /\ length vs = length l /\ forall j dx dv, (j < length l)%nat -> Q (nth j l dx) (nth j vs dv).
Proof.
  induction l as [|x l IH]; intros H.
  - exists []. split; [reflexivity|]. split; [reflexivity|]. cbn [length]. intros; lia.
  - destruct (H x (or_introl eq_refl)) as [v [E Q0]]. destruct IH as [vs [E' [L Hvs]]]; [intros y Hy; apply H; now right|].
    exists (v :: vs). cbn [mapM]. rewrite E. cbn [bind]. rewrite E'. cbn [bind length]. split; [reflexivity|]. split; [now rewrite L|].
    intros [|j] dx dv Hj; [exact Q0|]. cbn [nth]. apply Hvs. lia.
Qed.
Lemma re_le_Cmod z : Rabs (Re z) <= Cmod z.
Proof. apply Rsqr_incr_0_var; [|apply Cmod_ge_0]. unfold Rsqr. rewrite abs_sq, Cmod_sq. pose proof (Rle_0_sqr (Im z)) as Q. unfold Rsqr in Q. lra. Qed.
Section Whole.
Variables (J : nat -> R -> R) (vj : nat -> nat -> vec) (cct : qcct) (resp : R -> C) (num_b : numb) (rmo : option respmat).
Hypothesis Args : args_ok cct num_b.
Hypothesis Mat : match rmo with None => True | Some rm => matrix_for cct resp (Spec_QtApi.truncations num_b (q_num_f cct)) rm end.
Hypothesis Clear : forall a, In a (index_vectors (q_num_p cct) (q_num_f cct)) -> clear (dot a (freqs cct)).
Definition exact_at w i : C := current (q_num_p cct) (tones J vj cct num_b i) (freqs cct) (q_vb cct i) resp w.

Lemma rows_r fl : moderate cct num_b fl -> (forall w, In w (requested fl) -> clear w) ->
  let l := match fl with SList l => l | SScalar x => [PyFloat x] end in
  exists rows, length rows = length l /\
   (forall j, (j < length l)%nat -> length (nth j rows []) = q_npts cct) /\
   (forall j i, (j < length l)%nat -> (i < q_npts cct)%nat ->
     Cmod (Cminus (nth i (nth j rows []) (RtoC 0)) (exact_at (value (nth j l (PyFloat 0))) i)) <= rounding_bound J vj cct resp num_b (value (nth j l (PyFloat 0))) i) /\
   qtcurrent_r J vj cct resp fl num_b rmo =
   match fl with
   | SList _ => Ok (QRows rows)
   | SScalar w => Ok (if Reqb (round4 w) 0 then QReal (map Re (nth 0 rows [])) else QRow (nth 0 rows []))
   end.
Proof.
  intros (Bp & BN & Bf & Bw) Cw l. destruct Args as [Hf [Hp [Hfreq Hnb]]]. unfold qtcurrent_r.
  assert (G : forallb (fun f => Rltb 0 (q_freq cct f)) (seq 1 (q_num_f cct)) = true).
  { apply forallb_forall. intros f Hin. apply in_seq in Hin. unfold Rltb. destruct (Rlt_dec _ _); [reflexivity|].
    exfalso. apply n. apply Hfreq. lia. }
  rewrite G. cbn [guard bind]. fold l.
  assert (Hl : (q_num_f cct <= length (nbtuple num_b (q_num_f cct)))%nat) by (now apply nbtuple_enough).
  rewrite unpack_ok by assumption. cbn [bind].
  destruct (rphase J vj (q_freq cct) (q_num_f cct) (q_num_p cct) num_b) as [ccc [EC _]]; try assumption; try lia. rewrite EC. cbn [bind].
  match goal with |- context [bind ?m _] => assert (ER : exists rm, m = Ok rm /\
    rm_ok rm (Spec_QtApi.truncations num_b (q_num_f cct)) (vbdot (q_vb cct) resp (freqs cct))) end.
  { destruct rmo as [rm|].
    - destruct Mat as [Hs [Hn Hok]]. exists rm. rewrite Hs, Hn, !Nat.eqb_refl. split; [reflexivity|exact Hok].
    - destruct (interp_ok cct resp num_b Hf Hl) as [rm [E [_ [_ Hok]]]]. exists rm. auto. }
  destruct ER as [rm [ER HR]]. rewrite ER. cbn [bind]. fold (Spec_QtApi.truncations num_b (q_num_f cct)).
  assert (L : forall x, In x l -> In (value x) (requested fl)).
  { subst l. unfold requested. destruct fl; cbn [exact_request flist]; intros y Hy; [now apply in_map|]. destruct Hy as [<- |[]]. now left. }
  destruct (mapM_each (fun w => current_n_tones_r (q_num_f cct) w ccc (q_freq cct) rm (q_num_p cct) (Spec_QtApi.truncations num_b (q_num_f cct)))
    (fun w' v => exists w, In w l /\ w' = round_f w) (map round_f l)) as [vs0 [EV [LV _]]].
  { intros w' Hw'. apply in_map_iff in Hw'. destruct Hw' as [w [<- Hw]].
    destruct (rcurrent J vj cct resp num_b ccc rm w) as [v [E _]]; auto. exists v. split; [exact E|]. exists w. auto. }
  rewrite EV. cbn [bind]. rewrite map_length in LV.
  exists (map (tab (q_npts cct)) vs0). split; [now rewrite map_length|]. split.
  { intros j Hj. rewrite (nth_indep _ [] (tab (q_npts cct) vzero)) by (rewrite map_length; eapply Nat.lt_le_trans; [exact Hj|]; apply Nat.eq_le_incl; symmetry; exact LV). rewrite map_nth.
    unfold tab. now rewrite map_length, seq_length. }
  split.
  - intros j i Hj Hi. rewrite (nth_indep _ [] (tab (q_npts cct) vzero)) by (rewrite map_length; eapply Nat.lt_le_trans; [exact Hj|]; apply Nat.eq_le_incl; symmetry; exact LV). rewrite map_nth.
    rewrite nth_tab by assumption.
    assert (EJ : forall (f : fnum -> res vec) l vs, mapM f l = Ok vs -> forall j dx dv, (j < length l)%nat -> f (nth j l dx) = Ok (nth j vs dv)).
    { clear. intros f l. induction l as [|x l IH]; intros vs E j dx dv Hj; [cbn [length] in Hj; lia|]. cbn [mapM] in E.
      destruct (f x) as [v|] eqn:Ef; cbn [bind] in E; [|discriminate]. destruct (mapM f l) as [vs'|] eqn:Em; cbn [bind] in E; [|discriminate].
      injection E as <-. destruct j as [|j]; [exact Ef|]. cbn [nth]. apply IH; [reflexivity|]. cbn [length] in Hj. lia. }
    specialize (EJ _ _ _ EV j (round_f (PyFloat 0)) vzero ltac:(now rewrite map_length)). rewrite map_nth in EJ.
    set (w := nth j l (PyFloat 0)) in *. assert (Iw : In w l) by (now apply nth_In).
    destruct (rcurrent J vj cct resp num_b ccc rm w) as [v [E R]]; auto. cbv beta in EJ. rewrite E in EJ.
    assert (Ev : v = nth j vs0 vzero) by congruence. subst v. destruct (R i) as (_ & _ & R3). exact R3.
  - destruct fl as [fl|x]; [reflexivity|]. subst l. cbn [map length] in *. destruct vs0 as [|v [|]]; try discriminate. cbn [map nth round_f value].
    rewrite clear_zero; [|apply Bw; now left|apply Cw; now left]. destruct (Reqb (round4 x) 0); reflexivity.
Qed.
End Whole.

Lemma rounded_list : forall J vj cct resp l num_b rmo, args_ok cct num_b ->
  match rmo with None => True | Some rm => matrix_for cct resp (Spec_QtApi.truncations num_b (q_num_f cct)) rm end ->
  moderate cct num_b (SList l) -> (forall w, In w l -> clear (value w)) ->
  (forall a, In a (index_vectors (q_num_p cct) (q_num_f cct)) -> clear (dot a (freqs cct))) ->
  exists rows, qtcurrent_r J vj cct resp (SList l) num_b rmo = Ok (QRows rows) /\ length rows = length l /\
   forall j i d, (j < length l)%nat -> (i < q_npts cct)%nat -> length (nth j rows []) = q_npts cct /\
     Cmod (Cminus (nth i (nth j rows []) (RtoC 0)) (current (q_num_p cct) (tones J vj cct num_b i) (freqs cct) (q_vb cct i) resp (value (nth j l d))))
     <= rounding_bound J vj cct resp num_b (value (nth j l d)) i.
Proof.
  intros J vj cct resp l num_b rmo A M Hm Cw Ca.
  destruct (rows_r J vj cct resp num_b rmo A M Ca (SList l) Hm) as (rows & L & LR & H & E).
  { unfold requested. cbn [exact_request flist]. intros w Hw. apply in_map_iff in Hw. destruct Hw as [x [<- Hx]]. now apply Cw. }
  exists rows. split; [exact E|]. split; [exact L|]. intros j i d Hj Hi. split; [now apply LR|]. rewrite (nth_indep l d (PyFloat 0)) by assumption. now apply H.
Qed.
Lemma rounded_scalar : forall J vj cct resp w num_b rmo, args_ok cct num_b ->
  match rmo with None => True | Some rm => matrix_for cct resp (Spec_QtApi.truncations num_b (q_num_f cct)) rm end ->
  moderate cct num_b (SScalar w) -> clear w ->
  (forall a, In a (index_vectors (q_num_p cct) (q_num_f cct)) -> clear (dot a (freqs cct))) ->
  (round4 w = 0 -> exists row, qtcurrent_r J vj cct resp (SScalar w) num_b rmo = Ok (QReal row) /\ length row = q_npts cct /\
     forall i, (i < q_npts cct)%nat -> Rabs (nth i row 0 - Re (current (q_num_p cct) (tones J vj cct num_b i) (freqs cct) (q_vb cct i) resp w)) <= rounding_bound J vj cct resp num_b w i) /\
  (round4 w <> 0 -> exists row, qtcurrent_r J vj cct resp (SScalar w) num_b rmo = Ok (QRow row) /\ length row = q_npts cct /\
     forall i, (i < q_npts cct)%nat -> Cmod (Cminus (nth i row (RtoC 0)) (current (q_num_p cct) (tones J vj cct num_b i) (freqs cct) (q_vb cct i) resp w)) <= rounding_bound J vj cct resp num_b w i).
Proof.
  intros J vj cct resp w num_b rmo A M Hm Cw Ca.
  destruct (rows_r J vj cct resp num_b rmo A M Ca (SScalar w) Hm) as (rows & L & LR & H & E).
  { unfold requested. cbn [exact_request flist]. intros x [<- |[]]. assumption. }
  assert (H0 := fun i => H 0%nat i Nat.lt_0_1). assert (L0 := LR 0%nat Nat.lt_0_1). cbn [nth value] in H0. unfold exact_at in H0. clear H LR.
  rewrite E. set (row := nth 0 rows []) in *. clearbody row. unfold Reqb. split; intros Hw; destruct (Req_EM_T (round4 w) 0) as [Q|Q]; try contradiction.
  - exists (map Re row). split; [reflexivity|]. split; [now rewrite map_length|]. intros i Hi.
    change 0 with (Re (RtoC 0)) at 1. rewrite map_nth. eapply Rle_trans; [|apply (H0 i Hi)].
    set (x := nth i row (RtoC 0)). set (y := current _ _ _ _ _ _). change (Re x - Re y) with (Re (Cminus x y)). apply re_le_Cmod.
  - exists row. split; [reflexivity|]. split; assumption.
Qed.

(** ** How large the bound is *)
Lemma factor_linear K : (INR K <= 1000000000000000) -> error_factor K <= INR K / 1000000000000000.
Proof.
  intros HK. unfold error_factor. assert (X : 3 / 2 ^ 53 <= / 3000000000000000) by (simpl; lra). assert (X0 : 0 < 3 / 2 ^ 53) by (simpl; lra).
  set (x := 3 / 2 ^ 53) in *. assert (G : (1 + x) ^ K <= 1 + 2 * INR K * x).
  { induction K as [|K IH]; [simpl; lra|]. rewrite S_INR in *. specialize (IH ltac:(lra)). cbn [pow]. pose proof (pos_INR K) as PK.
    apply Rle_trans with ((1 + x) * (1 + 2 * INR K * x)); [apply Rmult_le_compat_l; lra|].
    assert (INR K * x <= 1000000000000000 * / 3000000000000000) by (apply Rmult_le_compat; lra).
    assert (x * (2 * INR K * x) <= x * 1) by (apply Rmult_le_compat_l; lra). lra. }
  assert (2 * INR K * x <= 2 * INR K * / 3000000000000000) by (apply Rmult_le_compat_l; pose proof (pos_INR K); lra). pose proof (pos_INR K). lra.
Qed.
Lemma sizes_b J vj cct num_b i : map t_b (tones_size J vj cct num_b i) = map t_b (tones J vj cct num_b i).
Proof. unfold tones_size, tones. cbv zeta. rewrite !map_map. reflexivity. Qed.
Lemma Re_le_Cmod z : Re z <= Cmod z. Proof. eapply Rle_trans; [apply Rle_abs|apply re_le_Cmod]. Qed.
Lemma sizes_weight vj cct num_b i : q_num_p cct = 1%nat -> weights (tones_size besselJ vj cct num_b i) <= 1.
Proof.
  intros P1. apply weights_le_1. intros t Ht. unfold tones_size in Ht. apply in_map_iff in Ht. destruct Ht as [f [<- _]]. rewrite P1.
  set (b := nth (f - 1) _ _). set (B := list_max _).
  apply Rle_trans with (weight (tone_of besselJ angle vj (q_freq cct) 1 B b f i)); [|rewrite tone_weight; apply captured_bounds].
  unfold weight, tone_of. cbn [t_b t_C]. apply rsum_le. intros k Hk. right. rewrite !phase_factor_1, !cut_within. destruct (within b k); [|reflexivity].
  unfold size. rewrite Cmod_R, Rabs_pos_eq by apply Cmod_ge_0. reflexivity.
Qed.
Lemma one_product_size vj cct resp num_b w a i M : args_ok cct num_b -> q_num_p cct = 1%nat -> alone cct w a ->
  (forall v, shifted (q_vb cct i) (Spec_QtApi.truncations num_b (q_num_f cct)) (freqs cct) v -> Cmod (resp v) <= M) -> 0 <= M ->
  current_size (q_num_p cct) (tones_size besselJ vj cct num_b i) (freqs cct) (q_vb cct i) resp w <= 2 * M.
Proof.
  intros A P1 AL B M0. unfold current_size. set (ts := tones_size besselJ vj cct num_b i).
  assert (LT : length ts = q_num_f cct) by (unfold ts, tones_size; now rewrite map_length, seq_length). rewrite LT.
  eapply Rle_trans; [apply Re_le_Cmod|].
  destruct (in_dec (list_eq_dec Z.eq_dec) a (index_vectors (q_num_p cct) (q_num_f cct))) as [IN|NI].
  - rewrite (csum_single _ a); [|apply index_vectors_NoDup|assumption|]. 2:{ intros a' Ha Na. unfold same_freq. destruct (Req_EM_T _ _) as [Q|]; [|reflexivity]. exfalso. apply Na. now apply AL. }
    destruct (same_freq _ _); [|rewrite Cmod_0; lra]. assert (W := sizes_weight vj cct num_b i P1). fold ts in W. pose proof (weights_nonneg ts) as W0.
    assert (LA : length a = length ts) by (rewrite LT; now apply index_vectors_length in IN).
    set (rk := fun ks => size (resp (q_vb cct i + dot ks (freqs cct)))).
    assert (HR : forall ks, in_box (map t_b ts) ks -> Cmod (rk ks) <= M).
    { intros ks K. unfold rk, size. rewrite Cmod_R, Rabs_pos_eq by apply Cmod_ge_0. apply B. exists ks. split; [|reflexivity]. unfold ts in K. rewrite sizes_b, tones_trunc in K by assumption. exact K. }
    assert (WM : weights ts * M <= M) by nra.
    assert (B1 := rs_bound ts a rk M LA M0 HR). assert (B2 := rs_bound ts (map Z.opp a) rk M ltac:(now rewrite map_length) M0 HR).
    unfold coeff_size. destruct (forallb _ a); [lra|]. eapply Rle_trans; [apply Cmod_triangle|]. lra.
  - rewrite csum_0; [rewrite Cmod_0; lra|]. intros a' Ha. unfold same_freq. destruct (Req_EM_T _ _) as [Q|]; [|reflexivity]. exfalso. apply NI. rewrite <- (AL a' Ha Q). assumption.
Qed.
Lemma one_product_bound vj cct resp num_b w a i M : args_ok cct num_b -> q_num_p cct = 1%nat -> alone cct w a ->
  (forall v, shifted (q_vb cct i) (Spec_QtApi.truncations num_b (q_num_f cct)) (freqs cct) v -> Cmod (resp v) <= M) -> 0 <= M ->
  let n := (2 * q_num_f cct + fold_right (fun b s => (2 * b + 1) * s) 1 (Spec_QtApi.truncations num_b (q_num_f cct)) + 1 + 3 ^ q_num_f cct)%nat in
  INR n <= 1000000000000000 ->
  rounding_bound besselJ vj cct resp num_b w i <= INR n / 1000000000000000 * (2 * M).
Proof.
  intros A P1 AL B M0 n Hn. unfold rounding_bound.
  assert (S0 := one_product_size vj cct resp num_b w a i M A P1 AL B M0).
  replace (roundings _ _ _ _) with n by (unfold n, roundings; rewrite P1; cbn [Nat.sub Nat.mul Nat.add]; lia).
  assert (F := factor_linear n Hn). pose proof (ef_pos n) as E0. unfold ef in E0.
  apply Rle_trans with (error_factor n * (2 * M)); [now apply Rmult_le_compat_l|]. apply Rmult_le_compat_r; [lra|assumption].
Qed.
