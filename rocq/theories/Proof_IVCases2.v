(** A curve that is filtered and corrected for a series resistance. *)
From Coq Require Import List ZArith Lia Bool Arith Reals Lra String.
From Verif Require Import Base Model_QtCurrent Float NumPy Proof_NumPy Proof_Circuit Proof_IVModels Spec_CleanData Model_CleanData Proof_CleanData Model_MathFn Spec_RespFn Model_RespFn Proof_RespFn2 Spec_IVData Model_IVData Proof_IVLoad Proof_IVData Proof_IVCurve Proof_IVCases Proof_IVCurve2.
Import ListNotations.
Open Scope R_scope.
Local Notation length := List.length.
Local Notation rising := Spec_RespFn.increasing.

Lemma series_positive v i rs : length v = length i -> (forall a, In a v -> 0 < a) -> (forall a, In a i -> 0 < a) ->
  forall x y, junction_curve (Some rs) v i x y <-> x = map (fun p => fst p - snd p * rs) (List.combine v i) /\ y = i.
Proof.
  intros L PV PI. assert (F : filter nonzero (List.combine v i) = List.combine v i).
  { assert (G : forall p, In p (List.combine v i) -> nonzero p = true) by (intros [a b] H; apply in_combine_l in H; specialize (PV _ H); unfold nonzero; cbn; destruct (Req_EM_T a 0); [lra|reflexivity]).
    clear - G. induction (List.combine v i) as [|p l IH]; [reflexivity|]. cbn [filter]. rewrite (G p (or_introl eq_refl)). f_equal. apply IH. intros q Q. apply G. now right. }
  intros x y. unfold junction_curve. rewrite F. clear F. revert i x y L PI. induction v as [|a v IH]; intros [|b i] x y L PI; try discriminate L; cbn [List.combine map].
  - split; [intros [LX H]; inversion H as [E|]; destruct x, y; try discriminate LX; [split; reflexivity|discriminate]|intros [-> ->]; split; [reflexivity|constructor]].
  - injection L as L. specialize (IH (fun z Z => PV z (or_intror Z)) i). pose proof (PV a (or_introl eq_refl)). pose proof (PI b (or_introl eq_refl)). specialize (fun x y => IH x y L (fun z Z => PI z (or_intror Z))).
    assert (0 < a / b) by now apply Rdiv_lt_0_compat. split.
    + intros [LX K]. destruct x as [|c x], y as [|d y]; try discriminate LX; inversion K as [|? ? ? ? [K1 K2] K3 E1 E2]; subst. injection LX as LX. destruct (proj1 (IH x y) (conj LX K3)) as [-> ->]. cbn in K1, K2 |- *. subst d. split; [|reflexivity]. f_equal.
      destruct K1 as [[_ [_ K1]]|[[_ [K1 _]]|[[K1 _]|[K1 _]]]]; try lra. now injection K1.
    + intros [-> ->]. destruct (proj2 (IH _ i) (conj eq_refl eq_refl)) as [A B]. split; [cbn; now f_equal|]. cbn [List.combine]. constructor; [|exact B]. cbn. split; [|reflexivity]. left. split; [lra|]. split; [lra|reflexivity].
Qed.
Lemma processed_series savgol p v i a b rs : filter_iv_data savgol v i (p_filter_data p) (p_filter_nwind p) (p_filter_npoly p) (p_filter_theta p) (p_npts p) = Ok (a, b) -> p_rseries p = Some rs ->
  length a = length b -> (forall z, In z a -> 0 < z) -> (forall z, In z b -> 0 < z) -> processed savgol p v i = Ok (a, b, (map (fun p => fst p - snd p * rs) (List.combine a b), b)).
Proof.
  intros F R L PA PB. unfold processed. rewrite F. cbn [bind fst snd]. rewrite R. destruct (series_props a b rs L) as [v' [i' [ES [LS FA]]]]. rewrite ES. cbn [bind fst snd].
  assert (E : v' = map FV (map (fun p => fst p - snd p * rs) (List.combine a b)) /\ i' = map FV b).
  { assert (FN : filter nonzero (List.combine a b) = List.combine a b).
    { assert (G : forall p, In p (List.combine a b) -> nonzero p = true) by (intros [x y] H; apply in_combine_l in H; specialize (PA _ H); unfold nonzero; cbn; destruct (Req_EM_T x 0); [lra|reflexivity]).
      clear - G. induction (List.combine a b) as [|q l IH]; [reflexivity|]. cbn [filter]. rewrite (G q (or_introl eq_refl)). f_equal. apply IH. intros z Z. apply G. now right. }
    rewrite FN in FA. clear - L LS PA PB FA. revert b v' i' L LS PB FA. induction a as [|x a IH]; intros [|y b] v' i' L LS PB FA; try discriminate L; cbn [List.combine map] in *.
    - destruct v', i'; try discriminate LS; [split; reflexivity|inversion FA].
    - destruct v' as [|c v'], i' as [|d i']; try discriminate LS; inversion FA as [|? ? ? ? [K1 K2] K3]; subst. cbn in K1, K2. injection L as L. injection LS as LS. pose proof (PA x (or_introl eq_refl)). pose proof (PB y (or_introl eq_refl)). assert (0 < x / y) by now apply Rdiv_lt_0_compat.
      destruct (IH (fun z Z => PA z (or_intror Z)) b v' i' L LS (fun z Z => PB z (or_intror Z)) K3) as [-> ->]. subst d. split; [|reflexivity]. f_equal. destruct K1 as [[_ [_ K1]]|[[_ [K1 _]]|[[K1 _]|[K1 _]]]]; try lra. exact K1. }
  destruct E as [-> ->]. rewrite !reals_map. reflexivity.
Qed.
Definition case_params2 : ivparams := {|
  p_v_fmt := "uV"; p_i_fmt := "uA"; p_vmax := 4 / 10 ^ 6; p_npts := 3; p_voffset := None; p_ioffset := None; p_voffset_range := Width (1 / 10 ^ 3);
  p_rseries := Some (1 / 2); p_i_multiplier := 1; p_v_multiplier := 1; p_filter_data := true; p_filter_theta := 0; p_filter_nwind := 21; p_filter_npoly := 3;
  p_vgap := Some (3 / 10 ^ 6); p_vrn := (0, 1); p_vrsg := 1 / 10 ^ 6 |}.
Lemma import_case2 : forall minimize, exists p V I d, 0 < dc_vgap d /\ p_filter_data p = true /\ p_rseries p = Some (1 / 2) /\
  dciv_curve minimize (fun l _ _ => l) insertion_argsort {| ncols := 2; rows := measured [1; 2; 3; 4] [1 / 2; 1; 3 / 2; 2] |} p = Ok (V, I, d) /\
  (forall x y, junction_curve (p_rseries p) (dc_vraw d) (dc_iraw d) x y -> rising x) /\
  exists r, iv_curve (fun l _ _ => l) insertion_argsort {| ncols := 2; rows := measured [1; 2; 3; 4] [1 / 2; 1; 3 / 2; 2] |} d p = Ok r.
Proof.
  intros minimize. set (m := {| ncols := 2; rows := measured [1; 2; 3; 4] [1 / 2; 1; 3 / 2; 2] |}). set (p := case_params2).
  set (v := map (fun a => a - 0) (map (fun a => a * 1) (map (fun a => a * / 10 ^ 6) [1; 2; 3; 4]))). set (i := map (fun a => a - 0) (map (fun a => a * 1) (map (fun a => a * / 10 ^ 6) [1 / 2; 1; 3 / 2; 2]))).
  assert (EL : loaded insertion_argsort m p = Ok (map (fun a => a * 1) (map (fun a => a * / 10 ^ 6) [1; 2; 3; 4]), map (fun a => a * 1) (map (fun a => a * / 10 ^ 6) [1 / 2; 1; 3 / 2; 2]))).
  { unfold loaded. unfold m. rewrite (load_rising insertion_argsort (p_v_fmt p) (p_i_fmt p) (/ 10 ^ 6) (/ 10 ^ 6)); [|exact insertion_sorts|reflexivity|reflexivity|reflexivity|cbn; lia|].
    - cbn [bind]. rewrite <- (map_map (fun a => a * / 10 ^ 6) FV), <- (map_map (fun a => a * / 10 ^ 6) FV [1 / 2; 1; 3 / 2; 2]). rewrite !reals_map. reflexivity.
    - cbn [List.length]. intros j k IJ J. cases_nat j; cases_nat k; try lia; cbn; lra. }
  assert (EO : correct_offset minimize (map (fun a => a * 1) (map (fun a => a * / 10 ^ 6) [1; 2; 3; 4])) (map (fun a => a * 1) (map (fun a => a * / 10 ^ 6) [1 / 2; 1; 3 / 2; 2])) (p_voffset p) (p_ioffset p) (p_voffset_range p) = Ok (v, i, (0, 0))).
  { rewrite unipolar; [reflexivity|discriminate|]. intros [[a [A B]] _]. cbn in A, B. destruct A as [<-|[<-|[<-|[<-|[]]]]]; lra. }
  set (a := linspace (nth 0 v 0) (nth 3 v 0) 3). set (b := map (fun u => 1 / 2 * u + 0) a).
  assert (RV : rising v) by (intros j k IJ J; cbn in J; cases_nat j; cases_nat k; try lia; cbn; lra).
  assert (EI : i = map (fun u => 1 / 2 * u + 0) v) by (unfold i, v; cbn; repeat (f_equal; try lra)).
  assert (EF : filter_iv_data (fun l _ _ => l) v i (p_filter_data p) (p_filter_nwind p) (p_filter_npoly p) (p_filter_theta p) (p_npts p) = Ok (a, b)).
  { rewrite EI. apply (filter_line (fun l _ _ => l) v (1 / 2) 0) with (im := 2 / 10 ^ 6); try assumption; [cbn; lia|cbn; lia|reflexivity| | | |].
    - rewrite amax_rising; [cbn; f_equal; lra|apply rising_map; [lra|assumption]|cbn; lia].
    - cbn; lra.
    - lra.
    - cbn [p p_filter_theta case_params2]. rewrite cos_0, sin_0. lra. }
  assert (NA : a = [1 / 10 ^ 6; 5 / 2 / 10 ^ 6; 4 / 10 ^ 6]) by (unfold a, v, linspace; cbn [map nth seq Nat.sub INR]; repeat (f_equal; try lra)).
  assert (NB : b = [1 / 2 / 10 ^ 6; 5 / 4 / 10 ^ 6; 2 / 10 ^ 6]) by (unfold b; rewrite NA; cbn [map]; repeat (f_equal; try lra)).
  assert (PA : forall z, In z a -> 0 < z) by (rewrite NA; intros z [<-|[<-|[<-|[]]]]; lra).
  assert (PB : forall z, In z b -> 0 < z) by (rewrite NB; intros z [<-|[<-|[<-|[]]]]; lra).
  assert (LAB : length a = length b) by now rewrite NA, NB.
  pose proof (processed_series (fun l _ _ => l) p v i a b (1 / 2) EF eq_refl LAB PA PB) as EP.
  set (x := map (fun p => fst p - snd p * (1 / 2)) (List.combine a b)) in *.
  assert (NX : x = [3 / 4 / 10 ^ 6; 15 / 8 / 10 ^ 6; 3 / 10 ^ 6]) by (unfold x; rewrite NA, NB; cbn [List.combine map fst snd]; repeat (f_equal; try lra)).
  assert (IV : forall z, In z x -> 0 < z <= 4 / 10 ^ 6) by (rewrite NX; intros z [<-|[<-|[<-|[]]]]; lra).
  assert (LN : on_the_line (List.combine x b) (2 / 3) 0) by (rewrite NX, NB; intros q Q; cbn in Q; destruct Q as [<-|[<-|[<-|[]]]]; cbn; lra).
  assert (SP : spread (List.combine x b)) by (rewrite NX, NB; eexists; eexists; split; [left; reflexivity|]; split; [right; left; reflexivity|]; cbn; lra).
  assert (LXB : length x = length b) by now rewrite NX, NB.
  assert (EN : find_normal_resistance x b (p_vrn p) = Ok (/ (2 / 3), - 0 / (2 / 3))).
  { change (p_vrn p) with (0, 1). assert (W : samples_within 0 1 x b = List.combine x b) by (apply within_all; intros z A; specialize (IV z A); lra). apply normal_line; rewrite ?W; try assumption. lra. }
  assert (ES : find_subgap_resistance x b (p_vrsg p) = Ok (/ (2 / 3))).
  { assert (W : samples_within (p_vrsg p - 1 / 10 ^ 4) (p_vrsg p + 1 / 10 ^ 4) x b = List.combine x b) by (apply within_all; intros z A; specialize (IV z A); cbn; lra). apply subgap_line with 0; rewrite ?W; try assumption. lra. }
  assert (EQ : quot (3 / 10 ^ 6) (/ (2 / 3)) = Ok (3 / 10 ^ 6 / / (2 / 3))) by (apply quot_eq; lra).
  assert (DC : exists V I d, dciv_curve minimize (fun l _ _ => l) insertion_argsort m p = Ok (V, I, d) /\ dc_vgap d = 3 / 10 ^ 6 /\ dc_igap d = 3 / 10 ^ 6 / / (2 / 3) /\ dc_offset d = (0, 0) /\ dc_vraw d = a /\ dc_iraw d = b).
  { unfold dciv_curve. rewrite EL. cbn [bind]. rewrite EO. cbn [bind]. rewrite EP. cbn [bind]. change (p_vgap p) with (Some (3 / 10 ^ 6)). cbn [bind]. rewrite EN. cbn [bind]. rewrite ES. cbn [bind]. rewrite EQ. cbn [bind].
    destruct (Reqb_spec (3 / 10 ^ 6) 0); [lra|]. cbn [negb guard bind]. rewrite NX, NB. unfold np_interp. cbn [List.length map Nat.eqb negb guard bind]. eexists. eexists. eexists. split; [reflexivity|]. cbn. auto. }
  destruct DC as [V [I [d [DC [D1 [D2 [D3 [D4 D5]]]]]]]]. exists p, V, I, d. rewrite D1, D4, D5. split; [lra|]. split; [reflexivity|]. split; [reflexivity|]. split; [assumption|]. split.
  { intros x' y' K. apply series_positive in K; try assumption. destruct K as [-> _]. fold x. rewrite NX. intros j k IJ J. cbn in J. cases_nat j; cases_nat k; try lia; cbn; lra. }
  unfold iv_curve. rewrite EL. cbn [bind]. change (p_voffset p) with (@None R). rewrite D3. fold v i. rewrite EP. cbn [bind]. rewrite D1, D2.
  destruct (Reqb_spec (3 / 10 ^ 6) 0); [lra|]. destruct (Reqb_spec (3 / 10 ^ 6 / / (2 / 3)) 0); [lra|]. cbn [negb andb guard bind]. rewrite NX, NB. unfold np_interp_zero, np_interp. cbn [List.length map Nat.eqb negb guard bind]. eexists. reflexivity.
Qed.
