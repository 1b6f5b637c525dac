(** Proofs about the analysis of I-V data: series resistance, offsets, rotation, fits. *)
From Coq Require Import List ZArith Lia Lra Bool Arith Reals Sorting Permutation String.
From Verif Require Import Base Model_QtCurrent Float NumPy Proof_NumPy Proof_Circuit Proof_IVModels Spec_CleanData Model_CleanData Proof_CleanData Model_MathFn Model_RespFn Spec_IVData Model_IVData.
Import ListNotations.
Open Scope R_scope.
Local Notation length := List.length.

(** ** Series resistance *)
Lemma zip_combine {A B C} (f : A -> B -> C) a b : zipwith f a b = map (fun p => f (fst p) (snd p)) (List.combine a b).
Proof. revert b. induction a as [|x a IH]; intros [|y b]; cbn [zipwith List.combine map fst snd]; try reflexivity. now rewrite IH. Qed.
Lemma zip_map {A B C D E} (f : C -> D -> E) (g : A -> C) (h : B -> D) (l : list (A * B)) : zipwith f (map (fun p => g (fst p)) l) (map (fun p => h (snd p)) l) = map (fun p => f (g (fst p)) (h (snd p))) l.
Proof. induction l as [|x l IH]; cbn [zipwith map]; [reflexivity|]. now rewrite IH. Qed.
Lemma zip_map2 {A C D E} (f : C -> D -> E) (g : A -> C) (h : A -> D) (l : list A) : zipwith f (map g l) (map h l) = map (fun p => f (g p) (h p)) l.
Proof. induction l as [|x l IH]; cbn [zipwith map]; [reflexivity|]. now rewrite IH. Qed.
Lemma combine_unzip {A B} (a : list A) (b : list B) : length a = length b -> map fst (List.combine a b) = a /\ map snd (List.combine a b) = b.
Proof. revert b. induction a as [|x a IH]; intros [|y b] H; cbn [List.length] in H; try discriminate; [split; reflexivity|]. cbn [List.combine map fst snd]. destruct (IH b) as [E1 E2]; [lia|]. now rewrite E1, E2. Qed.

Definition rstat (p : R * R) : fl := let r := fdiv (FV (fst p)) (FV (snd p)) in if flt r (FV 0) then FV 0 else r.
Definition fixed (rs : R) (p : R * R) : fl := fmul (FV (snd p)) (fsub (rstat p) (FV rs)).
Lemma series_eq v i rs : length v = length i ->
  let Q := filter (fun p => negb (fisnan (rstat p))) (List.combine v i) in
  correct_series_resistance v i (Some rs) = Ok (map (fixed rs) Q, map (fun p => FV (snd p)) Q).
Proof.
  intros L Q. unfold correct_series_resistance. destruct (combine_unzip v i L) as [E1 E2]. set (P := List.combine v i) in *.
  rewrite <- E1, <- E2 at 1. rewrite !map_map. rewrite bcast_eq by now rewrite !map_length. cbn [bind].
  rewrite zip_map2, !map_map. rewrite <- E2. rewrite !map_map.
  rewrite (map_ext (fun x => negb (fisnan (if flt (fdiv (FV (fst x)) (FV (snd x))) (FV 0) then FV 0 else fdiv (FV (fst x)) (FV (snd x))))) (fun x => negb (fisnan (rstat x)))) by reflexivity.
  rewrite !select_map. cbn [bind]. fold Q. rewrite bcast_eq by now rewrite !map_length. cbn [bind]. rewrite zip_map2. reflexivity.
Qed.
Lemma rstat_nan p : fisnan (rstat p) = true <-> fst p = 0 /\ snd p = 0.
Proof.
  destruct p as [v i]. unfold rstat, fdiv. cbn [fst snd]. destruct (Reqb_spec i 0) as [Hi|Hi].
  - destruct (Reqb_spec v 0) as [Hv|Hv]; cbn [flt]; [cbn; tauto|]. unfold finf. destruct (Rltb v 0); cbn; split; try discriminate; tauto.
  - cbn [flt]. destruct (Rltb _ _); cbn; split; try discriminate; tauto.
Qed.
Lemma fixed_spec rs p : ~ (fst p = 0 /\ snd p = 0) -> corrected (fst p) (snd p) rs (fixed rs p).
Proof.
  destruct p as [v i]. unfold fixed, rstat, fdiv, corrected. cbn [fst snd]. intros N. destruct (Reqb_spec i 0) as [->|Hi].
  - destruct (Reqb_spec v 0) as [->|Hv]; [tauto|]. unfold finf. destruct (Rltb_spec v 0).
    + right; right; left. split; [reflexivity|]. split; [assumption|]. cbn. f_equal. ring.
    + right; right; right. split; [reflexivity|]. split; [lra|]. cbn. destruct (Reqb_spec 0 0); [reflexivity|lra].
  - cbn [flt]. destruct (Rltb_spec (v / i) 0).
    + right; left. split; [assumption|]. split; [assumption|]. cbn. f_equal. ring.
    + left. split; [assumption|]. split; [lra|]. cbn. f_equal. field. assumption.
Qed.
Lemma series_props v i rs : length v = length i -> exists v' i', correct_series_resistance v i (Some rs) = Ok (v', i') /\ length v' = length i' /\
  Forall2 (fun p q => corrected (fst p) (snd p) rs (fst q) /\ snd q = FV (snd p)) (filter nonzero (List.combine v i)) (List.combine v' i').
Proof.
  intros L. rewrite (series_eq v i rs L). eexists. eexists. split; [reflexivity|]. split; [now rewrite !map_length|].
  assert (E : filter (fun p => negb (fisnan (rstat p))) (List.combine v i) = filter nonzero (List.combine v i)).
  { apply filter_ext. intros p. pose proof (rstat_nan p) as H. unfold nonzero. destruct (Req_EM_T (fst p) 0) as [A|A]; destruct (Req_EM_T (snd p) 0) as [B|B]; destruct (fisnan (rstat p)); cbn; try reflexivity; exfalso; try (destruct H as [H _]; now destruct (H eq_refl)); destruct H as [_ H]; discriminate (H (conj A B)). }
  rewrite E. clear E. assert (N : forall p, In p (filter nonzero (List.combine v i)) -> ~ (fst p = 0 /\ snd p = 0)).
  { intros p Hp [A B]. apply filter_In in Hp. destruct Hp as [_ Hp]. unfold nonzero in Hp. rewrite A, B in Hp. destruct (Req_EM_T 0 0); [discriminate|lra]. }
  induction (filter nonzero (List.combine v i)) as [|p l IH]; cbn [map List.combine]; constructor.
  - cbn [fst snd]. split; [|reflexivity]. apply fixed_spec. apply N. now left.
  - apply IH. intros q Hq. apply N. now right.
Qed.
Lemma series_none v i : correct_series_resistance v i None = Ok (map FV v, map FV i).
Proof. reflexivity. Qed.
(** The junction voltages come back. *)
Lemma series_junction vj i rs : length vj = length i -> 0 <= rs -> Forall2 (fun v c => c <> 0 /\ 0 <= v / c) vj i ->
  correct_series_resistance (zipwith (fun v c => v + c * rs) vj i) i (Some rs) = Ok (map FV vj, map FV i).
Proof.
  intros L RS F. rewrite series_eq by (rewrite zipwith_length; assumption). f_equal.
  assert (X : forall v c, c <> 0 -> 0 <= v / c -> rstat (v + c * rs, c) = FV ((v + c * rs) / c)).
  { intros v c C V. unfold rstat, fdiv. cbn [fst snd]. destruct (Reqb_spec c 0); [contradiction|]. cbn [flt]. destruct (Rltb_spec ((v + c * rs) / c) 0) as [H|H]; [|reflexivity].
    exfalso. replace ((v + c * rs) / c) with (v / c + rs) in H by (field; assumption). lra. }
  clear L. induction F as [|v c vj i [C V] F IH]; [reflexivity|]. cbn [zipwith List.combine filter]. rewrite X by assumption. cbn [fisnan negb map]. injection IH as E1 E2. f_equal; [f_equal|f_equal; assumption].
  - unfold fixed. rewrite X by assumption. cbn. f_equal. field. assumption.
  - assumption.
Qed.
Lemma series_nan : exists v i rs, length v = length i /\ 0 < rs /\ exists x y, correct_series_resistance v i (Some rs) = Ok (x, y) /\ In FNaN x.
Proof.
  exists [1; 2], [0; 1], 1. split; [reflexivity|]. split; [lra|]. rewrite series_eq by reflexivity. eexists. eexists. split; [reflexivity|]. cbn [List.combine filter].
  assert (E : rstat (1, 0) = FPInf). { unfold rstat, fdiv. cbn [fst snd]. destruct (Reqb_spec 0 0); [|lra]. destruct (Reqb_spec 1 0); [lra|]. unfold finf. destruct (Rltb_spec 1 0); [lra|]. reflexivity. }
  rewrite E. cbn [fisnan negb map]. left. unfold fixed. rewrite E. cbn. destruct (Reqb_spec 0 0); [reflexivity|lra].
Qed.

(** ** Rotation *)
Lemma rotate_ok x y t : length x = length y -> rotate x y t = Ok (zipwith (fun a b => cos t * a - sin t * b) x y, zipwith (fun a b => sin t * a + cos t * b) x y).
Proof. intros L. unfold rotate. rewrite !bcast_eq by assumption. reflexivity. Qed.
Lemma rotate_compose x y s t x1 y1 : length x = length y -> rotate x y s = Ok (x1, y1) -> rotate x1 y1 t = rotate x y (s + t).
Proof.
  intros L H. rewrite rotate_ok in H by assumption. injection H as <- <-. rewrite !rotate_ok by (try assumption; now rewrite !zipwith_length).
  rewrite !(zip_combine _ x y). rewrite !zip_map2. rewrite cos_plus, sin_plus. f_equal. f_equal; apply map_ext; intros [a b]; cbn [fst snd]; ring.
Qed.
Lemma rotate_zero x y : length x = length y -> rotate x y 0 = Ok (x, y).
Proof.
  intros L. rewrite rotate_ok by assumption. rewrite cos_0, sin_0, !zip_combine. f_equal. destruct (combine_unzip x y L) as [E1 E2]. f_equal; [rewrite <- E1 at 2|rewrite <- E2 at 2]; apply map_ext; intros [a b]; cbn [fst snd]; ring.
Qed.
Lemma rotate_back x y t : length x = length y -> exists x1 y1, rotate x y t = Ok (x1, y1) /\ length x1 = length x /\ length y1 = length y /\ rotate x1 y1 (- t) = Ok (x, y) /\
  forall i j, (i < length x)%nat -> (j < length x)%nat -> (nth i x1 0 - nth j x1 0) ^ 2 + (nth i y1 0 - nth j y1 0) ^ 2 = (nth i x 0 - nth j x 0) ^ 2 + (nth i y 0 - nth j y 0) ^ 2.
Proof.
  intros L. eexists. eexists. split; [now apply rotate_ok|]. split; [now apply zipwith_length|]. split; [rewrite zipwith_length; assumption|]. split.
  - rewrite (rotate_compose x y t (- t)) by (try assumption; now apply rotate_ok). rewrite Rplus_opp_r. now apply rotate_zero.
  - intros i j I J. rewrite !(nth_zipwith _ x y _ 0 0 0) by assumption. pose proof (sin2_cos2 t) as SC. unfold Rsqr in SC. 
    generalize dependent (sin t). generalize dependent (cos t). intros c s SC. 
    transitivity ((s * s + c * c) * ((nth i x 0 - nth j x 0) ^ 2 + (nth i y 0 - nth j y 0) ^ 2)); [ring|rewrite SC; ring].
Qed.
Lemma rotate_point x y t i : length x = length y -> (i < length x)%nat -> exists x1 y1, rotate x y t = Ok (x1, y1) /\
  nth i x1 0 = cos t * nth i x 0 - sin t * nth i y 0 /\ nth i y1 0 = sin t * nth i x 0 + cos t * nth i y 0.
Proof. intros L I. eexists. eexists. split; [now apply rotate_ok|]. now rewrite !(nth_zipwith _ x y _ 0 0 0) by assumption. Qed.

(** ** Fits *)
Lemma pow2_gt_0 x : x <> 0 -> 0 < x ^ 2.
Proof. intros. rewrite <- Rsqr_pow2. now apply Rsqr_pos_lt. Qed.
Lemma reals_inv l r : reals l = Ok r -> l = map FV r.
Proof.
  revert r. unfold reals. induction l as [|a l IH]; intros r H; cbn [mapM] in H; [injection H as <-; reflexivity|]. destruct a; try discriminate. cbn [bind] in H.
  destruct (mapM _ l) as [r'|] eqn:E; [|discriminate]. cbn [bind] in H. injection H as <-. cbn [map]. f_equal. now apply IH.
Qed.
Lemma reals_map r : reals (map FV r) = Ok r.
Proof. unfold reals. rewrite (mapM_ok _ (fun a => match a with FV x => x | _ => 0 end)); [rewrite map_map, map_id; reflexivity|]. intros x Hx. apply in_map_iff in Hx. destruct Hx as [y [<- _]]. reflexivity. Qed.
Definition Sx (P : list (R * R)) := rsum (map fst P).
Definition Sy (P : list (R * R)) := rsum (map snd P).
Definition Sxx (P : list (R * R)) := rsum (map (fun p => fst p * fst p) P).
Definition Sxy (P : list (R * R)) := rsum (map (fun p => fst p * snd p) P).
Definition Syy (P : list (R * R)) := rsum (map (fun p => snd p * snd p) P).
Lemma INR_cons {A} (a : A) l : INR (length (a :: l)) = INR (length l) + 1.
Proof. cbn [List.length]. apply S_INR. Qed.
Lemma deviation_eq P a b : deviation P a b = Syy P - 2 * a * Sxy P - 2 * b * Sy P + a * a * Sxx P + 2 * a * b * Sx P + b * b * INR (length P).
Proof.
  unfold deviation, Syy, Sxy, Sy, Sxx, Sx, rsum. induction P as [|p P IH]; [cbn; ring|]. rewrite INR_cons. cbn [map fold_right]. rewrite IH. ring.
Qed.
Lemma rsum_nonneg {A} (f : A -> R) l : (forall a, In a l -> 0 <= f a) -> 0 <= rsum (map f l).
Proof. unfold rsum. induction l as [|x l IH]; intros H; cbn [map fold_right]; [lra|]. pose proof (H x (or_introl eq_refl)). assert (0 <= fold_right Rplus 0 (map f l)) by (apply IH; intros; apply H; now right). lra. Qed.
Lemma rsum_term {A} (f : A -> R) l a : (forall a, In a l -> 0 <= f a) -> In a l -> f a <= rsum (map f l).
Proof.
  unfold rsum. induction l as [|x l IH]; intros H I; [contradiction|]. cbn [map fold_right]. destruct I as [->|I].
  - assert (0 <= rsum (map f l)) by (apply rsum_nonneg; intros; apply H; now right). unfold rsum in *. lra.
  - pose proof (H x (or_introl eq_refl)). assert (f a <= fold_right Rplus 0 (map f l)) by (apply IH; [intros; apply H; now right|assumption]). lra.
Qed.
Lemma quad_sum P c d : rsum (map (fun p => (c * fst p + d) ^ 2) P) = c * c * Sxx P + 2 * c * d * Sx P + d * d * INR (length P).
Proof. unfold Sxx, Sx, rsum. induction P as [|p P IH]; [cbn; ring|]. rewrite INR_cons. cbn [map fold_right]. rewrite IH. ring. Qed.
Lemma det_pos P : spread P -> 0 < INR (length P) * Sxx P - Sx P * Sx P.
Proof.
  intros [p [q [Hp [Hq N]]]]. set (n := INR (length P)).
  assert (NP : 0 < n) by (unfold n; destruct P; [contradiction|]; rewrite INR_cons; pose proof (pos_INR (length P)); lra).
  pose proof (quad_sum P 1 (- (Sx P / n))) as E. fold n in E.
  assert (D : n * Sxx P - Sx P * Sx P = n * rsum (map (fun p => (1 * fst p + - (Sx P / n)) ^ 2) P)) by (rewrite E; field; lra).
  rewrite D. apply Rmult_lt_0_compat; [assumption|].
  assert (NN : forall a : R * R, In a P -> 0 <= (1 * fst a + - (Sx P / n)) ^ 2) by (intros; apply pow2_ge_0).
  pose proof (rsum_term (fun p : R * R => (1 * fst p + - (Sx P / n)) ^ 2) P p NN Hp) as A. pose proof (rsum_term (fun p : R * R => (1 * fst p + - (Sx P / n)) ^ 2) P q NN Hq) as B. cbv beta in A, B.
  destruct (Req_dec (fst p) (Sx P / n)) as [Q|Q].
  - assert (0 < (1 * fst q + - (Sx P / n)) ^ 2) by (rewrite <- Q; replace (1 * fst q + - fst p) with (fst q - fst p) by ring; apply pow2_gt_0; lra). lra.
  - assert (0 < (1 * fst p + - (Sx P / n)) ^ 2) by (apply pow2_gt_0; lra). lra.
Qed.
Lemma polyfit_eq P : P <> [] -> let det := INR (length P) * Sxx P - Sx P * Sx P in
  polyfit1 (map fst P) (map snd P) = if Reqb det 0 then Err NotModelled else
    let a := (INR (length P) * Sxy P - Sx P * Sy P) / det in Ok (a, (Sy P - a * Sx P) / INR (length P)).
Proof.
  intros NE det. unfold polyfit1. rewrite !map_length, Nat.eqb_refl. destruct (Nat.eqb_spec (length P) 0) as [E|E]; [destruct P; [contradiction|discriminate]|]. cbn [negb guard bind].
  rewrite zip_map2, map_map. fold (Sx P) (Sy P) (Sxx P) (Sxy P). fold det. destruct (Reqb det 0); reflexivity.
Qed.
Lemma polyfit_best P a b : polyfit1 (map fst P) (map snd P) = Ok (a, b) -> P <> [] /\ best_line P a b.
Proof.
  intros H. assert (NE : P <> []) by (destruct P; [discriminate|congruence]). split; [assumption|]. rewrite polyfit_eq in H by assumption. cbv zeta in H.
  set (n := INR (length P)) in *. assert (NP : 0 < n) by (unfold n; destruct P; [contradiction|]; rewrite INR_cons; pose proof (pos_INR (length P)); lra).
  destruct (Reqb_spec (n * Sxx P - Sx P * Sx P) 0) as [E|E]; [discriminate|]. injection H as Ea Eb.
  assert (E1 : a * Sx P + b * n = Sy P) by (rewrite <- Eb, <- Ea; field; lra).
  assert (E2 : a * Sxx P + b * Sx P = Sxy P) by (rewrite <- Eb, <- Ea; field; lra).
  intros a' b'. rewrite !deviation_eq. fold n.
  assert (Q : 0 <= rsum (map (fun p => ((a' - a) * fst p + (b' - b)) ^ 2) P)) by (apply rsum_nonneg; intros; apply pow2_ge_0).
  rewrite quad_sum in Q. fold n in Q. rewrite <- E1, <- E2. lra.
Qed.
Lemma polyfit_line P a b : spread P -> on_the_line P a b -> polyfit1 (map fst P) (map snd P) = Ok (a, b).
Proof.
  intros SP OL. pose proof (det_pos P SP) as D. assert (NE : P <> []) by (intros ->; destruct SP as [p [_ [[] _]]]). rewrite polyfit_eq by assumption. cbv zeta.
  set (n := INR (length P)) in *. assert (NP : 0 < n) by (unfold n; destruct P; [contradiction|]; rewrite INR_cons; pose proof (pos_INR (length P)); lra).
  destruct (Reqb_spec (n * Sxx P - Sx P * Sx P) 0) as [E|E]; [lra|].
  assert (E1 : Sy P = a * Sx P + b * n /\ Sxy P = a * Sxx P + b * Sx P).
  { unfold n, Sy, Sxy, Sx, Sxx, rsum. clear - OL. induction P as [|p P IH]; [cbn; split; ring|]. rewrite INR_cons. cbn [map fold_right]. rewrite (OL p (or_introl eq_refl)). destruct IH as [I1 I2]; [intros q Hq; apply OL; now right|]. rewrite I1, I2. split; ring. }
  destruct E1 as [-> ->]. assert (EA : (n * (a * Sxx P + b * Sx P) - Sx P * (a * Sx P + b * n)) / (n * Sxx P - Sx P * Sx P) = a) by (field; lra).
  rewrite EA. f_equal. f_equal. field. lra.
Qed.
Lemma polyfit_unique P a b a' b' : spread P -> on_the_line P a b -> best_line P a' b' -> a' = a /\ b' = b.
Proof.
  intros [p [q [Hp [Hq N]]]] OL BL. specialize (BL a b). assert (Z : deviation P a b = 0).
  { unfold deviation. clear - OL. induction P as [|p P IH]; [reflexivity|]. cbn [map fold_right]. rewrite (OL p (or_introl eq_refl)), IH; [ring|intros q Hq; apply OL; now right]. }
  rewrite Z in BL. assert (T : forall r, In r P -> snd r = a' * fst r + b').
  { intros r Hr. assert (NN : forall a : R * R, In a P -> 0 <= (snd a - (a' * fst a + b')) ^ 2) by (intros; apply pow2_ge_0).
    pose proof (rsum_term (fun p : R * R => (snd p - (a' * fst p + b')) ^ 2) P r NN Hr) as A. cbv beta in A. unfold deviation, rsum in *.
    destruct (Req_dec (snd r - (a' * fst r + b')) 0) as [Q|Q]; [lra|]. pose proof (pow2_gt_0 _ Q). lra. }
  pose proof (T p Hp) as P1. pose proof (T q Hq) as Q1. rewrite (OL p Hp) in P1. rewrite (OL q Hq) in Q1.
  assert (EA : (a - a') * (fst p - fst q) = 0) by lra. apply Rmult_integral in EA. destruct EA as [EA|EA]; [|exfalso; apply N; lra].
  assert (a' = a) by lra. subst a'. split; [reflexivity|lra].
Qed.
Lemma window_eq lo hi v i : length v = length i -> window lo hi v i = Ok (map fst (samples_within lo hi v i), map snd (samples_within lo hi v i)).
Proof.
  intros L. unfold window. destruct (combine_unzip v i L) as [E1 E2].
  assert (EM : map (fun a => Rltb lo a && Rltb a hi)%bool v = map (fun p => Rltb lo (fst p) && Rltb (fst p) hi)%bool (List.combine v i)) by (rewrite <- E1 at 1; now rewrite map_map).
  rewrite EM. clear EM. set (P := List.combine v i) in *. assert (SV : forall g, select (map g P) v = Ok (map fst (filter g P))) by (intros g; rewrite <- E1 at 1; apply select_map).
  assert (SI : forall g, select (map g P) i = Ok (map snd (filter g P))) by (intros g; rewrite <- E2 at 1; apply select_map). rewrite SV, SI. cbn [bind]. unfold samples_within. fold P.
  rewrite (filter_ext (fun p => Rltb lo (fst p) && Rltb (fst p) hi)%bool (fun p => if Rlt_dec lo (fst p) then if Rlt_dec (fst p) hi then true else false else false)); [reflexivity|].
  intros [a b]. cbn [fst]. destruct (Rltb_spec lo a), (Rltb_spec a hi), (Rlt_dec lo a), (Rlt_dec a hi); cbn; try reflexivity; lra.
Qed.
Lemma quot_ok a b c : quot a b = Ok c -> b <> 0 /\ c = a / b.
Proof. unfold quot. destruct (Reqb_spec b 0); [discriminate|]. intros H. injection H as <-. auto. Qed.
Lemma quot_eq a b : b <> 0 -> quot a b = Ok (a / b).
Proof. intros. unfold quot. destruct (Reqb_spec b 0); [contradiction|reflexivity]. Qed.
Lemma normal_line v i lo hi a b : length v = length i -> spread (samples_within lo hi v i) -> on_the_line (samples_within lo hi v i) a b -> a <> 0 ->
  find_normal_resistance v i (lo, hi) = Ok (/ a, - b / a).
Proof.
  intros L SP OL A. unfold find_normal_resistance. cbn [fst snd]. rewrite window_eq by assumption. cbn [bind fst snd]. rewrite (polyfit_line _ a b SP OL). cbn [bind fst snd].
  rewrite !quot_eq by assumption. cbn [bind]. do 2 f_equal. unfold Rdiv. ring.
Qed.
Lemma normal_best v i lo hi rn vint : length v = length i -> find_normal_resistance v i (lo, hi) = Ok (rn, vint) ->
  rn <> 0 /\ best_line (samples_within lo hi v i) (/ rn) (- vint / rn).
Proof.
  intros L H. unfold find_normal_resistance in H. cbn [fst snd] in H. rewrite window_eq in H by assumption. cbn [bind fst snd] in H.
  destruct (polyfit1 _ _) as [[a b]|] eqn:E; [|discriminate]. cbn [bind fst snd] in H. apply polyfit_best in E. destruct E as [_ E].
  destruct (quot 1 a) eqn:Q1; [|discriminate]. cbn [bind] in H. destruct (quot (- b) a) eqn:Q2; [|discriminate]. cbn [bind] in H. injection H as -> ->.
  apply quot_ok in Q1. apply quot_ok in Q2. destruct Q1 as [A ->]. destruct Q2 as [_ ->]. split.
  - unfold Rdiv. rewrite Rmult_1_l. now apply Rinv_neq_0_compat.
  - replace (/ (1 / a)) with a by (field; assumption). replace (- (- b / a) / (1 / a)) with b by (field; assumption). assumption.
Qed.
Lemma subgap_line v i vrsg a b : length v = length i -> spread (samples_within (vrsg - 1 / 10 ^ 4) (vrsg + 1 / 10 ^ 4) v i) -> on_the_line (samples_within (vrsg - 1 / 10 ^ 4) (vrsg + 1 / 10 ^ 4) v i) a b -> a <> 0 ->
  find_subgap_resistance v i vrsg = Ok (/ a).
Proof.
  intros L SP OL A. unfold find_subgap_resistance. rewrite window_eq by assumption. cbn [bind fst snd]. rewrite (polyfit_line _ a b SP OL). cbn [bind fst snd].
  rewrite quot_eq by assumption. f_equal. unfold Rdiv. ring.
Qed.
Lemma subgap_best v i vrsg rsg : length v = length i -> find_subgap_resistance v i vrsg = Ok rsg ->
  rsg <> 0 /\ exists b, best_line (samples_within (vrsg - 1 / 10 ^ 4) (vrsg + 1 / 10 ^ 4) v i) (/ rsg) b.
Proof.
  intros L H. unfold find_subgap_resistance in H. rewrite window_eq in H by assumption. cbn [bind fst snd] in H.
  destruct (polyfit1 _ _) as [[a b]|] eqn:E; [|discriminate]. cbn [bind fst snd] in H. apply polyfit_best in E. destruct E as [_ E].
  apply quot_ok in H. destruct H as [A ->]. split.
  - unfold Rdiv. rewrite Rmult_1_l. now apply Rinv_neq_0_compat.
  - exists b. replace (/ (1 / a)) with a by (field; assumption). assumption.
Qed.
Lemma argmax_from_ok l : forall best pos next all, all <> [] -> next = Z.of_nat (length all) -> (0 <= pos < next)%Z -> best = nth (Z.to_nat pos) all 0 ->
  (forall j, (j < length all)%nat -> nth j all 0 <= best) ->
  let k := argmax_from best pos next l in (0 <= k < Z.of_nat (length (all ++ l)))%Z /\ forall j, (j < length (all ++ l))%nat -> nth j (all ++ l) 0 <= nth (Z.to_nat k) (all ++ l) 0.
Proof.
  induction l as [|a l IH]; intros best pos next all NE EN HP EB HB; cbn [argmax_from]; cbv zeta.
  - rewrite app_nil_r. split; [lia|]. intros j Hj. rewrite <- EB. auto.
  - replace (all ++ a :: l) with ((all ++ [a]) ++ l) by now rewrite <- app_assoc. destruct (Rltb_spec best a) as [L|L].
    + apply IH; [now destruct all|rewrite app_length; cbn [List.length]; lia|lia|rewrite app_nth2 by lia; subst next; rewrite Nat2Z.id, Nat.sub_diag; reflexivity|].
      intros j Hj. rewrite app_length in Hj. cbn [List.length] in Hj. destruct (Nat.eq_dec j (length all)) as [->|]; [rewrite app_nth2, Nat.sub_diag by lia; cbn [nth]; lra|]. rewrite app_nth1 by lia. specialize (HB j ltac:(lia)). lra.
    + apply IH; [now destruct all|rewrite app_length; cbn [List.length]; lia|lia|rewrite app_nth1 by lia; assumption|].
      intros j Hj. rewrite app_length in Hj. cbn [List.length] in Hj. destruct (Nat.eq_dec j (length all)) as [->|]; [rewrite app_nth2, Nat.sub_diag by lia; cbn [nth]; lra|]. rewrite app_nth1 by lia. apply HB. lia.
Qed.
Lemma argmax_ok l k : argmax l = Ok k -> (0 <= k < Z.of_nat (length l))%Z /\ forall j, (j < length l)%nat -> nth j l 0 <= nth (Z.to_nat k) l 0.
Proof.
  destruct l as [|a l]; [discriminate|]. cbn [argmax]. intros H. injection H as <-. apply (argmax_from_ok l a 0 1 [a]); try reflexivity; try lia; [discriminate|].
  cbn [List.length]. intros j Hj. replace j with 0%nat by lia. cbn. lra.
Qed.
Lemma gap_corner v i lo hi g : length v = length i -> find_gap_voltage v i (lo, hi) = Ok g ->
  exists a1 b1 a2 b2 vc g0 k vm im der sd sigma, 
    best_line (samples_within lo hi v i) a1 b1 /\
    List.combine vm im = filter (fun p => if Rlt_dec (2 / 10 ^ 3) (fst p) then true else false) (List.combine v i) /\
    slope vm im = Ok (map FV der) /\ sigma = 2 / 10 ^ 4 / (nth 1 v 0 - nth 0 v 0) /\ gauss_conv der sigma 3 = Ok sd /\
    (k < length sd)%nat /\ (forall j, (j < length sd)%nat -> nth j sd 0 <= nth k sd 0) /\ nth_error vm k = Some g0 /\
    best_line (samples_within (g0 - 1 / 10 ^ 5) (g0 + 1 / 10 ^ 5) v i) a2 b2 /\
    a1 * vc + b1 = a2 * vc + b2 /\ a2 <> 0 /\ a2 * g + b2 = (a1 * vc + b1) / 2.
Proof.
  intros L H. unfold find_gap_voltage in H. cbn [fst snd] in H. rewrite window_eq in H by assumption. cbn [bind fst snd] in H.
  destruct (polyfit1 _ _) as [[a1 b1]|] eqn:E1; [|discriminate]. cbn [bind fst snd] in H. apply polyfit_best in E1. destruct E1 as [_ E1].
  destruct (pyget v 1) as [v1|] eqn:G1; [|discriminate]. cbn [bind] in H. destruct (pyget v 0) as [v0|] eqn:G0; [|discriminate]. cbn [bind] in H.
  assert (L2 : (2 <= length v)%nat). { destruct (Nat.le_gt_cases 2 (length v)) as [|B]; [assumption|]. rewrite pyget_err in G1 by lia. discriminate. }
  rewrite (pyget_nth v 1 0) in G1 by lia. rewrite (pyget_nth v 0 0) in G0 by lia. cbn in G1, G0. injection G1 as <-. injection G0 as <-.
  destruct (combine_unzip v i L) as [C1 C2]. set (M := filter (fun p : R * R => Rltb (2 / 10 ^ 3) (fst p)) (List.combine v i)).
  assert (EM : map (fun a => Rltb (2 / 10 ^ 3) a) v = map (fun p : R * R => Rltb (2 / 10 ^ 3) (fst p)) (List.combine v i)) by (rewrite <- C1 at 1; now rewrite map_map).
  assert (SV : select (map (fun a => Rltb (2 / 10 ^ 3) a) v) v = Ok (map fst M)) by (rewrite EM; rewrite <- C1 at 2; apply select_map).
  assert (SI : select (map (fun a => Rltb (2 / 10 ^ 3) a) v) i = Ok (map snd M)) by (rewrite EM; rewrite <- C2 at 2; apply select_map).
  rewrite SV, SI in H. cbn [bind] in H. destruct (slope (map fst M) (map snd M)) as [d|] eqn:ES; [|discriminate]. cbn [bind] in H.
  destruct (reals d) as [der|] eqn:ER; [|discriminate]. cbn [bind] in H. apply reals_inv in ER. subst d.
  destruct (quot _ _) as [sigma|] eqn:EQ; [|discriminate]. cbn [bind] in H. apply quot_ok in EQ. destruct EQ as [_ EQ].
  destruct (gauss_conv der sigma 3) as [sd|] eqn:EG; [|discriminate]. cbn [bind] in H.
  destruct (argmax sd) as [k|] eqn:EK; [|discriminate]. cbn [bind] in H. apply argmax_ok in EK. destruct EK as [K1 K2].
  destruct (pyget (map fst M) k) as [g0|] eqn:EP; [|discriminate]. cbn [bind] in H. rewrite window_eq in H by assumption. cbn [bind fst snd] in H.
  destruct (polyfit1 _ _) as [[a2 b2]|] eqn:E2; [|discriminate]. cbn [bind fst snd] in H. apply polyfit_best in E2. destruct E2 as [_ E2].
  destruct (quot (b2 - b1) (a1 - a2)) as [vc|] eqn:EC; [|discriminate]. cbn [bind] in H. apply quot_ok in EC. destruct EC as [N EC]. apply quot_ok in H. destruct H as [A2 ->].
  exists a1, b1, a2, b2, vc, g0, (Z.to_nat k), (map fst M), (map snd M), der, sd, sigma.
  assert (CR : a1 * vc + b1 = a2 * vc + b2) by (rewrite EC; field; assumption).
  split; [assumption|]. split; [|split; [assumption|split; [assumption|split; [assumption|split; [lia|split; [assumption|split; [|split; [assumption|split; [assumption|split; [assumption|]]]]]]]]]].
  - transitivity M.
    + clear. induction M as [|[a b] M IH]; [reflexivity|]. cbn [map List.combine fst snd]. now rewrite IH.
    + unfold M. apply filter_ext. intros [a b]. cbn [fst]. destruct (Rltb_spec (2 / 10 ^ 3) a), (Rlt_dec (2 / 10 ^ 3) a); try reflexivity; contradiction.
  - assert (KB : (k < Z.of_nat (length (map fst M)))%Z). { destruct (Z.lt_ge_cases k (Z.of_nat (length (map fst M)))) as [|B]; [assumption|]. rewrite pyget_err in EP by lia. discriminate. }
    rewrite (pyget_nth _ k 0) in EP by lia. injection EP as <-. destruct (Z.ltb_spec k 0); [lia|]. apply nth_error_nth'. lia.
  - rewrite CR. field. assumption.
Qed.
