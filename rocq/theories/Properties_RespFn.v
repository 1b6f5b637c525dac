(** Properties C43-C47, C58 and C88-C91: response functions (vocabulary in Spec_RespFn.v and
    Spec_RespParams.v).  The spline through the nodes is an arbitrary function. *)
From Coq Require Import List ZArith Bool Lia Reals Lra String.
From Coquelicot Require Import Complex.
From Verif Require Import Base NumPy Spec_MathFn Spec_RespFn Model_IVModels Model_RespFn Spec_RespParams Proof_RespFn Proof_RespFn2 Proof_RespFn3 Proof_RespFn4.
Import ListNotations.
Open Scope R_scope.
Local Notation length := List.length.

Definition usual : params := {| max_npts_dc := 101; max_npts_kk := 151; max_interp_error := 1 / 1000;
  check_error := false; v_smear := None; kk_n := 50; spline_order := 3 |}.
Definition smeared : params := {| max_npts_dc := 101; max_npts_kk := 151; max_interp_error := 1 / 1000;
  check_error := false; v_smear := Some (1 / 50); kk_n := 50; spline_order := 3 |}.
Example usual_usable : usable_params usual /\ usable_params smeared.
Proof. unfold usable_params. simpl. repeat split; try lia; lra. Qed.

(** ** C43 *)
(** The voltages of the object: odd, increasing if the data is, 2n-1 points, the data at the
    right. *)
Theorem C43_voltage : forall spline dspline v c p r, respfn_init spline dspline v c p = Ok r ->
  length (rf_voltage r) = (2 * length v - 1)%nat /\ odd_list (rf_voltage r) /\ (increasing v -> increasing (rf_voltage r)) /\
  (forall k, (k < length v)%nat -> nth (length v - 1 + k) (rf_voltage r) 0 = nth k v 0).
Proof. exact object_reflected. Qed.
Print Assumptions C43_voltage.

(** The currents: the data at the right, negated at the left; odd iff the first is 0. *)
Theorem C43_current_partial : forall spline dspline v c p r, length c = length v -> respfn_init spline dspline v c p = Ok r -> v_smear p = None ->
  length (rf_current r) = (2 * length v - 1)%nat /\
  (forall k, (k < length v)%nat -> nth (length v - 1 + k) (rf_current r) 0 = nth k c 0) /\
  (forall k, (1 <= k < length v)%nat -> nth (length v - 1 - k) (rf_current r) 0 = - nth k c 0) /\
  (odd_list (rf_current r) <-> nth 0 c 0 = 0).
Proof. exact object_current. Qed.
Print Assumptions C43_current_partial.

(** Smearing keeps the curve odd if three standard deviations are a whole number of steps. *)
Theorem C43_smeared_partial : forall spline dspline v c p r s M, length c = length v -> respfn_init spline dspline v c p = Ok r -> v_smear p = Some s -> nth 0 c 0 = 0 ->
  (1 <= M)%nat -> 3 * s = INR M * (nth (length v - 1) v 0 - nth (length v - 2) v 0) ->
  odd_list (rf_current r) /\ length (rf_current r) = (2 * length v - 1)%nat.
Proof. exact object_smeared. Qed.
Print Assumptions C43_smeared_partial.

(** The Kramers-Kronig transform of an odd curve is even. *)
Theorem C43_kk_even : forall spline dspline v c p r, length c = length v -> (1 <= kk_n p)%Z -> respfn_init spline dspline v c p = Ok r ->
  odd_list (rf_current r) -> length (rf_current r) = length (rf_voltage r) ->
  forall t, (t < 2 * length v - 1)%nat -> nth (2 * length v - 2 - t) (rf_current_kk r) 0 = nth t (rf_current_kk r) 0.
Proof. exact object_kk_even. Qed.
Print Assumptions C43_kk_even.

(** Missing: a current that is not 0 at 0 V is accepted, and the result is not odd. *)
Theorem C43_refuted : forall spline dspline p, usable_params p -> v_smear p = None ->
  exists r, respfn_init spline dspline VINIT (map (fun _ => 1) VINIT) p = Ok r /\ ~ odd_list (rf_current r).
Proof. exact constant_not_odd. Qed.
Print Assumptions C43_refuted.

Example C43_case : exists r, respfn_init (fun _ _ _ _ => 0) (fun _ _ _ _ => 0) VINIT VINIT usual = Ok r.
Proof. exact (vinit_accepts _ _ VINIT usual (proj1 usual_usable) eq_refl). Qed.
Example C43_smeared_case : exists r, respfn_init (fun _ _ _ _ => 0) (fun _ _ _ _ => 0) VINIT VINIT smeared = Ok r.
Proof. exact (vinit_accepts _ _ VINIT smeared (proj2 usual_usable) eq_refl). Qed.

(** ** C44 *)
(** Among the nodes are the ends and every data point near 0 and the gap; between two
    neighbouring nodes a and b, the point before b is less than 1 above a. *)
Theorem C44_nodes : forall v c mx s idx, increasing v -> length c = length v -> (201 <= length v)%nat -> sample_curve v c mx s = Ok idx ->
  ascending idx /\
  (forall x, In x idx -> (0 <= x < Z.of_nat (length v))%Z) /\
  In 0%Z idx /\ In (Z.of_nat (length v) - 1)%Z idx /\
  (forall k, (k < length v)%nat -> Rabs (nth k v 0) < 1 / 20 \/ Rabs (nth k v 0 - 1) < 1 / 10 \/ Rabs (nth k v 0 + 1) < 1 / 10 -> In (Z.of_nat k) idx) /\
  (forall a b, neighbours idx a b -> nth (Z.to_nat (b - 1)) v 0 - nth (Z.to_nat a) v 0 < 1).
Proof. exact nodes_valid. Qed.
Print Assumptions C44_nodes.

Example C44_case : exists idx, sample_curve (reflect VINIT) (reflect VINIT) 101 (1 / 4) = Ok idx.
Proof. exact sample_case. Qed.

(** ** C45 *)
Theorem C45_accepts_partial : forall spline dspline v c p, usable_grid v -> length c = length v -> (1 <= kk_n p)%Z -> (1 <= spline_order p <= 5)%Z ->
  check_error p = false ->
  match v_smear p with None => True | Some s => (nth (length v - 1) v 0 - nth (length v - 2) v 0) / 3 <= s <= 1 end ->
  exists r, respfn_init spline dspline v c p = Ok r.
Proof. exact init_ok. Qed.
Print Assumptions C45_accepts_partial.

(** The classes that make their own grid always work. *)
Theorem C45_polynomial : forall spline dspline n p, usable_params p -> exists r, respfn_polynomial spline dspline n p = Ok r.
Proof. exact polynomial_accepts. Qed.
Print Assumptions C45_polynomial.
Theorem C45_exponential : forall spline dspline vgap rn rsg agap p, usable_params p -> rn <> 0 ->
  exists r, respfn_exponential spline dspline vgap rn rsg agap p = Ok r.
Proof. exact exponential_accepts. Qed.
Print Assumptions C45_exponential.
Theorem C45_from_iv_data : forall spline dspline v c vmax f l p, usable_params p -> increasing v -> length c = length v -> vmax <= 50 -> (f <= l < length v)%nat ->
  (forall i, (i < length v)%nat -> (0 < nth i v 0 < vmax <-> (f <= i <= l)%nat)) -> exists r, respfn_from_iv spline dspline v c vmax p = Ok r.
Proof. exact from_iv_accepts. Qed.
Print Assumptions C45_from_iv_data.

(** Data that violates the preconditions is rejected. *)
Theorem C45_rejects : forall spline dspline v c p, (1 <= length v)%nat -> (nth 0 v 0 <> 0 \/ nth (length v - 1) v 0 <= 5) ->
  respfn_init spline dspline v c p = Err AssertionError.
Proof. exact bad_range. Qed.
Print Assumptions C45_rejects.

(** Missing: data with at most 100 points, and data with fewer points in linear regions, is
    never accepted although it meets the documented preconditions. *)
Theorem C45_refuted_few_points : forall spline dspline v c p, increasing v -> (length v <= 100)%nat ->
  ~ exists r, respfn_init spline dspline v c p = Ok r.
Proof. exact too_short. Qed.
Print Assumptions C45_refuted_few_points.
Theorem C45_refuted_uneven : forall spline dspline v c p, (2 <= length v)%nat -> nth 0 v 0 = 0 -> 5 < nth (length v - 1) v 0 -> v_smear p = None ->
  ~ evenly_spaced v -> respfn_init spline dspline v c p = Err AssertionError.
Proof. exact uneven_rejected. Qed.
Print Assumptions C45_refuted_uneven.

Example C45_case : usable_grid VINIT.
Proof. exact vinit_grid. Qed.
Example C45_few_case : increasing [0; 2; 4; 6].
Proof. exact few_increasing. Qed.
Example C45_uneven_case : ~ evenly_spaced [0; 1 / 2; 1; 2; 6].
Proof. intros E. specialize (E 0%nat ltac:(simpl; lia)). simpl in E. rewrite Rabs_right in E by lra. assert (/ (10 * (10 * (10 * (10 * (10 * 1))))) <= 1). { rewrite <- Rinv_1. apply Rinv_le_contravar; lra. } lra. Qed.
Example C45_import_case : forall i, (i < length [0; 1 / 2; 1])%nat -> (0 < nth i [0; 1 / 2; 1] 0 < 9 / 5 <-> (1 <= i <= 2)%nat).
Proof. intros a A. destruct a as [|[|[|a]]]; [| | |simpl in A; lia]; simpl; split; intros; try lia; lra. Qed.

(** ** C46 *)
Theorem C46_responses : forall r v,
  resp r v = (ikk r v, idc r v) /\ resp_conj r v = Cconj (resp r v) /\ resp_swap r v = Cmult Ci (Cconj (resp r v)) /\ call r v = resp r v.
Proof. exact responses. Qed.
Print Assumptions C46_responses.

(** ** C47 *)
(** The points used are f to l (positive and below vmax); the new voltages are 0, 1/200, 2/200
    up to 35. *)
Theorem C47_resampled_partial : forall v c vmax f l, increasing v -> length c = length v -> vmax <= 50 -> (f <= l < length v)%nat ->
  (forall i, (i < length v)%nat -> (0 < nth i v 0 < vmax <-> (f <= i <= l)%nat)) ->
  exists V i, import_iv v c vmax = Ok (V, i) /\ Z.of_nat (length V) = 7001%Z /\ length i = length V /\
  forall k, (k < length V)%nat -> nth k V 0 = INR k / 200 /\
    (nth k V 0 <= nth f v 0 -> nth k i 0 = nth f c 0) /\
    (forall j, (f <= j < l)%nat -> nth j v 0 <= nth k V 0 <= nth (S j) v 0 ->
       nth k i 0 = chord (nth j v 0) (nth j c 0) (nth (S j) v 0) (nth (S j) c 0) (nth k V 0)) /\
    (nth l v 0 <= nth k V 0 -> nth k i 0 - nth l c 0 = nth k V 0 - nth l v 0).
Proof. exact resampled_grid. Qed.
Print Assumptions C47_resampled_partial.

Theorem C47_nothing_left : forall v c vmax, length c = length v -> (forall i, (i < length v)%nat -> ~ (0 < nth i v 0 < vmax)) ->
  import_iv v c vmax = Err IndexError.
Proof. exact import_empty. Qed.
Print Assumptions C47_nothing_left.

(** Missing: the current at 0 V is that of the first positive voltage, even if there is data
    at 0 V. *)
Theorem C47_refuted : exists V i, import_iv [0; 1 / 2; 1] [0; 1 / 4; 1] (9 / 5) = Ok (V, i) /\ nth 0 V 0 = 0 /\ nth 0 i 0 = 1 / 4.
Proof. exists VINIT. exact import_zero. Qed.
Print Assumptions C47_refuted.

(** ** C58 *)
(** What a class uses for a key: the keyword argument if there is one, else its default. *)
Theorem C58_precedence : forall cls kwargs key, NoDup (map fst kwargs) ->
  lookup (class_params cls kwargs) key = match lookup kwargs key with Some v => Some v | None => class_default cls key end.
Proof. exact class_table. Qed.
Print Assumptions C58_precedence.
Theorem C58_keys : forall cls kwargs, NoDup (map fst (class_params cls kwargs)).
Proof. exact class_keys. Qed.
Print Assumptions C58_keys.
Example C58_case : lookup (class_params FromIVData [("kk_n", VInt 7); ("vlimit", VReal 2)]%string) "kk_n" = Some (VInt 7).
Proof. reflexivity. Qed.

(** ** C88 *)
Theorem C88_documented_partial : forall cls key, key <> "max_npts_dc"%string -> key <> "max_npts_kk"%string -> lookup (class_params cls []) key = documented key.
Proof. exact class_documented. Qed.
Print Assumptions C88_documented_partial.
Theorem C88_points_partial : forall cls, cls <> FromIVData -> cls <> Exponential -> forall key, lookup (class_params cls []) key = documented key.
Proof. exact class_points. Qed.
Print Assumptions C88_points_partial.
(** Missing: the numbers of points of two classes. *)
Theorem C88_refuted : lookup (class_params FromIVData []) "max_npts_dc" = Some (VInt 81) /\ lookup (class_params FromIVData []) "max_npts_kk" = Some (VInt 101) /\
  lookup (class_params Exponential []) "max_npts_kk" = Some (VInt 251) /\ documented "max_npts_dc" = Some (VInt 101) /\ documented "max_npts_kk" = Some (VInt 151).
Proof. exact documented_not. Qed.
Print Assumptions C88_refuted.

(** ** C89 *)
(** With check_error the interpolation is nowhere too low. *)
Theorem C89_checked_partial : forall spline dspline v c p r, length c = length v -> (1 <= kk_n p)%Z -> v_smear p = None -> check_error p = true ->
  respfn_init spline dspline v c p = Ok r -> forall k, (k < 2 * length v - 1)%nat -> -34 < nth k (rf_voltage r) 0 < 34 ->
    nth k (rf_current r) 0 - idc r (nth k (rf_voltage r) 0) < max_interp_error p /\
    nth k (rf_current_kk r) 0 - ikk r (nth k (rf_voltage r) 0) < max_interp_error p.
Proof. exact object_checked. Qed.
Print Assumptions C89_checked_partial.
(** Missing: it may be too high by any amount; here an interpolation that is right at the nodes
    is a thousand too high at some data point, with an allowed error of 0.001. *)
Theorem C89_refuted : check_error checked = true /\ max_interp_error checked = 1 / 1000 /\
  exists r k, respfn_init spiky spiky VINIT VINIT checked = Ok r /\ (k < length (rf_voltage r))%nat /\ -34 < nth k (rf_voltage r) 0 < 34 /\
  nth k (rf_current r) 0 - idc r (nth k (rf_voltage r) 0) < - 1000.
Proof. exact (conj eq_refl (conj eq_refl check_blind)). Qed.
Print Assumptions C89_refuted.
Example C89_case : exists r, respfn_init spiky spiky VINIT VINIT checked = Ok r.
Proof. destruct check_blind as [r [k [H _]]]. now exists r. Qed.

(** ** C90 *)
Theorem C90_slopes_partial : forall spline dspline v c p r, respfn_init spline dspline v c p = Ok r ->
  forall x, (exists y, didc r x = Ok y) /\ exists y, dikk r x = Ok y.
Proof. exact slopes_there. Qed.
Print Assumptions C90_slopes_partial.
(** Missing: RespFnPerfect without smearing. *)
Theorem C90_refuted : forall spline dspline p, usable_params p -> v_smear p = None ->
  exists r, respfn_perfect spline dspline p = Ok r /\ (forall x, idc r x = ideal_current x) /\ (forall x, ikk r x = perfect_kk_elt 100 x) /\
  (forall x, didc r x = Err TypeError) /\ (forall x, dikk r x = Err TypeError).
Proof. exact perfect_accepts. Qed.
Print Assumptions C90_refuted.

(** ** C91 *)
(** RespFnPerfect with smearing gives a higher current at the gap than smearing the ideal
    curve. *)
Theorem C91_refuted : forall spline dspline p s, v_smear p = Some s -> 1 / 600 <= s <= 1 / 4 -> (1 <= kk_n p)%Z -> (1 <= spline_order p <= 5)%Z -> check_error p = false ->
  exists r0 r k, respfn_init spline dspline VINIT (map ideal_current VINIT) p = Ok r0 /\ respfn_perfect spline dspline p = Ok r /\
    (k < length (rf_current r))%nat /\ nth k (rf_voltage r) 0 = 1 /\ nth k (rf_current r0) 0 < nth k (rf_current r) 0.
Proof. exact perfect_peak. Qed.
Print Assumptions C91_refuted.
(** Without smearing it is the ideal curve with its Kramers-Kronig transform, and its tables are
    these curves at 14001 voltages between -35 and 35. *)
Theorem C91_ideal_partial : forall spline dspline p, v_smear p = None ->
  exists r, respfn_perfect spline dspline p = Ok r /\
  (forall x, (Rabs x < 1 -> idc r x = 0) /\ (1 < Rabs x -> idc r x = x) /\ (x = 1 -> idc r x = 1 / 2) /\ (x = -1 -> idc r x = - (1 / 2))) /\
  (forall x, (Rabs x <> 1 -> ikk r x = - (2 + x * ln (Rabs ((x - 1) / (x + 1)))) / PI) /\ (Rabs x = 1 -> ikk r x = 100)) /\
  length (rf_current r) = length (rf_voltage r) /\ length (rf_current_kk r) = length (rf_voltage r) /\
  Z.of_nat (length (rf_voltage r)) = 14001%Z /\ (forall k, (k < length (rf_voltage r))%nat -> nth k (rf_voltage r) 0 = INR k / 200 - 35) /\
  forall k, (k < length (rf_voltage r))%nat -> nth k (rf_current r) 0 = idc r (nth k (rf_voltage r) 0) /\ nth k (rf_current_kk r) 0 = ikk r (nth k (rf_voltage r) 0).
Proof. exact perfect_ideal. Qed.
Print Assumptions C91_ideal_partial.
