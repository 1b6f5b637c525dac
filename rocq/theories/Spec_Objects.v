(** Specification vocabulary for the data objects. *)
From Coq Require Import List ZArith Bool Reals String.
From Coquelicot Require Import Complex.
From Verif Require Import Base Float NumPy Model_CleanData Model_IVData Model_IFData Model_Objects.
Import ListNotations.
Open Scope R_scope.


(** The defaults that the documentation of qmix.exp.parameters lists (lines 24-148).  It does
    not mention vgap, cut_low and cut_high. *)
Definition documented_defaults : options := {|
  o_v_fmt := "mV"%string; o_i_fmt := "mA"%string; o_vmax := 6 / 10 ^ 3; o_npts := Z.to_nat 6001;
  o_ioffset := None; o_voffset := None; o_voffset_range := Limits (- (5 / 10 ^ 4)) (5 / 10 ^ 4);
  o_rseries := None; o_i_multiplier := 1; o_v_multiplier := 1; o_ifdata_npts := Z.to_nat 3000;
  o_filter_data := true; o_filter_theta := 785 / 1000; o_filter_nwind := 21%Z; o_filter_npoly := 3%Z;
  o_ifdata_sigma := Some (1 / 10 ^ 5); o_analyze_iv := true; o_analyze_if := true; o_area := 15 / 10;
  o_freq := None; o_vgap := None; o_vrn := (35 / 10 ^ 4, 45 / 10 ^ 4); o_vrsg := 2 / 10 ^ 3;
  o_vleak := 2 / 10 ^ 3; o_vshot := None; o_fit_range := Some (25 / 100, 8 / 10); o_remb_range := (0, 1);
  o_xemb_range := (-1, 1); o_zemb := None; o_alpha_max := 15 / 10; o_num_b := 20%nat; o_t_cold := 78;
  o_t_hot := 293; o_vbest := None; o_best_pt := "Max Gain"%string; o_v_smear := Some (20 / 1000);
  o_cut_low := None; o_cut_high := None |}.
(** The same options with other values of vrn and voffset_range, with other units, with a
    given gap voltage and no filter. *)
Definition with_ranges (o : options) (vrn : R * R) (voffset_range : vrange) : options := {|
  o_v_fmt := o_v_fmt o; o_i_fmt := o_i_fmt o; o_vmax := o_vmax o; o_npts := o_npts o; o_ioffset := o_ioffset o;
  o_voffset := o_voffset o; o_voffset_range := voffset_range; o_rseries := o_rseries o;
  o_i_multiplier := o_i_multiplier o; o_v_multiplier := o_v_multiplier o; o_ifdata_npts := o_ifdata_npts o;
  o_filter_data := o_filter_data o; o_filter_theta := o_filter_theta o; o_filter_nwind := o_filter_nwind o;
  o_filter_npoly := o_filter_npoly o; o_ifdata_sigma := o_ifdata_sigma o; o_analyze_iv := o_analyze_iv o;
  o_analyze_if := o_analyze_if o; o_area := o_area o; o_freq := o_freq o; o_vgap := o_vgap o; o_vrn := vrn;
  o_vrsg := o_vrsg o; o_vleak := o_vleak o; o_vshot := o_vshot o; o_fit_range := o_fit_range o;
  o_remb_range := o_remb_range o; o_xemb_range := o_xemb_range o; o_zemb := o_zemb o;
  o_alpha_max := o_alpha_max o; o_num_b := o_num_b o; o_t_cold := o_t_cold o; o_t_hot := o_t_hot o;
  o_vbest := o_vbest o; o_best_pt := o_best_pt o; o_v_smear := o_v_smear o; o_cut_low := o_cut_low o;
  o_cut_high := o_cut_high o |}.
Definition with_units (o : options) (v_fmt i_fmt : string) : options := {|
  o_v_fmt := v_fmt; o_i_fmt := i_fmt; o_vmax := o_vmax o; o_npts := o_npts o; o_ioffset := o_ioffset o;
  o_voffset := o_voffset o; o_voffset_range := o_voffset_range o; o_rseries := o_rseries o;
  o_i_multiplier := o_i_multiplier o; o_v_multiplier := o_v_multiplier o; o_ifdata_npts := o_ifdata_npts o;
  o_filter_data := o_filter_data o; o_filter_theta := o_filter_theta o; o_filter_nwind := o_filter_nwind o;
  o_filter_npoly := o_filter_npoly o; o_ifdata_sigma := o_ifdata_sigma o; o_analyze_iv := o_analyze_iv o;
  o_analyze_if := o_analyze_if o; o_area := o_area o; o_freq := o_freq o; o_vgap := o_vgap o; o_vrn := o_vrn o;
  o_vrsg := o_vrsg o; o_vleak := o_vleak o; o_vshot := o_vshot o; o_fit_range := o_fit_range o;
  o_remb_range := o_remb_range o; o_xemb_range := o_xemb_range o; o_zemb := o_zemb o;
  o_alpha_max := o_alpha_max o; o_num_b := o_num_b o; o_t_cold := o_t_cold o; o_t_hot := o_t_hot o;
  o_vbest := o_vbest o; o_best_pt := o_best_pt o; o_v_smear := o_v_smear o; o_cut_low := o_cut_low o;
  o_cut_high := o_cut_high o |}.
Definition unfiltered (o : options) (vgap : R) : options := {|
  o_v_fmt := o_v_fmt o; o_i_fmt := o_i_fmt o; o_vmax := o_vmax o; o_npts := o_npts o; o_ioffset := o_ioffset o;
  o_voffset := o_voffset o; o_voffset_range := o_voffset_range o; o_rseries := o_rseries o;
  o_i_multiplier := o_i_multiplier o; o_v_multiplier := o_v_multiplier o; o_ifdata_npts := o_ifdata_npts o;
  o_filter_data := false; o_filter_theta := o_filter_theta o; o_filter_nwind := o_filter_nwind o;
  o_filter_npoly := o_filter_npoly o; o_ifdata_sigma := o_ifdata_sigma o; o_analyze_iv := o_analyze_iv o;
  o_analyze_if := o_analyze_if o; o_area := o_area o; o_freq := o_freq o; o_vgap := Some vgap;
  o_vrn := o_vrn o; o_vrsg := o_vrsg o; o_vleak := o_vleak o; o_vshot := o_vshot o;
  o_fit_range := o_fit_range o; o_remb_range := o_remb_range o; o_xemb_range := o_xemb_range o;
  o_zemb := o_zemb o; o_alpha_max := o_alpha_max o; o_num_b := o_num_b o; o_t_cold := o_t_cold o;
  o_t_hot := o_t_hot o; o_vbest := o_vbest o; o_best_pt := o_best_pt o; o_v_smear := o_v_smear o;
  o_cut_low := o_cut_low o; o_cut_high := o_cut_high o |}.

(** The same measurement with the first column multiplied by kv and the second by ki. *)
Definition rescaled (kv ki : R) (m : matrix) : matrix :=
  {| ncols := ncols m; rows := map (fun r => [fmul (nth 0 r FNaN) (FV kv); fmul (nth 1 r FNaN) (FV ki)]) (rows m) |}.
(** The rows in the opposite order. *)
Definition backwards (m : matrix) : matrix := {| ncols := ncols m; rows := rev (rows m) |}.
(** The voltages of the rows in which both values are numbers. *)
Definition valid_voltages (m : matrix) : list fl :=
  map (fun r => nth 0 r FNaN) (filter (fun r => negb (fisnan (nth 0 r FNaN)) && negb (fisnan (nth 1 r FNaN))) (rows m)).
