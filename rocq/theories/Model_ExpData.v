(** Model of qmix/exp/exp_data.py: impedance recovery, the summaries of DCData and
    PumpedData, and the handling of keyword arguments.  Plots are in Model_Plots.v, reports in
    Model_Report.v; what is printed while the data are analysed, in Model_ExpPrint.v. *)
From Coq Require Import List ZArith Bool Arith Reals String.
From Coquelicot Require Import Complex.
From Verif Require Import Base Model_QtCurrent Float NumPy Model_MathFn Model_CleanData Model_RespFn Model_IVData Model_Tucker Model_IFData.
Import ListNotations.
Open Scope Z_scope.
Local Notation length := List.length.

(** ** Impedance recovery *)
Definition ceqb (a b : C) : bool := Reqb (Re a) (Re b) && Reqb (Im a) (Im b).
(** A complex number, or None for a result that is not finite. *)
Definition cdiv (a b : C) : option C := if ceqb b (RtoC 0) then None else Some (Cdiv a b).
(** zwi / (zs + zwi) *)
Definition divider (zs : C) (z : option C) : option C :=
  match z with Some z => cdiv z (Cplus zs z) | None => None end.
(** All values, if all are finite. *)
Fixpoint finite {A} (l : list (option A)) : option (list A) :=
  match l with
  | [] => Some []
  | Some a :: l' => match finite l' with Some r => Some (a :: r) | None => None end
  | None :: _ => None
  end.

(** qmix/exp/exp_data.py:1836-1852 _error_function.  (If an impedance or a quotient is not
    finite, all three sums or the last two are infinite or NaN and the result is NaN.) *)
Definition error_function (vwi : list C) (zwi : list (option C)) (zs : C) : res fl :=
  let* prods := bcast (fun v z => match divider zs z with Some k => Some (Cmod (Cmult v k)) | None => None end) vwi zwi in
  let err1 := rsum (map (fun v => Cmod v ^ 2)%R vwi) in
  Ok match finite prods, finite (map (divider zs) zwi) with
     | Some prods, Some ks =>
         let err2 := rsum prods in
         let err3 := rsum (map (fun k => Cmod k ^ 2)%R ks) in
         fdiv (fsub (FV err1) (fdiv (FV (err2 ^ 2)) (FV err3))) (FV (INR (length vwi)))
     | _, _ => FNaN
     end.
(** qmix/exp/exp_data.py:1855-1870 _find_source_voltage *)
Definition find_source_voltage (vwi : list C) (zwi : list (option C)) (zs : C) : res fl :=
  let* prods := bcast (fun v z => match divider zs z with Some k => Some (Cmod (Cmult v k)) | None => None end) vwi zwi in
  Ok match finite prods, finite (map (divider zs) zwi) with
     | Some prods, Some ks => fdiv (FV (rsum prods)) (FV (rsum (map (fun k => Cmod k ^ 2)%R ks)))
     | _, _ => FNaN
     end.

(** The keyword arguments of the recovery.  The outer None of r_fit_range: not given, so that
    the default of qmix/exp/parameters.py:194 is used; the inner None and the None of
    r_zemb: the value None.  None of r_cut_low and r_cut_high: not given or the value None.
    The other arguments have their values, given or default. *)
Record recparams := {
  r_fit_range : option (option (R * R)); r_cut_low : option R; r_cut_high : option R;
  r_remb : R * R; r_xemb : R * R; r_zemb : option C; r_alpha_max : R; r_num_b : nat }.

(** Lines 711-722 of qmix/exp/exp_data.py: the parts of the photon step left out. *)
Definition default_fit : R * R := (1 / 4, 8 / 10)%R.
Definition fit_limits (q : recparams) : res (R * R) :=
  let* (fit_low, fit_high) :=
    match match r_fit_range q with Some g => g | None => Some default_fit end with
    | Some r => Ok r
    | None =>
        match r_cut_high q with
        | None => Err TypeError
        | Some ch => match r_cut_low q with None => Ok default_fit | Some cl => Ok (cl, (1 - ch)%R) end
        end
    end in
  Ok (fit_low, (1 - fit_high)%R).

Section Response.
(** Bessel functions and the response function. *)
Variable J : nat -> R -> R.
Variables idc ikk : R -> R.

(** qmix/exp/exp_data.py:1907-1932 _find_alpha at one bias voltage: the first guess.  (If
    pumping does not change the current the guess is not finite: see Model_RecoverAll.v.) *)
Definition first_alpha (vph alpha_max : R) (num_b : nat) (v i : R) : res R :=
  let idc_tmp := pumped_iv J idc vph alpha_max num_b v in
  let idciv := idc v in
  let* r := quot (i - idciv) (idc_tmp - idciv) in
  let alpha := (r * alpha_max)%R in
  Ok (if Rltb alpha 0 then 0%R else alpha).
(** One refinement of the guess. *)
Definition refine (pumped : R -> R) (i : R) (s : R * R) : R * R :=
  let '(alpha, alpha_step) := s in
  let err := (pumped alpha - i)%R in
  let alpha := if Rltb 0 err then (alpha - alpha_step)%R else if Rltb err 0 then (alpha + alpha_step)%R else alpha in
  let alpha := if Rltb alpha 0 then 0%R else alpha in
  (alpha, (alpha_step / 2)%R).
Definition find_alpha (v i : list R) (vph alpha_max : R) (num_b : nat) : res (list R) :=
  let* p := bcast (fun v i => (v, i)) v i in
  mapM (fun vi =>
    let* alpha := first_alpha vph alpha_max num_b (fst vi) (snd vi) in
    Ok (fst (Nat.iter 15 (refine (fun a => pumped_iv J idc vph a num_b (fst vi)) (snd vi)) (alpha, (alpha_max / 4)%R)))) p.

(** The results of the recovery. *)
Record recovered := {
  rec_zt : C; rec_vt : fl; rec_fit : bool; rec_zw : option C; rec_alpha : R; rec_err : list (list fl) }.
(** qmix/exp/exp_data.py:48 *)
Definition good_error : R := 7 / 10 ^ 7.

(** Lines 733-755 of qmix/exp/exp_data.py: the samples on the photon step with the drive
    level, the AC voltage and the AC impedance of the junction. *)
Definition on_step (voltage current : list R) (vph fit_low fit_high : R) : res (list R * list R) :=
  let v_low := (1 - vph + vph * fit_low)%R in
  let v_high := (1 - vph * fit_high)%R in
  let mask := map (fun v => Rleb v_low v && Rleb v v_high) voltage in
  let* v := select mask voltage in
  let* i := select mask current in
  Ok (v, i).
Definition ac_side (v i : list R) (vph : R) (q : recparams) : res (list R * list C * list (option C)) :=
  let* alpha := find_alpha v i vph (r_alpha_max q) (r_num_b q) in
  let ac_voltage := map (fun a => RtoC (a * vph)) alpha in
  let* ac_curr := bcast (fun a v => ac_current J idc ikk vph a (r_num_b q) v) alpha v in
  let* ac_impedance := bcast cdiv ac_voltage ac_curr in
  Ok (alpha, ac_voltage, ac_impedance).

(** Lines 757-773 of qmix/exp/exp_data.py: the error at every grid point, the best grid
    point and whether it is a good fit. *)
Definition grid_search (ac_voltage : list C) (ac_impedance : list (option C)) (q : recparams)
  : res (list (list fl) * C * fl * bool) :=
  let zt_real := linspace (fst (r_remb q)) (snd (r_remb q)) 101 in
  let zt_imag := linspace (fst (r_xemb q)) (snd (r_xemb q)) 201 in
  let* err_surf := mapM (fun a => mapM (fun b => error_function ac_voltage ac_impedance (a, b)) zt_imag) zt_real in
  let* k := fargmin (List.concat err_surf) in
  let ibest := (k / 201)%nat in
  let jbest := (k mod 201)%nat in
  let zt_best := match r_zemb q with
                 | None => (nth ibest zt_real 0%R, nth jbest zt_imag 0%R)
                 | Some z => z
                 end in
  let* vt_best := find_source_voltage ac_voltage ac_impedance zt_best in
  let err_best := nth jbest (nth ibest err_surf []) FNaN in
  Ok (err_surf, zt_best, vt_best, fle err_best (FV good_error)).

(** qmix/exp/exp_data.py:680-800 PumpedData._recover_zemb; vph is the photon voltage. *)
Definition recover_zemb (voltage current : list R) (vph : R) (q : recparams) : res recovered :=
  let* (fit_low, fit_high) := fit_limits q in
  let* (v, i) := on_step voltage current vph fit_low fit_high in
  let* idx_middle := fargmin (map (fun a => FV (Rabs (a - (1 - vph / 2)))) v) in
  let* (alpha, ac_voltage, ac_impedance) := ac_side v i vph q in
  let* zw := pyget ac_impedance (Z.of_nat idx_middle) in
  let* g := grid_search ac_voltage ac_impedance q in
  let '(err_surf, zt_best, vt_best, good_fit) := g in
  let* a := pyget alpha (Z.of_nat idx_middle) in
  Ok {| rec_zt := zt_best; rec_vt := vt_best; rec_fit := good_fit; rec_zw := zw; rec_alpha := a; rec_err := err_surf |}.
End Response.

(** ** Summaries *)
(** Lines 171-183 of qmix/exp/exp_data.py: subgap ratio, normal resistance times area,
    critical current density and leakage current of DCData. *)
Record dcsummary := { s_q : R; s_rna : R; s_jc : R; s_ileak : R }.
Definition dc_summary (dc : dcivdata) (voltage current : list R) (area vleak : R) : res dcsummary :=
  let* q := quot (dc_rsg dc) (dc_rn dc) in
  let rna := (dc_rn dc * area * (1 / 10 ^ 12))%R in
  let* jc := quot (dc_vgap dc) rna in
  let* at_ := quot vleak (dc_vgap dc) in
  let* i := np_interp [at_] voltage current in
  Ok {| s_q := q; s_rna := rna; s_jc := jc; s_ileak := (nth 0 i 0 * dc_igap dc)%R |}.

(** Lines 647-655 of qmix/exp/exp_data.py: the values at the best bias voltage in
    PumpedData: noise temperature, gain, gain in dB, voltage, impedance at the IF.  (Gains
    that are not positive, whose logarithm is not a number, are not modelled.) *)
Record ifsummary := { b_tn : fl; b_gain : R; b_gdb : R; b_v : R; b_zj : R }.
Definition log10 (x : R) : R := (ln x / ln 10)%R.
Definition if_summary (voltage current v_if : list R) (tn gain : list fl) (idx : nat) (rn : R) : res ifsummary :=
  let* t := pyget tn (Z.of_nat idx) in
  let* g := pyget gain (Z.of_nat idx) in
  let* g := match g with FV g => Ok g | _ => Err NotModelled end in
  let* _ := guard (Rltb 0 g) NotModelled in
  let g_db := (10 * log10 g)%R in
  let* vb := pyget v_if (Z.of_nat idx) in
  let* i := fargmin (map (fun a => FV (Rabs (a - vb))) voltage) in
  let* p := polyfit1 (segment voltage i (i + 10)) (segment current i (i + 10)) in
  let* zj := quot rn (fst p) in
  Ok {| b_tn := t; b_gain := g; b_gdb := g_db; b_v := vb; b_zj := zj |}.

(** ** Keyword arguments *)
(** Python dictionaries with values of type V, and a heap of them.  The values are
    immutable. *)
Section Dictionaries.
Variable V : Type.
Definition dict := list (string * V).
Fixpoint dget (d : dict) (k : string) : option V :=
  match d with [] => None | (k', v) :: d' => if String.eqb k k' then Some v else dget d' k end.
Fixpoint dset (d : dict) (k : string) (v : V) : dict :=
  match d with
  | [] => [(k, v)]
  | (k', v') :: d' => if String.eqb k k' then (k, v) :: d' else (k', v') :: dset d' k v
  end.
(** d.update(kw) *)
Definition dupdate (d kw : dict) : dict := fold_left (fun d kv => dset d (fst kv) (snd kv)) kw d.
(** The heap: PARAMS is the dictionary 0. *)
Definition heap := list dict.
Definition params_id : nat := 0.
Definition hget (h : heap) (a : nat) : dict := nth a h [].
(** copy.deepcopy: a new dictionary. *)
Definition deepcopy (h : heap) (a : nat) : heap * nat := (h ++ [hget h a], length h).
Definition hupdate (h : heap) (a : nat) (kw : dict) : heap := list_set h a (dupdate (hget h a) kw).

(** The value None, and whether a value is None. *)
Variable is_none : V -> bool.
(** Lines 142-145 of qmix/exp/exp_data.py: the keyword arguments of DCData.  Returns the
    heap and the dictionary that becomes the attribute kwargs. *)
Definition dc_kwargs (h : heap) (kw : dict) : heap * nat :=
  let '(h, tmp) := deepcopy h params_id in
  (hupdate h tmp kw, tmp).
(** Lines 559-563 and 600-607 of qmix/exp/exp_data.py: the keyword arguments of PumpedData,
    which needs a frequency. *)
Definition pumped_kwargs (h : heap) (kw : dict) : heap * res nat :=
  let '(h, tmp) := deepcopy h params_id in
  let h := hupdate h tmp kw in
  match dget (hget h tmp) "freq" with
  | None => (h, Err KeyError)
  | Some f => if is_none f then (h, Err ValueError) else (hupdate h tmp [("freq"%string, f)], Ok tmp)
  end.
(** What a program can do: create data objects, and change the attribute kwargs of one that
    it has created. *)
Inductive action :=
| NewDC (kw : dict) | NewPumped (kw : dict) | SetKwarg (obj : nat) (k : string) (v : V).
(** The state: the heap and the kwargs of the objects created so far. *)
Definition state := (heap * list nat)%type.
Definition act (s : state) (a : action) : state :=
  let '(h, objs) := s in
  match a with
  | NewDC kw => let '(h, o) := dc_kwargs h kw in (h, objs ++ [o])
  | NewPumped kw => let '(h, r) := pumped_kwargs h kw in (h, match r with Ok o => objs ++ [o] | Err _ => objs end)
  | SetKwarg obj k v =>
      match nth_error objs obj with Some o => (hupdate h o [(k, v)], objs) | None => s end
  end.
End Dictionaries.
