(** Model of what response functions print (qmix/respfn.py): the report of the interpolation.

    The calculation is the one of Model_RespFn.v, with the messages at the places where the
    code prints them.  Numbers are exact. *)
From Coq Require Import List ZArith Bool Arith Reals String.
From Coquelicot Require Import Complex.
From Verif Require Import Base Model_QtCurrent Float NumPy Model_MathFn Model_CleanData Model_IVModels Model_RespFn Model_IVData Model_Misc Model_Print Model_Said.
Import ListNotations.
Local Notation length := List.length.
Open Scope list_scope.
Open Scope Z_scope.

(** The messages: lines 163 and 670, 178 and 706, 756, and msg1 to msg9 of 788-796. *)
Inductive rmsg :=
| Generating | Smear (s : R) | Interpolating
| CurveDC | NodesDC (n : nat) | MeanError (e : R) | MaxError (e v : R) | CurveKK | NodesKK (n : nat) | Gap.
Definition rtext (m : rmsg) : string :=
  match m with
  | Generating => print "Generating response function:"
  | Smear s => print (" - Voltage smear: " ++ fixed false 0 4 s)
  | Interpolating => print " - Interpolating:"
  | CurveDC => print (tab ++ "- DC I-V curve:")
  | NodesDC n => print (tab ++ tab ++ "- npts for DC I-V: " ++ digits n)
  | MeanError e => print (tab ++ tab ++ "- avg. error: " ++ sci false "E" 4 e)
  | MaxError e v => print (tab ++ tab ++ "- max. error: " ++ fixed false 0 4 e ++ " at v=" ++ fixed false 0 2 v)
  | CurveKK => print (tab ++ "- KK curve:")
  | NodesKK n => print (tab ++ tab ++ "- npts for KK I-V: " ++ digits n)
  | Gap => print ""
  end%string.

(** np.mean of reals.  (The mean of no numbers is not modelled.) *)
Definition mean (l : list R) : R := (rsum l / INR (length l))%R.
(** Lines 773-777: the differences between the data and the interpolation, with their voltages. *)
Definition interp_errors (voltage current : list R) (f : R -> R) : res (list R * list R) :=
  let inside := map (fun v => Rltb (-34) v && Rltb v 34) voltage in
  let* v := select inside voltage in
  let* c := select inside current in
  Ok (v, zipwith (fun c v => c - f v)%R c v).
(** Lines 800-802 or 804-806: the mean of the absolute values, the largest difference and the
    voltage where it is. *)
Definition error_lines (v err : list R) : res (list rmsg) :=
  let* m := amax err in
  let* k := argmax err in
  let* vk := pyget v k in
  Ok [MeanError (mean (map Rabs err)); MaxError m vk].

Section Spline.
Variable spline dspline : list R -> list R -> Z -> R -> R.
Variable verbose : bool.

(** qmix/respfn.py:717-817 _setup_interpolation *)
Definition setup_interpolation_p (voltage current current_kk : list R) (p : params)
  : said rmsg ((R -> R) * (R -> R) * (R -> R) * (R -> R)) :=
  let! _ := say_if verbose [Interpolating] in
  let! dc_idx := quietly (sample_curve voltage current (max_npts_dc p) (1 / 4)) in
  let! kk_idx := quietly (sample_curve voltage current (max_npts_kk p) 1) in
  let! xd := quietly (at_indices voltage dc_idx) in let! yd := quietly (at_indices current dc_idx) in
  let! (f_dc, f_ddc) := quietly (interp spline dspline xd yd (spline_order p)) in
  let! xk := quietly (at_indices voltage kk_idx) in let! yk := quietly (at_indices current_kk kk_idx) in
  let! (f_kk, f_dkk) := quietly (interp spline dspline xk yk (spline_order p)) in
  let! (err_v, err_dc) := quietly (interp_errors voltage current f_dc) in
  let! (_, err_kk) := quietly (interp_errors voltage current_kk f_kk) in
  let! _ :=
    (if verbose then
       let! l := quietly (error_lines err_v err_dc) in
       let! _ := say_if true ([CurveDC; NodesDC (length dc_idx)] ++ l) in
       let! l := quietly (error_lines err_v err_kk) in
       say_if true ([CurveKK; NodesKK (length kk_idx)] ++ l ++ [Gap])
     else say_if false []) in
  let! _ := quietly (if check_error p then let* m := amax err_dc in guard (Rltb m (max_interp_error p)) AssertionError else Ok tt) in
  let! _ := quietly (if check_error p then let* m := amax err_kk in guard (Rltb m (max_interp_error p)) AssertionError else Ok tt) in
  quietly (Ok (f_dc, f_kk, f_ddc, f_dkk)).

(** qmix/respfn.py:158-196 RespFn.__init__ *)
Definition respfn_init_p (voltage current : list R) (p : params) : said rmsg respfn :=
  let! _ := say_if verbose [Generating] in
  let! v0 := quietly (pyget voltage 0) in
  let! _ := quietly (guard (Reqb v0 0) AssertionError) in
  let! ve := quietly (pyget voltage (-1)) in
  let! _ := quietly (guard (Rltb 5 ve) AssertionError) in
  let voltage := reflect voltage in
  let current := reflect current in
  let! current := match v_smear p with
                  | None => quietly (Ok current)
                  | Some s => let! c := quietly (smear_curve voltage current s) in let! _ := say_if verbose [Smear s] in quietly (Ok c)
                  end in
  let! current_kk := quietly (kk_trans voltage current (kk_n p)) in
  let! f := setup_interpolation_p voltage current current_kk p in
  let '(f_dc, f_kk, f_ddc, f_dkk) := f in
  quietly (Ok {| rf_voltage := voltage; rf_current := current; rf_current_kk := current_kk;
                 f_idc := f_dc; f_ikk := f_kk; f_didc := Some f_ddc; f_dikk := Some f_dkk |}).

(** qmix/respfn.py:530-543, 580-587, 625-632: the other classes. *)
Definition respfn_from_iv_p (voltage current : list R) (vmax : R) (p : params) : said rmsg respfn :=
  let! (v, c) := quietly (import_iv voltage current vmax) in
  respfn_init_p v c p.
Definition respfn_polynomial_p (p_order : nat) (p : params) : said rmsg respfn :=
  respfn_init_p VINIT (map (fun v => polynomial v p_order) VINIT) p.
Definition respfn_exponential_p (vgap rn rsg agap : R) (p : params) : said rmsg respfn :=
  let! current := quietly (mapM (fun v => exponential v vgap rn rsg agap "fixed"%string) VINIT) in
  respfn_init_p VINIT current p.
(** qmix/respfn.py:665-708 RespFnPerfect.__init__: it prints, and RespFn.__init__ prints again. *)
Definition respfn_perfect_p (p : params) : said rmsg respfn :=
  let! _ := say_if verbose [Generating] in
  match v_smear p with
  | None => quietly (respfn_perfect spline dspline p)
  | Some s =>
      let! current := quietly (perfect_smeared s) in
      let! _ := say_if verbose [Smear s] in
      respfn_init_p VINIT current p
  end.
End Spline.

(** qmix/respfn.py:198-204, 545-547, 589-591, 634-636, 710-712: __str__ and __repr__. *)
Definition resp_str (c : respclass) : string :=
  match c with
  | Base => "Response function object: RespFn" | FromIVData => "Response function object: RespFnFromIVData"
  | Polynomial => "Response function object: RespFnPolynomial" | Exponential => "Response function object: RespFnExponential"
  | Perfect => "Response function object: RespFnPerfect"
  end%string.
Definition resp_repr (c : respclass) : string := resp_str c.
