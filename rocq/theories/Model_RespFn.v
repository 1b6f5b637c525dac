(** Model of qmix/respfn.py.  Arrays are lists of exact reals.  SciPy's spline fit is an
    arbitrary function; only its checks on the nodes are modelled.  Printing and plotting are
    not modelled. *)
From Coq Require Import List ZArith Bool Arith Reals String.
From Coquelicot Require Import Complex.
From Verif Require Import Base Model_QtCurrent Float NumPy Model_MathFn Model_CleanData Model_IVModels.
Import ListNotations.
Open Scope Z_scope.

(** ** Parameters *)
(** Values of keyword arguments, as far as they are used. *)
Inductive value := VNone | VBool (b : bool) | VInt (z : Z) | VReal (x : R) | VOther (s : string).
(** A dict: the first entry of a key counts. *)
Definition dict := list (string * value).
Fixpoint lookup (d : dict) (k : string) : option value :=
  match d with [] => None | (k', v) :: d' => if String.eqb k k' then Some v else lookup d' k end.
(** d[k] = v *)
Fixpoint dset (d : dict) (k : string) (v : value) : dict :=
  match d with
  | [] => [(k, v)]
  | (k', v') :: d' => if String.eqb k k' then (k', v) :: d' else (k', v') :: dset d' k v
  end.
(** d.update(e) *)
Definition update (d e : dict) : dict := fold_left (fun d kv => dset d (fst kv) (snd kv)) e d.

(** qmix/respfn.py:874-895 _default_params with the arguments that are ever given. *)
Definition default_params (kwargs : dict) (max_dc max_kk : Z) : dict :=
  update [("max_npts_dc", VInt max_dc); ("max_npts_kk", VInt max_kk);
          ("max_interp_error", VReal (1 / 1000)); ("check_error", VBool false);
          ("verbose", VBool true); ("v_smear", VNone); ("kk_n", VInt 50);
          ("spline_order", VInt 3)]%string kwargs.
(** Lines 160, 528, 582, 627 and 667 of qmix/respfn.py: the parameters that RespFn.__init__
    ends up with, for each class. *)
Inductive respclass := Base | FromIVData | Polynomial | Exponential | Perfect.
Definition class_params (c : respclass) (kwargs : dict) : dict :=
  match c with
  | Base => default_params kwargs 101 151
  | FromIVData => default_params (default_params kwargs 81 101) 101 151
  | Polynomial => default_params (default_params kwargs 101 151) 101 151
  | Exponential => default_params (default_params kwargs 101 251) 101 151
  | Perfect => default_params (default_params kwargs 101 151) 101 151
  end.

(** The parameters after lookup. *)
Record params := {
  max_npts_dc : Z; max_npts_kk : Z; max_interp_error : R; check_error : bool;
  v_smear : option R; kk_n : Z; spline_order : Z }.

(** ** Reflection *)
(** Lines 169-170 of qmix/respfn.py: np.r_[-a[::-1][:-1], a] *)
Definition reflect (a : list R) : list R := map Ropp (pyslice (rev a) None (Some (-1))) ++ a.

(** ** Sampling *)
(** Python range(lo, hi, step). *)
Definition range3 (lo hi step : Z) : res (list Z) :=
  if step =? 0 then Err ValueError
  else Ok (map (fun i => lo + Z.of_nat i * step) (seq 0 (Z.to_nat (- ((lo - hi) / step))))).
(** ndarray.argmin(): position of the first smallest value. *)
Fixpoint argmin_from (best : R) (pos next : Z) (l : list R) : Z :=
  match l with
  | [] => pos
  | a :: l' => if Rltb a best then argmin_from a next (next + 1) l' else argmin_from best pos (next + 1) l'
  end.
Definition argmin (l : list R) : res Z :=
  match l with [] => Err ValueError | a :: l' => Ok (argmin_from a 0 1 l') end.
(** sorted(set(l)) *)
Fixpoint set_insert (z : Z) (l : list Z) : list Z :=
  match l with
  | [] => [z]
  | y :: l' => if z <? y then z :: l else if z =? y then l else y :: set_insert z l'
  end.
Definition sorted_set (l : list Z) : list Z := fold_right set_insert [] l.

(** Lines 835-853 of qmix/respfn.py: the loop over the data; the state is the list of
    indices, and the sum and the voltage at the last one.  (A sum that is not a number is
    not modelled: the sums are reals.  0/0 is NaN as in NumPy.) *)
Definition visit (voltage cumsum : list R) (max_npts : Z) (iv : Z * R) (st : list Z * R * R)
  : res (list Z * R * R) :=
  let '(idx, v) := iv in
  let '(idx_list, cumsum_last, voltage_last) := st in
  let condition1 := Rltb (Rabs v) (1 / 20) || Rltb (Rabs (v - 1)) (1 / 10) || Rltb (Rabs (v + 1)) (1 / 10) in
  let condition2 := Rleb 1 (v - voltage_last) in
  let* c := pyget cumsum idx in
  let* ce := pyget cumsum (-1) in
  let condition3 := flt (FV 1) (fdiv (FV ((c - cumsum_last) * IZR max_npts)%R) (FV ce)) in
  let condition4 := (idx <? 3) || (Z.of_nat (List.length voltage) - 4 <? idx) in
  if condition1 || condition2 || condition3 || condition4 then
    let* last := pyget idx_list (-1) in
    Ok (if idx =? last then idx_list else idx_list ++ [idx], c, v)
  else Ok (idx_list, cumsum_last, voltage_last).

(** Lines 835-871 of qmix/respfn.py, for any cumulative sum.  int(1/VSTEP) is 200 and
    int(1/VSTEP/10) is 20. *)
Definition pick_nodes (voltage cumsum : list R) (max_npts : Z) : res (list Z) :=
  let n := Z.of_nat (List.length voltage) in
  let* v0 := pyget voltage 0 in
  let* st := foreach (List.combine (zrange 0 n) voltage) (visit voltage cumsum max_npts) ([0], 0%R, v0) in
  let '(idx_list, _, _) := st in
  let* first := range3 0 200 20 in
  let* last := range3 (n - 200 - 1) n 20 in
  let* ind_low := argmin (map (fun v => Rabs (v + 1)) voltage) in
  let* ind_high := argmin (map (fun v => Rabs (v - 1)) voltage) in
  let npts := ind_high - ind_low in
  let* middle := range3 ind_low ind_high (npts / 30) in
  Ok (sorted_set (idx_list ++ first ++ last ++ middle)).

(** The finite numbers of an array.  (Infinities and NaN only arise from repeated
    voltages.) *)
Definition reals (l : list fl) : res (list R) :=
  mapM (fun a => match a with FV x => Ok x | _ => Err NotModelled end) l.
(** np.cumsum *)
Fixpoint cumsum_from (s : R) (l : list R) : list R :=
  match l with [] => [] | a :: l' => (s + a)%R :: cumsum_from (s + a) l' end.

(** qmix/respfn.py:820-871 _sample_curve.  (v_step = 0 is not modelled.) *)
Definition sample_curve (voltage current : list R) (max_npts : Z) (smear : R) : res (list Z) :=
  let* d1 := slope voltage current in
  let* d1 := reals d1 in
  let* d2 := slope voltage d1 in
  let* d2 := reals d2 in
  let dd := map Rabs d2 in
  let* v1 := pyget voltage 1 in
  let* v0 := pyget voltage 0 in
  let v_step := (v1 - v0)%R in
  let* _ := guard (negb (Reqb v_step 0)) NotModelled in
  let* sm := gauss_conv dd (smear / v_step) 3 in
  pick_nodes voltage (cumsum_from 0 sm) max_npts.

(** ** Interpolation *)
Fixpoint strictly_increasing (l : list R) : bool :=
  match l with
  | a :: (b :: _) as l' => Rltb a b && strictly_increasing l'
  | _ => true
  end.
Section Spline.
(** The value at a point of the spline of order k through the nodes, and of its
    derivative. *)
Variable spline dspline : list R -> list R -> Z -> R -> R.

(** scipy.interpolate.InterpolatedUnivariateSpline(x, y, k=k): the checks; the spline and
    the result of its method derivative. *)
Definition interp (x y : list R) (k : Z) : res ((R -> R) * (R -> R)) :=
  let* _ := guard (strictly_increasing x) ValueError in
  let* _ := guard (List.length x =? List.length y)%nat ValueError in
  let* _ := guard ((1 <=? k) && (k <=? 5)) ValueError in
  let* _ := guard (k <? Z.of_nat (List.length x)) ValueError in
  Ok (spline x y k, dspline x y k).
Definition at_indices (l : list R) (idx : list Z) : res (list R) := mapM (pyget l) idx.

(** Lines 773-777 and 810-815 of qmix/respfn.py: the check of the interpolation error. *)
Definition check_interp (voltage current : list R) (f : R -> R) (bound : R) : res unit :=
  let inside := map (fun v => Rltb (-34) v && Rltb v 34) voltage in
  let* v := select inside voltage in
  let* c := select inside current in
  let* m := amax (zipwith (fun c v => c - f v)%R c v) in
  guard (Rltb m bound) AssertionError.

(** qmix/respfn.py:717-817 _setup_interpolation: f_dc, f_kk, f_ddc, f_dkk. *)
Definition setup_interpolation (voltage current current_kk : list R) (p : params)
  : res ((R -> R) * (R -> R) * (R -> R) * (R -> R)) :=
  let* dc_idx := sample_curve voltage current (max_npts_dc p) (1 / 4) in
  let* kk_idx := sample_curve voltage current (max_npts_kk p) 1 in
  let* xd := at_indices voltage dc_idx in let* yd := at_indices current dc_idx in
  let* (f_dc, f_ddc) := interp xd yd (spline_order p) in
  let* xk := at_indices voltage kk_idx in let* yk := at_indices current_kk kk_idx in
  let* (f_kk, f_dkk) := interp xk yk (spline_order p) in
  let* _ := if check_error p then check_interp voltage current f_dc (max_interp_error p) else Ok tt in
  let* _ := if check_error p then check_interp voltage current_kk f_kk (max_interp_error p) else Ok tt in
  Ok (f_dc, f_kk, f_ddc, f_dkk).

(** A response function object (None for an attribute that holds None).  The attribute
    voltage_kk always is voltage. *)
Record respfn := {
  rf_voltage : list R; rf_current : list R; rf_current_kk : list R;
  f_idc : R -> R; f_ikk : R -> R; f_didc : option (R -> R); f_dikk : option (R -> R) }.

(** Lines 173-176 of qmix/respfn.py: the optional smearing.  (v_step = 0 is not
    modelled.) *)
Definition smear_curve (voltage current : list R) (s : R) : res (list R) :=
  let* v1 := pyget voltage 1 in
  let* v0 := pyget voltage 0 in
  let* _ := guard (negb (Reqb (v1 - v0) 0)) NotModelled in
  let* d := bcast Rminus current voltage in
  let* g := gauss_conv d (s / (v1 - v0)) 3 in
  bcast Rplus g voltage.

(** qmix/respfn.py:158-196 RespFn.__init__ *)
Definition respfn_init (voltage current : list R) (p : params) : res respfn :=
  let* v0 := pyget voltage 0 in
  let* _ := guard (Reqb v0 0) AssertionError in
  let* ve := pyget voltage (-1) in
  let* _ := guard (Rltb 5 ve) AssertionError in
  let voltage := reflect voltage in
  let current := reflect current in
  let* current := match v_smear p with None => Ok current | Some s => smear_curve voltage current s end in
  let* current_kk := kk_trans voltage current (kk_n p) in
  let* f := setup_interpolation voltage current current_kk p in
  let '(f_dc, f_kk, f_ddc, f_dkk) := f in
  Ok {| rf_voltage := voltage; rf_current := current; rf_current_kk := current_kk;
        f_idc := f_dc; f_ikk := f_kk; f_didc := Some f_ddc; f_dikk := Some f_dkk |}.
End Spline.

(** ** Methods *)
(** qmix/respfn.py:344-485 idc, ikk, didc, dikk, resp, resp_conj, resp_swap and 206-208 __call__, at one
    voltage. *)
Definition idc (r : respfn) (v : R) : R := f_idc r v.
Definition ikk (r : respfn) (v : R) : R := f_ikk r v.
Definition didc (r : respfn) (v : R) : res R := match f_didc r with Some f => Ok (f v) | None => Err TypeError end.
Definition dikk (r : respfn) (v : R) : res R := match f_dikk r with Some f => Ok (f v) | None => Err TypeError end.
Definition resp (r : respfn) (v : R) : C := Cplus (RtoC (f_ikk r v)) (Cmult Ci (RtoC (f_idc r v))).
Definition resp_conj (r : respfn) (v : R) : C := Cminus (RtoC (f_ikk r v)) (Cmult Ci (RtoC (f_idc r v))).
Definition resp_swap (r : respfn) (v : R) : C := Cplus (RtoC (f_idc r v)) (Cmult Ci (RtoC (f_ikk r v))).
Definition call (r : respfn) (v : R) : C := resp r v.

(** ** Importing data *)
(** np.interp(x, xp, fp) at one point, for xp sorted.  le counts the sample points up to x. *)
Definition np_interp1 (xp fp : list R) (x : R) : R :=
  let le := List.length (filter (fun a => Rleb a x) xp) in
  match le with
  | O => nth 0 fp 0
  | S j => if (le =? List.length xp)%nat then nth j fp 0
           else ((nth le fp 0 - nth j fp 0) / (nth le xp 0 - nth j xp 0) * (x - nth j xp 0) + nth j fp 0)
  end%R.
Definition np_interp (x xp fp : list R) : res (list R) :=
  let* _ := guard (negb (List.length xp =? 0)%nat) ValueError in
  let* _ := guard (List.length xp =? List.length fp)%nat ValueError in
  Ok (map (np_interp1 xp fp) x).

(** Line 111 of qmix/respfn.py: VINIT *)
Definition VINIT : list R := linspace 0 35 7001.

(** Lines 530-543 of qmix/respfn.py, RespFnFromIVData.__init__: the curve that is handed
    to RespFn.__init__. *)
Definition import_iv (voltage current : list R) (vmax : R) : res (list R * list R) :=
  let mask := map (fun v => Rltb 0 v && Rltb v vmax) voltage in
  let* current := select mask current in
  let* voltage := select mask voltage in
  let* ce := pyget current (-1) in
  let* ve := pyget voltage (-1) in
  let b := (ce - ve)%R in
  let current := current ++ [(50 + b)%R] in
  let voltage := voltage ++ [50%R] in
  let* current := np_interp VINIT voltage current in
  Ok (VINIT, current).
Definition respfn_from_iv spline dspline (voltage current : list R) (vmax : R) (p : params) : res respfn :=
  let* (v, c) := import_iv voltage current vmax in
  respfn_init spline dspline v c p.

(** qmix/respfn.py:580-587 RespFnPolynomial.__init__ and 625-632
    RespFnExponential.__init__.  (Real arithmetic: in float64, v ** p_order overflows at
    V = 35 for large orders.) *)
Definition respfn_polynomial spline dspline (p_order : nat) (p : params) : res respfn :=
  respfn_init spline dspline VINIT (map (fun v => polynomial v p_order) VINIT) p.
Definition respfn_exponential spline dspline (vgap rn rsg agap : R) (p : params) : res respfn :=
  let* current := mapM (fun v => exponential v vgap rn rsg agap "fixed"%string) VINIT in
  respfn_init spline dspline VINIT current p.

(** iv.perfect at a number. *)
Definition ideal_current (v : R) : R := match perfect_elt (FV v) with FV c => c | _ => 0%R end.
(** Lines 695-704 of qmix/respfn.py: the curve that RespFnPerfect hands to RespFn.__init__
    when smearing is asked for (that method smears it again). *)
Definition perfect_smeared (s : R) : res (list R) :=
  let tmp := repeat 0%R (List.length VINIT) in
  let* idx := argmin (map (fun v => Rabs (v - 1)) VINIT) in
  let* tmp := pyset tmp idx 1%R in
  let* v1 := pyget VINIT 1 in
  let* v0 := pyget VINIT 0 in
  let* g := gauss_conv tmp (s / (v1 - v0)) 3 in
  bcast Rplus g (map ideal_current VINIT).
(** qmix/respfn.py:665-708 RespFnPerfect.__init__; 100 is the default of max_kk. *)
Definition respfn_perfect spline dspline (p : params) : res respfn :=
  match v_smear p with
  | None =>
      let v := reflect VINIT in
      Ok {| rf_voltage := v; rf_current := reflect (map ideal_current VINIT);
            rf_current_kk := map (perfect_kk_elt 100) v;
            f_idc := ideal_current; f_ikk := perfect_kk_elt 100; f_didc := None; f_dikk := None |}
  | Some s =>
      let* current := perfect_smeared s in
      respfn_init spline dspline VINIT current p
  end.
