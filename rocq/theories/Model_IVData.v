(** Model of qmix/exp/iv_data.py.  Loading works on floating-point values (Float.v), the
    analysis on exact reals.  SciPy's minimize and savgol_filter are arbitrary functions.
    Plots and warnings are not modelled, nor that arrays are changed in place (all are local
    to the functions). *)
From Coq Require Import List ZArith Bool Arith Reals String.
From Verif Require Import Base Model_QtCurrent Float NumPy Model_MathFn Model_CleanData Model_RespFn.
Import ListNotations.
Open Scope Z_scope.
Local Notation length := List.length.

(** ** Loading *)
(** ndarray.argmin() and argmax(): position of the first NaN, or of the first smallest or
    largest value.  best is the value at pos, next the position of the head. *)
Fixpoint fargmin_from (best : fl) (pos next : nat) (l : list fl) : nat :=
  match l with
  | [] => pos
  | a :: l' => if negb (fisnan best) && (fisnan a || flt a best) then fargmin_from a next (S next) l'
               else fargmin_from best pos (S next) l'
  end.
Definition fargmin (l : list fl) : res nat :=
  match l with [] => Err ValueError | a :: l' => Ok (fargmin_from a 0 1 l') end.
Fixpoint fargmax_from (best : fl) (pos next : nat) (l : list fl) : nat :=
  match l with
  | [] => pos
  | a :: l' => if negb (fisnan best) && (fisnan a || flt best a) then fargmax_from a next (S next) l'
               else fargmax_from best pos (S next) l'
  end.
Definition fargmax (l : list fl) : res nat :=
  match l with [] => Err ValueError | a :: l' => Ok (fargmax_from a 0 1 l') end.

(** l[a:b] for natural numbers. *)
Definition segment {A} (l : list A) (a b : nat) : list A := pyslice l (Some (Z.of_nat a)) (Some (Z.of_nat b)).

(** qmix/exp/iv_data.py:450-491 _take_one_pass *)
Definition take_one_pass (v i : list fl) : res (list fl * list fl) :=
  let* idx_min := fargmin v in
  let* idx_max := fargmax v in
  if ((idx_min =? 0) && (Z.of_nat idx_max =? Z.of_nat (length i) - 1)%Z)%nat then Ok (v, i)
  else if ((idx_max =? 0) && (Z.of_nat idx_min =? Z.of_nat (length i) - 1)%Z)%nat then Ok (rev v, rev i)
  else
    let* v0 := pyget v 0 in
    if (idx_max <? idx_min)%nat then
      let* k := fargmin (map (fun a => fabs (fsub a v0)) (segment v idx_max (idx_min + 1))) in
      let idx_start := (k + idx_max)%nat in
      Ok (rev (segment v idx_start (idx_min + 1)) ++ segment v 0 (idx_max + 1),
          rev (segment i idx_start (idx_min + 1)) ++ segment i 0 (idx_max + 1))
    else
      let* k := fargmin (map (fun a => fabs (fsub a v0)) (segment v idx_min (idx_max + 1))) in
      let idx_start := (k + idx_min)%nat in
      Ok (rev (segment v 0 (idx_min + 1)) ++ segment v idx_start (idx_max + 1),
          rev (segment i 0 (idx_min + 1)) ++ segment i idx_start (idx_max + 1)).

(** Lines 35-36 of qmix/exp/iv_data.py: _vfmt_dict and _ifmt_dict *)
Definition vfmt (u : string) : res R :=
  if String.eqb u "uV" then Ok (1 / 10 ^ 6)%R else if String.eqb u "mV" then Ok (1 / 10 ^ 3)%R
  else if String.eqb u "V" then Ok 1%R else Err KeyError.
Definition ifmt (u : string) : res R :=
  if String.eqb u "uA" then Ok (1 / 10 ^ 6)%R else if String.eqb u "mA" then Ok (1 / 10 ^ 3)%R
  else if String.eqb u "A" then Ok 1%R else Err KeyError.

(** qmix/exp/iv_data.py:331-368 _load_iv for a 2-D array (any other value fails an
    assertion). *)
Definition load_iv (argsort : list fl -> list nat) (ivdata : matrix) (v_fmt i_fmt : string)
  : res (list fl * list fl) :=
  let* _ := guard (ncols ivdata =? 2)%nat AssertionError in
  let* vraw := column ivdata 0 in
  let* iraw := column ivdata 1 in
  let* uv := vfmt v_fmt in
  let* ui := ifmt i_fmt in
  let v := map (fun a => fmul a (FV uv)) vraw in
  let i := map (fun a => fmul a (FV ui)) iraw in
  let* (v, i) := remove_nans_xy v i in
  let* (v, i) := take_one_pass v i in
  let* (v, i) := sort_xy argsort v i in
  remove_doubles_xy v i true.

(** ** Series resistance *)
(** qmix/exp/iv_data.py:694-724 _correct_series_resistance.  (Zero currents count as +0.) *)
Definition correct_series_resistance (vmeas imeas : list R) (rseries : option R) : res (list fl * list fl) :=
  match rseries with
  | None => Ok (map FV vmeas, map FV imeas)
  | Some rs =>
      let* rstatic := bcast fdiv (map FV vmeas) (map FV imeas) in
      let rstatic := map (fun r => if flt r (FV 0) then FV 0 else r) rstatic in
      let mask := map (fun r => negb (fisnan r)) rstatic in
      let rj := map (fun r => fsub r (FV rs)) rstatic in
      let* im := select mask (map FV imeas) in
      let* rm := select mask rj in
      let* v0 := bcast fmul im rm in
      Ok (v0, im)
  end.

(** ** Rotation *)
(** qmix/exp/iv_data.py:439-445 _rotate *)
Definition rotate (x y : list R) (theta : R) : res (list R * list R) :=
  let* xo := bcast (fun a b => cos theta * a - sin theta * b)%R x y in
  let* yo := bcast (fun a b => sin theta * a + cos theta * b)%R x y in
  Ok (xo, yo).

(** ** Fits *)
(** np.polyfit(x, y, 1): slope and intercept of the least-squares line, by the normal
    equations.  (Fewer than two different x values are not modelled: NumPy warns and returns
    one of many solutions.) *)
Definition rsum (l : list R) : R := fold_right Rplus 0%R l.
Definition polyfit1 (x y : list R) : res (R * R) :=
  let* _ := guard (negb (length x =? 0)%nat) TypeError in
  let* _ := guard (length x =? length y)%nat TypeError in
  let n := INR (length x) in
  let sx := rsum x in let sy := rsum y in
  let sxx := rsum (map (fun a => a * a)%R x) in
  let sxy := rsum (zipwith Rmult x y) in
  let det := (n * sxx - sx * sx)%R in
  let* _ := guard (negb (Reqb det 0)) NotModelled in
  let a := ((n * sxy - sx * sy) / det)%R in
  Ok (a, ((sy - a * sx) / n)%R).
(** The samples with lo < v < hi. *)
Definition window (lo hi : R) (v i : list R) : res (list R * list R) :=
  let mask := map (fun a => Rltb lo a && Rltb a hi) v in
  let* v' := select mask v in
  let* i' := select mask i in
  Ok (v', i').
(** A quotient of NumPy numbers; division by zero is not modelled. *)
Definition quot (a b : R) : res R := if Reqb b 0 then Err NotModelled else Ok (a / b)%R.

(** qmix/exp/iv_data.py:574-605 _find_normal_resistance *)
Definition find_normal_resistance (volt_v curr_a : list R) (vrn : R * R) : res (R * R) :=
  let* (v, i) := window (fst vrn) (snd vrn) volt_v curr_a in
  let* p := polyfit1 v i in
  let rn_slope := fst p in
  let* r_normal := quot 1 rn_slope in
  let* v_intercept := quot (- snd p) rn_slope in
  Ok (r_normal, v_intercept).
(** qmix/exp/iv_data.py:668-691 _find_subgap_resistance *)
Definition find_subgap_resistance (volt_v curr_a : list R) (vrsg : R) : res R :=
  let* (v, i) := window (vrsg - 1 / 10 ^ 4) (vrsg + 1 / 10 ^ 4) volt_v curr_a in
  let* p := polyfit1 v i in
  quot 1 (fst p).
(** Position of the first largest value. *)
Fixpoint argmax_from (best : R) (pos next : Z) (l : list R) : Z :=
  match l with
  | [] => pos
  | a :: l' => if Rltb best a then argmax_from a next (next + 1) l' else argmax_from best pos (next + 1) l'
  end.
Definition argmax (l : list R) : res Z :=
  match l with [] => Err ValueError | a :: l' => Ok (argmax_from a 0 1 l') end.
(** qmix/exp/iv_data.py:608-665 _find_gap_voltage *)
Definition find_gap_voltage (volt_v curr_a : list R) (vrn : R * R) : res R :=
  let* (vtmp, itmp) := window (fst vrn) (snd vrn) volt_v curr_a in
  let* prn := polyfit1 vtmp itmp in
  let* v1 := pyget volt_v 1 in
  let* v0 := pyget volt_v 0 in
  let vstep := (v1 - v0)%R in
  let mask := map (fun a => Rltb (2 / 10 ^ 3) a) volt_v in
  let* vm := select mask volt_v in
  let* im := select mask curr_a in
  let* der := slope vm im in
  let* der := reals der in
  let* sigma := quot (2 / 10 ^ 4) vstep in
  let* der := gauss_conv der sigma 3 in
  let* k := argmax der in
  let* vgap := pyget vm k in
  let* (vtmp, itmp) := window (vgap - 1 / 10 ^ 5) (vgap + 1 / 10 ^ 5) volt_v curr_a in
  let* pgap := polyfit1 vtmp itmp in
  let* vcorner := quot (snd pgap - snd prn) (fst prn - fst pgap) in
  let icorner := (fst pgap * vcorner + snd pgap)%R in
  let igap := (icorner / 2)%R in
  quot (igap - snd pgap) (fst pgap).

(** ** Offsets *)
(** voffset_range: a number or a sequence of two. *)
Inductive vrange := Width (r : R) | Limits (lo hi : R).
Definition limits (r : vrange) : R * R := match r with Width r => (- r, r)%R | Limits lo hi => (lo, hi) end.
(** Smallest value. *)
Definition rmin (l : list R) : res R :=
  match l with [] => Err ValueError | a :: l' => Ok (fold_left Rmin l' a) end.
Definition or_else {A} (o : option A) (d : A) : A := match o with Some a => a | None => d end.

Section Oracles.
(** scipy.optimize.minimize(model, x0=x0).x *)
Variable minimize : (R * R -> R) -> R * R -> R * R.
(** scipy.signal.savgol_filter *)
Variable savgol : list R -> Z -> Z -> list R.

(** Lines 543-553 of qmix/exp/iv_data.py: the function that is minimized. *)
Definition offset_model (v i : list R) (lo hi : R) (offset : R * R) : R :=
  let vv1 := map (fun a => a - fst offset)%R v in
  let ii1 := map (fun a => a - snd offset)%R i in
  let vv2 := map Ropp (rev vv1) in
  let ii2 := map Ropp (rev ii1) in
  let xx := linspace (lo / 2) (hi / 2) 101 in
  rsum (map (fun x => Rabs (np_interp1 vv1 ii1 x - np_interp1 vv2 ii2 x)) xx).

(** qmix/exp/iv_data.py:494-571 _correct_offset.  (If no sample lies in the range, np.interp
    fails inside minimize.) *)
Definition correct_offset (volt_v curr_a : list R) (voffset ioffset : option R) (range : vrange)
  : res (list R * list R * (R * R)) :=
  let '(lo, hi) := limits range in
  let* vmin := rmin volt_v in
  let* vmax := amax volt_v in
  let bipolar := Rltb vmin lo && Rltb hi vmax in
  if negb bipolar then
    let vo := or_else voffset 0%R in
    let io := or_else ioffset 0%R in
    Ok (map (fun a => a - vo)%R volt_v, map (fun a => a - io)%R curr_a, (vo, io))
  else
    let mask := map (fun a => Rleb lo a && Rleb a hi) volt_v in
    let* vr := select mask volt_v in
    let* ir := select mask curr_a in
    let* _ := guard (negb (length vr =? 0)%nat) ValueError in
    let vo := or_else voffset 0%R in
    let io := or_else ioffset (rsum ir / INR (length ir))%R in
    let '(vo, io) := minimize (offset_model vr ir lo hi) (vo, io) in
    Ok (map (fun a => a - vo)%R volt_v, map (fun a => a - io)%R curr_a, (vo, io)).

(** ** Filter *)
(** qmix/exp/iv_data.py:373-436 _filter_iv_data.  (np.interp is modelled for increasing
    sample points only; a largest voltage or current of 0 is not modelled.) *)
Definition filter_iv_data (volt_v curr_a : list R) (filter_data : bool) (nwind npoly : Z) (theta : R) (npts : nat)
  : res (list R * list R) :=
  if negb filter_data then Ok (volt_v, curr_a)
  else
    let* vmax := amax volt_v in
    let* imax := amax curr_a in
    let* _ := guard (negb (Reqb vmax 0) && negb (Reqb imax 0)) NotModelled in
    let* (x, y) := rotate (map (fun a => a / vmax)%R volt_v) (map (fun a => a / imax)%R curr_a) (- theta) in
    let* lo := rmin x in
    let* hi := amax x in
    let xr := linspace lo hi npts in
    let* yr := np_interp xr x y in
    let yf := savgol yr nwind npoly in
    let* (x, y) := rotate xr yf theta in
    let* lo := rmin x in
    let* hi := amax x in
    let xt := linspace lo hi npts in
    let* y := np_interp xt x y in
    Ok (map (fun a => a * vmax)%R xt, map (fun a => a * imax)%R y).

(** ** Import *)
(** The keyword arguments that matter. *)
Record ivparams := {
  p_v_fmt : string; p_i_fmt : string; p_vmax : R; p_npts : nat;
  p_voffset : option R; p_ioffset : option R; p_voffset_range : vrange;
  p_rseries : option R; p_i_multiplier : R; p_v_multiplier : R;
  p_filter_data : bool; p_filter_theta : R; p_filter_nwind : Z; p_filter_npoly : Z;
  p_vgap : option R; p_vrn : R * R; p_vrsg : R }.
(** Elementary charge and Planck constant (scipy.constants). *)
Definition sc_e : R := 1602176634 / 10 ^ 28.
Definition sc_h : R := 662607015 / 10 ^ 42.
(** qmix/exp/iv_data.py:40-66 DCIVData *)
Record dcivdata := {
  dc_vraw : list R; dc_iraw : list R; dc_vnorm : list R; dc_inorm : list R;
  dc_vgap : R; dc_igap : R; dc_fgap : R; dc_rn : R; dc_rsg : R; dc_offset : R * R;
  dc_vint : R; dc_rseries : option R }.

(** Lines 130-144 and 271-282 of qmix/exp/iv_data.py: the loaded data with the multipliers. *)
Definition loaded (argsort : list fl -> list nat) (ivdata : matrix) (p : ivparams) : res (list R * list R) :=
  let* (v, i) := load_iv argsort ivdata (p_v_fmt p) (p_i_fmt p) in
  let* v := reals v in
  let* i := reals i in
  Ok (map (fun a => a * p_v_multiplier p)%R v, map (fun a => a * p_i_multiplier p)%R i).
(** Lines 159-174 and 299-308 of qmix/exp/iv_data.py: filter and series resistance; the
    filtered data and the corrected data. *)
Definition processed (p : ivparams) (v i : list R) : res (list R * list R * (list R * list R)) :=
  let* (v, i) := filter_iv_data v i (p_filter_data p) (p_filter_nwind p) (p_filter_npoly p) (p_filter_theta p) (p_npts p) in
  let* (v', i') := correct_series_resistance v i (p_rseries p) in
  let* v' := reals v' in
  let* i' := reals i' in
  Ok (v, i, (v', i')).

(** qmix/exp/iv_data.py:69-218 dciv_curve.  (Samples that are infinite or not a number after
    the series resistance is removed are not modelled.) *)
Definition dciv_curve (argsort : list fl -> list nat) (ivdata : matrix) (p : ivparams)
  : res (list R * list R * dcivdata) :=
  let* (v, i) := loaded argsort ivdata p in
  let* o := correct_offset v i (p_voffset p) (p_ioffset p) (p_voffset_range p) in
  let '(v, i, offset) := o in
  let* q := processed p v i in
  let '(vraw, iraw, (v, i)) := q in
  let* vgap := match p_vgap p with Some g => Ok g | None => find_gap_voltage v i (p_vrn p) end in
  let* r := find_normal_resistance v i (p_vrn p) in
  let '(rn, vint) := r in
  let* rsg := find_subgap_resistance v i (p_vrsg p) in
  let fgap := (sc_e * vgap / sc_h)%R in
  let* igap := quot vgap rn in
  let* _ := guard (negb (Reqb vgap 0)) NotModelled in
  let voltage := map (fun a => a / vgap)%R v in
  let current := map (fun a => a / igap)%R i in
  let v_temp := map (fun a => a / vgap)%R (linspace (- p_vmax p) (p_vmax p) (p_npts p)) in
  let* current := np_interp v_temp voltage current in
  Ok (v_temp, current,
      {| dc_vraw := vraw; dc_iraw := iraw; dc_vnorm := v_temp; dc_inorm := current;
         dc_vgap := vgap; dc_igap := igap; dc_fgap := fgap; dc_rn := rn; dc_rsg := rsg; dc_offset := offset;
         dc_vint := vint; dc_rseries := p_rseries p |}).

(** np.interp(x, xp, fp, left=0, right=0) *)
Definition np_interp_zero (x xp fp : list R) : res (list R) :=
  let* _ := np_interp x xp fp in
  Ok (map (fun a => if Rltb a (nth 0 xp 0) || Rltb (nth (length xp - 1) xp 0) a then 0 else np_interp1 xp fp a)%R x).

(** qmix/exp/iv_data.py:221-326 iv_curve *)
Definition iv_curve (argsort : list fl -> list nat) (ivdata : matrix) (dc : dcivdata) (p : ivparams)
  : res (list R * list R) :=
  let* (v, i) := loaded argsort ivdata p in
  let '(vo, io) := match p_voffset p, p_ioffset p with
                   | Some vo, Some io => (vo, io)
                   | _, _ => dc_offset dc
                   end in
  let v := map (fun a => a - vo)%R v in
  let i := map (fun a => a - io)%R i in
  let* q := processed p v i in
  let '(_, _, (v, i)) := q in
  let* _ := guard (negb (Reqb (dc_vgap dc) 0) && negb (Reqb (dc_igap dc) 0)) NotModelled in
  let voltage := map (fun a => a / dc_vgap dc)%R v in
  let current := map (fun a => a / dc_igap dc)%R i in
  let v_temp := map (fun a => a / dc_vgap dc)%R (linspace (- p_vmax p) (p_vmax p) (p_npts p)) in
  let* current := np_interp_zero v_temp voltage current in
  Ok (v_temp, current).
End Oracles.
