(** Model of qmix/exp/if_data.py and qmix/exp/if_response.py.  Quotients that may be
    undefined are floating-point values (Float.v), everything else is real.  SciPy's
    savgol_filter is an arbitrary function.  What is printed is modelled in Model_ExpPrint.v. *)
From Coq Require Import List ZArith Bool Arith Reals String Ascii.
From Verif Require Import Base Model_QtCurrent Float NumPy Model_MathFn Model_CleanData Model_RespFn Model_IVData.
Import ListNotations.
Open Scope Z_scope.
Local Notation length := List.length.

(** ** Parameters *)
(** vshot: one range or several. *)
Inductive shot_ranges := One (lo hi : R) | Several (l : list (R * R)).
(** The keyword arguments that matter. *)
Record ifparams := {
  q_v_fmt : string; q_v_multiplier : R; q_sigma : option R; q_vmax : R; q_npts : nat; q_rseries : option R;
  q_vshot : option shot_ranges;
  q_freq : option R; q_t_hot : R; q_t_cold : R; q_vbest : option R; q_best_pt : string }.

(** ** Loading *)
(** Rows with the first column multiplied by u. *)
Definition scale_first (u : R) (m : matrix) : matrix :=
  {| ncols := ncols m; rows := map (fun r => [fmul (nth 0 r FNaN) (FV u); nth 1 r FNaN]) (rows m) |}.

(** Lines 419-429 of qmix/exp/if_data.py: the junction voltages for the measured voltages
    v.  (Static resistances that are infinite or not a number are not modelled.) *)
Definition if_series (v : list R) (dc : dcivdata) (rseries : option R) : res (list R) :=
  match rseries with
  | None => Ok v
  | Some rs =>
      let* rstatic := bcast fdiv (map FV (dc_vraw dc)) (map FV (dc_iraw dc)) in
      let rstatic := map (fun r => if flt r (FV 0) then FV 0 else r) rstatic in
      let* rstatic := reals rstatic in
      let* rstatic := np_interp v (dc_vraw dc) rstatic in
      let* iraw := np_interp v (dc_vraw dc) (dc_iraw dc) in
      let rj := map (fun r => r - rs)%R rstatic in
      bcast Rmult iraw rj
  end.

(** Lines 439-445 of qmix/exp/if_data.py: Gaussian smoothing. *)
Definition if_smooth (v p : list R) (vgap : R) (sigma : option R) : res (list R) :=
  match sigma with
  | None => Ok p
  | Some s =>
      let* v1 := pyget v 1 in
      let* v0 := pyget v 0 in
      let step := ((v1 - v0) * vgap)%R in
      let s := if Rltb (1 / 2) s then (s * step)%R else s in
      let* w := quot s step in
      gauss_conv p w 3
  end.

(** qmix/exp/if_data.py:367-447 _load_if for a 2-D array.  (np.interp is modelled for
    increasing voltages only.) *)
Definition load_if (argsort : list fl -> list nat) (ifdata : matrix) (dc : dcivdata) (q : ifparams)
  : res (list R * list R) :=
  let* _ := guard (ncols ifdata =? 2)%nat AssertionError in
  let* u := vfmt (q_v_fmt q) in
  let* m := remove_nans_matrix (scale_first u ifdata) in
  let* m := sort_matrix argsort m 0 in
  let* m := remove_doubles_matrix m 0 true in
  let* v := column m 0 in
  let* p := column m 1 in
  let* v := reals v in
  let* p := reals p in
  let v := map (fun a => a * q_v_multiplier q)%R v in
  let v := map (fun a => a - fst (dc_offset dc))%R v in
  let* v := if_series v dc (q_rseries q) in
  let* _ := guard (negb (Reqb (dc_vgap dc) 0)) NotModelled in
  let v := map (fun a => a / dc_vgap dc)%R v in
  let* _ := guard (strictly_increasing v) NotModelled in
  let v_out := linspace 0 (q_vmax q / dc_vgap dc) (q_npts q) in
  let* p_out := np_interp_zero v_out v p in
  let* p_out := if_smooth v_out p_out (dc_vgap dc) (q_sigma q) in
  Ok (v_out, p_out).

(** ** Shot noise *)
(** np.median *)
Fixpoint rinsert (a : R) (l : list R) : list R :=
  match l with [] => [a] | b :: l' => if Rleb a b then a :: l else b :: rinsert a l' end.
Definition median (l : list R) : R :=
  let s := fold_right rinsert [] l in
  let n := length l in
  if Nat.even n then ((nth (n / 2 - 1) s 0 + nth (n / 2) s 0) / 2)%R else nth (n / 2) s 0%R.

(** scipy.stats.linregress: slope and intercept.  (Data with a single x are not modelled.) *)
Definition linregress (x y : list R) : res (R * R) :=
  let* _ := guard (negb (length x =? 0)%nat) ValueError in
  polyfit1 x y.

Section Oracle.
(** scipy.signal.savgol_filter *)
Variable savgol : list R -> Z -> Z -> list R.

(** Lines 289-308 of qmix/exp/if_data.py: the samples that are used if no range is given.
    (The median of no values is NaN, with which no comparison holds.) *)
Definition auto_mask (x y : list R) : res (list bool) :=
  let y_filt := savgol y 21 3 in
  let* d := slope_span_n x y_filt 11 true in
  let* d := reals d in
  let first_der := savgol d 51 3 in
  let* d := slope_span_n x first_der 11 true in
  let* d := reals d in
  let second_der := savgol (map Rabs d) 51 3 in
  let* top := amax (map Rabs second_der) in
  let condition1 := (top * (1 / 10 ^ 2))%R in
  let* mask := bcast (fun a s => Rltb (17 / 10) a && Rltb (Rabs s) condition1) x second_der in
  let* sel := select mask first_der in
  let* mask := match sel with
               | [] => Ok (map (fun _ => false) mask)
               | _ => bcast (fun b d => b && (Rltb 0 d && Rltb d (median sel * 2))) mask first_der
               end in
  let* both := bcast andb (pyslice mask None (Some (-1))) (pyslice mask (Some 1) None) in
  let* tmp := set_slice (repeat false (length mask)) None (Some (-1)) both in
  bcast andb mask tmp.
(** Lines 310-319 of qmix/exp/if_data.py: the samples within the given ranges. *)
Definition range_mask (x : list R) (vgap : R) (s : shot_ranges) : res (list bool) :=
  let* l := match s with
            | One lo hi => Ok [(lo, hi)]
            | Several [] => Err IndexError
            | Several l => Ok l
            end in
  Ok (map (fun a => existsb (fun r => Rltb (fst r) (a * vgap) && Rltb (a * vgap) (snd r)) l) x).
(** np.sum of a mask. *)
Definition count_true (mask : list bool) : nat := length (filter (fun b => b) mask).

(** qmix/exp/if_data.py:255-362 _find_if_noise *)
Definition find_if_noise (x y : list R) (dc : dcivdata) (vshot : option shot_ranges) : res (R * R * list R * bool) :=
  let* mask := match vshot with None => auto_mask x y | Some s => range_mask x (dc_vgap dc) s end in
  let mask := if (count_true mask <? 5)%nat then map (fun a => Rltb 2 a) x else mask in
  let* x_red := select mask x in
  let* y_red := select mask y in
  let* (slope, intercept) := linregress x_red y_red in
  let i_slope := map (fun a => slope * a + intercept)%R x in
  let* c := quot (58 / 10) slope in
  let corr := (c * dc_vgap dc * 10 ^ 3)%R in
  let i_slope := map (fun a => a * corr)%R i_slope in
  let* at_ := quot (dc_vint dc) (dc_vgap dc) in
  let* n := np_interp [at_] x i_slope in
  let if_noise := nth 0 n 0%R in
  Ok (if_noise, corr, i_slope, Rltb 0 if_noise && Rltb if_noise 50).

(** qmix/exp/if_data.py:36-48 DCIFData *)
Record dcifdata := { if_noise : R; if_corr : R; if_fit : bool; if_shot : list R * list R; if_vmax : R }.

(** qmix/exp/if_data.py:51-93 dcif_data *)
Definition dcif_data (argsort : list fl -> list nat) (ifdata : matrix) (dc : dcivdata) (q : ifparams)
  : res (list R * list R * dcifdata) :=
  let* (v, p) := load_if argsort ifdata dc q in
  let* r := find_if_noise v p dc (q_vshot q) in
  let '(noise, corr, i_slope, fit) := r in
  let p := map (fun a => a * corr)%R p in
  let* top := amax v in
  Ok (v, p, {| if_noise := noise; if_corr := corr; if_fit := fit; if_shot := (v, i_slope); if_vmax := (top * dc_vgap dc)%R |}).

(** ** Noise temperature *)
(** Boltzmann constant (scipy.constants). *)
Definition sc_k : R := 1380649 / 10 ^ 29.
(** qmix/exp/if_data.py:244-250 _temp_cw: Python floats, the tanh is NumPy's. *)
Definition temp_cw (freq tphys : R) : res fl :=
  let x := (sc_h * freq / 2 / sc_k)%R in
  let* _ := guard (negb (Reqb tphys 0)) ZeroDivisionError in
  Ok (fdiv (FV x) (FV (tanh (x / tphys)))).

(** str.lower() on ASCII letters.  (No other letter turns into one of those compared.) *)
Definition lower_char (c : ascii) : ascii :=
  let n := nat_of_ascii c in if ((65 <=? n) && (n <=? 90))%nat then ascii_of_nat (n + 32) else c.
Fixpoint lower (s : string) : string :=
  match s with EmptyString => EmptyString | String c s' => String (lower_char c) (lower s') end.

(** np.nanargmin *)
Definition nanargmin (l : list fl) : res nat :=
  let* k := fargmin (map (fun a => if fisnan a then FPInf else a) l) in
  let* _ := guard (existsb (fun a => negb (fisnan a)) l) ValueError in
  Ok k.

(** Lines 230-231 of qmix/exp/if_data.py: the Y factor. *)
Definition y_limit : R := 1 + 1 / 10 ^ 10.
Definition y_factor (h c : R) : fl :=
  let y := fdiv (FV h) (FV c) in if fle y (FV y_limit) then FV y_limit else y.

(** qmix/exp/if_data.py:169-241 _find_tn_gain.  (Voltages of different length are not
    modelled.) *)
Definition find_tn_gain (vnorm p_hot vcold p_cold : list R) (vgap : R) (q : ifparams) : res (list fl * list fl * nat) :=
  let* freq := match q_freq q with None => Err TypeError | Some f => Ok f end in
  let* t_hot := temp_cw (freq * 10 ^ 9) (q_t_hot q) in
  let* t_cold := temp_cw (freq * 10 ^ 9) (q_t_cold q) in
  let* _ := guard (length vnorm =? length vcold)%nat NotModelled in
  let* _ := guard (forallb (fun b => b) (zipwith Reqb vnorm vcold)) AssertionError in
  let* y := bcast y_factor p_hot p_cold in
  let tn := map (fun y => fdiv (fsub t_hot (fmul t_cold y)) (fsub y (FV 1))) y in
  let* gain := bcast (fun h c => fdiv (FV (h - c)) (fsub t_hot t_cold)) p_hot p_cold in
  let* idx := match q_vbest q with
              | Some vb => fargmin (map (fun a => FV (Rabs (a * vgap - vb))) vnorm)
              | None =>
                  if String.eqb (lower (q_best_pt q)) "max gain" then fargmax gain
                  else if String.eqb (lower (q_best_pt q)) "min tn" then
                    let* best := amin (filter (fun a => negb (fisnan a)) tn) in
                    nanargmin (map (fun a => fabs (fsub a best)) tn)
                  else Err ValueError
              end in
  Ok (tn, gain, idx).

(** qmix/exp/if_data.py:96-164 if_data.  The results are its columns. *)
Definition if_data (argsort : list fl -> list nat) (hot cold : matrix) (dc : dcivdata) (dcif : option dcifdata) (q : ifparams)
  : res ((list R * list R * list R * list fl * list fl) * nat * dcifdata) :=
  let* (vh, ph) := load_if argsort hot dc q in
  let* (vc, pc) := load_if argsort cold dc q in
  let* r := match dcif with
            | None =>
                let* v := bcast (fun a b => (a + b) / 2)%R vh vc in
                let* p := bcast (fun a b => (a + b) / 2)%R ph pc in
                let* r := find_if_noise v p dc (q_vshot q) in
                let '(noise, corr, i_slope, fit) := r in
                Ok (noise, corr, fit, (vc, i_slope))
            | Some d => Ok (if_noise d, if_corr d, if_fit d, if_shot d)
            end in
  let '(noise, corr, fit, shot) := r in
  let ph := map (fun a => a * corr)%R ph in
  let pc := map (fun a => a * corr)%R pc in
  let* t := find_tn_gain vh ph vc pc (dc_vgap dc) q in
  let '(tn, gain, idx) := t in
  let* top := amax vh in
  Ok (vh, ph, pc, tn, gain, idx,
      {| if_noise := noise; if_corr := corr; if_fit := fit; if_shot := shot; if_vmax := (top * dc_vgap dc)%R |}).
End Oracle.

(** ** IF response *)
(** qmix/exp/if_response.py:69-80 _db_to_lin *)
Definition db_to_lin (db : fl) : fl :=
  match db with
  | FV x => FV (Rpower 10 (x / 10)) | FPInf => FPInf | FNInf => FV 0 | FNaN => FNaN
  end.
(** Lines 53-61 of qmix/exp/if_response.py: the noise temperature at one frequency. *)
Definition response_tn (th tc maxtn : R) (ph pc : fl) : fl :=
  let y := fdiv (db_to_lin ph) (db_to_lin pc) in
  let y := if fle y (FV 1) then FV (1 + 1 / 10 ^ 6) else y in
  let tn := fdiv (fsub (FV th) (fmul (FV tc) y)) (fsub y (FV 1)) in
  if flt tn (FV 0) || flt (FV maxtn) tn then FV maxtn else tn.
(** qmix/exp/if_response.py:15-66 if_response for a 2-D array; the result is its rows. *)
Definition if_response (m : matrix) (th tc maxtn : R) : res (list fl * list fl * list fl * list fl) :=
  let col j := map (fun r => nth j r FNaN) (rows m) in
  let* (f, ph, pc) :=
    if (ncols m =? 3)%nat then Ok (col 0%nat, col 1%nat, col 2%nat)
    else match rows m with [a; b; c] => Ok (a, b, c) | _ => Err AssertionError end in
  let* tn := bcast (response_tn th tc maxtn) ph pc in
  Ok (f, tn, ph, pc).
