(** Model of what harmonic_balance and check_hb_error print (qmix/harmonic_balance.py).

    The calculation is the one of Model_HB.v; here it is written again with the messages
    at the places where the code prints them.  The two durations that are measured (of the
    first call of the tunnelling current, and of the whole run) are parameters. *)
From Coq Require Import List ZArith Bool Arith Reals String.
From Coquelicot Require Import Complex.
From Verif Require Import Base Round Model_QtCurrent Model_Circuit Model_HB Model_Misc Model_Print.
Import ListNotations.
Local Notation length := List.length.
Open Scope list_scope.
Open Scope Z_scope.

(** The messages. *)
Inductive msg :=
| Running | DoneAtOnce
| Tones (num_f num_p : nat) | Calls (n : nat) | MaxIt (n : Z)
| EstimatedTime | CallTime (t : R) | IterationTime (t : R) | MaxTime (t : R)
| ErrorAfter (iteration : Z)
| SignalError (f p : nat) (med max : xr) (percent : R)
| TargetMet | TargetMissed
| Progress (q n : nat) | Correcting
| SimTime (t : R) | Iterations (n : Z) | TimePerIteration (t : R)
| Checking | Checked (f p : nat) (max : xr) (pass : bool) | EmptyLine.

(** ** Their text *)
(** str of an integer *)
Definition show_z (n : Z) : string := (if n <? 0 then "-" else "") ++ digits (Z.to_nat (Z.abs n)).
(** {:9.3f} of a number, inf and nan; {:.2E} writes INF and NAN *)
Definition show_xr (show : R -> string) (w : nat) (capitals : bool) (x : xr) : string :=
  match x with Fin x => show x | Inf => pad_left w (if capitals then "INF" else "inf") | NaN => pad_left w (if capitals then "NAN" else "nan") end.
(** {:7.2f} s / {:6.2f} min / {:5.2f} hrs of lines 139-146, 215 and 220 *)
Definition show_time (t : R) : string :=
  fixed false 7 2 t ++ " s / " ++ fixed false 6 2 (t / 60) ++ " min / " ++ fixed false 5 2 (t / 3600) ++ " hrs".
(** The text of each message.  [show] is the conversion of a float with %s (progress bar). *)
Definition text (show : R -> string) (m : msg) : string :=
  match m with
  | Running => print "Running harmonic balance:"                                            (* line 71 *)
  | DoneAtOnce => print ("Done." ++ newline)                                                (* 88 *)
  | Tones f p => print (" - " ++ digits f ++ " tone(s) and " ++ digits p ++ " harmonic(s)") (* 120 *)
  | Calls n => print (" - " ++ digits n ++ " calls to the quasiparticle tunneling current (qtc) function per iteration")
  | MaxIt n => print (" - max. iterations: " ++ show_z n)                                   (* 123 *)
  | EstimatedTime => print "Estimated time:"                                                (* 137 *)
  | CallTime t => print (" - time per qtc call:  " ++ show_time t)
  | IterationTime t => print (" - time per iteration: " ++ show_time t)
  | MaxTime t => print (" - max sim time:       " ++ show_time t)
  | ErrorAfter n => print ("Error after " ++ show_z n ++ " iteration(s):")                  (* 153 *)
  | SignalError f p med max percent =>                                                      (* 156, 182 *)
      print (tab ++ "f:" ++ digits f ++ ", p:" ++ digits p ++ ",   med. rel. error: " ++ show_xr (fixed false 9 3) 9 false med ++
             ",   max. rel. error: " ++ show_xr (fixed false 9 3) 9 false max ++ ",   " ++ fixed false 5 1 percent ++ " % complete")
  | TargetMet => print "Done: Minimum error target was achieved."                           (* 187 *)
  | TargetMissed => print ("*** DID NOT ACHIEVE TARGET ERROR VALUE ***" ++ newline)         (* 192 *)
  | Progress q n =>                                                                         (* 334, 357 *)
      match progress_bar show (Z.of_nat q) (Z.of_nat n) "Calculating inverse Jacobian" "Complete" 2 20 with Ok s => s | Err _ => "" end
  | Correcting => print "Applying correction"                                               (* 199 *)
  | SimTime t => print (" - sim time:" ++ tab ++ tab ++ show_time t)                        (* 215 *)
  | Iterations n => print (" - " ++ show_z n ++ " iterations required")
  | TimePerIteration t => print (" - time per iteration:" ++ tab ++ show_time t)
  | Checking => print "Double-checking harmonic balance error:"                             (* 258 *)
  | Checked f p max pass =>                                                                 (* 275-276 *)
      print (tab ++ "f:" ++ digits f ++ "," ++ tab ++ "p:" ++ digits p ++ "," ++ tab ++ "max rel. error: " ++
             show_xr (sci false "E" 2) 0 true max ++ "," ++ tab ++ "Pass? " ++ (if pass then "Yes" else "No"))
  | EmptyLine => print ""                                                                   (* 278 *)
  end%string.

(** What is printed only if verbose. *)
Definition say (verbose : bool) (l : list msg) : list msg := if verbose then l else [].

(** ** np.median *)
Definition xleb (a b : xr) : bool := match a, b with Fin x, Fin y => Rleb x y | _, Inf => true | _, _ => false end.
Fixpoint xinsert (a : xr) (l : list xr) : list xr :=
  match l with [] => [a] | b :: l' => if xleb a b then a :: l else b :: xinsert a l' end.
Definition xsort (l : list xr) : list xr := fold_right xinsert [] l.
Definition is_nan (a : xr) : bool := match a with NaN => true | _ => false end.
(** The mean of two numbers. *)
Definition xmean (a b : xr) : xr := match a, b with Fin x, Fin y => Fin ((x + y) / 2) | NaN, _ | _, NaN => NaN | _, _ => Inf end.
(** The mean of the one or two elements in the middle; NaN if there is one. *)
Definition median (l : list xr) : xr :=
  if existsb is_nan l then NaN
  else let s := xsort l in let n := length l in xmean (nth ((n - 1) / 2) s NaN) (nth (n / 2) s NaN).

(** qmix/harmonic_balance.py:172-180: at most 99999.999. *)
Definition largest : R := (99999999 / 1000)%R.
Definition capped (a : xr) : xr := if xgt_r a largest then Fin largest else a.

Section Newton.
Variables num_n num_p npts : nat.
Variable qt : arr2 -> res arr2.
Variable inv : nat -> (nat -> nat -> R) -> option (nat -> nat -> R).
Variables vt zt : nat -> C.
Variables stop damp : R.
Variable max_it : Z.
Variable verbose : bool.
Variable call_time : R.

(** Lines 160-182: the line of signal k. *)
Definition signal_error (err vj : arr2) (k : nat) : msg :=
  let rel := map (rel_error err vj k) (seq 0 npts) in
  let good := filter (fun a => xlt_r a stop) rel in
  let (f, p) := k_to_fp k num_p in
  SignalError (Z.to_nat (Int_part f)) p (capped (median rel)) (capped (npmax rel)) (INR (length good) / INR npts * 100).

(** Lines 331-355: the columns of the Jacobian and the progress bar. *)
Fixpoint columns_p (vj : arr2) (qs : list nat) : list msg * res (list (arr2 * arr2)) :=
  match qs with
  | [] => ([], Ok [])
  | q :: qs' =>
    match (let* ij_re := qt (bump (RtoC 1) q vj) in
           let* ij_im := qt (bump Ci q vj) in
           Ok (residual vt zt ij_re (bump (RtoC 1) q vj), residual vt zt ij_im (bump Ci q vj))) with
    | Err e => (say verbose [Progress q num_n], Err e)
    | Ok x => let (out, r) := columns_p vj qs' in (say verbose [Progress q num_n] ++ out, let* l := r in Ok (x :: l))
    end
  end.
(** Lines 324-363 _inv_jacobian. *)
Definition inv_jacobian_p (err vj : arr2) : list msg * res (list (nat -> nat -> R)) :=
  let (out, r) := columns_p vj (seq 0 num_n) in
  match r with
  | Err e => (out, Err e)
  | Ok cols =>
    let jac := fun i a b =>
      match nth_error cols (b / 2) with
      | Some (e_re, e_im) => jac_entry err e_re e_im (a / 2) i (a mod 2) (b mod 2)
      | None => 0%R
      end in
    (out ++ say verbose [Progress num_n num_n],
     mapM (fun i => match inv (2 * num_n) (jac i) with Some m => Ok m | None => Err LinAlgError end) (seq 0 npts))
  end.

(** Lines 136-146. *)
Definition estimate : list msg :=
  [EstimatedTime; CallTime call_time; IterationTime (call_time * INR (num_n * 2 + 1)); MaxTime (call_time * INR (num_n * 2 + 1) * IZR max_it)].

(** Lines 131-207. *)
Fixpoint newton_p (its : list Z) (vj : arr2) (last : loop_out) : list msg * (arr2 * res loop_out) :=
  match its with
  | [] => ([], (vj, Ok last))
  | it :: its' =>
    match qt vj with
    | Err e => ([], (vj, Err e))
    | Ok ij =>
      let err := residual vt zt ij vj in
      let m := max_rel_error num_n npts err vj in
      let mask := finished_points num_n stop err vj in
      let out := say (verbose && (it =? 0)) estimate ++ say verbose (ErrorAfter it :: map (signal_error err vj) (seq 0 num_n)) in
      if xle_r m stop then (out ++ say verbose [TargetMet], (vj, Ok {| l_iter := it; l_mask := Some mask; l_why := Converged |}))
      else if xgt_r m stop && (it =? max_it) then (out ++ [TargetMissed], (vj, Ok {| l_iter := it; l_mask := Some mask; l_why := HitLimit |}))
      else
        let (bars, r) := inv_jacobian_p err vj in
        match r with
        | Err e => (out ++ bars, (vj, Err e))
        | Ok inv_js =>
          let (rest, x) := newton_p its' (update num_n damp inv_js err vj) {| l_iter := it; l_mask := Some mask; l_why := RanOut |} in
          (out ++ bars ++ say verbose [Correcting] ++ rest, x)
        end
    end
  end.
End Newton.

(** qmix/harmonic_balance.py:39-228 harmonic_balance, with its messages. *)
Definition harmonic_balance_p (J : nat -> R -> R) (inv : nat -> (nat -> nat -> R) -> option (nat -> nat -> R)) (verbose : bool) (call_time sim_time : R)
  (c : hcct) (resp : R -> C) (num_b : numb) (max_it : Z) (stop : R)
  (vj_initial : option arr3) (damp : R) (mode : string) (zj_guess : C) : list msg * hb_result :=
  let q := h_q c in
  let num_f := q_num_f q in
  let num_p := q_num_p q in
  let num_n := (num_f * num_p)%nat in
  let npts := q_npts q in
  let out := say verbose [Running] in
  if all_zero num_f num_p (h_zt c)
  then (out ++ say verbose [DoneAtOnce], {| r_cct := c; r_guess := vj_initial; r_ret := Ok (RetV (fun f p _ => h_vt c f p)) |})
  else if negb (h_wvt c)
  then (out, {| r_cct := c; r_guess := vj_initial; r_ret := Err ValueError |})
  else
  let vt := clamp_vt (h_vt c) in
  let c' := {| h_q := q; h_vt := vt; h_zt := h_zt c; h_wvt := h_wvt c |} in
  match (match vj_initial with Some a => Some a | None => default_guess q vt (h_zt c) zj_guess end) with
  | None => (out, {| r_cct := c'; r_guess := vj_initial; r_ret := Err NotModelled |})
  | Some guess =>
  let out := out ++ say verbose [Tones num_f num_p; Calls (num_n * 2 + 1); MaxIt max_it] in
  match interpolate_respfn q resp num_b with
  | Err e => (out, {| r_cct := c'; r_guess := vj_initial; r_ret := Err e |})
  | Ok rm =>
    let '(lines, (vj, r)) := newton_p num_n num_p npts (qt_current_for_hb J q resp num_b (Some rm)) inv
                      (flat2 num_p vt) (flat2 num_p (h_zt c)) stop damp max_it verbose call_time
                      (zrange 0 (max_it + 1)) (flat3 num_p guess) {| l_iter := 0; l_mask := None; l_why := RanOut |} in
    let guess_after := match vj_initial with
                       | Some a => Some (if is_view num_f num_p then write_back num_p a vj else a)
                       | None => None end in
    let vj_out := unflat num_p vj in
    let ret :=
      let* o := r in
      if (mode =? "o")%string then Ok (RetV vj_out)
      else if (mode =? "x")%string then Ok (RetX vj_out (l_iter o) (negb (l_iter o =? max_it)))
      else if (mode =? "m")%string then
        match l_mask o with Some m => Ok (RetM vj_out m) | None => Err NameError end
      else Ok RetNone in
    let closing := match r with
                   | Ok o => say verbose (SimTime sim_time :: (if (1 <=? l_iter o) then [Iterations (l_iter o); TimePerIteration (sim_time / IZR (l_iter o))] else []))
                   | Err _ => [] end in
    (out ++ lines ++ closing, {| r_cct := c'; r_guess := guess_after; r_ret := ret |})
  end end.

(** qmix/harmonic_balance.py:237-278 check_hb_error, with its messages: one line for each signal,
    until the first that fails. *)
Fixpoint check_signals (max : nat -> nat -> xr) (stop : R) (l : list (nat * nat)) : list msg * res unit :=
  match l with
  | [] => ([], Ok tt)
  | (f, p) :: l' =>
    let good := xlt_r (max f p) stop in
    if good then let (out, r) := check_signals max stop l' in (Checked f p (max f p) good :: out, r)
    else ([Checked f p (max f p) good], Err AssertionError)
  end.
Definition check_hb_error_p (J : nat -> R -> R) (vj : arr3) (c : hcct) (resp : R -> C) (num_b : numb) (stop : R) : list msg * res unit :=
  let q := h_q c in
  match qtcurrent_all_freq J vj q resp num_b with
  | Err e => ([Checking], Err e)
  | Ok ij =>
    let max := fun f p =>
      let err := fun i => Cminus (Cminus (h_vt c f p) (Cmult (h_zt c f p) (ij f p i))) (vj f p i) in
      npmax (map (fun i => xdiv (Cmod (err i)) (Cmod (vj f p i))) (seq 0 (q_npts q))) in
    let (out, r) := check_signals max stop (list_prod (seq 1 (q_num_f q)) (seq 1 (q_num_p q))) in
    (Checking :: out ++ match r with Ok _ => [EmptyLine] | Err _ => [] end, r)
  end.
