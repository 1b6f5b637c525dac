(** qmix/harmonic_balance.py with the selection of the mixing products in binary64, as in
    Model_QtFloat.v.  The frequencies it asks for are NumPy floats.  All other numbers are exact,
    as in Model_HB.v. *)
From Coq Require Import List ZArith Bool Arith String Reals.
From Coquelicot Require Import Complex.
From Verif Require Import Base Round Model_QtCurrent Model_Circuit Model_HB Model_QtFloat.
Import ListNotations.
Open Scope Z_scope.

Section Call.
Variable J : nat -> R -> R.
Variable inv : nat -> (nat -> nat -> R) -> option (nat -> nat -> R).

(** qmix/harmonic_balance.py:368-399 _qt_current_for_hb. *)
Definition qt_current_for_hb_f (q : qcct) (resp : R -> C) (num_b : numb) (rm : option respmat) (vj_2d : arr2) : res arr2 :=
  let freq_list := flat_map (fun f => List.map (fun p => round_f (NpFloat (fmul (Z.of_nat p) (q_freq q f)))) (seq 1 (q_num_p q))) (seq 1 (q_num_f q)) in
  let* out := qtcurrent_f J (unflat (q_num_p q) vj_2d) q resp (SList freq_list) num_b rm in
  match out with
  | QRows rows => Ok (fun k i => nth i (nth k rows []) (RtoC 0))
  | _ => Err TypeError
  end.

(** qmix/harmonic_balance.py:39-228 harmonic_balance. *)
Definition harmonic_balance_f (c : hcct) (resp : R -> C) (num_b : numb) (max_it : Z) (stop : R)
  (vj_initial : option arr3) (damp : R) (mode : string) (zj_guess : C) : hb_result :=
  let q := h_q c in
  let num_f := q_num_f q in
  let num_p := q_num_p q in
  let num_n := (num_f * num_p)%nat in
  let npts := q_npts q in
  if all_zero num_f num_p (h_zt c)
  then {| r_cct := c; r_guess := vj_initial; r_ret := Ok (RetV (fun f p _ => h_vt c f p)) |}
  else if negb (h_wvt c)
  then {| r_cct := c; r_guess := vj_initial; r_ret := Err ValueError |}
  else
  let vt := clamp_vt (h_vt c) in
  let c' := {| h_q := q; h_vt := vt; h_zt := h_zt c; h_wvt := h_wvt c |} in
  match (match vj_initial with Some a => Some a | None => default_guess q vt (h_zt c) zj_guess end) with
  | None => {| r_cct := c'; r_guess := vj_initial; r_ret := Err NotModelled |}
  | Some guess =>
  match interpolate_respfn q resp num_b with
  | Err e => {| r_cct := c'; r_guess := vj_initial; r_ret := Err e |}
  | Ok rm =>
    let '(vj, r) := run_newton num_n npts (qt_current_for_hb_f q resp num_b (Some rm)) inv
                      (flat2 num_p vt) (flat2 num_p (h_zt c)) stop damp max_it (flat3 num_p guess) in
    let guess_after := match vj_initial with
                       | Some a => Some (if is_view num_f num_p then write_back num_p a vj else a)
                       | None => None end in
    let vj_out := unflat num_p vj in
    let ret :=
      let* o := r in
      if (mode =? "o")%string then Ok (RetV vj_out)
      else if (mode =? "x")%string then Ok (RetX vj_out (l_iter o) (negb (l_iter o =? max_it)))
      else if (mode =? "m")%string then
        match l_mask o with Some m => Ok (RetM vj_out m) | None => Err NameError end
      else Ok RetNone in
    {| r_cct := c'; r_guess := guess_after; r_ret := ret |}
  end end.

(** qmix/harmonic_balance.py:281-314 _qtcurrent_all_freq. *)
Definition qtcurrent_all_freq_f (vj : arr3) (q : qcct) (resp : R -> C) (num_b : numb) : res arr3 :=
  let freq_list := flat_map (fun f => List.map (fun p => NpFloat (fmul (Z.of_nat p) (q_freq q f))) (seq 1 (q_num_p q))) (seq 1 (q_num_f q)) in
  let* out := qtcurrent_f J vj q resp (SList freq_list) num_b None in
  match out with
  | QRows rows => Ok (unflat (q_num_p q) (fun k i => nth i (nth k rows []) (RtoC 0)))
  | _ => Err TypeError
  end.

(** qmix/harmonic_balance.py:237-278 check_hb_error. *)
Definition check_hb_error_f (vj : arr3) (c : hcct) (resp : R -> C) (num_b : numb) (stop : R) : res unit :=
  let q := h_q c in
  let* ij := qtcurrent_all_freq_f vj q resp num_b in
  foreach (seq 1 (q_num_f q)) (fun f _ =>
  foreach (seq 1 (q_num_p q)) (fun p _ =>
    let err := fun i => Cminus (Cminus (h_vt c f p) (Cmult (h_zt c f p) (ij f p i))) (vj f p i) in
    let m := npmax (List.map (fun i => xdiv (Cmod (err i)) (Cmod (vj f p i))) (seq 0 (q_npts q))) in
    guard (xlt_r m stop) AssertionError) tt) tt.
End Call.
