(** The decisions that qmix/qtcurrent.py takes on floating-point numbers: which mixing products
    a requested frequency selects, and the limits int((k - num_b) / p) of the convolution.
    Here these are computed in binary64 (rounding to nearest, ties to even, no overflow); the
    currents themselves stay exact, as in Model_QtCurrent.v. *)
From Coq Require Import List ZArith Bool Reals.
From Coquelicot Require Import Complex.
From Flocq Require Import Core.
From Verif Require Import Base Round Model_QtCurrent.
Import ListNotations.
Local Notation length := List.length.
Open Scope Z_scope.

(** The binary64 number nearest to x. *)
Definition rnd (x : R) : R := round radix2 (FLT_exp (-1074) 53) ZnearestE x.

(** qmix/qtcurrent.py:426-427 int(a / p) for integers: the quotient is a binary64 number. *)
Definition int_div (a p : Z) : Z := Ztrunc (rnd (IZR a / IZR p)).

(** A frequency is a Python float or a NumPy float64.  Python rounds to the decimal number
    nearest to the exact value, NumPy multiplies by 10000, rounds to an integer and divides. *)
Inductive fnum := PyFloat (x : R) | NpFloat (x : R).
Definition value (x : fnum) : R := match x with PyFloat x => x | NpFloat x => x end.
Definition py_round4 (x : R) : R := rnd (IZR (rint (x * 10000)) / 10000).
Definition np_round4 (x : R) : R := rnd (IZR (rint (rnd (x * 10000))) / 10000).
(** qmix/qtcurrent.py:90,465,542,636,760 round(x, ROUND_FREQ) *)
Definition round_f (x : fnum) : fnum := match x with PyFloat x => PyFloat (py_round4 x) | NpFloat x => NpFloat (np_round4 x) end.

(** Products and sums of frequencies, from the left: a * freq[1] + b * freq[2] + ... *)
Definition fmul (a : Z) (f : R) : R := rnd (IZR a * f).
Definition fadd (x y : R) : R := rnd (x + y).

(** qmix/qtcurrent.py:443-476 _current_1_tone. *)
Definition current_1_tone_f (freq_out : fnum) (ccc : carr) (freq : nat -> R) (rm : respmat) (num_p b1 : nat) : res vec :=
  let freq_out := round_f freq_out in
  foreach (harm_range num_p) (fun a cur =>
    if Reqb (np_round4 (fmul a (freq 1%nat))) (value freq_out) then
      let* c := current_coeff_1_tone a ccc rm b1 in Ok (vadd cur c)
    else Ok cur) vzero.
(** qmix/qtcurrent.py:519-554 _current_2_tones. *)
Definition current_2_tones_f (freq_out : fnum) (ccc : carr) (freq : nat -> R) (rm : respmat) (num_p b1 b2 : nat) : res vec :=
  let freq_out := round_f freq_out in
  foreach (harm_range num_p) (fun a cur =>
  foreach (harm_range num_p) (fun b cur =>
    if Reqb (np_round4 (fadd (fmul a (freq 1%nat)) (fmul b (freq 2%nat)))) (value freq_out) then
      let* c := current_coeff_2_tones a b ccc rm b1 b2 in Ok (vadd cur c)
    else Ok cur) cur) vzero.
(** qmix/qtcurrent.py:612-664 _current_3_tones. *)
Definition current_3_tones_f (freq_out : fnum) (ccc : carr) (freq : nat -> R) (rm : respmat) (num_p b1 b2 b3 : nat) : res vec :=
  let freq_out := round_f freq_out in
  foreach (harm_range num_p) (fun a cur =>
  foreach (harm_range num_p) (fun b cur =>
  foreach (harm_range num_p) (fun c cur =>
    if Reqb (np_round4 (fadd (fadd (fmul a (freq 1%nat)) (fmul b (freq 2%nat))) (fmul c (freq 3%nat)))) (value freq_out) then
      let* x := current_coeff_3_tones a b c ccc rm b1 b2 b3 in Ok (vadd cur x)
    else Ok cur) cur) cur) vzero.
(** qmix/qtcurrent.py:735-775 _current_4_tones. *)
Definition current_4_tones_f (freq_out : fnum) (ccc : carr) (freq : nat -> R) (rm : respmat) (num_p b1 b2 b3 b4 : nat) : res vec :=
  let freq_out := round_f freq_out in
  foreach (harm_range num_p) (fun a cur =>
  foreach (harm_range num_p) (fun b cur =>
  foreach (harm_range num_p) (fun c cur =>
  foreach (harm_range num_p) (fun d cur =>
    if Reqb (np_round4 (fadd (fadd (fadd (fmul a (freq 1%nat)) (fmul b (freq 2%nat))) (fmul c (freq 3%nat))) (fmul d (freq 4%nat)))) (value freq_out) then
      let* x := current_coeff_4_tones a b c d ccc rm b1 b2 b3 b4 in Ok (vadd cur x)
    else Ok cur) cur) cur) cur) vzero.
(** qmix/qtcurrent.py:119-130 *)
Definition current_n_tones_f (num_f : nat) (freq_out : fnum) (ccc : carr) (freq : nat -> R) (rm : respmat) (num_p : nat) (nb : list nat) : res vec :=
  match num_f with
  | 1%nat => match nb with [b1] => current_1_tone_f freq_out ccc freq rm num_p b1 | _ => Err TypeError end
  | 2%nat => match nb with [b1; b2] => current_2_tones_f freq_out ccc freq rm num_p b1 b2 | _ => Err TypeError end
  | 3%nat => match nb with [b1; b2; b3] => current_3_tones_f freq_out ccc freq rm num_p b1 b2 b3 | _ => Err TypeError end
  | 4%nat => match nb with [b1; b2; b3; b4] => current_4_tones_f freq_out ccc freq rm num_p b1 b2 b3 b4 | _ => Err TypeError end
  | _ => Ok vzero
  end.

(** qmix/qtcurrent.py:422-430 *)
Definition conv_pass_f (jac : jarr) (nb : nat) (p : Z) (ckh_last : nat -> nat -> vec) : res (nat -> nat -> vec) :=
  let b := Z.of_nat nb in
  foreach (zrange (- b) (b + 1)) (fun k ckh_next =>
    let l_min := Z.max (- b) (int_div (k - b) p) in
    let l_max := Z.min b (int_div (k + b) p) in
    foreach (zrange l_min (l_max + 1)) (fun l ckh_next =>
      let* jk := nbidx (j_nk jac) k in
      let* jkl := nbidx (j_nk jac) (k - p * l) in
      let* jp := nbidx (j_np jac) p in
      let* jl := nbidx (j_nk jac) l in
      Ok (fun f j => if ((1 <=? f) && (j =? jk))%nat
                     then fun i => Cplus (ckh_next f jk i) (Cmult (ckh_last f jkl i) (j_at jac f jp jl i))
                     else ckh_next f j)) ckh_next)
    (fun _ _ => vzero).
(** qmix/qtcurrent.py:392-432 _convolve_coefficients. *)
Definition convolve_coefficients_f (jac : jarr) : res carr :=
  let num_p := (j_np jac - 1)%nat in
  let nb := ((j_nk jac - 1) / 2)%nat in
  let* jp1 := nbidx (j_np jac) 1 in
  let ckh_last := fun f => j_at jac f jp1 in
  if (num_p =? 1)%nat
  then Ok {| c_nf := j_nf jac; c_nk := j_nk jac; c_at := ckh_last |}
  else
    let* ckh := foreach (zrange 2 (Z.of_nat num_p + 1)) (fun p last => conv_pass_f jac nb p last) ckh_last in
    Ok {| c_nf := j_nf jac; c_nk := j_nk jac; c_at := ckh |}.

(** The requested frequencies: a list of floats of either kind, or one number, which line 85
    converts to a Python float. *)
Inductive freq_arg_f := SList (l : list fnum) | SScalar (x : R).

Section QT.
Variable J : nat -> R -> R.
(** qmix/qtcurrent.py:329-389 calculate_phase_factor_coeff. *)
Definition calculate_phase_factor_coeff_f (vj : nat -> nat -> vec) (freq : nat -> R) (num_f num_p : nat) (num_b : numb) : res carr :=
  let nbt := match num_b with NbInt n => repeat n num_f | NbTuple l => l end in
  let* _ := guard (negb (length nbt =? 0)%nat) ValueError in
  let* jac := build_jac J vj freq num_f num_p nbt in
  convolve_coefficients_f jac.

(** qmix/qtcurrent.py:37-144 qtcurrent. *)
Definition qtcurrent_f (vj : nat -> nat -> vec) (cct : qcct) (resp : R -> C) (freq_list : freq_arg_f)
  (num_b : numb) (resp_matrix : option respmat) : res qt_out :=
  let num_f := q_num_f cct in
  let num_p := q_num_p cct in
  let npts := q_npts cct in
  let* _ := guard (forallb (fun f => Rltb 0 (q_freq cct f)) (seq 1 num_f)) AssertionError in
  let fl := match freq_list with SList l => l | SScalar x => [PyFloat x] end in
  let fl := map round_f fl in
  let* nb_list := unpack_num_b num_b num_f in
  let* ccc := calculate_phase_factor_coeff_f vj (q_freq cct) num_f num_p num_b in
  let* rm := match resp_matrix with
             | None => interpolate_respfn cct resp num_b
             | Some rm =>
               let* _ := guard (length (rm_shape rm) + 1 =? num_f + 1)%nat AssertionError in
               let* _ := guard (rm_npts rm =? npts)%nat AssertionError in
               Ok rm
             end in
  let* rows := mapM (fun w => current_n_tones_f num_f w ccc (q_freq cct) rm num_p nb_list) fl in
  let rows := map (tab npts) rows in
  match freq_list with
  | SList _ => Ok (QRows rows)
  | SScalar _ =>
    match rows, fl with
    | [row], [w] => if Reqb (value w) 0 then Ok (QReal (map Re row)) else Ok (QRow row)
    | _, _ => Err IndexError
    end
  end.
End QT.
