(** Rounding in the loops of qmix/qtcurrent.py.  The loops are those of Model_QtCurrent.v, the
    decisions those of Model_QtFloat.v; here all sums and products of the loops are rounded to
    53 bits (to nearest, ties to even; simplification: neither overflow nor underflow).  The
    Bessel functions, the phases and the response function are taken to be exact. *)
From Coq Require Import List ZArith Bool Reals.
From Coquelicot Require Import Complex.
From Flocq Require Import Core.
From Verif Require Import Base Round Model_QtCurrent Model_QtFloat.
Import ListNotations.
Local Notation length := List.length.
Open Scope Z_scope.

(** The number with 53 bits nearest to x: one component of the complex128 arrays that the
    functions of qmix/qtcurrent.py allocate (lines 117, 372, 466, 501, 586, 698, 813). *)
Definition rnd53 (x : R) : R := round radix2 (FLX_exp 53) ZnearestE x.
(** Sums and products of complex numbers, as compiled code and NumPy compute them in
    qmix/qtcurrent.py:393-440 and 443-857. *)
Definition cadd_r (z w : C) : C := (rnd53 (Re z + Re w), rnd53 (Im z + Im w)).
Definition cmul_r (z w : C) : C :=
  (rnd53 (rnd53 (Re z * Re w) - rnd53 (Im z * Im w)), rnd53 (rnd53 (Re z * Im w) + rnd53 (Im z * Re w))).
Definition vadd_r (u v : vec) : vec := fun i => cadd_r (u i) (v i).
Definition vmul_r (u v : vec) : vec := fun i => cmul_r (u i) (v i).
(** Lines 513-516, 606-609, 728-731, 852-855 of qmix/qtcurrent.py; the product with 1j and the
    difference of a real and an imaginary number are exact. *)
Definition combine_r (all_zero : bool) (rs_p rs_m : vec) : vec := fun i =>
  if all_zero then RtoC (Im (rs_p i))
  else (rnd53 (Im (rs_p i) + Im (rs_m i)), (- rnd53 (Re (rs_p i) - Re (rs_m i)))%R).

(** qmix/qtcurrent.py:479-516 _current_coeff_1_tone. *)
Definition current_coeff_1_tone_r (a : Z) (ccc : carr) (rm : respmat) (b1 : nat) : res vec :=
  let* (rs_p, rs_m) :=
    foreach (rng b1) (fun k '(rs_p, rs_m) =>
      let* rs_p :=
        if within b1 (k + a) then
          let* c1 := cc_get ccc 1 k in let* c1a := cc_get ccc 1 (k + a) in
          let* r := rm_get rm [k] in
          Ok (vadd_r rs_p (vmul_r (vmul_r c1 (vconj c1a)) r))
        else Ok rs_p in
      let* rs_m :=
        if within b1 (k - a) then
          let* c1 := cc_get ccc 1 k in let* c1a := cc_get ccc 1 (k - a) in
          let* r := rm_get rm [k] in
          Ok (vadd_r rs_m (vmul_r (vmul_r c1 (vconj c1a)) r))
        else Ok rs_m in
      Ok (rs_p, rs_m)) (vzero, vzero) in
  Ok (combine_r (a =? 0) rs_p rs_m).

(** qmix/qtcurrent.py:557-609 _current_coeff_2_tones. *)
Definition current_coeff_2_tones_r (a b : Z) (ccc : carr) (rm : respmat) (b1 b2 : nat) : res vec :=
  let* (rs_p, rs_m) :=
    foreach (rng b1) (fun k acc =>
    foreach (rng b2) (fun l '(rs_p, rs_m) =>
      let* rs_p :=
        if within b1 (k + a) && within b2 (l + b) then
          let* c1 := cc_get ccc 1 k in let* c1a := cc_get ccc 1 (k + a) in
          let* c2 := cc_get ccc 2 l in let* c2a := cc_get ccc 2 (l + b) in
          let* r := rm_get rm [k; l] in
          Ok (vadd_r rs_p (vmul_r (vmul_r (vmul_r (vmul_r c1 (vconj c1a)) c2) (vconj c2a)) r))
        else Ok rs_p in
      let* rs_m :=
        if within b1 (k - a) && within b2 (l - b) then
          let* c1 := cc_get ccc 1 k in let* c1a := cc_get ccc 1 (k - a) in
          let* c2 := cc_get ccc 2 l in let* c2a := cc_get ccc 2 (l - b) in
          let* r := rm_get rm [k; l] in
          Ok (vadd_r rs_m (vmul_r (vmul_r (vmul_r (vmul_r c1 (vconj c1a)) c2) (vconj c2a)) r))
        else Ok rs_m in
      Ok (rs_p, rs_m)) acc) (vzero, vzero) in
  Ok (combine_r ((a =? 0) && (b =? 0)) rs_p rs_m).

(** qmix/qtcurrent.py:667-731 _current_coeff_3_tones. *)
Definition current_coeff_3_tones_r (a b c : Z) (ccc : carr) (rm : respmat) (b1 b2 b3 : nat) : res vec :=
  let* (rs_p, rs_m) :=
    foreach (rng b1) (fun k acc =>
    foreach (rng b2) (fun l acc =>
    foreach (rng b3) (fun m '(rs_p, rs_m) =>
      let* c1 := cc_get ccc 1 k in let* c2 := cc_get ccc 2 l in let* c3 := cc_get ccc 3 m in
      let c0 := vmul_r (vmul_r c1 c2) c3 in
      let* resp_current := rm_get rm [k; l; m] in
      let* rs_p :=
        if within b1 (k + a) && within b2 (l + b) && within b3 (m + c) then
          let* c1a := cc_get ccc 1 (k + a) in let* c2a := cc_get ccc 2 (l + b) in
          let* c3a := cc_get ccc 3 (m + c) in
          let cp := vmul_r (vconj (vmul_r (vmul_r c1a c2a) c3a)) c0 in
          Ok (vadd_r rs_p (vmul_r cp resp_current))
        else Ok rs_p in
      let* rs_m :=
        if within b1 (k - a) && within b2 (l - b) && within b3 (m - c) then
          let* c1a := cc_get ccc 1 (k - a) in let* c2a := cc_get ccc 2 (l - b) in
          let* c3a := cc_get ccc 3 (m - c) in
          let cm := vmul_r (vconj (vmul_r (vmul_r c1a c2a) c3a)) c0 in
          Ok (vadd_r rs_m (vmul_r cm resp_current))
        else Ok rs_m in
      Ok (rs_p, rs_m)) acc) acc) (vzero, vzero) in
  Ok (combine_r ((a =? 0) && (b =? 0) && (c =? 0)) rs_p rs_m).

(** qmix/qtcurrent.py:778-855 _current_coeff_4_tones. *)
Definition current_coeff_4_tones_r (a b c d : Z) (ccc : carr) (rm : respmat) (b1 b2 b3 b4 : nat) : res vec :=
  let* (rs_p, rs_m) :=
    foreach (rng b1) (fun k acc =>
    foreach (rng b2) (fun l acc =>
    foreach (rng b3) (fun m acc =>
    foreach (rng b4) (fun n '(rs_p, rs_m) =>
      let* c1 := cc_get ccc 1 k in let* c2 := cc_get ccc 2 l in
      let* c3 := cc_get ccc 3 m in let* c4 := cc_get ccc 4 n in
      let c0 := vmul_r (vmul_r (vmul_r c1 c2) c3) c4 in
      let* resp_current := rm_get rm [k; l; m; n] in
      let* rs_p :=
        if within b1 (k + a) && within b2 (l + b) && within b3 (m + c) && within b4 (n + d) then
          let* c1a := cc_get ccc 1 (k + a) in let* c2a := cc_get ccc 2 (l + b) in
          let* c3a := cc_get ccc 3 (m + c) in let* c4a := cc_get ccc 4 (n + d) in
          let cp := vmul_r (vconj (vmul_r (vmul_r (vmul_r c1a c2a) c3a) c4a)) c0 in
          Ok (vadd_r rs_p (vmul_r cp resp_current))
        else Ok rs_p in
      let* rs_m :=
        if within b1 (k - a) && within b2 (l - b) && within b3 (m - c) && within b4 (n - d) then
          let* c1a := cc_get ccc 1 (k - a) in let* c2a := cc_get ccc 2 (l - b) in
          let* c3a := cc_get ccc 3 (m - c) in let* c4a := cc_get ccc 4 (n - d) in
          let cm := vmul_r (vconj (vmul_r (vmul_r (vmul_r c1a c2a) c3a) c4a)) c0 in
          Ok (vadd_r rs_m (vmul_r cm resp_current))
        else Ok rs_m in
      Ok (rs_p, rs_m)) acc) acc) acc) (vzero, vzero) in
  Ok (combine_r ((a =? 0) && (b =? 0) && (c =? 0) && (d =? 0)) rs_p rs_m).

(** qmix/qtcurrent.py:443-476 _current_1_tone. *)
Definition current_1_tone_r (freq_out : fnum) (ccc : carr) (freq : nat -> R) (rm : respmat) (num_p b1 : nat) : res vec :=
  let freq_out := round_f freq_out in
  foreach (harm_range num_p) (fun a cur =>
    if Reqb (np_round4 (fmul a (freq 1%nat))) (value freq_out) then
      let* c := current_coeff_1_tone_r a ccc rm b1 in Ok (vadd_r cur c)
    else Ok cur) vzero.
(** qmix/qtcurrent.py:519-554 _current_2_tones. *)
Definition current_2_tones_r (freq_out : fnum) (ccc : carr) (freq : nat -> R) (rm : respmat) (num_p b1 b2 : nat) : res vec :=
  let freq_out := round_f freq_out in
  foreach (harm_range num_p) (fun a cur =>
  foreach (harm_range num_p) (fun b cur =>
    if Reqb (np_round4 (fadd (fmul a (freq 1%nat)) (fmul b (freq 2%nat)))) (value freq_out) then
      let* c := current_coeff_2_tones_r a b ccc rm b1 b2 in Ok (vadd_r cur c)
    else Ok cur) cur) vzero.
(** qmix/qtcurrent.py:612-664 _current_3_tones. *)
Definition current_3_tones_r (freq_out : fnum) (ccc : carr) (freq : nat -> R) (rm : respmat) (num_p b1 b2 b3 : nat) : res vec :=
  let freq_out := round_f freq_out in
  foreach (harm_range num_p) (fun a cur =>
  foreach (harm_range num_p) (fun b cur =>
  foreach (harm_range num_p) (fun c cur =>
    if Reqb (np_round4 (fadd (fadd (fmul a (freq 1%nat)) (fmul b (freq 2%nat))) (fmul c (freq 3%nat)))) (value freq_out) then
      let* x := current_coeff_3_tones_r a b c ccc rm b1 b2 b3 in Ok (vadd_r cur x)
    else Ok cur) cur) cur) vzero.
(** qmix/qtcurrent.py:735-775 _current_4_tones. *)
Definition current_4_tones_r (freq_out : fnum) (ccc : carr) (freq : nat -> R) (rm : respmat) (num_p b1 b2 b3 b4 : nat) : res vec :=
  let freq_out := round_f freq_out in
  foreach (harm_range num_p) (fun a cur =>
  foreach (harm_range num_p) (fun b cur =>
  foreach (harm_range num_p) (fun c cur =>
  foreach (harm_range num_p) (fun d cur =>
    if Reqb (np_round4 (fadd (fadd (fadd (fmul a (freq 1%nat)) (fmul b (freq 2%nat))) (fmul c (freq 3%nat))) (fmul d (freq 4%nat)))) (value freq_out) then
      let* x := current_coeff_4_tones_r a b c d ccc rm b1 b2 b3 b4 in Ok (vadd_r cur x)
    else Ok cur) cur) cur) cur) vzero.
(** qmix/qtcurrent.py:119-130 *)
Definition current_n_tones_r (num_f : nat) (freq_out : fnum) (ccc : carr) (freq : nat -> R) (rm : respmat) (num_p : nat) (nb : list nat) : res vec :=
  match num_f with
  | 1%nat => match nb with [b1] => current_1_tone_r freq_out ccc freq rm num_p b1 | _ => Err TypeError end
  | 2%nat => match nb with [b1; b2] => current_2_tones_r freq_out ccc freq rm num_p b1 b2 | _ => Err TypeError end
  | 3%nat => match nb with [b1; b2; b3] => current_3_tones_r freq_out ccc freq rm num_p b1 b2 b3 | _ => Err TypeError end
  | 4%nat => match nb with [b1; b2; b3; b4] => current_4_tones_r freq_out ccc freq rm num_p b1 b2 b3 b4 | _ => Err TypeError end
  | _ => Ok vzero
  end.

(** qmix/qtcurrent.py:422-430 *)
Definition conv_pass_r (jac : jarr) (nb : nat) (p : Z) (ckh_last : nat -> nat -> vec) : res (nat -> nat -> vec) :=
  let b := Z.of_nat nb in
  foreach (zrange (- b) (b + 1)) (fun k ckh_next =>
    let l_min := Z.max (- b) (int_div (k - b) p) in
    let l_max := Z.min b (int_div (k + b) p) in
    foreach (zrange l_min (l_max + 1)) (fun l ckh_next =>
      let* jk := nbidx (j_nk jac) k in
      let* jkl := nbidx (j_nk jac) (k - p * l) in
      let* jp := nbidx (j_np jac) p in
      let* jl := nbidx (j_nk jac) l in
      Ok (fun f j => if ((1 <=? f) && (j =? jk))%nat
                     then fun i => cadd_r (ckh_next f jk i) (cmul_r (ckh_last f jkl i) (j_at jac f jp jl i))
                     else ckh_next f j)) ckh_next)
    (fun _ _ => vzero).
(** qmix/qtcurrent.py:392-432 _convolve_coefficients. *)
Definition convolve_coefficients_r (jac : jarr) : res carr :=
  let num_p := (j_np jac - 1)%nat in
  let nb := ((j_nk jac - 1) / 2)%nat in
  let* jp1 := nbidx (j_np jac) 1 in
  let ckh_last := fun f => j_at jac f jp1 in
  if (num_p =? 1)%nat
  then Ok {| c_nf := j_nf jac; c_nk := j_nk jac; c_at := ckh_last |}
  else
    let* ckh := foreach (zrange 2 (Z.of_nat num_p + 1)) (fun p last => conv_pass_r jac nb p last) ckh_last in
    Ok {| c_nf := j_nf jac; c_nk := j_nk jac; c_at := ckh |}.

Section QT.
Variable J : nat -> R -> R.
(** qmix/qtcurrent.py:329-389 calculate_phase_factor_coeff. *)
Definition calculate_phase_factor_coeff_r (vj : nat -> nat -> vec) (freq : nat -> R) (num_f num_p : nat) (num_b : numb) : res carr :=
  let nbt := match num_b with NbInt n => repeat n num_f | NbTuple l => l end in
  let* _ := guard (negb (length nbt =? 0)%nat) ValueError in
  let* jac := build_jac J vj freq num_f num_p nbt in
  convolve_coefficients_r jac.

(** qmix/qtcurrent.py:37-144 qtcurrent. *)
Definition qtcurrent_r (vj : nat -> nat -> vec) (cct : qcct) (resp : R -> C) (freq_list : freq_arg_f)
  (num_b : numb) (resp_matrix : option respmat) : res qt_out :=
  let num_f := q_num_f cct in
  let num_p := q_num_p cct in
  let npts := q_npts cct in
  let* _ := guard (forallb (fun f => Rltb 0 (q_freq cct f)) (seq 1 num_f)) AssertionError in
  let fl := match freq_list with SList l => l | SScalar x => [PyFloat x] end in
  let fl := map round_f fl in
  let* nb_list := unpack_num_b num_b num_f in
  let* ccc := calculate_phase_factor_coeff_r vj (q_freq cct) num_f num_p num_b in
  let* rm := match resp_matrix with
             | None => interpolate_respfn cct resp num_b
             | Some rm =>
               let* _ := guard (length (rm_shape rm) + 1 =? num_f + 1)%nat AssertionError in
               let* _ := guard (rm_npts rm =? npts)%nat AssertionError in
               Ok rm
             end in
  let* rows := mapM (fun w => current_n_tones_r num_f w ccc (q_freq cct) rm num_p nb_list) fl in
  let rows := map (tab npts) rows in
  match freq_list with
  | SList _ => Ok (QRows rows)
  | SScalar _ =>
    match rows, fl with
    | [row], [w] => if Reqb (value w) 0 then Ok (QReal (map Re row)) else Ok (QRow row)
    | _, _ => Err IndexError
    end
  end.
End QT.
