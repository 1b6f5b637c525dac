(** Model of qmix/mathfn/ivcurve_models.py.

    [perfect] is modelled on floating-point values with infinities and NaN (Float.v) and
    on integers, because its branches depend on the type of the argument.  The other
    models are given on exact reals, one voltage at a time: the code applies the same
    arithmetic to every element of an array. *)
From Coq Require Import List ZArith Bool Reals String.
From Verif Require Import Base Model_QtCurrent Model_Circuit Float.
Import ListNotations.
Open Scope R_scope.

(** What a caller can pass as [voltage]: an array of floats or of integers, a Python (or
    np.float64) float, a Python int, another NumPy scalar (np.int64, np.float32). *)
Inductive volt :=
| AFloat (l : list fl) | AInt (l : list Z) | SFloat (x : fl) | SInt (z : Z) | SNumpy (x : R).
(** What comes back; [ONone] is Python's None. *)
Inductive ivout := OFloats (l : list fl) | OInts (l : list Z) | OFloat (x : fl) | OInt (z : Z) | ONone.

(** qmix/mathfn/ivcurve_models.py:33-37, float array: the masked assignments, for one
    element. *)
Definition perfect_elt (v : fl) : fl :=
  let c := v in
  let c := if feq v (FV 1) then FV (1 / 2) else c in
  let c := if feq v (FV (-1)) then FV (- (1 / 2)) else c in
  if flt (fabs v) (FV 1) then FV 0 else c.

(** The same lines on an integer array: np.copy keeps the dtype, so 0.5 and -0.5 are
    truncated to 0 on assignment. *)
Definition perfect_elt_int (v : Z) : Z :=
  let c := v in
  let c := if (v =? 1)%Z then 0%Z else c in
  let c := if (v =? -1)%Z then 0%Z else c in
  if (Z.abs v <? 1)%Z then 0%Z else c.

(** qmix/mathfn/ivcurve_models.py:13-46 perfect. *)
Definition perfect (v : volt) : ivout :=
  match v with
  | AFloat l => OFloats (map perfect_elt l)
  | AInt l => OInts (map perfect_elt_int l)
  | SFloat x =>
    if flt (fabs x) (FV 1) then OInt 0
    else if flt (FV 1) (fabs x) then OFloat x
    else if feq x (FV 1) then OFloat (FV (1 / 2))
    else if feq x (FV (-1)) then OFloat (FV (- (1 / 2)))
    else ONone
  | SInt z =>
    if (Z.abs z <? 1)%Z then OInt 0
    else if (1 <? Z.abs z)%Z then OInt z
    else if (z =? 1)%Z then OFloat (FV (1 / 2))
    else if (z =? -1)%Z then OFloat (FV (- (1 / 2)))
    else ONone
  | SNumpy _ => ONone
  end.

(** qmix/mathfn/ivcurve_models.py:68-73 and 79-82: one finite voltage. *)
Definition perfect_kk_elt (max_kk v : R) : R :=
  if negb (Reqb (Rabs v) 1)
  then -1 / PI * (2 + v * ln (Rabs ((v - 1) / (v + 1))))
  else max_kk.

(** qmix/mathfn/ivcurve_models.py:49-82 perfect_kk, on finite floats and integers (the
    result array is of dtype float in both cases). *)
Inductive kkin := KFloats (l : list R) | KInts (l : list Z) | KFloat (x : R) | KInt (z : Z) | KNumpy (x : R).
Inductive kkout := KOArr (l : list R) | KOVal (x : R) | KONone.
Definition perfect_kk (v : kkin) (max_kk : R) : kkout :=
  match v with
  | KFloats l => KOArr (map (perfect_kk_elt max_kk) l)
  | KInts l => KOArr (map (fun z => perfect_kk_elt max_kk (IZR z)) l)
  | KFloat x => KOVal (perfect_kk_elt max_kk x)
  | KInt z => KOVal (perfect_kk_elt max_kk (IZR z))
  | KNumpy _ => KONone
  end.

(** qmix/mathfn/ivcurve_models.py:85-101 polynomial, for an integer order >= 0. *)
Definition polynomial (v : R) (order : nat) : R :=
  v ^ (2 * order + 1) / (1 + v ^ (2 * order)).

(** The same line with overflow: a result of at least 2^1024 in absolute value becomes
    an infinity.  (Rounding is left out.) *)
Definition ovf (a : fl) : fl :=
  match a with FV x => if Rltb (Rabs x) (2 ^ 1024) then FV x else finf x | _ => a end.
Definition polynomial_ovf (v : R) (order : nat) : fl :=
  ovf (fdiv (ovf (FV (v ^ (2 * order + 1)))) (ovf (fadd (FV 1) (ovf (FV (v ^ (2 * order))))))).

(** 1 / (1 + np.exp(x)); an overflowing exp gives inf and the quotient 0. *)
Definition fermi (x : R) : R := 1 / (1 + exp x).

(** qmix/mathfn/ivcurve_models.py:104-163 exponential.  vgap / rn with rn = 0 raises
    for Python floats; other divisions by zero (rsg = 0, vgap = 0) give inf or nan in
    NumPy and are not modelled. *)
Definition exponential (voltage vgap rn rsg agap : R) (model : string) : res R :=
  if Reqb rn 0 then Err ZeroDivisionError else
  let igap := vgap / rn in
  let v_v := voltage * vgap in
  if ((lower model =? "fixed") || (lower model =? "corrected"))%string then
    let i_a :=
      v_v / (rsg * 2) * fermi (- agap * (v_v + vgap)) -
      v_v / (rsg * 2) * fermi (agap * (v_v + vgap)) -
      v_v / (rsg * 2) * fermi (- agap * (v_v - vgap)) +
      v_v / (rsg * 2) * fermi (agap * (v_v - vgap)) +
      v_v / rn * fermi (agap * (v_v + vgap)) +
      v_v / rn * fermi (- agap * (v_v - vgap)) in
    Ok (i_a / igap)
  else if (lower model =? "original")%string then
    let i_a :=
      v_v / rsg * fermi (- agap * (v_v + vgap)) +
      v_v / rsg * fermi (agap * (v_v - vgap)) +
      v_v / rn * fermi (agap * (v_v + vgap)) +
      v_v / rn * fermi (- agap * (v_v - vgap)) in
    Ok (i_a / igap)
  else Err ValueError.

(** qmix/mathfn/ivcurve_models.py:166-225 expanded. *)
Definition expanded (voltage vgap rn rsg agap a0 ileak vnot inot anot ioff : R) : res R :=
  if Reqb rn 0 then Err ZeroDivisionError else
  let v_v := voltage * vgap in
  let igap := vgap / rn in
  let i_a :=
    ileak * 2 * fermi (- a0 * v_v) -
    ileak * 1 -
    ileak * fermi (- agap * (v_v - vgap)) +
    ileak * fermi (agap * (v_v + vgap)) +
    v_v / (rsg * 2) * fermi (- agap * (v_v + vgap)) -
    v_v / (rsg * 2) * fermi (agap * (v_v + vgap)) -
    v_v / (rsg * 2) * fermi (- agap * (v_v - vgap)) +
    v_v / (rsg * 2) * fermi (agap * (v_v - vgap)) +
    v_v / rn * fermi (agap * (v_v + vgap)) +
    v_v / rn * fermi (- agap * (v_v - vgap)) +
    inot / (1 + exp (anot * (v_v - vnot))) +
    inot / (1 + exp (anot * (v_v + vnot))) - inot +
    ioff / (1 + exp (agap * (v_v - vgap))) +
    ioff / (1 + exp (agap * (v_v + vgap))) - ioff +
    0 in
  Ok (i_a / igap).
