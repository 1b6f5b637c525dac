(** Model of qmix/mathfn/filters.py, qmix/mathfn/misc.py and qmix/mathfn/kktrans.py.
    Arrays are lists; floats are exact reals, and derivatives (where a division by zero
    does not raise) are values of Float.v. *)
From Coq Require Import List ZArith Lia Bool Arith Reals.
From Coquelicot Require Import Complex.
From Verif Require Import Base Model_QtCurrent Float NumPy.
Import ListNotations.
Open Scope Z_scope.

(** qmix/mathfn/filters.py:37-56 _gauss.  For sigma = 0 the result (NaN in NumPy) is
    not used: gauss_conv raises. *)
Definition gauss (sigma n_sigma : R) : list R :=
  let x_range := (n_sigma * sigma)%R in
  let x := arange1 (- x_range) (x_range + / 10 ^ 5) in
  map (fun x => (1 / (sigma * sqrt (2 * PI)) * exp (- (1 / 2) * (x / sigma) ^ 2))%R) x.

(** qmix/mathfn/filters.py:8-34 gauss_conv. *)
Definition gauss_conv (x : list R) (sigma ext_x : R) : res (list R) :=
  let wind := gauss sigma ext_x in
  let wlen := Z.of_nat (length wind) in
  let* _ := guard (wlen <=? Z.of_nat (length x)) AssertionError in
  let* _ := guard (Rleb 1 (sigma * ext_x)) AssertionError in
  let s := pyslice_rev x (wlen - 1) 0 ++ x ++ pyslice_rev x (-2) (- wlen - 1) in
  let y_out := convolve_valid (map (fun a => (a / lsum wind)%R) wind) s in
  Ok (pyslice y_out (Some (wlen / 2)) (Some (- wlen / 2 + 1))).

(** a[k] = v on an array. *)
Definition aset {A} (l : list A) (k : Z) (v : A) : res (list A) := pyset l k v.

(** qmix/mathfn/misc.py:9-34 slope. *)
Definition slope (x y : list R) : res (list fl) :=
  let der := repeat (FV 0) (length x) in
  let* rise := bcast Rminus (pyslice y (Some 2) None) (pyslice y None (Some (-2))) in
  let* run := bcast Rminus (pyslice x (Some 2) None) (pyslice x None (Some (-2))) in
  let* q := bcast (fun a b => fdiv (FV a) (FV b)) rise run in
  let* der := set_slice der (Some 1) (Some (-1)) q in
  let* y1 := pyget y 1 in let* y0 := pyget y 0 in let* x1 := pyget x 1 in let* x0 := pyget x 0 in
  let* der := aset der 0 (fdiv (FV (y1 - y0)) (FV (x1 - x0))) in
  let* y1 := pyget y (-1) in let* y2 := pyget y (-2) in let* x1 := pyget x (-1) in let* x2 := pyget x (-2) in
  aset der (-1) (fdiv (FV (y1 - y2)) (FV (x1 - x2))).

(** Lines 62-63, 68-69 of qmix/mathfn/misc.py: rise and run for half-span n. *)
Definition span_diff (l : list R) (n : Z) : res (list R) :=
  bcast Rminus (pyslice l (Some (2 * n + 1)) None) (pyslice l None (Some (-2 * n - 1))).

(** qmix/mathfn/misc.py:37-79 slope_span_n. *)
Definition slope_span_n (x y : list R) (n : Z) (nozeros : bool) : res (list fl) :=
  let* _ := guard (n mod 2 =? 1) AssertionError in
  let n := (n - 1) / 2 in
  let der := repeat (FV 0) (length x) in
  let* rise := span_diff y n in
  let* run := span_diff x n in
  let* q := bcast (fun a b => fdiv (FV a) (FV b)) rise run in
  let* der := set_slice der (Some (n + 1)) (Some (- n)) q in
  let* der := foreach (zrange 1 (n + 1)) (fun n der =>
    let* rise := span_diff y n in
    let* run := span_diff x n in
    let* a := pyget rise n in let* b := pyget run n in
    let* der := aset der n (fdiv (FV a) (FV b)) in
    let* a := pyget rise (- n) in let* b := pyget run (- n) in
    aset der (- n) (fdiv (FV a) (FV b))) der in
  let* d := pyget der 1 in
  let* der := aset der 0 d in
  let* d := pyget der (-2) in
  let* der := aset der (-1) d in
  Ok (if nozeros then map (fun d => if feq d (FV 0) then FV (/ 10 ^ 10) else d) der else der).

(** The N-th roots of unity, exp(2*pi*i*k/N). *)
Definition root (N : nat) (k : Z) : C := expi (2 * PI * IZR k / INR N).
Definition cnth (l : list C) (k : nat) : C := nth k l (RtoC 0).
Definition csumn (n : nat) (f : nat -> C) : C := fold_left (fun s k => Cplus s (f k)) (seq 0 n) (RtoC 0).

(** np.fft.fft(x, N) (zero padding or truncation to N) and np.fft.ifft. *)
Definition fft (x : list C) (N : nat) : list C :=
  map (fun k => csumn N (fun s => Cmult (cnth x s) (root N (- (Z.of_nat k * Z.of_nat s))))) (seq 0 N).
Definition ifft (X : list C) : list C :=
  let N := length X in
  map (fun t => Cdiv (csumn N (fun k => Cmult (cnth X k) (root N (Z.of_nat k * Z.of_nat t)))) (RtoC (INR N))) (seq 0 N).

(** scipy.signal.hilbert(x, N): the analytic signal. *)
Definition hweight (N k : nat) : R :=
  if (N mod 2 =? 0)%nat then
    if (k =? 0)%nat || (k =? N / 2)%nat then 1
    else if (k <? N / 2)%nat then 2 else 0
  else
    if (k =? 0)%nat then 1 else if (k <? (N + 1) / 2)%nat then 2 else 0.
Definition hilbert (x : list R) (N : Z) : res (list C) :=
  let* _ := guard (0 <? N) ValueError in
  let N := Z.to_nat N in
  let Xf := fft (map RtoC x) N in
  Ok (ifft (map (fun k => Cmult (cnth Xf k) (RtoC (hweight N k))) (seq 0 N))).

(** np.max of a non-empty array of reals; ValueError if it is empty. *)
Definition amax (l : list R) : res R :=
  match l with [] => Err ValueError | a :: l' => Ok (fold_left Rmax l' a) end.

(** v[1:] - v[:-1] *)
Definition steps (v : list R) : list R := zipwith Rminus (pyslice v (Some 1) None) (pyslice v None (Some (-1))).

(** qmix/mathfn/kktrans.py:13-39 kk_trans. *)
Definition kk_trans (v i : list R) (n : Z) : res (list R) :=
  let npts := Z.of_nat (length v) in
  let* v1 := pyget v 1 in let* v0 := pyget v 0 in
  let* m := amax (map (fun d => Rabs ((v1 - v0) - d)) (steps v)) in
  let* _ := guard (Rltb m (/ 10 ^ 5)) AssertionError in
  let* x := bcast Rminus i v in
  let* a := hilbert x (npts * n) in
  Ok (pyslice (map (fun z => Ropp (Im z)) a) None (Some npts)).

(** np.delete(l, a) *)
Definition delete {A} (l : list A) (a : nat) : list A := firstn a l ++ skipn (S a) l.
(** np.trapz(y, x=x) *)
Definition trapz (y x : list R) : R :=
  lsum (map (fun k => (nth (S k) x 0 - nth k x 0) * (nth (S k) y 0 + nth k y 0) / 2)%R (seq 0 (length x - 1))).

(** qmix/mathfn/kktrans.py:42-76 kk_trans_trapz, for i as long as v.  (A repeated voltage
    divides by zero: NumPy gives inf or nan; not modelled.) *)
Definition kk_trans_trapz (v i : list R) : res (list R) :=
  let* v1 := pyget v 1 in let* v0 := pyget v 0 in
  let* m := amax (map (fun d => (d - (v1 - v0))%R) (steps v)) in
  let* _ := guard (Rltb m (/ 10 ^ 5)) AssertionError in
  Ok (map (fun a =>
      let v' := delete v a in
      let i' := delete i a in
      (trapz (zipwith (fun iv vv => (iv - vv) / (vv - nth a v 0)) i' v') v' / PI)%R) (seq 0 (length v))).
