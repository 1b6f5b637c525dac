(** Model of qmix/harmonic_balance.py.

    Floats are exact reals and complex numbers Coquelicot's [C]; the relative
    errors, which can be infinite or undefined, are [xr].  Arrays over (signal,
    bias point) are functions of two indices.  Printing and timing are left out. *)
From Coq Require Import List ZArith Lia Bool Arith String Reals.
From Coquelicot Require Import Complex.
From Verif Require Import Base Round Model_QtCurrent Model_Circuit.
Import ListNotations.
Open Scope Z_scope.

(** A non-negative float: a number, +inf or NaN. *)
Inductive xr := Fin (x : R) | Inf | NaN.

(** x / y for real x >= 0, y >= 0 (NumPy: x/0 = inf, 0/0 = nan, no exception). *)
Definition xdiv (x y : R) : xr :=
  if Reqb y 0 then (if Reqb x 0 then NaN else Inf) else Fin (x / y).

(** Comparisons with a finite number; any comparison with NaN is False. *)
Definition xlt_r (a : xr) (r : R) : bool := match a with Fin x => Rltb x r | _ => false end.
Definition xle_r (a : xr) (r : R) : bool := match a with Fin x => Rleb x r | _ => false end.
Definition xgt_r (a : xr) (r : R) : bool := match a with Fin x => Rltb r x | Inf => true | NaN => false end.
(** a > b *)
Definition xgt (a b : xr) : bool :=
  match a, b with
  | Fin x, Fin y => Rltb y x
  | Inf, Fin _ => true
  | _, _ => false
  end.

(** np.max of two elements: NaN is kept. *)
Definition npmax2 (a b : xr) : xr :=
  match a, b with
  | NaN, _ | _, NaN => NaN
  | Inf, _ | _, Inf => Inf
  | Fin x, Fin y => Fin (Rmax x y)
  end.
(** np.max of a non-empty array.  (NumPy raises ValueError on an empty one; that needs a
    circuit with no bias points, which the constructor refuses.) *)
Definition npmax (l : list xr) : xr :=
  match l with [] => NaN | a :: l' => fold_left npmax2 l' a end.
(** Python's max(a, b): the second argument only if it compares greater. *)
Definition pymax (a b : xr) : xr := if xgt b a then b else a.

Definition arr2 := nat -> nat -> C.          (* [signal, bias point] *)
Definition arr3 := nat -> nat -> nat -> C.   (* [tone, harmonic, bias point] *)

(** MIN_VT and DV, qmix/harmonic_balance.py:26,28. *)
Definition MIN_VT : R := (/ 10 ^ 10)%R.
Definition DV : R := (/ 10 ^ 3)%R.

(** Why the iteration ended. *)
Inductive why := Converged | HitLimit | RanOut.

Record loop_out := { l_iter : Z; l_mask : option (nat -> bool); l_why : why }.

Section Newton.
Variables num_n npts : nat.
(** _qt_current_for_hb with circuit, response and matrix fixed. *)
Variable qt : arr2 -> res arr2.
(** np.linalg.inv of an n x n matrix; [None]: LinAlgError (singular). *)
Variable inv : nat -> (nat -> nat -> R) -> option (nat -> nat -> R).
Variables vt zt : nat -> C.
Variables stop damp : R.
Variable max_it : Z.

(** qmix/harmonic_balance.py:150 (and 341, 345). *)
Definition residual (ij vj : arr2) : arr2 := fun k i => Cminus (Cminus (vt k) (Cmult (zt k) (ij k i))) (vj k i).

(** Lines 162-163. *)
Definition rel_error (err vj : arr2) (k i : nat) : xr := xdiv (Cmod (err k i)) (Cmod (vj k i)).

(** Lines 155-167: the largest relative error and the finished points. *)
Definition max_rel_error (err vj : arr2) : xr :=
  fold_left (fun m k => pymax (npmax (List.map (rel_error err vj k) (seq 0 npts))) m) (seq 0 num_n) (Fin 0).
Definition finished_points (err vj : arr2) (i : nat) : bool :=
  fold_left (fun ok k => ok && xlt_r (rel_error err vj k i) stop) (seq 0 num_n) true.

(** dvj of lines 336-337, multiplied by a complex unit. *)
Definition bump (u : C) (q : nat) (vj : arr2) : arr2 :=
  fun k i => if (k =? q)%nat then Cplus (vj k i) (Cmult u (RtoC DV)) else Cplus (vj k i) (Cmult u (RtoC 0)).

(** Lines 339-354: column pair q of the Jacobian, for one bias point i.  The entry
    (2p+r, 2q+s) is block[r, s] of signals p and q. *)
Definition jac_entry (err err_re err_im : arr2) (p i r s : nat) : R :=
  let d := if (s =? 0)%nat then Cdiv (Cminus (err_re p i) (err p i)) (RtoC DV)
           else Cdiv (Cminus (err_im p i) (err p i)) (RtoC DV) in
  if (r =? 0)%nat then Re d else Im d.

(** qmix/harmonic_balance.py:324-363 _inv_jacobian: one matrix per bias point.  The
    blocks are written one after the other, each entry once; the model gives the
    resulting matrix. *)
Definition jacobian (err vj : arr2) : res (nat -> nat -> nat -> R) :=
  let* cols := mapM (fun q =>
      let* ij_re := qt (bump (RtoC 1) q vj) in
      let* ij_im := qt (bump Ci q vj) in
      Ok (residual ij_re (bump (RtoC 1) q vj), residual ij_im (bump Ci q vj))) (seq 0 num_n) in
  Ok (fun i a b =>
    match nth_error cols (b / 2) with
    | Some (e_re, e_im) => jac_entry err e_re e_im (a / 2) i (a mod 2) (b mod 2)
    | None => 0%R
    end).

Definition inv_jacobian (err vj : arr2) : res (list (nat -> nat -> R)) :=
  let* jac := jacobian err vj in
  mapM (fun i => match inv (2 * num_n) (jac i) with Some m => Ok m | None => Err LinAlgError end) (seq 0 npts).

(** Lines 200-206. *)
Definition corr (inv_j : nat -> nat -> nat -> R) (err : arr2) (p i : nat) : C :=
  fold_left (fun c q =>
    let c := Cminus c (RtoC (inv_j i (p * 2) (q * 2) * Re (err q i) + inv_j i (p * 2) (q * 2 + 1) * Im (err q i)))%nat in
    Cminus c (Cmult Ci (RtoC (inv_j i (p * 2 + 1) (q * 2) * Re (err q i) + inv_j i (p * 2 + 1) (q * 2 + 1) * Im (err q i))))%nat)
    (seq 0 num_n) (RtoC 0).

Definition update (inv_js : list (nat -> nat -> R)) (err vj : arr2) : arr2 :=
  fun k i => Cplus (vj k i) (Cmult (corr (fun j => nth j inv_js (fun _ _ => 0%R)) err k i) (RtoC damp)).

(** Lines 131-207: the loop over range(max_it+1).  [vj] is modified in place, so it
    is returned also when an exception ends the loop. *)
Fixpoint newton (its : list Z) (vj : arr2) (last : loop_out) : arr2 * res loop_out :=
  match its with
  | [] => (vj, Ok last)
  | it :: its' =>
    match qt vj with
    | Err e => (vj, Err e)
    | Ok ij =>
      let err := residual ij vj in
      let m := max_rel_error err vj in
      let mask := finished_points err vj in
      if xle_r m stop then (vj, Ok {| l_iter := it; l_mask := Some mask; l_why := Converged |})
      else if xgt_r m stop && (it =? max_it) then (vj, Ok {| l_iter := it; l_mask := Some mask; l_why := HitLimit |})
      else match inv_jacobian err vj with
           | Err e => (vj, Err e)
           | Ok inv_js => newton its' (update inv_js err vj) {| l_iter := it; l_mask := Some mask; l_why := RanOut |}
           end
    end
  end.

Definition run_newton (vj : arr2) : arr2 * res loop_out :=
  newton (zrange 0 (max_it + 1)) vj {| l_iter := 0; l_mask := None; l_why := RanOut |}.
End Newton.

(** ** The interface *)

(** The attributes that harmonic_balance uses: those of qtcurrent, the sources, and
    the writeable flag of vt. *)
Record hcct := { h_q : qcct; h_vt : nat -> nat -> C; h_zt : nat -> nat -> C; h_wvt : bool }.

(** The attributes read from an EmbeddingCircuit ([Model_Circuit.v]); a cell that is
    not finite, or not there, becomes 0. *)
Definition of_circ (c : circ) : hcct := {|
  h_q := {| q_num_f := c_num_f c; q_num_p := c_num_p c; q_npts := c_npts c;
            q_freq := fun f => nth f (c_freq c) 0%R; q_vb := fun i => nth i (c_vb c) 0%R |};
  h_vt := fun f p => match nth p (nth f (c_vt c) []) None with Some v => v | None => RtoC 0 end;
  h_zt := fun f p => nth p (nth f (c_zt c) []) (RtoC 0);
  h_wvt := w_vt c |}.

(** What is returned: depends on [mode] (and nothing for an unknown mode). *)
Inductive hb_ret :=
| RetV (vj : arr3)
| RetX (vj : arr3) (iteration : Z) (flag : bool)
| RetM (vj : arr3) (mask : nat -> bool)
| RetNone.

(** The outcome of a call: the circuit and the caller's initial guess afterwards, and
    the returned value or exception. *)
Record hb_result := { r_cct : hcct; r_guess : option arr3; r_ret : res hb_ret }.

(** x[1:, 1:].reshape(num_n, ...): signal k = (f-1)*num_p + (p-1). *)
Definition sig_f (num_p k : nat) : nat := (k / num_p + 1)%nat.
Definition sig_p (num_p k : nat) : nat := (k mod num_p + 1)%nat.
Definition flat3 (num_p : nat) (a : arr3) : arr2 := fun k i => a (sig_f num_p k) (sig_p num_p k) i.
Definition flat2 (num_p : nat) (a : nat -> nat -> C) (k : nat) : C := a (sig_f num_p k) (sig_p num_p k).
(** zeros((num_f+1, num_p+1, npts)); out[1:, 1:, :] = x.reshape(num_f, num_p, npts). *)
Definition unflat (num_p : nat) (x : arr2) : arr3 :=
  fun f p i => if ((1 <=? f) && (1 <=? p))%nat then x ((f - 1) * num_p + (p - 1))%nat i else RtoC 0.

Section Call.
Variable J : nat -> R -> R.
Variable inv : nat -> (nat -> nat -> R) -> option (nat -> nat -> R).

(** qmix/harmonic_balance.py:368-399 _qt_current_for_hb. *)
Definition qt_current_for_hb (q : qcct) (resp : R -> C) (num_b : numb) (rm : option respmat) (vj_2d : arr2) : res arr2 :=
  let freq_list := flat_map (fun f => List.map (fun p => round4 (q_freq q f * INR p)) (seq 1 (q_num_p q))) (seq 1 (q_num_f q)) in
  let* out := qtcurrent J (unflat (q_num_p q) vj_2d) q resp (FList freq_list) num_b rm in
  match out with
  | QRows rows => Ok (fun k i => nth i (nth k rows []) (RtoC 0))
  | _ => Err TypeError
  end.

(** (zt == 0).all(), over the whole array. *)
Definition all_zero (num_f num_p : nat) (zt : nat -> nat -> C) : bool :=
  forallb (fun f => forallb (fun p => Reqb (Cmod (zt f p)) 0) (seq 0 (num_p + 1))) (seq 0 (num_f + 1)).

(** Lines 93-95: vt after the three assignments. *)
Definition clamp_vt (vt : nat -> nat -> C) (f p : nat) : C :=
  if ((f =? 0) || (p =? 0))%nat then RtoC 0
  else if Rltb (Cmod (vt f p)) MIN_VT then RtoC MIN_VT else vt f p.

(** Lines 99-102: the initial guess; [None] when a division by zero occurs at a
    signal (NumPy then goes on with inf/nan; the model stops). *)
Definition default_guess (q : qcct) (vt zt : nat -> nat -> C) (zj_guess : C) : option arr3 :=
  if forallb (fun f => forallb (fun p => negb (Reqb (Cmod (Cplus zj_guess (zt f p))) 0)) (seq 1 (q_num_p q))) (seq 1 (q_num_f q))
  then Some (fun f p _ => Cdiv (Cmult (vt f p) zj_guess) (Cplus zj_guess (zt f p)))
  else None.

(** Line 114: the reshaped slice is a view of the caller's (C-contiguous) array exactly
    if one of the two merged axes has length 1. *)
Definition is_view (num_f num_p : nat) : bool := ((num_f =? 1) || (num_p =? 1))%nat.

(** a[1:, 1:, :] overwritten by x *)
Definition write_back (num_p : nat) (a : arr3) (x : arr2) : arr3 :=
  fun f p i => if ((1 <=? f) && (1 <=? p))%nat then x ((f - 1) * num_p + (p - 1))%nat i else a f p i.

(** qmix/harmonic_balance.py:39-228 harmonic_balance. *)
Definition harmonic_balance (c : hcct) (resp : R -> C) (num_b : numb) (max_it : Z) (stop : R)
  (vj_initial : option arr3) (damp : R) (mode : string) (zj_guess : C) : hb_result :=
  let q := h_q c in
  let num_f := q_num_f q in
  let num_p := q_num_p q in
  let num_n := (num_f * num_p)%nat in
  let npts := q_npts q in
  if all_zero num_f num_p (h_zt c)
  then {| r_cct := c; r_guess := vj_initial; r_ret := Ok (RetV (fun f p _ => h_vt c f p)) |}
  else if negb (h_wvt c)
  then {| r_cct := c; r_guess := vj_initial; r_ret := Err ValueError |}
  else
  let vt := clamp_vt (h_vt c) in
  let c' := {| h_q := q; h_vt := vt; h_zt := h_zt c; h_wvt := h_wvt c |} in
  match (match vj_initial with Some a => Some a | None => default_guess q vt (h_zt c) zj_guess end) with
  | None => {| r_cct := c'; r_guess := vj_initial; r_ret := Err NotModelled |}
  | Some guess =>
  match interpolate_respfn q resp num_b with
  | Err e => {| r_cct := c'; r_guess := vj_initial; r_ret := Err e |}
  | Ok rm =>
    let '(vj, r) := run_newton num_n npts (qt_current_for_hb q resp num_b (Some rm)) inv
                      (flat2 num_p vt) (flat2 num_p (h_zt c)) stop damp max_it (flat3 num_p guess) in
    let guess_after := match vj_initial with
                       | Some a => Some (if is_view num_f num_p then write_back num_p a vj else a)
                       | None => None end in
    let vj_out := unflat num_p vj in
    let ret :=
      let* o := r in
      if (mode =? "o")%string then Ok (RetV vj_out)
      else if (mode =? "x")%string then Ok (RetX vj_out (l_iter o) (negb (l_iter o =? max_it)))
      else if (mode =? "m")%string then
        match l_mask o with Some m => Ok (RetM vj_out m) | None => Err NameError end
      else Ok RetNone in
    {| r_cct := c'; r_guess := guess_after; r_ret := ret |}
  end end.

(** qmix/harmonic_balance.py:281-314 _qtcurrent_all_freq. *)
Definition qtcurrent_all_freq (vj : arr3) (q : qcct) (resp : R -> C) (num_b : numb) : res arr3 :=
  let freq_list := flat_map (fun f => List.map (fun p => (q_freq q f * INR p)%R) (seq 1 (q_num_p q))) (seq 1 (q_num_f q)) in
  let* out := qtcurrent J vj q resp (FList freq_list) num_b None in
  match out with
  | QRows rows => Ok (unflat (q_num_p q) (fun k i => nth i (nth k rows []) (RtoC 0)))
  | _ => Err TypeError
  end.

(** qmix/harmonic_balance.py:237-278 check_hb_error. *)
Definition check_hb_error (vj : arr3) (c : hcct) (resp : R -> C) (num_b : numb) (stop : R) : res unit :=
  let q := h_q c in
  let* ij := qtcurrent_all_freq vj q resp num_b in
  foreach (seq 1 (q_num_f q)) (fun f _ =>
  foreach (seq 1 (q_num_p q)) (fun p _ =>
    let err := fun i => Cminus (Cminus (h_vt c f p) (Cmult (h_zt c f p) (ij f p i))) (vj f p i) in
    let m := npmax (List.map (fun i => xdiv (Cmod (err i)) (Cmod (vj f p i))) (seq 0 (q_npts q))) in
    guard (xlt_r m stop) AssertionError) tt) tt.
End Call.

(** qmix/harmonic_balance.py:404-411 _k_to_fp.  The second division is Python's true
    division; the quotient is exact for the values it is used with. *)
Definition k_to_fp (k num_p : nat) : R * nat :=
  let p := (k mod num_p + 1)%nat in
  ((IZR (Z.of_nat k + Z.of_nat num_p - Z.of_nat p + 1) / INR num_p)%R, p).
