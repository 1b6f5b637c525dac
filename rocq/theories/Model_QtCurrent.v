(** Model of qmix/qtcurrent.py.

    Floats are exact reals, complex numbers are Coquelicot's [C].  An array whose
    last axis runs over the bias points is a function of the bias index ([vec]);
    element-wise NumPy arithmetic is then point-wise arithmetic.  The other axes
    carry their lengths and are indexed with Python's negative-index rule.
    [OutOfBounds] is returned where numba-compiled code would address a cell
    outside the array. *)
From Coq Require Import List ZArith Lia Bool Arith Reals.
From Coquelicot Require Import Complex.
From Verif Require Import Base Round.
Import ListNotations.
Open Scope Z_scope.

Definition vec := nat -> C.
Definition vzero : vec := fun _ => RtoC 0.

Definition Reqb (x y : R) : bool := if Req_EM_T x y then true else false.
Definition Rltb (x y : R) : bool := if Rlt_dec x y then true else false.
Definition Rleb (x y : R) : bool := if Rle_dec x y then true else false.

(** np.exp(1j * t) for real t. *)
Definition expi (t : R) : C := (cos t, sin t).

(** np.angle(z): the argument in (-pi, pi], 0 for z = 0. *)
Definition angle (z : C) : R :=
  if Reqb (Cmod z) 0 then 0%R
  else if Rleb 0 (snd z) then acos (fst z / Cmod z)
  else (- acos (fst z / Cmod z))%R.

(** The attributes of EmbeddingCircuit that qtcurrent reads
    (qmix/qtcurrent.py:74-78,93; shapes as built in qmix/circuit.py:197-249). *)
Record qcct := {
  q_num_f : nat;            (* cct.num_f *)
  q_num_p : nat;            (* cct.num_p *)
  q_npts  : nat;            (* cct.vb_npts *)
  q_freq  : nat -> R;       (* cct.freq, cells 1..num_f used *)
  q_vb    : nat -> R        (* cct.vb, cells 0..npts-1 *)
}.

(** The num_b argument: an int or a tuple of ints (all >= 0; NumPy rejects
    negative sizes). *)
Inductive numb := NbInt (n : nat) | NbTuple (l : list nat).

(** The freq_list argument (qmix/qtcurrent.py:80-86). *)
Inductive freq_arg := FList (l : list R) | FScalar (x : R).

(** What qtcurrent returns: a 2-D array, or for a scalar frequency a complex or
    (frequency 0) a real 1-D array (qmix/qtcurrent.py:138-144). *)
Inductive qt_out :=
| QRows (rows : list (list C))
| QRow (row : list C)
| QReal (row : list R).

(** Response-function matrix: leading axes, number of bias points, contents. *)
Record respmat := {
  rm_shape : list nat;
  rm_npts : nat;
  rm_at : list nat -> vec
}.

(** Convolution coefficients ccc[f, k, :]. *)
Record carr := { c_nf : nat; c_nk : nat; c_at : nat -> nat -> vec }.

(** Compiled element access: wrap a negative index, no bounds check. *)
Definition nbidx (n : nat) (k : Z) : res nat :=
  match pyidx n k with Some j => Ok j | None => Err OutOfBounds end.

Fixpoint nbidxs (shape : list nat) (ks : list Z) : res (list nat) :=
  match shape, ks with
  | [], [] => Ok []
  | n :: shape', k :: ks' => let* j := nbidx n k in let* js := nbidxs shape' ks' in Ok (j :: js)
  | _, _ => Err OutOfBounds
  end.

Definition rm_get (m : respmat) (ks : list Z) : res vec :=
  let* js := nbidxs (rm_shape m) ks in Ok (rm_at m js).

Definition cc_get (c : carr) (f k : Z) : res vec :=
  let* jf := nbidx (c_nf c) f in let* jk := nbidx (c_nk c) k in Ok (c_at c jf jk).

(** qmix/qtcurrent.py:860-881 _unpack_num_b. *)
Definition unpack_num_b (num_b : numb) (num_f : nat) : res (list nat) :=
  match num_b with
  | NbTuple l => let* _ := guard (num_f <=? length l)%nat AssertionError in Ok (firstn num_f l)
  | NbInt n => Ok (repeat n num_f)
  end.

(* ------------------------------------------------------------------ *)
(** ** Response-function matrices *)

(** np.r_[np.arange(0, b+1), np.arange(-b, 0)]  (lines 216, 249, 252). *)
Definition ind_array (b : nat) : list Z :=
  zrange 0 (Z.of_nat b + 1) ++ zrange (- Z.of_nat b) 0.

(** qmix/qtcurrent.py:199-227.  [resp] applied to an array is applied to each
    element. *)
Definition interpolate_respfn_1_tone (resp : R -> C) (npts : nat) (vb : nat -> R) (freq : nat -> R)
  (b1 : nat) : respmat :=
  let ind := ind_array b1 in
  {| rm_shape := [b1 * 2 + 1]%nat; rm_npts := npts;
     rm_at := fun js i =>
       match js with
       | [j] => resp (vb i + IZR (nth j ind 0%Z) * freq 1%nat)%R
       | _ => RtoC 0
       end |}.

(** qmix/qtcurrent.py:230-268. *)
Definition interpolate_respfn_2_tone (resp : R -> C) (npts : nat) (vb : nat -> R) (freq : nat -> R)
  (b1 b2 : nat) : respmat :=
  let ind1 := ind_array b1 in
  let ind2 := ind_array b2 in
  {| rm_shape := [b1 * 2 + 1; b2 * 2 + 1]%nat; rm_npts := npts;
     rm_at := fun js i =>
       match js with
       | [j; j'] => resp (vb i + IZR (nth j ind1 0%Z) * freq 1%nat + IZR (nth j' ind2 0%Z) * freq 2%nat)%R
       | _ => RtoC 0
       end |}.

Definition idxs_eqb (a b : list nat) : bool := if list_eq_dec Nat.eq_dec a b then true else false.

(** voltage[ks] = v *)
Definition vset (shape : list nat) (m : list nat -> nat -> R) (ks : list Z) (v : nat -> R)
  : res (list nat -> nat -> R) :=
  match nbidxs shape ks with
  | Ok js => Ok (fun js' i => if idxs_eqb js' js then v i else m js' i)
  | Err _ => Err IndexError
  end.

(** range(-b, b+1) *)
Definition rng (b : nat) : list Z := zrange (- Z.of_nat b) (Z.of_nat b + 1).

(** qmix/qtcurrent.py:271-295. *)
Definition interpolate_respfn_3_tone (resp : R -> C) (npts : nat) (vb : nat -> R) (freq : nat -> R)
  (b1 b2 b3 : nat) : res respmat :=
  let shape := [b1 * 2 + 1; b2 * 2 + 1; b3 * 2 + 1]%nat in
  let* voltage :=
    foreach (rng b1) (fun k volt =>
    foreach (rng b2) (fun l volt =>
    foreach (rng b3) (fun m volt =>
      vset shape volt [k; l; m]
        (fun i => vb i + IZR k * freq 1%nat + IZR l * freq 2%nat + IZR m * freq 3%nat)%R)
    volt) volt) (fun _ _ => 0%R) in
  Ok {| rm_shape := shape; rm_npts := npts; rm_at := fun js i => resp (voltage js i) |}.

(** qmix/qtcurrent.py:298-324. *)
Definition interpolate_respfn_4_tone (resp : R -> C) (npts : nat) (vb : nat -> R) (freq : nat -> R)
  (b1 b2 b3 b4 : nat) : res respmat :=
  let shape := [b1 * 2 + 1; b2 * 2 + 1; b3 * 2 + 1; b4 * 2 + 1]%nat in
  let* voltage :=
    foreach (rng b1) (fun k volt =>
    foreach (rng b2) (fun l volt =>
    foreach (rng b3) (fun m volt =>
    foreach (rng b4) (fun n volt =>
      vset shape volt [k; l; m; n]
        (fun i => vb i + IZR k * freq 1%nat + IZR l * freq 2%nat + IZR m * freq 3%nat + IZR n * freq 4%nat)%R)
    volt) volt) volt) (fun _ _ => 0%R) in
  Ok {| rm_shape := shape; rm_npts := npts; rm_at := fun js i => resp (voltage js i) |}.

(** qmix/qtcurrent.py:164-196 interpolate_respfn.  Unpacking a tuple whose length
    differs from the parameter count cannot happen: [unpack_num_b] returns num_f
    entries (the last branch of each match is TypeError for completeness). *)
Definition interpolate_respfn (cct : qcct) (resp : R -> C) (num_b : numb) : res respmat :=
  let* nb := unpack_num_b num_b (q_num_f cct) in
  match q_num_f cct with
  | 1%nat => match nb with [b1] => Ok (interpolate_respfn_1_tone resp (q_npts cct) (q_vb cct) (q_freq cct) b1)
             | _ => Err TypeError end
  | 2%nat => match nb with [b1; b2] => Ok (interpolate_respfn_2_tone resp (q_npts cct) (q_vb cct) (q_freq cct) b1 b2)
             | _ => Err TypeError end
  | 3%nat => match nb with [b1; b2; b3] => interpolate_respfn_3_tone resp (q_npts cct) (q_vb cct) (q_freq cct) b1 b2 b3
             | _ => Err TypeError end
  | 4%nat => match nb with [b1; b2; b3; b4] => interpolate_respfn_4_tone resp (q_npts cct) (q_vb cct) (q_freq cct) b1 b2 b3 b4
             | _ => Err TypeError end
  | _ => Err ValueError
  end.

(* ------------------------------------------------------------------ *)
(** ** Phase-factor coefficients *)

(** jac[f, p, k, i] together with its axis lengths. *)
Record jarr := { j_nf : nat; j_np : nat; j_nk : nat; j_at : nat -> nat -> nat -> vec }.

(** row[k] = v along the third axis of jac. *)
Definition setk (n : nat) (row : nat -> vec) (k : Z) (v : vec) : res (nat -> vec) :=
  match pyidx n k with
  | Some j => Ok (fun j' => if (j' =? j)%nat then v else row j')
  | None => Err IndexError
  end.
Definition getk (n : nat) (row : nat -> vec) (k : Z) : res vec :=
  match pyidx n k with Some j => Ok (row j) | None => Err IndexError end.

Section Bessel.
(** scipy.special: [J n x] is the Bessel function of the first kind of order n;
    j0 and j1 are J 0 and J 1. *)
Variable J : nat -> R -> R.

(** qmix/qtcurrent.py:375-383: one (f,p) row of jac; [nk] is the axis length,
    [nbf] is num_b[f-1]. *)
Definition jac_row (nk nbf : nat) (alpha phi : nat -> R) : res (nat -> vec) :=
  let* row := setk nk (fun _ => vzero) 0 (fun i => RtoC (J 0%nat (alpha i))) in
  foreach (zrange 1 (Z.of_nat nbf + 1)) (fun n row =>
    let jn := fun i => if n =? 1 then J 1%nat (alpha i) else J (Z.to_nat n) (alpha i) in
    let* row1 := setk nk row n (fun i => Cmult (RtoC (jn i)) (expi (- (IZR n * phi i)))) in
    let* v := getk nk row1 n in
    setk nk row1 (- n) (fun i => Cmult (RtoC ((-1) ^ Z.to_nat n)%R) (Cconj (v i)))) row.

(** qmix/qtcurrent.py:358-383: jac[f,p] for f in 1..num_f, p in 1..num_p; the
    other rows stay zero.  [nk] = max(num_b)*2+1. *)
Definition build_jac (vj : nat -> nat -> vec) (freq : nat -> R) (num_f num_p : nat) (num_b : list nat)
  : res jarr :=
  let nk := (list_max num_b * 2 + 1)%nat in
  let alpha := fun f p i => (Cmod (vj f p i) / (INR p * freq f))%R in
  let phi := fun f p i => angle (vj f p i) in
  let* at_ :=
    foreach (seq 1 num_f) (fun f at_ =>
    foreach (seq 1 num_p) (fun p at_ =>
      match nth_error num_b (f - 1) with
      | None => Err IndexError
      | Some nbf =>
        let* row := jac_row nk nbf (alpha f p) (phi f p) in
        Ok (fun f' p' => if ((f' =? f) && (p' =? p))%nat then row else at_ f' p')
      end) at_) (fun _ _ _ => vzero) in
  Ok {| j_nf := num_f + 1; j_np := num_p + 1; j_nk := nk; j_at := at_ |}.

(** qmix/qtcurrent.py:422-430: one pass of the outer loop.  [int((k-num_b)/p)] is
    truncation towards zero. *)
Definition conv_pass (jac : jarr) (nb : nat) (p : Z) (ckh_last : nat -> nat -> vec)
  : res (nat -> nat -> vec) :=
  let b := Z.of_nat nb in
  foreach (zrange (- b) (b + 1)) (fun k ckh_next =>
    let l_min := Z.max (- b) (Z.quot (k - b) p) in
    let l_max := Z.min b (Z.quot (k + b) p) in
    foreach (zrange l_min (l_max + 1)) (fun l ckh_next =>
      let* jk := nbidx (j_nk jac) k in
      let* jkl := nbidx (j_nk jac) (k - p * l) in
      let* jp := nbidx (j_np jac) p in
      let* jl := nbidx (j_nk jac) l in
      Ok (fun f j => if ((1 <=? f) && (j =? jk))%nat
                     then fun i => Cplus (ckh_next f jk i) (Cmult (ckh_last f jkl i) (j_at jac f jp jl i))
                     else ckh_next f j)) ckh_next)
    (fun _ _ => vzero).

(** qmix/qtcurrent.py:392-432 _convolve_coefficients. *)
Definition convolve_coefficients (jac : jarr) : res carr :=
  let num_p := (j_np jac - 1)%nat in
  let nb := ((j_nk jac - 1) / 2)%nat in
  let* jp1 := nbidx (j_np jac) 1 in
  let ckh_last := fun f => j_at jac f jp1 in
  if (num_p =? 1)%nat
  then Ok {| c_nf := j_nf jac; c_nk := j_nk jac; c_at := ckh_last |}
  else
    let* ckh := foreach (zrange 2 (Z.of_nat num_p + 1)) (fun p last => conv_pass jac nb p last) ckh_last in
    Ok {| c_nf := j_nf jac; c_nk := j_nk jac; c_at := ckh |}.

(** qmix/qtcurrent.py:329-389 calculate_phase_factor_coeff. *)
Definition calculate_phase_factor_coeff (vj : nat -> nat -> vec) (freq : nat -> R) (num_f num_p : nat)
  (num_b : numb) : res carr :=
  let nbt := match num_b with NbInt n => repeat n num_f | NbTuple l => l end in
  let* _ := guard (negb (length nbt =? 0)%nat) ValueError in   (* max() of an empty tuple *)
  let* jac := build_jac vj freq num_f num_p nbt in
  convolve_coefficients jac.
End Bessel.

(* ------------------------------------------------------------------ *)
(** ** Tunnelling-current coefficients *)

Definition within (b : nat) (k : Z) : bool := (- Z.of_nat b <=? k) && (k <=? Z.of_nat b).

(** Equation 5.26: lines 513-516, 606-609, 728-731, 852-855. *)
Definition combine (all_zero : bool) (rs_p rs_m : vec) : vec := fun i =>
  if all_zero then Cplus (RtoC (Im (rs_p i))) (Cmult Ci (RtoC 0))
  else Cminus (RtoC (Im (rs_p i) + Im (rs_m i)))
              (Cmult Ci (RtoC (Re (rs_p i) - Re (rs_m i)))).

Definition vadd (u v : vec) : vec := fun i => Cplus (u i) (v i).
Definition vmul (u v : vec) : vec := fun i => Cmult (u i) (v i).
Definition vconj (u : vec) : vec := fun i => Cconj (u i).

(** qmix/qtcurrent.py:479-516 _current_coeff_1_tone. *)
Definition current_coeff_1_tone (a : Z) (ccc : carr) (rm : respmat) (b1 : nat) : res vec :=
  let* (rs_p, rs_m) :=
    foreach (rng b1) (fun k '(rs_p, rs_m) =>
      let* rs_p :=
        if within b1 (k + a) then
          let* c1 := cc_get ccc 1 k in let* c1a := cc_get ccc 1 (k + a) in
          let* r := rm_get rm [k] in
          Ok (vadd rs_p (vmul (vmul c1 (vconj c1a)) r))
        else Ok rs_p in
      let* rs_m :=
        if within b1 (k - a) then
          let* c1 := cc_get ccc 1 k in let* c1a := cc_get ccc 1 (k - a) in
          let* r := rm_get rm [k] in
          Ok (vadd rs_m (vmul (vmul c1 (vconj c1a)) r))
        else Ok rs_m in
      Ok (rs_p, rs_m)) (vzero, vzero) in
  Ok (combine (a =? 0) rs_p rs_m).

(** qmix/qtcurrent.py:557-609 _current_coeff_2_tones. *)
Definition current_coeff_2_tones (a b : Z) (ccc : carr) (rm : respmat) (b1 b2 : nat) : res vec :=
  let* (rs_p, rs_m) :=
    foreach (rng b1) (fun k acc =>
    foreach (rng b2) (fun l '(rs_p, rs_m) =>
      let* rs_p :=
        if within b1 (k + a) && within b2 (l + b) then
          let* c1 := cc_get ccc 1 k in let* c1a := cc_get ccc 1 (k + a) in
          let* c2 := cc_get ccc 2 l in let* c2a := cc_get ccc 2 (l + b) in
          let* r := rm_get rm [k; l] in
          Ok (vadd rs_p (vmul (vmul (vmul (vmul c1 (vconj c1a)) c2) (vconj c2a)) r))
        else Ok rs_p in
      let* rs_m :=
        if within b1 (k - a) && within b2 (l - b) then
          let* c1 := cc_get ccc 1 k in let* c1a := cc_get ccc 1 (k - a) in
          let* c2 := cc_get ccc 2 l in let* c2a := cc_get ccc 2 (l - b) in
          let* r := rm_get rm [k; l] in
          Ok (vadd rs_m (vmul (vmul (vmul (vmul c1 (vconj c1a)) c2) (vconj c2a)) r))
        else Ok rs_m in
      Ok (rs_p, rs_m)) acc) (vzero, vzero) in
  Ok (combine ((a =? 0) && (b =? 0)) rs_p rs_m).

(** qmix/qtcurrent.py:667-731 _current_coeff_3_tones. *)
Definition current_coeff_3_tones (a b c : Z) (ccc : carr) (rm : respmat) (b1 b2 b3 : nat) : res vec :=
  let* (rs_p, rs_m) :=
    foreach (rng b1) (fun k acc =>
    foreach (rng b2) (fun l acc =>
    foreach (rng b3) (fun m '(rs_p, rs_m) =>
      let* c1 := cc_get ccc 1 k in let* c2 := cc_get ccc 2 l in let* c3 := cc_get ccc 3 m in
      let c0 := vmul (vmul c1 c2) c3 in
      let* resp_current := rm_get rm [k; l; m] in
      let* rs_p :=
        if within b1 (k + a) && within b2 (l + b) && within b3 (m + c) then
          let* c1a := cc_get ccc 1 (k + a) in let* c2a := cc_get ccc 2 (l + b) in
          let* c3a := cc_get ccc 3 (m + c) in
          let cp := vmul (vconj (vmul (vmul c1a c2a) c3a)) c0 in
          Ok (vadd rs_p (vmul cp resp_current))
        else Ok rs_p in
      let* rs_m :=
        if within b1 (k - a) && within b2 (l - b) && within b3 (m - c) then
          let* c1a := cc_get ccc 1 (k - a) in let* c2a := cc_get ccc 2 (l - b) in
          let* c3a := cc_get ccc 3 (m - c) in
          let cm := vmul (vconj (vmul (vmul c1a c2a) c3a)) c0 in
          Ok (vadd rs_m (vmul cm resp_current))
        else Ok rs_m in
      Ok (rs_p, rs_m)) acc) acc) (vzero, vzero) in
  Ok (combine ((a =? 0) && (b =? 0) && (c =? 0)) rs_p rs_m).

(** qmix/qtcurrent.py:778-855 _current_coeff_4_tones. *)
Definition current_coeff_4_tones (a b c d : Z) (ccc : carr) (rm : respmat) (b1 b2 b3 b4 : nat) : res vec :=
  let* (rs_p, rs_m) :=
    foreach (rng b1) (fun k acc =>
    foreach (rng b2) (fun l acc =>
    foreach (rng b3) (fun m acc =>
    foreach (rng b4) (fun n '(rs_p, rs_m) =>
      let* c1 := cc_get ccc 1 k in let* c2 := cc_get ccc 2 l in
      let* c3 := cc_get ccc 3 m in let* c4 := cc_get ccc 4 n in
      let c0 := vmul (vmul (vmul c1 c2) c3) c4 in
      let* resp_current := rm_get rm [k; l; m; n] in
      let* rs_p :=
        if within b1 (k + a) && within b2 (l + b) && within b3 (m + c) && within b4 (n + d) then
          let* c1a := cc_get ccc 1 (k + a) in let* c2a := cc_get ccc 2 (l + b) in
          let* c3a := cc_get ccc 3 (m + c) in let* c4a := cc_get ccc 4 (n + d) in
          let cp := vmul (vconj (vmul (vmul (vmul c1a c2a) c3a) c4a)) c0 in
          Ok (vadd rs_p (vmul cp resp_current))
        else Ok rs_p in
      let* rs_m :=
        if within b1 (k - a) && within b2 (l - b) && within b3 (m - c) && within b4 (n - d) then
          let* c1a := cc_get ccc 1 (k - a) in let* c2a := cc_get ccc 2 (l - b) in
          let* c3a := cc_get ccc 3 (m - c) in let* c4a := cc_get ccc 4 (n - d) in
          let cm := vmul (vconj (vmul (vmul (vmul c1a c2a) c3a) c4a)) c0 in
          Ok (vadd rs_m (vmul cm resp_current))
        else Ok rs_m in
      Ok (rs_p, rs_m)) acc) acc) acc) (vzero, vzero) in
  Ok (combine ((a =? 0) && (b =? 0) && (c =? 0) && (d =? 0)) rs_p rs_m).

(** range(num_p, -(num_p+1), -1) *)
Definition harm_range (num_p : nat) : list Z := rev (rng num_p).

(** qmix/qtcurrent.py:443-476 _current_1_tone. *)
Definition current_1_tone (freq_out : R) (ccc : carr) (freq : nat -> R) (rm : respmat) (num_p b1 : nat)
  : res vec :=
  let freq_out := round4 freq_out in
  foreach (harm_range num_p) (fun a cur =>
    if Reqb (round4 (IZR a * freq 1%nat)) freq_out then
      let* c := current_coeff_1_tone a ccc rm b1 in Ok (vadd cur c)
    else Ok cur) vzero.

(** qmix/qtcurrent.py:519-554 _current_2_tones. *)
Definition current_2_tones (freq_out : R) (ccc : carr) (freq : nat -> R) (rm : respmat) (num_p b1 b2 : nat)
  : res vec :=
  let freq_out := round4 freq_out in
  foreach (harm_range num_p) (fun a cur =>
  foreach (harm_range num_p) (fun b cur =>
    if Reqb (round4 (IZR a * freq 1%nat + IZR b * freq 2%nat)) freq_out then
      let* c := current_coeff_2_tones a b ccc rm b1 b2 in Ok (vadd cur c)
    else Ok cur) cur) vzero.

(** qmix/qtcurrent.py:612-664 _current_3_tones. *)
Definition current_3_tones (freq_out : R) (ccc : carr) (freq : nat -> R) (rm : respmat)
  (num_p b1 b2 b3 : nat) : res vec :=
  let freq_out := round4 freq_out in
  foreach (harm_range num_p) (fun a cur =>
  foreach (harm_range num_p) (fun b cur =>
  foreach (harm_range num_p) (fun c cur =>
    if Reqb (round4 (IZR a * freq 1%nat + IZR b * freq 2%nat + IZR c * freq 3%nat)) freq_out then
      let* x := current_coeff_3_tones a b c ccc rm b1 b2 b3 in Ok (vadd cur x)
    else Ok cur) cur) cur) vzero.

(** qmix/qtcurrent.py:735-775 _current_4_tones. *)
Definition current_4_tones (freq_out : R) (ccc : carr) (freq : nat -> R) (rm : respmat)
  (num_p b1 b2 b3 b4 : nat) : res vec :=
  let freq_out := round4 freq_out in
  foreach (harm_range num_p) (fun a cur =>
  foreach (harm_range num_p) (fun b cur =>
  foreach (harm_range num_p) (fun c cur =>
  foreach (harm_range num_p) (fun d cur =>
    if Reqb (round4 (IZR a * freq 1%nat + IZR b * freq 2%nat + IZR c * freq 3%nat + IZR d * freq 4%nat))
            freq_out then
      let* x := current_coeff_4_tones a b c d ccc rm b1 b2 b3 b4 in Ok (vadd cur x)
    else Ok cur) cur) cur) cur) vzero.

(** The dispatch on the number of tones, lines 119-130.  For any other number of
    tones no branch is taken and the rows stay zero. *)
Definition current_n_tones (num_f : nat) (freq_out : R) (ccc : carr) (freq : nat -> R) (rm : respmat)
  (num_p : nat) (nb : list nat) : res vec :=
  match num_f with
  | 1%nat => match nb with [b1] => current_1_tone freq_out ccc freq rm num_p b1 | _ => Err TypeError end
  | 2%nat => match nb with [b1; b2] => current_2_tones freq_out ccc freq rm num_p b1 b2 | _ => Err TypeError end
  | 3%nat => match nb with [b1; b2; b3] => current_3_tones freq_out ccc freq rm num_p b1 b2 b3
             | _ => Err TypeError end
  | 4%nat => match nb with [b1; b2; b3; b4] => current_4_tones freq_out ccc freq rm num_p b1 b2 b3 b4
             | _ => Err TypeError end
  | _ => Ok vzero
  end.

Definition tab {A} (n : nat) (f : nat -> A) : list A := map f (seq 0 n).

Section QT.
Variable J : nat -> R -> R.

(** qmix/qtcurrent.py:37-144 qtcurrent.  [vj f p i] has the documented shape
    (num_f+1, num_p+1, npts); printing is left out. *)
Definition qtcurrent (vj : nat -> nat -> vec) (cct : qcct) (resp : R -> C) (freq_list : freq_arg)
  (num_b : numb) (resp_matrix : option respmat) : res qt_out :=
  let num_f := q_num_f cct in
  let num_p := q_num_p cct in
  let npts := q_npts cct in
  let* _ := guard (forallb (fun f => Rltb 0 (q_freq cct f)) (seq 1 num_f)) AssertionError in
  let fl := match freq_list with FList l => l | FScalar x => [x] end in
  let fl := map round4 fl in
  let* nb_list := unpack_num_b num_b num_f in
  let* ccc := calculate_phase_factor_coeff J vj (q_freq cct) num_f num_p num_b in
  let* rm := match resp_matrix with
             | None => interpolate_respfn cct resp num_b
             | Some rm =>
               let* _ := guard (length (rm_shape rm) + 1 =? num_f + 1)%nat AssertionError in
               let* _ := guard (rm_npts rm =? npts)%nat AssertionError in
               Ok rm
             end in
  let* rows := mapM (fun w => current_n_tones num_f w ccc (q_freq cct) rm num_p nb_list) fl in
  let rows := map (tab npts) rows in
  match freq_list with
  | FList _ => Ok (QRows rows)
  | FScalar _ =>
    match rows, fl with
    | [row], [w] => if Reqb w 0 then Ok (QReal (map Re row)) else Ok (QRow row)
    | _, _ => Err IndexError
    end
  end.
End QT.
