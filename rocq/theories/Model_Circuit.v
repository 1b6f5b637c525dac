(** Model of qmix/circuit.py (class EmbeddingCircuit), except the text file
    functions, which are in Model_CircuitFile.v.

    Floats are exact reals, complex numbers Coquelicot's [C].  Setters take the
    state and return the new state together with [Ok tt] or the exception: a
    Python method that raises may have changed the object before. *)
From Coq Require Import List ZArith Bool Ascii String Reals.
From Coquelicot Require Import Complex.
From Verif Require Import Base Model_QtCurrent.
Import ListNotations.
Open Scope Z_scope.

(** A Python number given as a count: an int (or bool) or a float. *)
Inductive pynum := PInt (z : Z) | PFloat (x : R).
Definition pynum_val (n : pynum) : R := match n with PInt z => IZR z | PFloat x => x end.
Definition is_int (n : pynum) : bool := match n with PInt _ => true | PFloat _ => false end.

(** The attributes of an instance.  A cell of [vt] is [None] when the code has
    stored a value that is not finite there (division by zero or the square root
    of a negative number, which NumPy does not report).  The four [w_] fields are
    the writeable flags of the arrays. *)
Record circ := {
  c_name : string;
  c_num_f : nat; c_num_p : nat; c_num_n : nat;
  c_fgap : option R; c_vgap : option R; c_igap : option R; c_rn : option R;
  c_freq : list R;
  c_vt : list (list (option C));
  c_zt : list (list C);
  c_npts : nat;
  c_vb : list R;
  c_comment : list (list string);
  w_freq : bool; w_vt : bool; w_zt : bool; w_vb : bool
}.

(** np.linspace(lo, hi, n): n points, the last one stored exactly. *)
Definition linspace (lo hi : R) (n : nat) : list R :=
  tab n (fun i => if ((1 <? n) && (i =? n - 1))%nat then hi
                  else (lo + INR i * ((hi - lo) / INR (n - 1)))%R).

Section Constants.
(** scipy.constants.h and .e *)
Variables h e : R.

(** qmix/circuit.py:197-249 EmbeddingCircuit.__init__.  [num_f in [1,2,3,4]] also
    accepts floats such as 2.0, for which np.zeros then raises TypeError.
    [igap = vgap / rn] is a division of the Python numbers passed in. *)
Definition init (num_f num_p : pynum) (vb_min vb_max : R) (vb_npts : pynum)
  (fgap vgap rn : option R) (name : string) : res circ :=
  let* _ := guard (existsb (Reqb (pynum_val num_f)) [1%R; 2%R; 3%R; 4%R]) AssertionError in
  let* _ := guard (Rleb 1 (pynum_val num_p) && is_int num_p) AssertionError in
  let* _ := guard (is_int vb_npts && Rleb 1 (pynum_val vb_npts)) AssertionError in
  let* _ := guard (Rleb vb_min vb_max) AssertionError in
  let vgap' := match vgap, fgap with
               | Some v, _ => Some v
               | None, Some f => Some (f * h / e)%R
               | None, None => None end in
  let fgap' := match fgap, vgap with
               | Some f, _ => Some f
               | None, Some v => Some (v * e / h)%R
               | None, None => None end in
  let* igap := match vgap, rn with
               | Some v, Some r => if Reqb r 0 then Err ZeroDivisionError else Ok (Some (v / r)%R)
               | _, _ => Ok None end in
  match num_f, num_p, vb_npts with
  | PInt nf, PInt np, PInt n =>
    let nf := Z.to_nat nf in
    let np := Z.to_nat np in
    Ok {| c_name := name; c_num_f := nf; c_num_p := np; c_num_n := nf * np;
          c_fgap := fgap'; c_vgap := vgap'; c_igap := igap; c_rn := rn;
          c_freq := repeat 0%R (nf + 1);
          c_vt := repeat (repeat (Some (RtoC 0)) (np + 1)) (nf + 1);
          c_zt := repeat (repeat (RtoC 0) (np + 1)) (nf + 1);
          c_npts := Z.to_nat n; c_vb := linspace vb_min vb_max (Z.to_nat n);
          c_comment := repeat (repeat ""%string (np + 1)) (nf + 1);
          w_freq := true; w_vt := true; w_zt := true; w_vb := true |}
  | _, _, _ => Err TypeError
  end.
End Constants.

(** qmix/circuit.py:264-280 initialize_vj: shape and contents. *)
Definition initialize_vj (c : circ) : list (list (list C)) :=
  repeat (repeat (repeat (RtoC 0) (c_npts c)) (c_num_p c + 1)) (c_num_f c + 1).

(** ** Units *)

(** str.lower() on ASCII text (no non-ASCII letter lowers to a letter of a unit name). *)
Definition lower_ascii (a : ascii) : ascii :=
  let n := nat_of_ascii a in
  if ((65 <=? n) && (n <=? 90))%nat then ascii_of_nat (n + 32) else a.
Fixpoint lower (s : string) : string :=
  match s with EmptyString => EmptyString | String a s' => String (lower_ascii a) (lower s') end.

(** ** Element access *)

(** a[f, p] on a 2-D array. *)
Definition get2 {A} (m : list (list A)) (f p : Z) : res A :=
  let* row := pyget m f in pyget row p.
(** a[f, p] = v on a 2-D array (or list of lists) *)
Definition set2 {A} (m : list (list A)) (f p : Z) (v : A) : res (list (list A)) :=
  let* row := pyget m f in let* row' := pyset row p v in pyset m f row'.

(** Record updates. *)
Definition with_freq (c : circ) x := {|
  c_name := c_name c; c_num_f := c_num_f c; c_num_p := c_num_p c; c_num_n := c_num_n c;
  c_fgap := c_fgap c; c_vgap := c_vgap c; c_igap := c_igap c; c_rn := c_rn c;
  c_freq := x; c_vt := c_vt c; c_zt := c_zt c; c_npts := c_npts c; c_vb := c_vb c; c_comment := c_comment c;
  w_freq := w_freq c; w_vt := w_vt c; w_zt := w_zt c; w_vb := w_vb c |}.
Definition with_vt (c : circ) x := {|
  c_name := c_name c; c_num_f := c_num_f c; c_num_p := c_num_p c; c_num_n := c_num_n c;
  c_fgap := c_fgap c; c_vgap := c_vgap c; c_igap := c_igap c; c_rn := c_rn c;
  c_freq := c_freq c; c_vt := x; c_zt := c_zt c; c_npts := c_npts c; c_vb := c_vb c; c_comment := c_comment c;
  w_freq := w_freq c; w_vt := w_vt c; w_zt := w_zt c; w_vb := w_vb c |}.
Definition with_zt (c : circ) x := {|
  c_name := c_name c; c_num_f := c_num_f c; c_num_p := c_num_p c; c_num_n := c_num_n c;
  c_fgap := c_fgap c; c_vgap := c_vgap c; c_igap := c_igap c; c_rn := c_rn c;
  c_freq := c_freq c; c_vt := c_vt c; c_zt := x; c_npts := c_npts c; c_vb := c_vb c; c_comment := c_comment c;
  w_freq := w_freq c; w_vt := w_vt c; w_zt := w_zt c; w_vb := w_vb c |}.
Definition with_vb (c : circ) x := {|
  c_name := c_name c; c_num_f := c_num_f c; c_num_p := c_num_p c; c_num_n := c_num_n c;
  c_fgap := c_fgap c; c_vgap := c_vgap c; c_igap := c_igap c; c_rn := c_rn c;
  c_freq := c_freq c; c_vt := c_vt c; c_zt := c_zt c; c_npts := c_npts c; c_vb := x; c_comment := c_comment c;
  w_freq := w_freq c; w_vt := w_vt c; w_zt := w_zt c; w_vb := w_vb c |}.
Definition with_comment (c : circ) x := {|
  c_name := c_name c; c_num_f := c_num_f c; c_num_p := c_num_p c; c_num_n := c_num_n c;
  c_fgap := c_fgap c; c_vgap := c_vgap c; c_igap := c_igap c; c_rn := c_rn c;
  c_freq := c_freq c; c_vt := c_vt c; c_zt := c_zt c; c_npts := c_npts c; c_vb := c_vb c; c_comment := x;
  w_freq := w_freq c; w_vt := w_vt c; w_zt := w_zt c; w_vb := w_vb c |}.
Definition with_flags (c : circ) (a b d g : bool) := {|
  c_name := c_name c; c_num_f := c_num_f c; c_num_p := c_num_p c; c_num_n := c_num_n c;
  c_fgap := c_fgap c; c_vgap := c_vgap c; c_igap := c_igap c; c_rn := c_rn c;
  c_freq := c_freq c; c_vt := c_vt c; c_zt := c_zt c; c_npts := c_npts c; c_vb := c_vb c; c_comment := c_comment c;
  w_freq := a; w_vt := b; w_zt := d; w_vb := g |}.

(** Result of a method call: the object afterwards and what was raised. *)
Definition outcome := (circ * res unit)%type.
Definition done (c : circ) (r : res circ) : outcome :=
  match r with Ok c' => (c', Ok tt) | Err e => (c, Err e) end.

(** NumPy element writes: a read-only array raises ValueError before the index is
    looked at. *)
Definition put_freq (c : circ) (f : Z) (v : R) : res circ :=
  let* _ := guard (w_freq c) ValueError in let* l := pyset (c_freq c) f v in Ok (with_freq c l).
Definition put_vt (c : circ) (f p : Z) (v : option C) : res circ :=
  let* _ := guard (w_vt c) ValueError in let* l := set2 (c_vt c) f p v in Ok (with_vt c l).
Definition put_zt (c : circ) (f p : Z) (v : C) : res circ :=
  let* _ := guard (w_zt c) ValueError in let* l := set2 (c_zt c) f p v in Ok (with_zt c l).
Definition put_vb (c : circ) (i : Z) (v : R) : res circ :=
  let* _ := guard (w_vb c) ValueError in let* l := pyset (c_vb c) i v in Ok (with_vb c l).

(** ** Power *)

(** A NumPy float result: finite, -inf (log10 of 0), or another non-finite value. *)
Inductive xval := XFin (x : R) | XNegInf | XNonFinite.

Definition log10 (x : R) : R := (ln x / ln 10)%R.
Definition np_log10 (x : R) : xval :=
  if Rltb 0 x then XFin (log10 x) else if Reqb x 0 then XNegInf else XNonFinite.

Definition xscale (k : R) (x : xval) : xval :=      (* k > 0 *)
  match x with XFin y => XFin (k * y) | y => y end.
Definition xmap (g : R -> R) (x : xval) : xval := match x with XFin y => XFin (g y) | y => y end.
Definition xbind (x : xval) (g : R -> xval) : xval := match x with XFin y => g y | y => y end.

(** qmix/circuit.py:282-329 available_power. *)
Definition available_power (c : circ) (f p : Z) (units : string) : res xval :=
  match c_vgap c with None => Err AssertionError | Some vgap =>
  match c_rn c with None => Err AssertionError | Some rn =>
  let* vt := get2 (c_vt c) f p in
  let* zt := get2 (c_zt c) f p in
  let r_ohms := (Re zt * rn)%R in
  let power :=
    if Reqb r_ohms 0 then XFin 0
    else match vt with
         | Some v => XFin (Cmod (Cmult v (RtoC vgap)) ^ 2 / r_ohms / 8)
         | None => XNonFinite
         end in
  let u := lower units in
  if (u =? "w")%string then Ok power
  else if (u =? "mw")%string then Ok (xmap (fun x => x / (/ 10 ^ 3))%R power)
  else if (u =? "uw")%string then Ok (xmap (fun x => x / (/ 10 ^ 6))%R power)
  else if (u =? "nw")%string then Ok (xmap (fun x => x / (/ 10 ^ 9))%R power)
  else if (u =? "pw")%string then Ok (xmap (fun x => x / (/ 10 ^ 12))%R power)
  else if (u =? "fw")%string then Ok (xmap (fun x => x / (/ 10 ^ 15))%R power)
  else if (u =? "dbm")%string then Ok (xscale 10 (xbind power (fun x => np_log10 (x * 10 ^ 3))))
  else if (u =? "dbw")%string then Ok (xscale 10 (xbind power np_log10))
  else Err ValueError
  end end.

(** The conversion to watts, qmix/circuit.py:355-372. *)
Definition to_watts (power : R) (units : string) : res R :=
  let u := lower units in
  if (u =? "w")%string then Ok power
  else if (u =? "mw")%string then Ok (power * / 10 ^ 3)%R
  else if (u =? "uw")%string then Ok (power * / 10 ^ 6)%R
  else if (u =? "nw")%string then Ok (power * / 10 ^ 9)%R
  else if (u =? "pw")%string then Ok (power * / 10 ^ 12)%R
  else if (u =? "fw")%string then Ok (power * / 10 ^ 15)%R
  else if (u =? "dbm")%string then Ok (Rpower 10 (power / 10) * / 10 ^ 3)%R
  else if (u =? "dbw")%string then Ok (Rpower 10 (power / 10))
  else Err ValueError.

(** qmix/circuit.py:331-381 set_available_power. *)
Definition set_available_power (c : circ) (power : R) (f p : Z) (units : string) : outcome :=
  done c (
  match c_vgap c with None => Err AssertionError | Some vgap =>
  match c_rn c with None => Err AssertionError | Some rn =>
  let* zt := get2 (c_zt c) f p in
  if Reqb (Cmod zt) 0 then Err AssertionError else
  let* power := to_watts power units in
  let r_ohms := (Re zt * rn)%R in
  let x := (8 * power * r_ohms)%R in
  put_vt c f p (if Rltb x 0 then None
                else if Reqb vgap 0 then None
                else Some (RtoC (sqrt x / vgap)))
  end end).

(** qmix/circuit.py:383-408 set_alpha. *)
Definition set_alpha (c : circ) (alpha : R) (f p : Z) (zj : C) : outcome :=
  done c (
  let* zt := get2 (c_zt c) f p in
  if Reqb (Cmod zt) 0 then Err AssertionError else
  let* freq := pyget (c_freq c) f in
  if Reqb freq 0 then Err AssertionError else
  put_vt c f p (if Reqb (Cmod zj) 0 then None
                else Some (Cmult (RtoC (alpha * freq)) (Cplus (Cdiv zt zj) (RtoC 1))))).

(** value / gap with Python floats *)
Definition fdiv (x y : R) : res R := if Reqb y 0 then Err ZeroDivisionError else Ok (x / y)%R.

(** qmix/circuit.py:410-460 set_freq.  Line 442 compares the method [units.lower]
    itself with 'norm', so the gap frequency is required for every unit. *)
Definition set_freq (c : circ) (value : R) (f : Z) (units : string) : outcome :=
  done c (
  match c_fgap c with None => Err AssertionError | Some fgap =>
  let vdiv x := match c_vgap c with Some vgap => fdiv x vgap | None => Err TypeError end in
  let u := lower units in
  if (u =? "hz")%string then let* x := fdiv value fgap in put_freq c f x
  else if (u =? "mhz")%string then let* x := fdiv (value * 10 ^ 6) fgap in put_freq c f x
  else if (u =? "ghz")%string then let* x := fdiv (value * 10 ^ 9) fgap in put_freq c f x
  else if (u =? "thz")%string then let* x := fdiv (value * 10 ^ 12) fgap in put_freq c f x
  else if (u =? "v")%string then let* x := vdiv value in put_freq c f x
  else if (u =? "mv")%string then let* x := vdiv (value * / 10 ^ 3)%R in put_freq c f x
  else if (u =? "norm")%string then put_freq c f value
  else Err ValueError
  end).

(** qmix/circuit.py:462-475 set_name. *)
Definition set_name (c : circ) (name : string) (f p : Z) : outcome :=
  done c (let* l := set2 (c_comment c) f p name in Ok (with_comment c l)).

(** qmix/circuit.py:545-568 lock and unlock. *)
Definition lock (c : circ) : circ := with_flags c false false false false.
Definition unlock (c : circ) : circ := with_flags c true true true true.

(** qmix/circuit.py:570-578 vph: returns self.cct, an attribute no method sets. *)
Definition vph (c : circ) : res (list R) := Err AttributeError.

(** ** Histories *)

(** What a user can do with an object, including writing array elements. *)
Inductive op :=
| SetFreq (value : R) (f : Z) (units : string)
| SetPower (power : R) (f p : Z) (units : string)
| SetAlpha (alpha : R) (f p : Z) (zj : C)
| SetName (name : string) (f p : Z)
| PutFreq (f : Z) (v : R)          (* cct.freq[f] = v *)
| PutVt (f p : Z) (v : C)          (* cct.vt[f,p] = v *)
| PutZt (f p : Z) (v : C)          (* cct.zt[f,p] = v *)
| PutVb (i : Z) (v : R)            (* cct.vb[i] = v *)
| Lock | Unlock.

Definition exec (c : circ) (o : op) : outcome :=
  match o with
  | SetFreq v f u => set_freq c v f u
  | SetPower w f p u => set_available_power c w f p u
  | SetAlpha a f p zj => set_alpha c a f p zj
  | SetName s f p => set_name c s f p
  | PutFreq f v => done c (put_freq c f v)
  | PutVt f p v => done c (put_vt c f p (Some v))
  | PutZt f p v => done c (put_zt c f p v)
  | PutVb i v => done c (put_vb c i v)
  | Lock => (lock c, Ok tt)
  | Unlock => (unlock c, Ok tt)
  end.

(** A history; exceptions are caught by the caller, who goes on. *)
Fixpoint run (c : circ) (os : list op) : circ * list (res unit) :=
  match os with
  | [] => (c, [])
  | o :: os' => let '(c', r) := exec c o in let '(c'', rs) := run c' os' in (c'', r :: rs)
  end.
