(** The keyword arguments of the response function classes: what the docstrings of
    qmix/respfn.py say, and the defaults that the classes are written with. *)
From Coq Require Import ZArith Bool Reals String.
From Verif Require Import Base Model_RespFn.

(** Defaults that all classes share, in the docstrings and in the code. *)
Definition common_default (key : string) : option value :=
  if String.eqb key "max_interp_error" then Some (VReal (1 / 1000))
  else if String.eqb key "check_error" then Some (VBool false)
  else if String.eqb key "verbose" then Some (VBool true)
  else if String.eqb key "v_smear" then Some VNone
  else if String.eqb key "kk_n" then Some (VInt 50)
  else if String.eqb key "spline_order" then Some (VInt 3)
  else None.
(** The table with the given numbers of points. *)
Definition with_points (dc kk : Z) (key : string) : option value :=
  if String.eqb key "max_npts_dc" then Some (VInt dc)
  else if String.eqb key "max_npts_kk" then Some (VInt kk)
  else common_default key.
(** All the docstrings say 101 and 151. *)
Definition documented : string -> option value := with_points 101 151.
(** The defaults of the subclasses. *)
Definition class_default (c : respclass) : string -> option value :=
  match c with
  | FromIVData => with_points 81 101
  | Exponential => with_points 101 251
  | _ => with_points 101 151
  end.

(** Parameters that suit every grid: positive padding, a spline order between 1 and 5, no
    error check, smearing by 1/600 to 1 if any. *)
Definition usable_params (p : params) : Prop :=
  (1 <= kk_n p)%Z /\ (1 <= spline_order p <= 5)%Z /\ check_error p = false /\
  match v_smear p with None => True | Some s => (1 / 600 <= s <= 1)%R end.
