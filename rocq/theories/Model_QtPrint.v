(** Model of what qmix/qtcurrent.py prints.

    The calculation is the one of Model_QtCurrent.v, with the messages at the places where the
    code prints them.  Simplification: the duration that is measured is a parameter. *)
From Coq Require Import List ZArith Bool Arith Reals String.
From Coquelicot Require Import Complex.
From Verif Require Import Base Round Spec_QtCurrent Model_Misc Model_Print Model_Said Model_QtCurrent.
Import ListNotations.
Local Notation length := List.length.
Open Scope list_scope.

(** The messages of lines 98-100, 193, 135 and 136. *)
Inductive qmsg := Calculating | Tones (n : nat) | Harmonics (n : nat) | BadTones | Finished | Elapsed (t : R).
Definition qtext (m : qmsg) : string :=
  match m with
  | Calculating => print "Calculating tunneling current..."
  | Tones n => print (" - " ++ digits n ++ " tone(s)")
  | Harmonics n => print (" - " ++ digits n ++ " harmonic(s)")
  | BadTones => print "num_f must be 1, 2, 3 or 4!"
  | Finished => print "Done."
  | Elapsed t => print ("Time: " ++ fixed false 0 4 t ++ " s" ++ newline)
  end%string.

(** qmix/qtcurrent.py:164-196 interpolate_respfn: the last branch prints. *)
Definition interpolate_respfn_p (cct : qcct) (resp : R -> C) (num_b : numb) : said qmsg respmat :=
  let! nb := quietly (unpack_num_b num_b (q_num_f cct)) in
  match q_num_f cct with
  | 1%nat | 2%nat | 3%nat | 4%nat => quietly (interpolate_respfn cct resp num_b)
  | _ => let! _ := say_if true [BadTones] in quietly (Err ValueError)
  end.

(** qmix/qtcurrent.py:37-144 qtcurrent *)
Definition qtcurrent_p (J : nat -> R -> R) (elapsed : R) (vj : nat -> nat -> vec) (cct : qcct) (resp : R -> C) (freq_list : freq_arg)
  (num_b : numb) (verbose : bool) (resp_matrix : option respmat) : said qmsg qt_out :=
  let num_f := q_num_f cct in
  let num_p := q_num_p cct in
  let npts := q_npts cct in
  let! _ := quietly (guard (forallb (fun f => Rltb 0 (q_freq cct f)) (seq 1 num_f)) AssertionError) in
  let fl := match freq_list with FList l => l | FScalar x => [x] end in
  let fl := map round4 fl in
  let! nb_list := quietly (unpack_num_b num_b num_f) in
  let! _ := say_if verbose [Calculating; Tones num_f; Harmonics num_p] in
  let! ccc := quietly (calculate_phase_factor_coeff J vj (q_freq cct) num_f num_p num_b) in
  let! rm := match resp_matrix with
             | None => interpolate_respfn_p cct resp num_b
             | Some rm =>
               let! _ := quietly (guard (length (rm_shape rm) + 1 =? num_f + 1)%nat AssertionError) in
               let! _ := quietly (guard (rm_npts rm =? npts)%nat AssertionError) in
               quietly (Ok rm)
             end in
  let! rows := quietly (mapM (fun w => current_n_tones num_f w ccc (q_freq cct) rm num_p nb_list) fl) in
  let! _ := say_if verbose [Finished; Elapsed elapsed] in
  let rows := map (Model_QtCurrent.tab npts) rows in
  quietly match freq_list with
          | FList _ => Ok (QRows rows)
          | FScalar _ =>
            match rows, fl with
            | [row], [w] => if Reqb w 0 then Ok (QReal (map Re row)) else Ok (QRow row)
            | _, _ => Err IndexError
            end
          end.
