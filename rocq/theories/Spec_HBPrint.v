(** Vocabulary for the messages of harmonic_balance.  The texts of the messages are in
    Model_HBPrint.v ([text]). *)
From Coq Require Import List ZArith Bool Reals String Permutation Sorted.
From Coquelicot Require Import Complex.
From Verif Require Import Base Sums Round Model_QtCurrent Spec_QtCurrent Spec_QtApi Model_HB Model_HBPrint Spec_HB.
Import ListNotations.
Local Notation length := List.length.
Open Scope list_scope.
Open Scope C_scope.

(** e is the relative error |r| / |v|: a number, infinite (r / 0) or undefined (0 / 0). *)
Definition error_is (e : xr) (r v : C) : Prop :=
  match e with
  | Fin x => v <> RtoC 0 /\ Cmod r = (x * Cmod v)%R
  | Inf => v = RtoC 0 /\ r <> RtoC 0
  | NaN => v = RtoC 0 /\ r = RtoC 0
  end.
(** The order of the errors that are defined. *)
Definition error_le (a b : xr) : Prop :=
  match a, b with Fin x, Fin y => (x <= y)%R | Fin _, Inf | Inf, Inf => True | _, _ => False end.
(** The largest element of a list, and the median: the mean of the one or two elements in the
    middle of the sorted list.  Both are undefined if an element is. *)
Definition largest_of (es : list xr) (m : xr) : Prop :=
  In NaN es /\ m = NaN \/ ~ In NaN es /\ In m es /\ forall e, In e es -> error_le e m.
Definition median_of (es : list xr) (m : xr) : Prop :=
  In NaN es /\ m = NaN \/
  ~ In NaN es /\ exists s, Permutation es s /\ StronglySorted error_le s /\
    match nth ((length es - 1) / 2) s NaN, nth (length es / 2) s NaN with
    | Fin x, Fin y => m = Fin ((x + y) / 2)
    | _, _ => m = Inf
    end.
(** What stands in the message for the error m: never more than 99999.999. *)
Definition shown (m y : xr) : Prop :=
  match m with NaN => y = NaN | Inf => y = Fin 99999.999 | Fin x => y = Fin (Rmin x 99999.999) end.

(** The message about harmonic p of tone f at the junction voltages v: median and largest error
    over the bias points, and the percentage of the bias points that meet the target. *)
Definition signal_report J c resp num_b (stop : R) (v : arr3) (f p : nat) (m : msg) : Prop :=
  exists es med mx med' mx' ok,
    length es = q_npts (h_q c) /\
    (forall i, (i < q_npts (h_q c))%nat -> error_is (nth i es NaN) (residual_at J c resp num_b v f p i) (v f p i)) /\
    median_of es med /\ largest_of es mx /\ shown med med' /\ shown mx mx' /\
    NoDup ok /\ (forall i, In i ok <-> (i < q_npts (h_q c))%nat /\ v f p i <> RtoC 0 /\
                                      (Cmod (residual_at J c resp num_b v f p i) < stop * Cmod (v f p i))%R) /\
    m = SignalError f p med' mx' (100 * (INR (length ok) / INR (q_npts (h_q c)))).

(** The messages about all signals after [it] corrections: tone by tone, harmonic by harmonic. *)
Definition round_report J c resp num_b stop (v : arr3) (it : Z) (l : list msg) : Prop :=
  exists reports, l = ErrorAfter it :: reports /\
    Forall2 (fun fp m => signal_report J c resp num_b stop v (fst fp) (snd fp) m) (list_prod (seq 1 (q_num_f (h_q c))) (seq 1 (q_num_p (h_q c)))) reports.

(** The target is met at every signal and bias point, and no voltage is 0. *)
Definition target J c resp num_b stop (v : arr3) : Prop :=
  everywhere (h_q c) (fun f p i => v f p i <> RtoC 0) /\ balanced J c resp num_b stop v.
(** The error is larger than the target somewhere. *)
Definition missed J c resp num_b (stop : R) (v : arr3) : Prop :=
  exists f p i, signal (h_q c) f p /\ (i < q_npts (h_q c))%nat /\ ~ undefined J c resp num_b v f p i /\
    (stop * Cmod (v f p i) < Cmod (residual_at J c resp num_b v f p i))%R.
(** The error of the last signal is undefined at some bias point. *)
Definition undefined_last J c resp num_b (v : arr3) : Prop :=
  exists i, (i < q_npts (h_q c))%nat /\ undefined J c resp num_b v (q_num_f (h_q c)) (q_num_p (h_q c)) i.
(** The progress bar of one correction. *)
Definition bars (c : hcct) : list msg := let n := (q_num_f (h_q c) * q_num_p (h_q c))%nat in map (fun k => Progress k n) (seq 0 (S n)).

(** [transcript it v l v' it']: from voltages v, after [it] corrections, the messages l are
    printed; the run ends with voltages v' and reports it' iterations. *)
Inductive transcript J c resp num_b (stop damp : R) (max_it : Z) : Z -> arr3 -> list msg -> arr3 -> Z -> Prop :=
| T_met it v l : round_report J c resp num_b stop v it l -> ~ undefined_last J c resp num_b v ->
    (everywhere (h_q c) (fun f p i => ~ undefined J c resp num_b v f p i) -> balanced J c resp num_b stop v) ->
    transcript J c resp num_b stop damp max_it it v (l ++ [TargetMet]) v it
| T_missed v l : round_report J c resp num_b stop v max_it l -> missed J c resp num_b stop v ->
    transcript J c resp num_b stop damp max_it max_it v (l ++ [TargetMissed]) v max_it
| T_again it v l v1 l1 v2 it2 : round_report J c resp num_b stop v it l ->
    ((it < max_it)%Z /\ ((0 <= stop)%R -> ~ target J c resp num_b stop v) \/ it = max_it /\ undefined_last J c resp num_b v) ->
    corrected J c resp num_b damp v v1 ->
    transcript J c resp num_b stop damp max_it (it + 1) v1 l1 v2 it2 ->
    transcript J c resp num_b stop damp max_it it v (l ++ bars c ++ [Correcting] ++ l1) v2 it2
| T_out v : transcript J c resp num_b stop damp max_it (max_it + 1) v [] v max_it.

(** What check_hb_error prints about the signals: a line for each one that passes, up to the first
    one that does not. *)
Inductive checks J c resp num_b (stop : R) (v : arr3) : list (nat * nat) -> list msg -> bool -> Prop :=
| K_end : checks J c resp num_b stop v [] [] true
| K_pass f p l out ok mx es : length es = q_npts (h_q c) ->
    (forall i, (i < q_npts (h_q c))%nat -> error_is (nth i es NaN) (residual_at J c resp num_b v f p i) (v f p i)) -> largest_of es mx ->
    (forall i, (i < q_npts (h_q c))%nat -> v f p i <> RtoC 0 /\ (Cmod (residual_at J c resp num_b v f p i) < stop * Cmod (v f p i))%R) ->
    checks J c resp num_b stop v l out ok -> checks J c resp num_b stop v ((f, p) :: l) (Checked f p mx true :: out) ok
| K_fail f p l mx es i : length es = q_npts (h_q c) ->
    (forall i, (i < q_npts (h_q c))%nat -> error_is (nth i es NaN) (residual_at J c resp num_b v f p i) (v f p i)) -> largest_of es mx ->
    (i < q_npts (h_q c))%nat -> ~ (v f p i <> RtoC 0 /\ (Cmod (residual_at J c resp num_b v f p i) < stop * Cmod (v f p i))%R) ->
    checks J c resp num_b stop v ((f, p) :: l) [Checked f p mx false] false.
