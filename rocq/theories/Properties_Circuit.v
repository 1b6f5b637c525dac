(** Properties C20-C29: the embedding circuit.

    The vocabulary is in Spec_Circuit.v.  [h] and [e] are the Planck constant and
    the electron charge; nothing but their being non-zero is used. *)
From Coq Require Import List ZArith Bool Ascii String Reals Lia Lra.
From Coquelicot Require Import Complex.
From Verif Require Import Base Round Model_QtCurrent Model_Circuit Model_CircuitFile Spec_Circuit
  Proof_Circuit Proof_Circuit2 Proof_CircuitFile Proof_CircuitNl Proof_CircuitWit.
Import ListNotations.
Open Scope R_scope.

(** ** C20 *)
Theorem C20_constructor_domain : forall h e num_f num_p vb_min vb_max vb_npts fgap vgap rn name,
  (exists c, init h e num_f num_p vb_min vb_max vb_npts fgap vgap rn name = Ok c) <->
  (exists k, num_f = PInt k /\ (1 <= k <= 4)%Z) /\ (exists k, num_p = PInt k /\ (1 <= k)%Z) /\
  (exists k, vb_npts = PInt k /\ (1 <= k)%Z) /\ vb_min <= vb_max /\ ~ (vgap <> None /\ rn = Some 0).
Proof. exact init_ok_iff. Qed.
Print Assumptions C20_constructor_domain.

Theorem C20_new_circuit : forall h e nf np vb_min vb_max n fgap vgap rn name c,
  init h e (PInt nf) (PInt np) vb_min vb_max (PInt n) fgap vgap rn name = Ok c ->
  c_num_f c = Z.to_nat nf /\ c_num_p c = Z.to_nat np /\ c_npts c = Z.to_nat n /\ c_name c = name /\ c_rn c = rn /\
  well_shaped c /\ writeable c /\
  (forall f, (f <= c_num_f c)%nat -> nth_error (c_freq c) f = Some 0) /\
  (forall f p, (f <= c_num_f c)%nat -> (p <= c_num_p c)%nat ->
     cell (c_vt c) f p = Some (Some (RtoC 0)) /\ cell (c_zt c) f p = Some (RtoC 0) /\ cell (c_comment c) f p = Some ""%string).
Proof. exact new_circuit. Qed.
Print Assumptions C20_new_circuit.

Theorem C20_gap_consistent : forall h e num_f num_p vb_min vb_max n fgap vgap rn name c,
  e <> 0 -> h <> 0 ->
  init h e num_f num_p vb_min vb_max n fgap vgap rn name = Ok c ->
  (forall f, fgap = Some f -> c_fgap c = Some f) /\ (forall v, vgap = Some v -> c_vgap c = Some v) /\
  (fgap = None \/ vgap = None ->
   match c_vgap c, c_fgap c with Some v, Some f => v = f * h / e | None, None => fgap = None /\ vgap = None | _, _ => False end).
Proof. exact gap_consistent. Qed.
Print Assumptions C20_gap_consistent.

(** The shapes stay as they are whatever is done with the circuit. *)
Theorem C20_shapes_kept : forall os c, well_shaped c ->
  well_shaped (fst (run c os)) /\ c_num_f (fst (run c os)) = c_num_f c /\ c_num_p (fst (run c os)) = c_num_p c /\
  c_npts (fst (run c os)) = c_npts c.
Proof. exact run_shape. Qed.
Print Assumptions C20_shapes_kept.

(** initialize_vj: one zero for every tone 0..num_f, harmonic 0..num_p and bias point. *)
Theorem C20_initial_voltage : forall c,
  List.length (initialize_vj c) = S (c_num_f c) /\
  forall f, (f <= c_num_f c)%nat -> exists rows, nth_error (initialize_vj c) f = Some rows /\ List.length rows = S (c_num_p c) /\
  forall p, (p <= c_num_p c)%nat -> exists vs, nth_error rows p = Some vs /\ List.length vs = c_npts c /\ forall v, In v vs -> v = RtoC 0.
Proof. exact initial_voltage. Qed.
Print Assumptions C20_initial_voltage.

(** A two-tone, two-harmonic circuit (gap 2.8 mV, 10 ohm) used as the concrete case. *)
Example C20_case : exists c, init 1 2 (PInt 2) (PInt 2) 0 2 (PInt 5) None (Some (28 / 10000)) (Some 10) "ex" = Ok c /\
  c_fgap c = Some (28 / 10000 * 2 / 1) /\ c_igap c = Some (28 / 10000 / 10).
Proof. exact ex_init. Qed.

(** ** C21 *)
Theorem C21_power_round_trip : forall c c' power f p s u vgap rn zt,
  names_punit s u -> c_vgap c = Some vgap -> vgap <> 0 -> c_rn c = Some rn ->
  get2 (c_zt c) f p = Ok zt -> 0 < Re zt * rn -> (is_dB u = false -> 0 <= power) ->
  set_available_power c power f p s = (c', Ok tt) ->
  available_power c' f p s = Ok (XFin power) /\
  (forall s2 u2, names_punit s2 u2 -> 0 < in_watts u power \/ is_dB u2 = false ->
     exists x, available_power c' f p s2 = Ok (XFin x) /\ in_watts u2 x = in_watts u power).
Proof. exact power_round_trip. Qed.
Print Assumptions C21_power_round_trip.

Theorem C21_setting_succeeds : forall c power f p s u vgap rn zt old,
  names_punit s u -> w_vt c = true -> c_vgap c = Some vgap -> c_rn c = Some rn ->
  get2 (c_zt c) f p = Ok zt -> zt <> RtoC 0 -> get2 (c_vt c) f p = Ok old ->
  exists c', set_available_power c power f p s = (c', Ok tt).
Proof. exact set_power_succeeds. Qed.
Print Assumptions C21_setting_succeeds.

Theorem C21_unknown_units_raise : forall c power f p s,
  (forall u, ~ names_punit s u) ->
  (forall v rn zt, c_vgap c = Some v -> c_rn c = Some rn -> get2 (c_zt c) f p = Ok zt -> zt <> RtoC 0 ->
     set_available_power c power f p s = (c, Err ValueError)) /\
  (forall v rn zt vt, c_vgap c = Some v -> c_rn c = Some rn -> get2 (c_zt c) f p = Ok zt -> get2 (c_vt c) f p = Ok vt ->
     available_power c f p s = Err ValueError).
Proof. exact unknown_power_unit'. Qed.
Print Assumptions C21_unknown_units_raise.

Example C21_case : exists c', set_available_power ex_c (-30) 1 2 "DBM" = (c', Ok tt) /\
  available_power c' 1 2 "dBm" = Ok (XFin (-30)).
Proof. exact ex_power. Qed.
Example C21_units_any_case : names_punit "DBM" UdBm /\ names_punit "dbm" UdBm /\ names_punit "Mw" UmW /\ (forall u, ~ names_punit "dBmW" u).
Proof. exact ex_units. Qed.

(** ** C22 *)
Theorem C22_set_freq : forall c value f units c' r, set_freq c value f units = (c', r) ->
  ((exists er, r = Err er) /\ c' = c) \/
  (r = Ok tt /\ same_but true false false false false false c c' /\
   exists j x, names (List.length (c_freq c)) f j /\ replaced (c_freq c) (c_freq c') j x).
Proof. exact set_freq_touches. Qed.
Print Assumptions C22_set_freq.

Theorem C22_set_available_power : forall c power f p units c' r, set_available_power c power f p units = (c', r) ->
  ((exists er, r = Err er) /\ c' = c) \/
  (r = Ok tt /\ same_but false true false false false false c c' /\
   exists j k row x, names (List.length (c_vt c)) f j /\ nth_error (c_vt c) j = Some row /\ names (List.length row) p k /\
     replaced2 (c_vt c) (c_vt c') j k x).
Proof. exact set_power_touches. Qed.
Print Assumptions C22_set_available_power.

Theorem C22_set_alpha : forall c alpha f p zj c' r, set_alpha c alpha f p zj = (c', r) ->
  ((exists er, r = Err er) /\ c' = c) \/
  (r = Ok tt /\ same_but false true false false false false c c' /\
   exists j k row x, names (List.length (c_vt c)) f j /\ nth_error (c_vt c) j = Some row /\ names (List.length row) p k /\
     replaced2 (c_vt c) (c_vt c') j k x).
Proof. exact set_alpha_touches. Qed.
Print Assumptions C22_set_alpha.

Theorem C22_set_name : forall c name f p c' r, set_name c name f p = (c', r) ->
  ((exists er, r = Err er) /\ c' = c) \/
  (r = Ok tt /\ same_but false false false false true false c c' /\
   exists j k row, names (List.length (c_comment c)) f j /\ nth_error (c_comment c) j = Some row /\ names (List.length row) p k /\
     replaced2 (c_comment c) (c_comment c') j k name).
Proof. exact set_name_touches. Qed.
Print Assumptions C22_set_name.

(** Both outcomes occur: a negative index names an entry, a large one raises. *)
Example C22_case : (exists c', set_name ex_c "LO" (-1) 1 = (c', Ok tt) /\ cell (c_comment c') 2 1 = Some "LO"%string) /\
  set_name ex_c "LO" 3 1 = (ex_c, Err IndexError).
Proof. exact ex_name. Qed.

(** ** C23 *)
(** Every unit stores the frequency it stands for, divided by the gap frequency,
    so equivalent values store the same number. *)
Theorem C23_units : forall h e c fgap vgap s u x f,
  names_funit s u -> c_fgap c = Some fgap -> c_vgap c = Some vgap -> h <> 0 -> e <> 0 -> fgap <> 0 -> vgap = fgap * h / e ->
  set_freq c x f s = done c (put_freq c f (in_hertz h e fgap u x / fgap)).
Proof. exact freq_units. Qed.
Print Assumptions C23_units.

Theorem C23_units_agree : forall h e c fgap vgap s u x s2 u2 x2 f,
  names_funit s u -> names_funit s2 u2 -> c_fgap c = Some fgap -> c_vgap c = Some vgap -> h <> 0 -> e <> 0 -> fgap <> 0 -> vgap = fgap * h / e ->
  in_hertz h e fgap u x = in_hertz h e fgap u2 x2 ->
  set_freq c x f s = set_freq c x2 f s2.
Proof. exact freq_units_agree. Qed.
Print Assumptions C23_units_agree.

(** Normalised values are accepted once the gap is known ... *)
Theorem C23_norm_partial : forall c fgap s x f,
  names_funit s Unorm -> c_fgap c = Some fgap -> set_freq c x f s = done c (put_freq c f x).
Proof. exact freq_norm. Qed.
Print Assumptions C23_norm_partial.
(** ... but not for any circuit: without a gap they are refused. *)
Theorem C23_norm_refuted : forall h e num_f num_p vb_min vb_max n rn name c x f,
  init h e num_f num_p vb_min vb_max n None None rn name = Ok c ->
  set_freq c x f "norm" = (c, Err AssertionError).
Proof. exact freq_norm_refused. Qed.
Print Assumptions C23_norm_refuted.

Example C23_case : exists c', set_freq ex_c (14 / 10) 1 "mV" = (c', Ok tt) /\ nth_error (c_freq c') 1 = Some (1 / 2).
Proof. exact ex_freq. Qed.
Example C23_refuted_case : exists c, init 1 2 (PInt 1) (PInt 1) 0 2 (PInt 5) None None None "" = Ok c.
Proof. exact ex_nogap. Qed.

(** ** C24 *)
Theorem C24_igap_partial : forall h e num_f num_p vb_min vb_max n fgap v r name c,
  init h e num_f num_p vb_min vb_max n fgap (Some v) (Some r) name = Ok c ->
  c_vgap c = Some v /\ c_igap c = Some (v / r).
Proof. exact igap_given. Qed.
Print Assumptions C24_igap_partial.
(** With the gap given as a frequency, vgap and rn are both known but igap never is. *)
Theorem C24_igap_refuted : forall h e num_f num_p vb_min vb_max n f r name c,
  init h e num_f num_p vb_min vb_max n (Some f) None (Some r) name = Ok c ->
  c_vgap c = Some (f * h / e) /\ c_rn c = Some r /\ c_igap c = None.
Proof. exact igap_missing. Qed.
Print Assumptions C24_igap_refuted.
Example C24_case : exists c, init 1 2 (PInt 1) (PInt 1) 0 2 (PInt 5) (Some 700) None (Some 10) "" = Ok c.
Proof. exact ex_fgap. Qed.

(** ** C25 *)
Theorem C25_locked_unchanged : forall os c, locked c -> existsb is_unlock os = false ->
  locked (fst (run c os)) /\ same_but false false false false true false c (fst (run c os)) /\
  Forall2 (fun o r => writes_array o = true -> exists er, r = Err er) os (snd (run c os)).
Proof. exact run_locked. Qed.
Print Assumptions C25_locked_unchanged.

(** Locking, doing anything but unlocking, and unlocking leaves a writeable circuit as
    if only the names had been set; the rest of its life is then the same. *)
Theorem C25_as_if_never_locked : forall c os rest, writeable c -> existsb is_unlock os = false ->
  run (fst (run c (Lock :: os ++ [Unlock]))) rest = run (fst (run c (filter is_set_name os))) rest.
Proof. exact as_if_never_locked. Qed.
Print Assumptions C25_as_if_never_locked.

Example C25_case : locked (lock ex_c) /\ writeable ex_c /\
  existsb is_unlock [SetFreq 1 1 "norm"; PutZt 1 1 (RtoC 1); SetName "LO" 1 1] = false.
Proof. repeat split. Qed.

(** ** C26 *)
Theorem C26_round_trip : forall h e c,
  well_shaped c -> (1 <= c_num_f c <= 4)%nat -> (1 <= c_num_p c)%nat ->
  exists t c', save_info c = Ok t /\ read_circuit h e t = Ok c' /\ rounded_copy c c'.
Proof. exact round_trip. Qed.
Print Assumptions C26_round_trip.

Theorem C26_second_time_exact : forall h e c t c',
  well_shaped c -> (1 <= c_num_f c <= 4)%nat -> (1 <= c_num_p c)%nat ->
  save_info c = Ok t -> read_circuit h e t = Ok c' ->
  exists t', save_info c' = Ok t' /\ read_circuit h e t' = Ok c'.
Proof. exact read_saved_twice. Qed.
Print Assumptions C26_second_time_exact.

(** [round_dec d x] is the multiple of 10^-d nearest to x. *)
Theorem C26_rounding : forall d x, Rabs (round_dec d x - x) <= / 2 / 10 ^ d /\ exists n, round_dec d x = IZR n / 10 ^ d.
Proof. exact round_dec_nearest. Qed.
Print Assumptions C26_rounding.

Example C26_case : well_shaped ex_c /\ finite_vt ex_c /\ (1 <= c_num_f ex_c <= 4)%nat /\ (1 <= c_num_p ex_c)%nat.
Proof. exact ex_saveable. Qed.

(** A file whose last newline was cut off, as some editors do, is read alike. *)
Theorem C26_last_newline : forall h e c t,
  well_shaped c -> (1 <= c_num_f c <= 4)%nat -> (1 <= c_num_p c)%nat -> save_info c = Ok t ->
  exists t', t = t' ++ [nl] /\ read_circuit h e t' = read_circuit h e t.
Proof. exact last_newline. Qed.
Print Assumptions C26_last_newline.

(** The theorems also speak of circuits with voltages that are not finite. *)
Example C26_undefined_case : exists c, well_shaped c /\ (1 <= c_num_f c <= 4)%nat /\ (1 <= c_num_p c)%nat /\ cell (c_vt c) 1 1 = Some None.
Proof. exact ex_undefined. Qed.

(** ** C27 *)
Theorem C27_bias_sweep : forall h e nf np vb_min vb_max n fgap vgap rn name c,
  init h e (PInt nf) (PInt np) vb_min vb_max (PInt n) fgap vgap rn name = Ok c ->
  List.length (c_vb c) = Z.to_nat n /\ nth_error (c_vb c) 0 = Some vb_min /\
  ((2 <= n)%Z -> nth_error (c_vb c) (Z.to_nat n - 1) = Some vb_max) /\
  (exists d, 0 <= d /\ forall i x y, nth_error (c_vb c) i = Some x -> nth_error (c_vb c) (S i) = Some y -> y - x = d).
Proof. exact bias_sweep. Qed.
Print Assumptions C27_bias_sweep.

(** ** C28 *)
(** [Cmult vt zj / (zj + zt)] is the voltage across a junction of impedance zj. *)
Theorem C28_fundamental_partial : forall c c' alpha f zj zt freq,
  set_alpha c alpha f 1 zj = (c', Ok tt) -> 0 <= alpha ->
  get2 (c_zt c) f 1 = Ok zt -> pyget (c_freq c) f = Ok freq -> 0 < freq -> zj <> RtoC 0 -> Cplus zj zt <> RtoC 0 ->
  exists vt, get2 (c_vt c') f 1 = Ok (Some vt) /\ Cmod (Cdiv (Cmult vt zj) (Cplus zj zt)) / (1 * freq) = alpha.
Proof. exact alpha_fundamental. Qed.
Print Assumptions C28_fundamental_partial.

(** For harmonic p the photon voltage is p times larger, and the drive level is alpha/p. *)
Theorem C28_harmonic_refuted : forall c c' alpha f (p : nat) zj zt freq,
  set_alpha c alpha f (Z.of_nat p) zj = (c', Ok tt) -> (1 <= p)%nat -> 0 <= alpha ->
  get2 (c_zt c) f (Z.of_nat p) = Ok zt -> pyget (c_freq c) f = Ok freq -> 0 < freq -> zj <> RtoC 0 -> Cplus zj zt <> RtoC 0 ->
  exists vt, get2 (c_vt c') f (Z.of_nat p) = Ok (Some vt) /\ Cmod (Cdiv (Cmult vt zj) (Cplus zj zt)) / (INR p * freq) = alpha / INR p.
Proof. exact alpha_harmonic. Qed.
Print Assumptions C28_harmonic_refuted.

Example C28_case : exists c', set_alpha ex_c (1 / 2) 2 2 (RtoC 1) = (c', Ok tt) /\
  get2 (c_zt ex_c) 2 2 = Ok (RtoC (1 / 2)) /\ pyget (c_freq ex_c) 2 = Ok (3 / 10).
Proof. exact ex_alpha. Qed.

(** ** C29 *)
Theorem C29_vph_refuted : forall c, vph c = Err AttributeError.
Proof. exact vph_fails. Qed.
Print Assumptions C29_vph_refuted.
