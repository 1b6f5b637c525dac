(** Vocabulary for the properties of EmbeddingCircuit. *)
From Coq Require Import List ZArith Bool String Reals.
From Coquelicot Require Import Complex.
From Verif Require Import Base Round Model_QtCurrent Model_Circuit Spec_Case.
Import ListNotations.

(** Entry (f,p) of a 2-D array. *)
Definition cell {A} (m : list (list A)) (f p : nat) : option A :=
  match nth_error m f with Some row => nth_error row p | None => None end.

(** All attributes agree, except possibly those named by a [true]. *)
Definition same_but (freq vt zt vb comment flags : bool) (c c' : circ) : Prop :=
  c_name c' = c_name c /\ c_num_f c' = c_num_f c /\ c_num_p c' = c_num_p c /\ c_num_n c' = c_num_n c /\
  c_fgap c' = c_fgap c /\ c_vgap c' = c_vgap c /\ c_igap c' = c_igap c /\ c_rn c' = c_rn c /\
  c_npts c' = c_npts c /\
  (freq = true \/ c_freq c' = c_freq c) /\ (vt = true \/ c_vt c' = c_vt c) /\ (zt = true \/ c_zt c' = c_zt c) /\
  (vb = true \/ c_vb c' = c_vb c) /\ (comment = true \/ c_comment c' = c_comment c) /\
  (flags = true \/ (w_freq c' = w_freq c /\ w_vt c' = w_vt c /\ w_zt c' = w_zt c /\ w_vb c' = w_vb c)).

(** [l'] is [l] with entry [j] replaced by [x] (and nothing else changed). *)
Definition replaced {A} (l l' : list A) (j : nat) (x : A) : Prop :=
  List.length l' = List.length l /\ (j < List.length l)%nat /\ nth_error l' j = Some x /\
  forall k, k <> j -> nth_error l' k = nth_error l k.

Definition replaced2 {A} (m m' : list (list A)) (f p : nat) (x : A) : Prop :=
  List.map (@List.length A) m' = List.map (@List.length A) m /\ cell m' f p = Some x /\
  forall g q, (g, q) <> (f, p) -> cell m' g q = cell m g q.

(** Python's index rule: which entry of an axis of length n the index k names. *)
Definition names (n : nat) (k : Z) (j : nat) : Prop :=
  (j < n)%nat /\ (k = Z.of_nat j \/ k = Z.of_nat j - Z.of_nat n)%Z.

(** Array shapes of a circuit with num_f tones and num_p harmonics. *)
Definition rectangular {A} (m : list (list A)) (a b : nat) : Prop :=
  List.length m = a /\ forall row, In row m -> List.length row = b.
Definition well_shaped (c : circ) : Prop :=
  c_num_n c = (c_num_f c * c_num_p c)%nat /\
  List.length (c_freq c) = (c_num_f c + 1)%nat /\
  rectangular (c_vt c) (c_num_f c + 1) (c_num_p c + 1) /\
  rectangular (c_zt c) (c_num_f c + 1) (c_num_p c + 1) /\
  rectangular (c_comment c) (c_num_f c + 1) (c_num_p c + 1) /\
  List.length (c_vb c) = c_npts c.

Definition locked (c : circ) : Prop := w_freq c = false /\ w_vt c = false /\ w_zt c = false /\ w_vb c = false.
Definition writeable (c : circ) : Prop := w_freq c = true /\ w_vt c = true /\ w_zt c = true /\ w_vb c = true.

(** Operations that write one of the four arrays. *)
Definition writes_array (o : op) : bool :=
  match o with SetName _ _ _ | Lock | Unlock => false | _ => true end.
Definition is_unlock (o : op) : bool := match o with Unlock => true | _ => false end.
Definition is_set_name (o : op) : bool := match o with SetName _ _ _ => true | _ => false end.

(** ** Power units *)
Inductive punit := UW | UmW | UuW | UnW | UpW | UfW | UdBm | UdBW.

(** The documented names, in any case. *)
Definition punit_name (u : punit) : string :=
  match u with UW => "W" | UmW => "mW" | UuW => "uW" | UnW => "nW" | UpW => "pW" | UfW => "fW" | UdBm => "dBm" | UdBW => "dBW" end.
Definition names_punit (s : string) (u : punit) : Prop := same_letters s (punit_name u).

(** The power in watts that a value in the unit stands for. *)
Definition in_watts (u : punit) (x : R) : R :=
  match u with
  | UW => x | UmW => x * / 10 ^ 3 | UuW => x * / 10 ^ 6 | UnW => x * / 10 ^ 9 | UpW => x * / 10 ^ 12 | UfW => x * / 10 ^ 15
  | UdBm => Rpower 10 (x / 10) * / 10 ^ 3 | UdBW => Rpower 10 (x / 10)
  end%R.
Definition is_dB (u : punit) : bool := match u with UdBm | UdBW => true | _ => false end.

(** ** Frequency units *)
Inductive funit := UHz | UMHz | UGHz | UTHz | UV | UmV | Unorm.
Definition funit_name (u : funit) : string :=
  match u with UHz => "Hz" | UMHz => "MHz" | UGHz => "GHz" | UTHz => "THz" | UV => "V" | UmV => "mV" | Unorm => "norm" end.
Definition names_funit (s : string) (u : funit) : Prop := same_letters s (funit_name u).

(** The frequency in Hz that a value in the unit stands for, for gap frequency
    [fg]; a photon voltage V stands for the frequency V*e/h. *)
Definition in_hertz (h e fg : R) (u : funit) (x : R) : R :=
  match u with
  | UHz => x | UMHz => x * 10 ^ 6 | UGHz => x * 10 ^ 9 | UTHz => x * 10 ^ 12
  | UV => x * e / h | UmV => x * / 10 ^ 3 * e / h
  | Unorm => x * fg
  end%R.

(** ** Files *)
(** Every voltage that is written is finite. *)
Definition finite_vt (c : circ) : Prop :=
  forall f p, (1 <= f <= c_num_f c)%nat -> (1 <= p <= c_num_p c)%nat -> exists v, cell (c_vt c) f p = Some (Some v).

(** [c'] has the tones and harmonics of [c], with the frequencies and voltages rounded
    to 4 decimals and the impedances to 2; a voltage that is not finite stays so; index 0 is unused and zero. *)
Definition rounded_copy (c c' : circ) : Prop :=
  c_num_f c' = c_num_f c /\ c_num_p c' = c_num_p c /\ well_shaped c' /\ writeable c' /\
  (forall f x, (1 <= f <= c_num_f c)%nat -> nth_error (c_freq c) f = Some x -> nth_error (c_freq c') f = Some (round_dec 4 x)) /\
  (forall f p v, (1 <= f <= c_num_f c)%nat -> (1 <= p <= c_num_p c)%nat -> cell (c_vt c) f p = Some (Some v) ->
     cell (c_vt c') f p = Some (Some (round_dec 4 (Re v), round_dec 4 (Im v)))) /\
  (forall f p, (1 <= f <= c_num_f c)%nat -> (1 <= p <= c_num_p c)%nat -> cell (c_vt c) f p = Some None ->
     cell (c_vt c') f p = Some None) /\
  (forall f p z, (1 <= f <= c_num_f c)%nat -> (1 <= p <= c_num_p c)%nat -> cell (c_zt c) f p = Some z ->
     cell (c_zt c') f p = Some (round_dec 2 (Re z), round_dec 2 (Im z))) /\
  nth_error (c_freq c') 0 = Some 0%R /\
  (forall f p, (f <= c_num_f c)%nat -> (p <= c_num_p c)%nat -> f = O \/ p = O ->
     cell (c_vt c') f p = Some (Some (RtoC 0)) /\ cell (c_zt c') f p = Some (RtoC 0)).
