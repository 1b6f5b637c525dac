(** Vocabulary for the properties of harmonic_balance: the balance equations, the
    Newton correction and exact matrix inversion, written without reference to the
    loops of the code.  Voltages are indexed by tone, harmonic and bias point. *)
From Coq Require Import List ZArith Bool Reals.
From Coquelicot Require Import Complex.
From Verif Require Import Base Sums Round Model_QtCurrent Spec_QtCurrent Spec_QtApi Model_HB.
Import ListNotations.
Open Scope C_scope.

(** The signals and bias points of a simulation. *)
Definition signal (q : qcct) (f p : nat) : Prop := (1 <= f <= q_num_f q)%nat /\ (1 <= p <= q_num_p q)%nat.
Definition everywhere (q : qcct) (Q : nat -> nat -> nat -> Prop) : Prop :=
  forall f p i, signal q f p -> (i < q_npts q)%nat -> Q f p i.
Definition agree (q : qcct) (v v' : arr3) : Prop := everywhere q (fun f p i => v f p i = v' f p i).

(** The tunnelling current at harmonic p of tone f (see Spec_QtCurrent.v) for junction
    voltages [v]. *)
Definition current_at J (q : qcct) (resp : R -> C) (num_b : numb) (v : arr3) (f p i : nat) : C :=
  current (q_num_p q) (tones J v q num_b i) (freqs q) (q_vb q i) resp (q_freq q f * INR p).

(** Kirchhoff: source voltage - impedance * current - junction voltage. *)
Definition residual_at J (c : hcct) resp num_b (v : arr3) (f p i : nat) : C :=
  h_vt c f p - h_zt c f p * current_at J (h_q c) resp num_b v f p i - v f p i.

(** The balance equations hold with relative error [e]. *)
Definition balanced J c resp num_b (e : R) (v : arr3) : Prop :=
  everywhere (h_q c) (fun f p i => (Cmod (residual_at J c resp num_b v f p i) <= e * Cmod (v f p i))%R).

(** The relative error residual/voltage is 0/0. *)
Definition undefined J c resp num_b (v : arr3) (f p i : nat) : Prop :=
  v f p i = RtoC 0 /\ residual_at J c resp num_b v f p i = RtoC 0.

(** ** Newton's method with a difference quotient of step 0.001 *)

(** One voltage of [v] changed by [dv]. *)
Definition bumped (v : arr3) (g q : nat) (dv : C) : arr3 :=
  fun f p i => if ((f =? g) && (p =? q))%nat then v f p i + dv else v f p i.

(** [x] solves the linearised equations at [v]: the change of the residual predicted by
    the difference quotients in the real and imaginary directions cancels it. *)
Definition newton_correction J c resp num_b (v x : arr3) : Prop :=
  everywhere (h_q c) (fun f p i =>
    let r := residual_at J c resp num_b in
    csum (seq 1 (q_num_f (h_q c))) (fun g => csum (seq 1 (q_num_p (h_q c))) (fun q =>
      RtoC (Re (x g q i)) * ((r (bumped v g q (RtoC (/ 10 ^ 3))) f p i - r v f p i) / RtoC (/ 10 ^ 3)) +
      RtoC (Im (x g q i)) * ((r (bumped v g q (Ci * RtoC (/ 10 ^ 3))) f p i - r v f p i) / RtoC (/ 10 ^ 3))))
    = - r v f p i).

(** One correction damped by [d]. *)
Definition corrected J c resp num_b (d : R) (v v' : arr3) : Prop :=
  exists x, newton_correction J c resp num_b v x /\ everywhere (h_q c) (fun f p i => v' f p i = v f p i + x f p i * RtoC d).

(** [v'] comes from [v] by n corrections. *)
Inductive corrections J c resp num_b (d : R) : nat -> arr3 -> arr3 -> Prop :=
| Corr_0 v v' : agree (h_q c) v v' -> corrections J c resp num_b d 0 v v'
| Corr_S n v v1 v2 : corrections J c resp num_b d n v v1 -> corrected J c resp num_b d v1 v2 -> corrections J c resp num_b d (S n) v v2.

(** ** Matrices *)

Fixpoint rsum_to (n : nat) (f : nat -> R) : R := match n with O => 0%R | S n' => (rsum_to n' f + f n')%R end.

Definition right_inverse (n : nat) (M N : nat -> nat -> R) : Prop :=
  forall a c, (a < n)%nat -> (c < n)%nat -> rsum_to n (fun b => M a b * N b c)%R = if (a =? c)%nat then 1%R else 0%R.

(** What is assumed of np.linalg.inv: exact, and it fails only for singular matrices. *)
Definition inverts (inv : nat -> (nat -> nat -> R) -> option (nat -> nat -> R)) : Prop :=
  (forall n M N, inv n M = Some N -> right_inverse n M N) /\
  (forall n M, (exists N, right_inverse n M N) -> exists N, inv n M = Some N).

(** ** Arguments *)

(** Arguments for which a simulation starts: those allowed for the tunnelling current, an
    unlocked circuit, some impedance. *)
Definition simulates (c : hcct) (num_b : numb) : Prop :=
  args_ok (h_q c) num_b /\ (1 <= q_npts (h_q c))%nat /\ h_wvt c = true /\
  exists f p, (f <= q_num_f (h_q c))%nat /\ (p <= q_num_p (h_q c))%nat /\ h_zt c f p <> RtoC 0.

(** The source voltages used: at least 1e-10. *)
Definition source (vt : C) : C := if Rlt_dec (Cmod vt) (/ 10 ^ 10) then RtoC (/ 10 ^ 10) else vt.

(** The voltages a run starts from. *)
Definition start (c : hcct) (vj_initial : option arr3) (zj_guess : C) : arr3 :=
  match vj_initial with
  | Some a => a
  | None => fun f p i => source (h_vt c f p) * zj_guess / (zj_guess + h_zt c f p)
  end.

(** Row (f, p) of the circuit sees a junction whose current is a constant plus a
    real-linear function of all the voltages at bias point i. *)
Definition affine_row J (c : hcct) (resp : R -> C) (num_b : numb) (f p i : nat) : Prop :=
  exists (k : C) (A B : nat -> nat -> C), forall v : arr3,
    h_zt c f p * current_at J (h_q c) resp num_b v f p i =
    k + csum (seq 1 (q_num_f (h_q c))) (fun g => csum (seq 1 (q_num_p (h_q c))) (fun m =>
          A g m * RtoC (Re (v g m i)) + B g m * RtoC (Im (v g m i)))).
