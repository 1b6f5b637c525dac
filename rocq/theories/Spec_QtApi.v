(** The specification of Spec_QtCurrent.v applied to the arguments of the API:
    which tones a circuit, a voltage array and a num_b argument stand for. *)
From Coq Require Import List ZArith Bool Reals.
From Coquelicot Require Import Complex.
From Verif Require Import Base Sums Round Model_QtCurrent Spec_QtCurrent.
Import ListNotations.
Open Scope Z_scope.

(** The truncations given by a num_b argument. *)
Definition nbtuple (num_b : numb) (num_f : nat) : list nat :=
  match num_b with NbInt n => repeat n num_f | NbTuple l => l end.

(** The arguments the documentation allows. *)
Definition args_ok (cct : qcct) (num_b : numb) : Prop :=
  (1 <= q_num_f cct <= 4)%nat /\ (1 <= q_num_p cct)%nat /\
  (forall f, (1 <= f <= q_num_f cct)%nat -> (0 < q_freq cct f)%R) /\
  match num_b with NbInt _ => True | NbTuple l => (q_num_f cct <= length l)%nat end.

(** The tone frequencies. *)
Definition freqs (cct : qcct) : list R := map (q_freq cct) (seq 1 (q_num_f cct)).

(** The tones of a simulation at bias point i. *)
Definition tones (J : nat -> R -> R) (vj : nat -> nat -> vec) (cct : qcct) (num_b : numb) (i : nat) : list tone :=
  let nbt := nbtuple num_b (q_num_f cct) in
  map (fun f => tone_of J angle vj (q_freq cct) (q_num_p cct) (list_max nbt) (nth (f - 1) nbt O) f i)
      (seq 1 (q_num_f cct)).

(** The currents at frequency w over the bias sweep. *)
Definition spec_row J vj cct resp num_b (w : R) : list C :=
  tab (q_npts cct) (fun i => current (q_num_p cct) (tones J vj cct num_b i) (freqs cct) (q_vb cct i) resp w).

Definition flist (fl : freq_arg) : list R := match fl with FList l => l | FScalar x => [x] end.

(** Index vectors with |k_f| <= b_f. *)
Definition in_box (bs : list nat) (ks : list Z) : Prop :=
  Forall2 (fun b k => - Z.of_nat b <= k <= Z.of_nat b) bs ks.

(** [rk ks i] is what reading the matrix at index vector ks gives at bias point i. *)
Definition rm_ok (rm : respmat) (bs : list nat) (rk : list Z -> vec) : Prop :=
  forall ks, in_box bs ks -> exists v, rm_get rm ks = Ok v /\ forall i, v i = rk ks i.

(** The response at the photon-shifted bias. *)
Definition vbdot (vb : nat -> R) (resp : R -> C) (fs : list R) (ks : list Z) : vec :=
  fun i => resp (vb i + dot ks fs)%R.

(** A response matrix that stands for [resp] up to the truncations [bs]. *)
Definition matrix_for (cct : qcct) (resp : R -> C) (bs : list nat) (rm : respmat) : Prop :=
  length (rm_shape rm) = q_num_f cct /\ rm_npts rm = q_npts cct /\
  rm_ok rm bs (vbdot (q_vb cct) resp (freqs cct)).

(** The values of the Bessel functions at 0. *)
Definition bessel_like (J : nat -> R -> R) : Prop := J 0%nat 0%R = 1%R /\ forall n, J (S n) 0%R = 0%R.

(** The tones in another order: tone f of the new simulation is tone sigma f of the old one. *)
Definition permute_nb (sigma : nat -> nat) (num_b : numb) : numb :=
  match num_b with
  | NbInt n => NbInt n
  | NbTuple l => NbTuple (map (fun f => nth (sigma f - 1) l O) (seq 1 (length l)))
  end.

Definition permute_cct (sigma : nat -> nat) (cct : qcct) : qcct :=
  {| q_num_f := q_num_f cct; q_num_p := q_num_p cct; q_npts := q_npts cct;
     q_freq := fun f => q_freq cct (sigma f); q_vb := q_vb cct |}.

(** One more tone, with truncation b. *)
Definition extend_nb (num_b : numb) (b : nat) : numb :=
  match num_b with NbInt n => NbInt n | NbTuple l => NbTuple (l ++ [b]) end.

(** The truncations that are used. *)
Definition truncations (num_b : numb) (num_f : nat) : list nat := firstn num_f (nbtuple num_b num_f).

(** Entry by entry. *)
Fixpoint map2 {A B D} (f : A -> B -> D) (l : list A) (m : list B) : list D :=
  match l, m with x :: l', y :: m' => f x y :: map2 f l' m' | _, _ => [] end.
