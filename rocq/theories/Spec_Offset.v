(** Specification vocabulary for the search of the offset of a measured I-V curve. *)
From Coq Require Import List ZArith Bool Reals.
From Verif Require Import Base Float NumPy Spec_RespFn Spec_IVData Model_IVData.
Import ListNotations.
Open Scope R_scope.
Local Notation length := List.length.

(** voffset_range: a number r stands for the range from -r to r. *)
Definition search_range (r : vrange) : R * R := match r with Width r => (- r, r) | Limits lo hi => (lo, hi) end.
(** The samples with lo <= v <= hi. *)
Definition samples_between (range : R * R) (v i : list R) : list (R * R) :=
  filter (fun p => if Rle_dec (fst range) (fst p) then if Rle_dec (fst p) (snd range) then true else false else false) (List.combine v i).
(** c is the value at t of the curve that joins the samples P, moved by -o, by straight lines
    (constant beyond the first and last). *)
Definition moved_curve (P : list (R * R)) (o : R * R) (t c : R) : Prop :=
  let x := map (fun p => fst p - fst o) P in let y := map (fun p => snd p - snd o) P in
  joined x y (nth 0 y 0) (nth (length y - 1) y 0) t c.
(** The 101 voltages that are compared: equally spaced from lo/2 to hi/2. *)
Definition compared (range : R * R) (j : nat) : R := fst range / 2 + INR j * ((snd range - fst range) / 200).
(** e is the asymmetry of the samples P about the point o: the sum of |c(t) + c(-t)| over the
    compared voltages t, where c is the moved curve. *)
Definition asymmetry (P : list (R * R)) (range o : R * R) (e : R) : Prop :=
  exists p q : nat -> R, (forall j, (j <= 100)%nat -> moved_curve P o (compared range j) (p j) /\ moved_curve P o (- compared range j) (q j)) /\
    e = sum_f_R0 (fun j => Rabs (p j + q j)) 100.
(** The average current. *)
Definition mean_current (P : list (R * R)) : R := fold_right Rplus 0 (map snd P) / INR (length P).
(** o is what the optimiser returns for the asymmetry of the samples P (with increasing
    voltages), starting at the given offsets, or at zero voltage and the average current. *)
Definition searched (minimize : (R * R -> R) -> R * R -> R * R) (P : list (R * R)) (range : R * R) (vo io : option R) (o : R * R) : Prop :=
  exists f, (increasing (map fst P) -> forall x, asymmetry P range x (f x)) /\
    o = minimize f (match vo with Some a => a | None => 0 end, match io with Some b => b | None => mean_current P end).
(** The samples are symmetric about the point o. *)
Definition symmetric_about (P : list (R * R)) (o : R * R) : Prop := forall k, (k < length P)%nat ->
  fst (nth k P (0, 0)) + fst (nth (length P - 1 - k) P (0, 0)) = 2 * fst o /\ snd (nth k P (0, 0)) + snd (nth (length P - 1 - k) P (0, 0)) = 2 * snd o.
