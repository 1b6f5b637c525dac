(** Property C148: the search of the offset of a measured I-V curve.  Vocabulary in
    Spec_Offset.v and Spec_IVData.v; the optimiser is an arbitrary function. *)
From Coq Require Import List ZArith Bool Reals Lra Lia String.
From Verif Require Import Base Float NumPy Spec_RespFn Spec_IVData Spec_Offset Model_IVData Proof_Offset.
Import ListNotations.
Open Scope R_scope.
Local Notation length := List.length.

(** ** C148 *)
(** What is searched (C68): for data on both sides of the range, the offset that the optimiser
    returns for the asymmetry of the samples in the range is removed from all samples. *)
Theorem C148_search : forall minimize v i vo io range, length v = length i -> bipolar (search_range range) v ->
  let P := samples_between (search_range range) v i in
  P <> [] -> exists o, searched minimize P (search_range range) vo io o /\ correct_offset minimize v i vo io range = Ok (map (fun a => a - fst o) v, map (fun a => a - snd o) i, o).
Proof. intros minimize v i vo io range L B P. now apply two_sided. Qed.
Print Assumptions C148_search.
(** The asymmetry is never negative, and it is zero about a point of symmetry. *)
Theorem C148_centre : forall P range o e, asymmetry P range o e -> 0 <= e /\ (increasing (map fst P) -> P <> [] -> symmetric_about P o -> e = 0).
Proof. intros P range o e A. split; [exact (asymmetry_nonneg P range o e A)|]. intros I N S. exact (symmetric_zero P range o e I N S A). Qed.
Print Assumptions C148_centre.
(** So, if the samples are symmetric about some point, an optimiser that finds minima leaves a
    curve that is odd at all compared voltages. *)
Theorem C148_symmetric : forall minimize P range vo io o, (forall f x0 p, (exists q, forall r, f q <= f r) -> f (minimize f x0) <= f p) ->
  increasing (map fst P) -> P <> [] -> (exists s, symmetric_about P s) -> searched minimize P range vo io o ->
  asymmetry P range o 0 /\ forall j c c', (j <= 100)%nat -> moved_curve P o (compared range j) c -> moved_curve P o (- compared range j) c' -> c' = - c.
Proof. exact symmetric_found. Qed.
Print Assumptions C148_symmetric.
(** The offset need not be unique: about any point of a straight line the asymmetry is zero, as
    long as the moved samples cover the compared voltages. *)
Theorem C148_line : forall P range a b o e, increasing (map fst P) -> (2 <= length P)%nat -> (forall p, In p P -> snd p = a * fst p + b) -> snd o = a * fst o + b ->
  (forall j, (j <= 100)%nat -> let t := compared range j in let first := fst (nth 0 P (0, 0)) in let last := fst (nth (length P - 1) P (0, 0)) in
     first - fst o <= t <= last - fst o /\ first - fst o <= - t <= last - fst o) ->
  asymmetry P range o e -> e = 0.
Proof. exact line_flat. Qed.
Print Assumptions C148_line.

(** Samples that are symmetric about (1, 2). *)
Example C148_case : let v := [-3; -1; 0; 1; 2; 3; 5] in let i := [9; -3; 1; 2; 3; 7; 9] in let P := [(-1, -3); (0, 1); (1, 2); (2, 3); (3, 7)] in
  length v = length i /\ bipolar (search_range (Limits (-2) 4)) v /\ samples_between (search_range (Limits (-2) 4)) v i = P /\ P <> [] /\ increasing (map fst P) /\ symmetric_about P (1, 2).
Proof.
  cbv zeta. split; [reflexivity|]. split; [split; [exists (-3)|exists 5]; (split; [cbn; tauto|cbn; lra])|]. split.
  - unfold samples_between, search_range. cbn [List.combine filter fst snd]. repeat match goal with |- context [Rle_dec ?a ?b] => destruct (Rle_dec a b); [try lra|try (exfalso; lra)] end. reflexivity.
  - split; [discriminate|]. split.
    + intros a b AB B. cbn in B. cbn [map fst]. destruct b as [|[|[|[|[|b]]]]]; try lia; destruct a as [|[|[|[|a]]]]; try lia; cbn; lra.
    + intros k K. cbn in K. destruct k as [|[|[|[|[|k]]]]]; try lia; cbn; lra.
Qed.
(** On the line i = v all points (a, a) with |a| <= 1 will do. *)
Example C148_line_case : forall a, -1 <= a <= 1 -> let P := [(-2, -2); (2, 2)] in increasing (map fst P) /\ (2 <= length P)%nat /\ (forall p, In p P -> snd p = 1 * fst p + 0) /\
  (forall j, (j <= 100)%nat -> let t := compared (search_range (Width 2)) j in -2 - a <= t <= 2 - a /\ -2 - a <= - t <= 2 - a) /\ forall e, asymmetry P (search_range (Width 2)) (a, a) e -> e = 0.
Proof.
  intros a A P. assert (I : increasing (map fst P)) by (intros i j IJ J; cbn in J; destruct j as [|[|j]]; try lia; destruct i as [|i]; try lia; cbn; lra).
  assert (L : (2 <= length P)%nat) by (cbn; lia). assert (O : forall p, In p P -> snd p = 1 * fst p + 0) by (intros p [<-|[<-|[]]]; cbn; ring).
  assert (T : forall j, (j <= 100)%nat -> let t := compared (search_range (Width 2)) j in -2 - a <= t <= 2 - a /\ -2 - a <= - t <= 2 - a).
  { intros j J. cbv zeta. unfold compared, search_range. cbn [fst snd]. assert (0 <= INR j <= 100). { split; [apply pos_INR|]. apply le_INR in J. replace (INR 100) with 100 in J by (rewrite INR_IZR_INZ; reflexivity). exact J. } lra. }
  do 4 (split; [assumption|]). intros e E. apply (line_flat P (search_range (Width 2)) 1 0 (a, a) e); try assumption. cbn. ring.
Qed.
