(** Property C20: the exceptions of the constructor of the embedding circuit. *)
From Coq Require Import List ZArith Bool Ascii String Reals Lia Lra.
From Coquelicot Require Import Complex.
From Verif Require Import Base Model_QtCurrent Model_Circuit Proof_CircuitErr.
Import ListNotations.
Open Scope R_scope.

(** ** C20 *)
(** AssertionError exactly if the value of num_f is not 1, 2, 3 or 4, if num_p or vb_npts is
    not a positive whole number (a float such as 2.0 is not), or if vb_min > vb_max. *)
Theorem C20_rejected : forall h e num_f num_p vb_min vb_max vb_npts fgap vgap rn name,
  init h e num_f num_p vb_min vb_max vb_npts fgap vgap rn name = Err AssertionError <->
  ~ ((pynum_val num_f = 1 \/ pynum_val num_f = 2 \/ pynum_val num_f = 3 \/ pynum_val num_f = 4) /\
     (exists k, num_p = PInt k /\ (1 <= k)%Z) /\ (exists k, vb_npts = PInt k /\ (1 <= k)%Z) /\ vb_min <= vb_max).
Proof.
  intros h e num_f num_p vb_min vb_max vb_npts fgap vgap rn name. destruct (init_errors h e num_f num_p vb_min vb_max vb_npts fgap vgap rn name) as (A & B & _). split; [|exact B].
  intros H K. exact (A K H).
Qed.
Print Assumptions C20_rejected.
(** Otherwise a gap voltage with a resistance of zero raises ZeroDivisionError, and after that
    a float num_f raises TypeError. *)
Theorem C20_not_built : forall h e num_f num_p vb_min vb_max vb_npts fgap vgap rn name,
  init h e num_f (PInt num_p) vb_min vb_max (PInt vb_npts) fgap vgap rn name <> Err AssertionError ->
  (vgap <> None -> rn = Some 0 -> init h e num_f (PInt num_p) vb_min vb_max (PInt vb_npts) fgap vgap rn name = Err ZeroDivisionError) /\
  (~ (vgap <> None /\ rn = Some 0) -> (exists x, num_f = PFloat x) -> init h e num_f (PInt num_p) vb_min vb_max (PInt vb_npts) fgap vgap rn name = Err TypeError).
Proof.
  intros h e num_f num_p vb_min vb_max vb_npts fgap vgap rn name H. destruct (init_errors h e num_f (PInt num_p) vb_min vb_max (PInt vb_npts) fgap vgap rn name) as (A & B & C & D).
  assert (K : checked num_f (PInt num_p) vb_min vb_max (PInt vb_npts)) by (destruct (Classical_Prop.classic (checked num_f (PInt num_p) vb_min vb_max (PInt vb_npts))) as [K|K]; [exact K|contradiction (H (B K))]).
  split; [exact (C K)|exact (D K)].
Qed.
Print Assumptions C20_not_built.
(** One float in each place: two harmonics as 2.0, five bias points as 5.0, two tones as 2.0. *)
Example C20_float_case : forall h e name,
  init h e (PInt 2) (PFloat 2) 0 2 (PInt 5) None None None name = Err AssertionError /\
  init h e (PInt 2) (PInt 2) 0 2 (PFloat 5) None None None name = Err AssertionError /\
  init h e (PFloat 2) (PInt 2) 0 2 (PInt 5) None None None name = Err TypeError /\
  init h e (PInt 2) (PInt 2) 0 2 (PInt 5) None (Some (28 / 10000)) (Some 0) name = Err ZeroDivisionError.
Proof.
  intros h e name. repeat split.
  - apply C20_rejected. intros (_ & (k & E & _) & _). discriminate.
  - apply C20_rejected. intros (_ & _ & (k & E & _) & _). discriminate.
  - apply C20_not_built; [|intros [_ K]; discriminate|now exists 2]. rewrite C20_rejected. intros K. apply K. split; [right; left; reflexivity|]. split; [exists 2%Z; split; [reflexivity|lia]|]. split; [exists 5%Z; split; [reflexivity|lia]|lra].
  - apply C20_not_built; [|discriminate|reflexivity]. rewrite C20_rejected. intros K. apply K. split; [right; left; reflexivity|]. split; [exists 2%Z; split; [reflexivity|lia]|]. split; [exists 5%Z; split; [reflexivity|lia]|lra].
Qed.
