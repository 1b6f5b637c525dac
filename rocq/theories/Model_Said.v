(** Programs that print: the messages in the order in which they are printed, and the result. *)
From Coq Require Import List.
From Verif Require Import Base.
Import ListNotations.

Definition said (M A : Type) : Type := (list M * res A)%type.
(** One after the other; an exception ends the program, what was printed before stays. *)
Definition after {M A B} (m : said M A) (k : A -> said M B) : said M B :=
  match m with
  | (out, Ok a) => let (out', r) := k a in (out ++ out', r)
  | (out, Err e) => (out, Err e)
  end.
(** A calculation that prints nothing. *)
Definition quietly {M A} (r : res A) : said M A := ([], r).
(** print, perhaps under a condition. *)
Definition say_if {M} (b : bool) (l : list M) : said M unit := (if b then l else [], Ok tt).
Notation "'let!' x ':=' m 'in' k" := (after m (fun x => k)) (at level 200, x pattern, right associativity).
