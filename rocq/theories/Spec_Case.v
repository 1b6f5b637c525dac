(** Names that differ at most in the case of their letters. *)
From Coq Require Import List Ascii String.
Import ListNotations.

Definition capitals : list ascii := list_ascii_of_string "ABCDEFGHIJKLMNOPQRSTUVWXYZ".
Definition smalls : list ascii := list_ascii_of_string "abcdefghijklmnopqrstuvwxyz".

(** The same character, or the same letter in capital and small. *)
Definition same_letter (a b : ascii) : Prop :=
  a = b \/ In (a, b) (List.combine capitals smalls) \/ In (b, a) (List.combine capitals smalls).

Inductive same_letters : string -> string -> Prop :=
| same_empty : same_letters "" ""
| same_more : forall a b s t, same_letter a b -> same_letters s t -> same_letters (String a s) (String b t).
