(** A single spike on a grid. *)
From Coq Require Import List Reals.
Open Scope R_scope.

(** 1 at the grid points equal to a, 0 elsewhere. *)
Definition pulse (a : R) (grid : list R) : list R := map (fun x => if Req_EM_T x a then 1 else 0) grid.
