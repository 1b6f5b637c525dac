(** Model of qmix/exp/clean_data.py.  Arrays are lists of floating-point values (Float.v);
    a 2-D array is a column count and its rows.  argsort stands for the method of the same
    name with its default (unstable) algorithm: any function that sorts. *)
From Coq Require Import List ZArith Bool Arith Reals.
From Verif Require Import Base Float NumPy.
Import ListNotations.
Open Scope Z_scope.

(** Boolean indexing a[mask]: the lengths have to agree. *)
Definition select {A} (mask : list bool) (l : list A) : res (list A) :=
  if (length mask =? length l)%nat
  then Ok (map snd (filter fst (List.combine mask l)))
  else Err IndexError.
(** Integer indexing a[idx]. *)
Definition take {A} (l : list A) (idx : list nat) : res (list A) := mapM (fun k => pyget l (Z.of_nat k)) idx.

(** a.min(): NaN if there is a NaN; ValueError for an empty array. *)
Definition fminimum (a b : fl) : fl :=
  if fisnan a || fisnan b then FNaN else if flt b a then b else a.
Definition amin (l : list fl) : res fl :=
  match l with [] => Err ValueError | a :: l' => Ok (fold_left fminimum l' a) end.

(** Lines 65-66 and 162-164 of qmix/exp/clean_data.py: the check that x is sorted. *)
Definition check_sorted (x : list fl) : res unit :=
  let* d := bcast fsub (pyslice x (Some 1) None) (pyslice x None (Some (-1))) in
  let* m := amin d in
  guard (fle (FV 0) m) AssertionError.
(** Lines 69-70 and 166-168 of qmix/exp/clean_data.py: which values are kept. *)
Definition doubles_mask (x : list fl) : res (list bool) :=
  let* ne := bcast (fun a b => negb (feq a b)) (pyslice x (Some 1) None) (pyslice x None (Some (-1))) in
  set_slice (repeat true (length x)) (Some 1) None ne.

(** qmix/exp/clean_data.py:15-29 remove_nans_xy. *)
Definition remove_nans_xy (x y : list fl) : res (list fl * list fl) :=
  let* mask := bcast andb (map (fun a => negb (fisnan a)) x) (map (fun a => negb (fisnan a)) y) in
  let* x' := select mask x in
  let* y' := select mask y in
  Ok (x', y').

(** qmix/exp/clean_data.py:32-46 sort_xy. *)
Definition sort_xy (argsort : list fl -> list nat) (x y : list fl) : res (list fl * list fl) :=
  let idx := argsort x in
  let* x' := take x idx in
  let* y' := take y idx in
  Ok (x', y').

(** qmix/exp/clean_data.py:49-72 remove_doubles_xy. *)
Definition remove_doubles_xy (x y : list fl) (check : bool) : res (list fl * list fl) :=
  let* _ := if check then check_sorted x else Ok tt in
  let* mask := doubles_mask x in
  let* x' := select mask x in
  let* y' := select mask y in
  Ok (x', y').

(** qmix/exp/clean_data.py:75-95 clean_xy. *)
Definition clean_xy (argsort : list fl -> list nat) (x y : list fl) : res (list fl * list fl) :=
  let* _ := guard (length x =? length y)%nat AssertionError in
  let* (x, y) := remove_nans_xy x y in
  let* (x, y) := sort_xy argsort x y in
  remove_doubles_xy x y true.

(** A 2-D array: number of columns and rows. *)
Record matrix := { ncols : nat; rows : list (list fl) }.
(** mat[:, c] *)
Definition column (m : matrix) (c : Z) : res (list fl) :=
  match pyidx (ncols m) c with
  | Some j => Ok (map (fun r => nth j r FNaN) (rows m))
  | None => Err IndexError
  end.

(** qmix/exp/clean_data.py:98-110 xy_to_matrix. *)
Definition xy_to_matrix (x y : list fl) : res matrix :=
  let* _ := guard (length x =? length y)%nat ValueError in
  Ok {| ncols := 2; rows := zipwith (fun a b => [a; b]) x y |}.

(** qmix/exp/clean_data.py:116-129 remove_nans_matrix. *)
Definition remove_nans_matrix (m : matrix) : res matrix :=
  let* a := column m 0 in
  let* b := column m 1 in
  let* mask := bcast andb (map (fun a => negb (fisnan a)) a) (map (fun a => negb (fisnan a)) b) in
  let* r := select mask (rows m) in
  Ok {| ncols := ncols m; rows := r |}.

(** qmix/exp/clean_data.py:132-146 sort_matrix. *)
Definition sort_matrix (argsort : list fl -> list nat) (m : matrix) (col : Z) : res matrix :=
  let* c := column m col in
  let* r := take (rows m) (argsort c) in
  Ok {| ncols := ncols m; rows := r |}.

(** qmix/exp/clean_data.py:149-170 remove_doubles_matrix: the check always looks at
    column 0. *)
Definition remove_doubles_matrix (m : matrix) (col : Z) (check : bool) : res matrix :=
  let* _ := if check then (let* c0 := column m 0 in check_sorted c0) else Ok tt in
  let* c := column m col in
  let* mask := doubles_mask c in
  let* r := select mask (rows m) in
  Ok {| ncols := ncols m; rows := r |}.

(** qmix/exp/clean_data.py:173-192 clean_matrix. *)
Definition clean_matrix (argsort : list fl -> list nat) (m : matrix) : res matrix :=
  let* _ := guard (ncols m =? 2)%nat AssertionError in
  let* m := remove_nans_matrix m in
  let* m := sort_matrix argsort m 0 in
  remove_doubles_matrix m 0 true.

(** qmix/exp/clean_data.py:195-206 matrix_to_xy. *)
Definition matrix_to_xy (m : matrix) : res (list fl * list fl) :=
  let* a := column m 0 in
  let* b := column m 1 in
  Ok (a, b).
