(** NumPy operations on 1-D arrays (lists).  Nothing here is specific to QMix. *)
From Coq Require Import List ZArith Lia Bool Arith Reals.
From Verif Require Import Base.
Import ListNotations.
Open Scope Z_scope.

Fixpoint zipwith {A B C} (f : A -> B -> C) (a : list A) (b : list B) : list C :=
  match a, b with x :: a', y :: b' => f x y :: zipwith f a' b' | _, _ => [] end.

(** Element-wise operation on two 1-D arrays: equal lengths, or one of length 1
    (broadcasting). *)
Definition bcast {A B C} (f : A -> B -> C) (a : list A) (b : list B) : res (list C) :=
  if (length a =? length b)%nat then Ok (zipwith f a b)
  else match a, b with
       | [x], _ => Ok (map (f x) b)
       | _, [y] => Ok (map (fun x => f x y) a)
       | _, _ => Err ValueError
       end.

(** [l[lo:hi] = vals] *)
Definition set_slice {A} (l : list A) (lo hi : option Z) (vals : list A) : res (list A) :=
  let n := length l in
  let a := match lo with Some k => slice_bound n k | None => O end in
  let b := match hi with Some k => slice_bound n k | None => n end in
  let b := Nat.max a b in
  if (length vals =? b - a)%nat then Ok (firstn a l ++ vals ++ skipn b l)
  else match vals with
       | [v] => Ok (firstn a l ++ repeat v (b - a) ++ skipn b l)
       | _ => Err ValueError
       end.

(** A bound of a slice with step -1: clipped to [-1, n-1]. *)
Definition rev_bound (n : nat) (k : Z) : Z :=
  let j := if k <? 0 then k + Z.of_nat n else k in
  Z.max (-1) (Z.min (Z.of_nat n - 1) j).
(** [l[start:stop:-1]] with both bounds given. *)
Definition pyslice_rev {A} (l : list A) (start stop : Z) : list A :=
  let s := rev_bound (length l) start in
  let e := rev_bound (length l) stop in
  flat_map (fun k => match nth_error l (Z.to_nat (s - Z.of_nat k)) with Some x => [x] | None => [] end)
           (seq 0 (Z.to_nat (s - e))).

(** Smallest integer not below x. *)
Definition Zceil (x : R) : Z := - Int_part (- x).

(** np.arange(start, stop, 1): ceil(stop - start) values (for exact arithmetic). *)
Definition arange1 (start stop : R) : list R :=
  map (fun i => (start + INR i)%R) (seq 0 (Z.to_nat (Zceil (stop - start)))).

(** ndarray.sum() *)
Definition lsum (l : list R) : R := fold_left Rplus l 0%R.

(** np.convolve(a, s, mode='valid') for len a <= len s. *)
Definition convolve_valid (a s : list R) : list R :=
  let m := length a in
  map (fun k => lsum (map (fun j => (nth j a 0 * nth (k + m - 1 - j)%nat s 0)%R) (seq 0 m)))
      (seq 0 (length s - m + 1)).

(** np.linspace(a, b, n), n >= 2. *)
Definition linspace (a b : R) (n : nat) : list R :=
  map (fun i => (a + INR i * ((b - a) / INR (n - 1)))%R) (seq 0 n).
