(** Paths, directories and files, as far as qmix/exp/exp_data.py uses them (POSIX): os.path.join,
    os.path.exists, os.makedirs, and writing a file.  Nothing here is specific to QMix.
    Simplifications: no symbolic links, "..", permissions or full disks; a name with a slash
    at the end may also name a file. *)
From Coq Require Import List Bool Arith String Ascii.
From Verif Require Import Base.
Import ListNotations.
Open Scope string_scope.

(** ** Names *)
Definition slash : ascii := ascii_of_nat 47.
Definition starts_with_slash (s : string) : bool := match s with String c _ => Ascii.eqb c slash | "" => false end.
Fixpoint ends_with_slash (s : string) : bool :=
  match s with "" => false | String c "" => Ascii.eqb c slash | String _ s' => ends_with_slash s' end.
(** os.path.join(a, b) *)
Definition join (a b : string) : string :=
  if starts_with_slash b then b
  else if String.eqb a "" || ends_with_slash a then a ++ b
  else a ++ String slash b.
(** The pieces between the slashes; the first argument is the piece read so far. *)
Fixpoint split_at (piece : string) (s : string) : list string :=
  match s with
  | "" => [piece]
  | String c s' => if Ascii.eqb c slash then piece :: split_at "" s' else split_at (piece ++ String c "") s'
  end.
(** What a name refers to: from the root or not, and the components. *)
Definition path := (bool * list string)%type.
Definition path_of (s : string) : path :=
  (starts_with_slash s, filter (fun c => negb (String.eqb c "" || String.eqb c ".")) (split_at "" s)).
Definition path_eqb (p q : path) : bool :=
  Bool.eqb (fst p) (fst q) && (if list_eq_dec string_dec (snd p) (snd q) then true else false).

(** ** The disk *)
(** The directories (but the root and the working directory) and the files with what they
    hold. *)
Record disk (A : Type) := { dirs : list path; files : list (path * A) }.
Arguments dirs {A}. Arguments files {A}.
Section Disk.
Context {A : Type}.
Definition is_dir (w : disk A) (p : path) : bool :=
  match snd p with [] => true | _ => existsb (path_eqb p) (dirs w) end.
Definition is_file (w : disk A) (p : path) : bool := existsb (fun f => path_eqb p (fst f)) (files w).
(** os.path.exists *)
Definition path_exists (w : disk A) (s : string) : bool :=
  if String.eqb s "" then false else is_dir w (path_of s) || is_file w (path_of s).
(** The directories that lead to p, and p. *)
Definition prefixes (p : path) : list path := map (fun k => (fst p, firstn k (snd p))) (seq 1 (List.length (snd p))).
(** os.makedirs(s): FileNotFoundError for the empty name, FileExistsError if it exists,
    NotADirectoryError below a file (all are OSErrors). *)
Definition makedirs (w : disk A) (s : string) : res (disk A) :=
  let* _ := guard (negb (String.eqb s "")) OSError in
  let* _ := guard (negb (path_exists w s)) OSError in
  let ps := prefixes (path_of s) in
  let* _ := guard (forallb (fun p => negb (is_file w p)) ps) OSError in
  Ok {| dirs := dirs w ++ filter (fun p => negb (is_dir w p)) ps; files := files w |}.
(** if not os.path.exists(s): os.makedirs(s) *)
Definition ensure (w : disk A) (s : string) : res (disk A) := if path_exists w s then Ok w else makedirs w s.
(** A file with the name s is written (or replaced): its directory has to exist. *)
Definition write_file (w : disk A) (s : string) (a : A) : res (disk A) :=
  let p := path_of s in
  let* _ := guard (negb (is_dir w p)) OSError in
  let* _ := guard (is_dir w (fst p, removelast (snd p))) OSError in
  Ok {| dirs := dirs w; files := filter (fun f => negb (path_eqb p (fst f))) (files w) ++ [(p, a)] |}.
End Disk.

(** ** Effects *)
(** A program that changes the disk and may fail; what has been written before stays. *)
Definition io (A T : Type) := disk A -> disk A * res T.
Definition ret {A T} (x : T) : io A T := fun w => (w, Ok x).
Definition iobind {A T U} (m : io A T) (k : T -> io A U) : io A U :=
  fun w => let '(w, r) := m w in match r with Ok x => k x w | Err e => (w, Err e) end.
Definition effect {A} (f : disk A -> res (disk A)) : io A unit :=
  fun w => match f w with Ok w' => (w', Ok tt) | Err e => (w, Err e) end.
Definition value {A T} (r : res T) : io A T := fun w => (w, r).
Notation "'do' x '<-' m ';' k" := (iobind m (fun x => k)) (at level 200, x pattern, m at level 100, k at level 200, right associativity).
(** A loop. *)
Fixpoint io_each {A T} (l : list T) (f : T -> io A unit) : io A unit :=
  match l with [] => ret tt | x :: l' => do _ <- f x; io_each l' f end.
