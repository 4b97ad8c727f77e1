(** Model of the program ConvertCDDineToLatte, code/latte/convertCDD_ine_to_latte.cpp:18-65, which turns a file of inequalities for cdd
    into one for LattE.
    Simplified: files are texts; the numbers of rows and columns are read as ints (long in the code) and a failing extraction of one of them is
    [Err Thrown]; without a line "begin" they are never set and the value of uninitialised variables is used: [Err OutOfBounds].  What was
    written before an error is left out.  The program for the .ext format, convertCDD_ext_to_latte.cpp, stops at once (line 27). *)
From Coq Require Import String.
From Verif Require Import Common Rational Text LatteText CheckEmpty CddText.
Open Scope Z_scope.

(** istream::ignore(k, newline), line 38 *)
Fixpoint ignore (k : nat) (s : text) : text :=
  match k, s with S k', c :: s' => if is_char newline c then s' else ignore k' s' | _, _ => s end.
(** line 51 *)
Definition lcm_with (l : Z) (q : rat) : Z := (den q * l) / Z.gcd l (den q).
(** lines 45-52: the words of a row; at the end of the file the word is empty, which to_ZZ does not accept *)
Fixpoint read_entries (k : nat) (s : text) : outcome (list rat * text) :=
  match k with
  | O => Ok ([], s)
  | S k' => bind (read_cdd s) (fun p => bind (read_entries k' (snd p)) (fun q => Ok (fst p :: fst q, snd q)))
  end.
(** lines 44-52: lcmDenom *)
Definition common_denominator (row : list rat) : Z := fold_left lcm_with row 1.
(** lines 53-55 *)
Definition write_row (row : list rat) : text :=
  (show_entries (map (fun q => show_rat (canonicalize (mkRat (num q * common_denominator row) (den q)))) row) ++ [newline])%list.
(** lines 42-57 *)
Fixpoint convert_rows (r k : nat) (s : text) : outcome text :=
  match r with
  | O => Ok []
  | S r' => bind (read_entries k s) (fun p => bind (convert_rows r' k (snd p)) (fun t => Ok (write_row (fst p) ++ t)%list))
  end.
Definition convert_ine (s : text) : outcome text :=
  match skip_begin (S (length s)) s with
  | Err _ => Err OutOfBounds
  | Ok s1 =>
      bind (read_int s1) (fun '(m, s2) => bind (read_int s2) (fun '(w, s3) =>
      if w <? 0 then Err Thrown else
      bind (convert_rows (Z.to_nat m) (Z.to_nat w) (ignore 250 s3)) (fun t =>
      Ok (show_Z m ++ " "%char :: show_Z w ++ newline :: t)%list)))
  end.
