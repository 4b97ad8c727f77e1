(** LattE-style matrix files (code/latte/ReadLatteStyle.cpp:34-198) and the way
    aggregation.cpp calls the reader (code/latte/aggregation/aggregation.cpp:136).

    A stream is the list of the characters still to be read; a failed extraction is
    [None].  eof() holds at the points where it is tested exactly if the rest is empty
    (the preceding operation was a peek or an extraction that ran into the end).

    Library contracts assumed: istream >> int skips white space, accepts '+' or '-',
    needs a digit and fails outside int; gmpxx's istream >> mpq_class reads
    [sign]digits[/[sign]digits] without white space around the slash and does NOT reduce
    the fraction; ostream << mpq prints the denominator only if it is not 1;
    dd_CreateMatrix makes a matrix of zeros with an empty linearity set, negative sizes
    count as 0; set_addelem ignores elements above the size of the set and negative
    ones, element 0 makes it write outside the set. *)
From Coq Require Import String.
From Coq Require Import Decimal.
From Verif Require Import Common Rational Text.
Open Scope Z_scope.

(** cddlib's dd_MatrixPtr: entries (mpq_t), number of columns, linset (one flag per row),
    representation (true: dd_Generator). *)
Record matrix := mkMatrix { mx_rows : list (list rat); mx_cols : nat; mx_lin : list bool; mx_vrep : bool }.

(** Sign and digits at the front of a text. *)
Definition read_signed (s : text) : option (Z * text) :=
  let '(neg, s2) := match s with
    | c :: s' => if is_char "-" c then (true, s') else if is_char "+" c then (false, s') else (false, s)
    | [] => (false, s) end in
  match take_digits s2 with
  | (Nil, _) => None
  | (u, rest) => Some (if neg : bool then - Z.of_uint u else Z.of_uint u, rest)
  end.
(** istream >> int followed by check_stream (ReadLatteStyle.cpp:34-42). *)
Definition read_int (s : text) : outcome (Z * text) :=
  match read_signed (skip_space s) with
  | Some (z, r) => if int_range z then Ok (z, r) else Err Thrown
  | None => Err Thrown
  end.
(** istream >> mpq_class followed by check_stream. *)
Definition read_mpq (s : text) : outcome (rat * text) :=
  match read_signed (skip_space s) with
  | None => Err Thrown
  | Some (n, c :: r) =>
      if is_char "/" c then match read_signed r with Some (d, r') => Ok (mkRat n d, r') | None => Err Thrown end
      else Ok (mkRat n 1, c :: r)
  | Some (n, []) => Ok (mkRat n 1, [])
  end.

(** ReadLatteStyle.cpp:102-108: the entries. *)
Fixpoint read_row (k : nat) (s : text) : outcome (list rat * text) :=
  match k with
  | O => Ok ([], s)
  | S k' => bind (read_mpq s) (fun p => bind (read_row k' (snd p)) (fun q => Ok (fst p :: fst q, snd q)))
  end.
Fixpoint read_rows (r k : nat) (s : text) : outcome (list (list rat) * text) :=
  match r with
  | O => Ok ([], s)
  | S r' => bind (read_row k s) (fun p => bind (read_rows r' k (snd p)) (fun q => Ok (fst p :: fst q, snd q)))
  end.
(** ReadLatteStyle.cpp:122-127, 140-145: a list of indices. *)
Fixpoint read_ints (k : nat) (s : text) : outcome (list Z * text) :=
  match k with
  | O => Ok ([], s)
  | S k' => bind (read_int s) (fun p => bind (read_ints k' (snd p)) (fun q => Ok (fst p :: fst q, snd q)))
  end.

(** set_addelem *)
Definition set_add (lin : list bool) (i : Z) : outcome (list bool) :=
  if i =? 0 then Err OutOfBounds
  else if i <? 0 then Ok lin
  else Ok (upd lin (Z.to_nat (i - 1)) true).
Fixpoint set_add_all (lin : list bool) (l : list Z) : outcome (list bool) :=
  match l with [] => Ok lin | i :: l' => bind (set_add lin i) (fun lin' => set_add_all lin' l') end.

(** ReadLatteStyle.cpp:55-84 add_nonnegativity.  Row k gets 0 in all columns and then 1
    in column index + num_homog, a write outside the row if that is not a column. *)
Definition unit_row (cols : nat) (i : Z) : outcome (list rat) :=
  if (0 <=? i) && (i <? Z.of_nat cols) then Ok (upd (repeat (mkRat 0 1) cols) (Z.to_nat i) (mkRat 1 1)) else Err OutOfBounds.
Fixpoint unit_rows (cols : nat) (h : Z) (l : list Z) : outcome (list (list rat)) :=
  match l with
  | [] => Ok []
  | i :: l' => bind (unit_row cols (i + h)) (fun r => bind (unit_rows cols h l') (fun rs => Ok (r :: rs)))
  end.
Definition add_nonnegativity (m : matrix) (l : list Z) (h : Z) : outcome matrix :=
  bind (unit_rows (mx_cols m) h l) (fun rs =>
  Ok (mkMatrix (mx_rows m ++ rs) (mx_cols m) (mx_lin m ++ repeat false (length l)) false)).

(** ReadLatteStyle.cpp:116-117: f.get(buffer, 20, ' '): at most 19 characters before a blank. *)
Fixpoint get_word (k : nat) (s : text) : text * text :=
  match k, s with
  | S k', c :: s' => if is_char " " c then ([], s) else let '(w, r) := get_word k' s' in (c :: w, r)
  | _, _ => ([], s)
  end.
Fixpoint text_eqb (a b : text) : bool :=
  match a, b with
  | [], [] => true
  | x :: a', y :: b' => is_char x y && text_eqb a' b'
  | _, _ => false
  end.

(** ReadLatteStyle.cpp:109-162: the keyword loop, entered with leading white space removed.
    A negative count gives an empty loop for "linearity" and an exception of the vector
    constructor for "nonnegative". *)
Fixpoint keywords (fuel : nat) (s : text) (vrep : bool) (h : Z) (m : matrix) : outcome matrix :=
  match fuel with
  | O => Err OutOfFuel
  | S f =>
      match s with
      | [] => Ok m
      | _ =>
          let '(w, s1) := get_word 19 s in
          if text_eqb w (lit "linearity") then
            bind (read_int s1) (fun p =>
            bind (read_ints (Z.to_nat (fst p)) (snd p)) (fun q =>
            bind (set_add_all (mx_lin m) (fst q)) (fun lin =>
            keywords f (skip_space (snd q)) vrep h (mkMatrix (mx_rows m) (mx_cols m) lin (mx_vrep m)))))
          else if text_eqb w (lit "nonnegative") then
            if vrep then Err Thrown else
            bind (read_int s1) (fun p =>
            if fst p <? 0 then Err Thrown else
            bind (read_ints (Z.to_nat (fst p)) (snd p)) (fun q =>
            bind (add_nonnegativity m (fst q) h) (fun m' =>
            keywords f (skip_space (snd q)) vrep h m')))
          else Err Thrown
      end
  end.

(** ReadLatteStyle.cpp:86-174 ReadLatteStyleMatrix(istream &, ...). *)
Definition read_matrix (s : text) (vrep homogenize nonnegativity : bool) : outcome matrix :=
  bind (read_int s) (fun p1 =>
  bind (read_int (snd p1)) (fun p2 =>
  let h : nat := if homogenize then 1%nat else 0%nat in
  let r := Z.to_nat (fst p1) in let k := Z.to_nat (fst p2) in
  bind (read_rows r k (snd p2)) (fun p3 =>
  let m := mkMatrix (map (fun row => repeat (mkRat 0 1) h ++ row)%list (fst p3)) (Z.to_nat (fst p2 + Z.of_nat h)) (repeat false r) vrep in
  bind (keywords (S (length s)) (skip_space (snd p3)) vrep (Z.of_nat h) m) (fun m' =>
  if nonnegativity then add_nonnegativity m' (map (fun i => Z.of_nat i + 1) (seq 0 k)) (Z.of_nat h)
  else Ok m')))).

(** ReadLatteStyle.cpp:181-198 WriteLatteStyleMatrix(ostream &, ...); endl is a newline. *)
Definition newline : ascii := ascii_of_nat 10.
Definition show_entries (l : list text) : text := flat_map (fun t => t ++ [" "%char])%list l.
Definition show_nat (n : nat) : text := show_Z (Z.of_nat n).
Fixpoint members (lin : list bool) (i : nat) : list nat :=
  match lin with [] => [] | b :: l => (if b : bool then [i] else []) ++ members l (S i) end.
Definition write_matrix (m : matrix) : text :=
  (show_nat (length (mx_rows m)) ++ " "%char :: show_nat (mx_cols m) ++ newline ::
   flat_map (fun row => show_entries (map show_rat row) ++ [newline]) (mx_rows m) ++
   match members (mx_lin m) 1 with
   | [] => []
   | l => lit "linearity " ++ show_nat (length l) ++ " "%char :: show_entries (map show_nat l) ++ [newline]
   end)%list.

(** aggregation.cpp:136: ReadLatteStyleMatrix(cin, false, "standard input").  The third
    parameter is [bool homogenize]: the string literal is converted to true, and the
    file description keeps its default. *)
Definition aggregation_read (s : text) : outcome matrix := read_matrix s false true false.
