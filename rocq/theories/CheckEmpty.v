(** The test for an empty polytope of LattE-style files, code/latte/CheckEmpty.cpp:48-180: the
    linear program written to Check_emp.lp, and what is done with cdd's answer.

    Library contracts: NTL's istream >> ZZ skips white space, accepts one '-', needs a digit;
    if it fails, the number keeps its value and every later extraction from the stream fails
    (NTL 6 and later).  Setting a negative size makes NTL terminate the program.  cdd accepts
    an input exactly if the number of rows announced is the number of rows present
    (otherwise the word "end" is not where it is expected), and writes Check_emp.lps only then.
    Simplifications: a failing extraction of one of the sizes, or of an index behind a keyword,
    is [Err Thrown] here (in the code the number is left as it was, and the file is rejected by the reader
    of C37 afterwards); conv from ZZ to int is the identity; a matrix without columns is
    taken to be rejected by cdd. *)
From Coq Require Import Decimal String.
From Verif Require Import Common Rational Text LatteText.
Open Scope Z_scope.

(** istream >> string; the empty text: failed. *)
Fixpoint take_word (s : text) : text * text :=
  match s with
  | c :: s' => if is_space c then ([], s) else let '(w, r) := take_word s' in (c :: w, r)
  | [] => ([], [])
  end.
Definition next_word (s : text) : text * text := take_word (skip_space s).
(** NTL's istream >> ZZ; None: failed. *)
Definition read_ZZ (s : text) : option (Z * text) :=
  let s1 := skip_space s in
  let '(neg, s2) := match s1 with c :: s' => if is_char "-" c then (true, s') else (false, s1) | [] => (false, s1) end in
  match take_digits s2 with
  | (Nil, _) => None
  | (u, r) => Some (if neg : bool then - Z.of_uint u else Z.of_uint u, r)
  end.
(** k numbers that are 0 before; [None] as a stream: it has failed. *)
Fixpoint read_ZZs (k : nat) (s : option text) : list Z * option text :=
  match k with
  | O => ([], s)
  | S k' =>
      let '(z, s1) := match s with
        | None => (0, None)
        | Some t => match read_ZZ t with Some (z, r) => (z, Some r) | None => (0, None) end end in
      let '(zs, s2) := read_ZZs k' s1 in (z :: zs, s2)
  end.
(** CheckEmpty.cpp:90-92 *)
Fixpoint read_entries (rows cols : nat) (s : option text) : list (list Z) :=
  match rows with O => [] | S r => let '(row, s1) := read_ZZs cols s in row :: read_entries r cols s1 end.

(** What the first pass over the file leaves: the indices of the last "linearity" and
    "nonnegative" line, and flag (0, 1 or 2). *)
Record scanned := mkScanned { sc_equ : option (list Z); sc_nonneg : option (list Z); sc_flag : Z }.
Fixpoint read_indices (k : nat) (s : text) : outcome (list Z * text) :=
  match k with
  | O => Ok ([], s)
  | S k' => match read_ZZ s with
            | None => Err Thrown
            | Some (z, r) => bind (read_indices k' r) (fun '(zs, r') => Ok (z :: zs, r'))
            end
  end.
(** CheckEmpty.cpp:64-79 *)
Fixpoint scan_file (fuel : nat) (s : text) (st : scanned) : outcome scanned :=
  match fuel with
  | O => Err OutOfFuel
  | S f =>
      let '(w, s1) := next_word s in
      match w with
      | [] => Ok st
      | _ =>
          let line (k : list Z -> scanned) :=
            bind (read_int s1) (fun '(c, s2) => if c <? 0 then Err Exited else
            bind (read_indices (Z.to_nat c) s2) (fun '(l, s3) => scan_file f s3 (k l))) in
          if text_eqb w (lit "linearity") then line (fun l => mkScanned (Some l) (sc_nonneg st) 1)
          else if text_eqb w (lit "NONNEGATIVE") || text_eqb w (lit "nonnegative") then line (fun l => mkScanned (sc_equ st) (Some l) 2)
          else scan_file f s1 st
      end
  end.

(** The contents of Check_emp.lp: the number of rows announced, the number of columns, the
    rows, the objective (without the constant 0). *)
Record lp := mkLp { lp_count : Z; lp_cols : nat; lp_rows : list (list Z); lp_objective : list Z }.
Definition given (o : option (list Z)) : list Z := match o with Some l => l | None => [] end.
(** CheckEmpty.cpp:124-130: negated rows. *)
Fixpoint negated_rows (rows : list (list Z)) (l : list Z) : outcome (list (list Z)) :=
  match l with
  | [] => Ok []
  | i :: l' => if (1 <=? i) && (i <=? Z.of_nat (length rows)) then
                 bind (negated_rows rows l') (fun rs => Ok (map Z.opp (nth (Z.to_nat (i - 1)) rows []) :: rs))
               else Err OutOfBounds
  end.
(** CheckEmpty.cpp:102-109, 131-136: the square matrix NONNEG and the rows written from it; the
    last row and column of NONNEG are not written. *)
Definition unit_line (cols : nat) (l : list Z) (i : nat) : list Z :=
  0 :: map (fun j => if (i =? j)%nat && existsb (Z.eqb (Z.of_nat i + 1)) l then 1 else 0) (seq 0 (cols - 1)).
(** CheckEmpty.cpp:80-147 *)
Definition check_lp (s : text) : outcome lp :=
  bind (scan_file (S (length s)) s (mkScanned None None 0)) (fun st =>
  bind (read_int s) (fun '(r, s1) => bind (read_int s1) (fun '(c, s2) =>
  if (r <? 0) || (c <? 1) then Err Exited else
  let rows := Z.to_nat r in let cols := Z.to_nat c in
  let hold := if sc_flag st =? 2 then c - 1 else 0 in
  let numOfEqu := Z.of_nat (length (given (sc_equ st))) in
  (* int equs[numOfConsts] *)
  if r <? numOfEqu then Err OutOfBounds else
  let entries := read_entries rows cols (Some s2) in
  if negb (forallb (fun i => (1 <=? i) && (i <=? c)) (given (sc_nonneg st))) then Err OutOfBounds else
  bind (negated_rows entries (given (sc_equ st))) (fun neg =>
  let units := match sc_nonneg st with Some l => map (unit_line cols l) (seq 0 (cols - 1)) | None => [] end in
  (* the objective is the first row *)
  if (rows =? 0)%nat && (1 <? cols)%nat then Err OutOfBounds else
  Ok (mkLp (r + hold + numOfEqu) cols (entries ++ neg ++ units) (tl (nth 0 entries []))))))).
(** CheckEmpty.cpp:149-180.  [cdd p] says whether Check_emp.lps has the word primal_solution or
    primal_direction. *)
Definition check_empty (cdd : lp -> bool) (s : text) : outcome unit :=
  bind (check_lp s) (fun p =>
  if negb (lp_count p =? Z.of_nat (length (lp_rows p))) then Err Exited
  else if cdd p then Ok tt else Err Thrown).
