(** Text input and output: the decimal conversions of the libraries used by LattE and
    the text operations of class RationalNTL (code/latte/rational.cpp:177-190, 468-475,
    529-592).

    A text (std::string, or the rest of an istream) is the list of its characters; a
    text holds no NUL character, so [line[line.length()]] is the only NUL read.

    Library contracts assumed here (the libraries are not in /repo):
    - NTL operator<<(ostream, ZZ), ostream << int and gmpxx's operator<< print the
      decimal representation, with a minus sign for negative numbers;
    - NTL to_ZZ(const char * ) skips white space, accepts one '-' (no '+'), needs at
      least one digit, stops at the first other character; without a digit it
      terminates the program (InputError);
    - atoi skips white space, accepts '+' or '-', yields 0 without digits; a value
      outside int is undefined behaviour. *)
From Coq Require Import String.
From Coq Require Export Ascii.
From Coq Require Import Decimal.
From Verif Require Import Common Rational.
Open Scope Z_scope.

Notation text := (list ascii).
(** A string literal as a text. *)
Definition lit (s : string) : text := list_ascii_of_string s.

(** Digits as characters, and back. *)
Fixpoint digit_chars (u : uint) : text :=
  match u with
  | Nil => []
  | D0 u => "0"%char :: digit_chars u | D1 u => "1"%char :: digit_chars u
  | D2 u => "2"%char :: digit_chars u | D3 u => "3"%char :: digit_chars u
  | D4 u => "4"%char :: digit_chars u | D5 u => "5"%char :: digit_chars u
  | D6 u => "6"%char :: digit_chars u | D7 u => "7"%char :: digit_chars u
  | D8 u => "8"%char :: digit_chars u | D9 u => "9"%char :: digit_chars u
  end.
Definition digit_of (c : ascii) : option (uint -> uint) :=
  match c with
  | "0"%char => Some D0 | "1"%char => Some D1 | "2"%char => Some D2 | "3"%char => Some D3
  | "4"%char => Some D4 | "5"%char => Some D5 | "6"%char => Some D6 | "7"%char => Some D7
  | "8"%char => Some D8 | "9"%char => Some D9
  | _ => None
  end.
(** isdigit *)
Definition is_digit (c : ascii) : bool := match digit_of c with Some _ => true | None => false end.
(** isspace in the C locale. *)
Definition is_space (c : ascii) : bool :=
  let n := nat_of_ascii c in ((n =? 32) || ((9 <=? n) && (n <=? 13)))%nat.
Definition is_char (a c : ascii) : bool := Ascii.eqb a c.

(** The digits at the front of a text, and what follows them. *)
Fixpoint take_digits (s : text) : uint * text :=
  match s with
  | [] => (Nil, [])
  | c :: s' => match digit_of c with
               | Some d => let '(u, r) := take_digits s' in (d u, r)
               | None => (Nil, s)
               end
  end.
Fixpoint skip_space (s : text) : text :=
  match s with c :: s' => if is_space c then skip_space s' else s | [] => [] end.

(** ostream << ZZ, ostream << int. *)
Definition show_Z (z : Z) : text :=
  match Z.to_int z with
  | Pos u => digit_chars u
  | Neg u => "-"%char :: digit_chars u
  end.

(** NTL to_ZZ(const char * ). *)
Definition to_ZZ (s : text) : outcome Z :=
  let s1 := skip_space s in
  let '(neg, s2) := match s1 with c :: s' => if is_char "-" c then (true, s') else (false, s1) | [] => (false, s1) end in
  match take_digits s2 with
  | (Nil, _) => Err Exited
  | (u, _) => Ok (if neg : bool then - Z.of_uint u else Z.of_uint u)
  end.

(** The values of the C++ type int. *)
Definition int_range (z : Z) : bool := (- 2147483648 <=? z) && (z <=? 2147483647).
(** atoi *)
Definition atoi (s : text) : outcome Z :=
  let s1 := skip_space s in
  let '(neg, s2) := match s1 with
    | c :: s' => if is_char "-" c then (true, s') else if is_char "+" c then (false, s') else (false, s1)
    | [] => (false, s1) end in
  let u := fst (take_digits s2) in
  let z := if neg : bool then - Z.of_uint u else Z.of_uint u in
  if int_range z then Ok z else Err IntOverflow.

(** rational.cpp:468-475 operator<< *)
Definition show_rat (r : rat) : text :=
  (show_Z (num r) ++ if den r =? 1 then [] else "/"%char :: show_Z (den r))%list.

(** The text before the first character that satisfies [p], and the text from it on;
    [None]: there is none. *)
Fixpoint split_at (p : ascii -> bool) (s : text) : option (text * text) :=
  match s with
  | [] => None
  | c :: s' => if p c then Some ([], s)
               else match split_at p s' with Some (a, b) => Some (c :: a, b) | None => None end
  end.

(** rational.cpp:177-190 RationalNTL(const string &) *)
Definition rat_of_text (s : text) : outcome rat :=
  match split_at (is_char "/") s with
  | Some (a, b) => bind (to_ZZ a) (fun n => bind (to_ZZ (tl b)) (fun d => Ok (rat_make n d)))
  | None => bind (to_ZZ s) (fun n => Ok (mkRat n 1))
  end.

(** rational.cpp:563-592 readNumber on a stream: white space is removed, then one
    character is taken, which must be a sign or a digit (the assert also fails at the
    end of the stream, where get() returns EOF), then all following digits. *)
Definition read_number (s : text) : outcome (Z * text) :=
  match skip_space s with
  | [] => Err AssertFail
  | c :: s1 =>
      if is_char "+" c || is_char "-" c || is_digit c then
        let '(u, rest) := take_digits s1 in
        bind (to_ZZ (c :: digit_chars u)) (fun z => Ok (z, rest))
      else Err AssertFail
  end.
(** rational.cpp:529-555 operator>>; the result is the object and the rest of the stream. *)
Definition read_rat (s : text) : outcome (rat * text) :=
  bind (read_number s) (fun p => let '(n, s1) := p in
  match skip_space s1 with
  | c :: s2 =>
      if is_char "/" c then bind (read_number s2) (fun q => Ok (rat_make n (fst q), snd q))
      else Ok (rat_make n 1, c :: s2)
  | [] => Ok (rat_make n 1, [])
  end).
