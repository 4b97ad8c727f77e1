(** Specification of the conversion of cdd's inequality files. *)
From Coq Require Import QArith String.
From Verif Require Import Common Rational RationalSpec Text LatteText CddText CddTextSpec.
Open Scope Z_scope.

(** The numbers in the file: integers and fractions, not necessarily in lowest terms. *)
Inductive number_word : text -> Q -> Prop :=
| whole n : number_word (show_Z n) (inject_Z n)
| fraction n d : d <> 0 -> number_word (show_Z n ++ "/"%char :: show_Z d) (inject_Z n / inject_Z d).
(** A file with the given rows b, a1, ..., an, which stand for b + a.x >= 0: a preamble, the line "begin", the line with the sizes and the kind of numbers, the
    rows, anything. *)
Definition ine_file (p : text) (width : nat) (rows : list (list Q)) (t : text) : Prop :=
  Forall (fun row => length row = width) rows /\ int_size (length rows) /\ Z.of_nat width < 2147483647 /\
  exists h kind r z ws, preamble p /\ line [show_nat (length rows); show_nat width; kind] h /\ In kind [lit "integer"; lit "rational"; lit "real"] /\ (length h <= 250)%nat /\
  lines ws r /\ Forall2 (Forall2 number_word) ws rows /\ t = (p ++ lit "begin" ++ newline :: h ++ r ++ z)%list.
(** b + a.x *)
Fixpoint row_value (row x : list Q) : Q := match row, x with a :: row', y :: x' => (a * y + row_value row' x')%Q | _, _ => 0%Q end.
(** Numbers that are integers. *)
Definition integral (q : Q) : Prop := exists z, (q == inject_Z z)%Q.
(** k is the smallest positive integer that makes the row integral; every other one is a multiple. *)
Definition least_multiplier (k : Z) (row : list Q) : Prop :=
  0 < k /\ Forall (fun q => integral (inject_Z k * q)) row /\ forall j, Forall (fun q => integral (inject_Z j * q)) row -> (k | j).
(** What a file with the line "linearity" means for cdd: equations in the rows with these numbers (from 1), inequalities in the others. *)
Definition cdd_solution (linearity : list nat) (rows : list (list Q)) (x : list Q) : Prop :=
  forall i, (i < length rows)%nat -> if existsb (Nat.eqb (S i)) linearity then (row_value (nth i rows []) (1 :: x) == 0)%Q else (0 <= row_value (nth i rows []) (1 :: x))%Q.
