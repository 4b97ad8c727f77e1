(** The files that cdd writes, and what they mean. *)
From Coq Require Import QArith String Sorted.
From Verif Require Import Common Rational RationalSpec Text LatteText RatVec RatVecSpec.
Open Scope Z_scope.

(** Lines of words: every word is preceded by blanks, spaces may follow the last one. *)
Definition spaces (t : text) : Prop := Forall (fun c => c = " "%char) t.
Inductive words : list text -> text -> Prop :=
| no_words : words [] []
| more_words b w l t : b <> [] -> spaces b -> words l t -> words (w :: l) (b ++ w ++ t).
Definition line (l : list text) (t : text) : Prop := exists u e, words l u /\ spaces e /\ t = (u ++ e ++ [newline])%list.
Inductive lines : list (list text) -> text -> Prop :=
| no_lines : lines [] []
| more_lines l ls t u : line l t -> lines ls u -> lines (l :: ls) (t ++ u).
(** Anything before the line "begin". *)
Definition preamble (t : text) : Prop := exists ls, Forall (fun l => ~ In newline l /\ l <> lit "begin") ls /\ t = flat_map (fun l => l ++ [newline])%list ls.
(** The numbers in the table of vertices: lowest terms, width many in each row, fewer rows and columns than 2^31. *)
Definition int_size (n : nat) : Prop := Z.of_nat n <= 2147483647.
Definition ext_file (width : nat) (rows : list (list rat)) (t : text) : Prop :=
  Forall (fun row => length row = width /\ Forall lowest_terms row) rows /\ int_size (length rows) /\ int_size width /\
  exists p h kind r z, preamble p /\ line [show_nat (length rows); show_nat width; kind] h /\ In kind [lit "integer"; lit "rational"] /\
  lines (map (map show_rat) rows) r /\ t = (p ++ lit "begin" ++ newline :: h ++ r ++ z)%list.
(** Neighbours of the vertex number i (from 1) among n: as a list, or by listing the others. *)
Inductive neighbours (n i : nat) (adj : list nat) : list text -> Prop :=
| direct : neighbours n i adj (show_nat i :: show_nat (length adj) :: lit ":" :: map show_nat adj)
| inverted others : StronglySorted lt others -> Forall (fun k => (1 <= k <= n)%nat) others ->
    adj = filter (fun k => negb (existsb (Nat.eqb k) others)) (seq 1 n) -> adj <> [] ->
    neighbours n i adj (show_nat i :: show_Z (- Z.of_nat (length adj)) :: lit ":" :: map show_nat others).
Definition ead_file (adj : list (list nat)) (t : text) : Prop :=
  Forall (fun a => Forall (fun k => (1 <= k <= length adj)%nat) a /\ int_size (length a)) adj /\ int_size (length adj) /\
  exists p h ls r z more, preamble p /\ line (show_nat (length adj) :: more) h /\ Forall (fun w => ~ In newline w) more /\ length ls = length adj /\
  (forall i, (i < length adj)%nat -> neighbours (length adj) (S i) (nth i adj []) (nth i ls [])) /\ lines ls r /\ t = (p ++ lit "begin" ++ newline :: h ++ r ++ z)%list.
Definition zero_rat := mkRat 0 1.
(** The point of a row (x0, x1, ..., xn): coordinates xj / x0. *)
Definition point_of (row : list rat) (j : nat) : Q := (value (nth (S j) row zero_rat) / value (nth 0 row zero_rat))%Q.
Definition vertex_row (row : list rat) : Prop := (0 < value (nth 0 row zero_rat))%Q.
Definition is_point (v : rvec) (n : nat) (row : list rat) : Prop := dim v = n /\ forall j, (j < n)%nat -> (coord v j == point_of row j)%Q.
(** r is the primitive integer vector that points from the one to the other. *)
Definition edge (n : nat) (from to : list rat) (r : list Z) : Prop :=
  length r = n /\ content r = 1 /\ exists q, (0 < q)%Q /\ forall j, (j < n)%nat -> (inject_Z (nth j r 0%Z) == q * (point_of to j - point_of from j))%Q.
Definition different (n : nat) (a b : list rat) : Prop := exists j, (j < n)%nat /\ ~ (point_of a j == point_of b j)%Q.
