(** Model of KannanAggregation (code/latte/aggregation/aggregation.cpp:36-130).
    Simplifications: matrix entries are integers (the program rejects fractional
    entries in the aggregated rows; the other rows are copied unchanged, so nothing
    depends on their being rational); the int factors 3*m*n in lambda do not overflow. *)
From Verif Require Import Common.
Open Scope Z_scope.

(** A cdd row: membership in "aggrows", in "linset" (equation), and b | -A. *)
Record krow := mkRow { agg : bool; lin : bool; coef : list Z }.
Definition cddmat := list (bool * list Z).

(** aggregation.cpp:45-79: checks, number of slacks, maxima. *)
Fixpoint max_coeff (cs : list Z) (amax : Z) : outcome Z :=
  match cs with
  | [] => Ok amax
  | c :: cs' => if 0 <? c then Err Exited
                else max_coeff cs' (if amax <? - c then - c else amax)
  end.
Fixpoint scan (rows : list krow) (slacks : nat) (bmax amax : Z) : outcome (nat * Z * Z) :=
  match rows with
  | [] => Ok (slacks, bmax, amax)
  | r :: rows' =>
      if agg r then
        match coef r with
        | [] => Err OutOfBounds
        | b :: a =>
          if b <? 0 then Err Exited
          else bind (max_coeff a amax) (fun amax' =>
               scan rows' (if lin r then slacks else S slacks) (if bmax <? b then b else bmax) amax')
        end
      else scan rows' slacks bmax amax
  end.

(** dd_CreateMatrix: all entries zero, empty linset. *)
Definition create (rows cols : nat) : cddmat := repeat (false, repeat 0 cols) rows.
Definition modify {A} (l : list A) (i : nat) (f : A -> outcome A) : outcome (list A) :=
  match nth_error l i with
  | None => Err OutOfBounds
  | Some x => bind (f x) (fun y => Ok (upd l i y))
  end.
(** set_addelem(new_matrix->linset, i+1) *)
Definition set_lin (m : cddmat) (i : nat) : outcome cddmat := modify m i (fun r => Ok (true, snd r)).
Definition set_entry (m : cddmat) (i j : nat) (v : Z) : outcome cddmat :=
  modify m i (fun r => bind (modify (snd r) j (fun _ => Ok v)) (fun c => Ok (fst r, c))).
(** aggregation.cpp:98-105: entries j < num_cols of the aggregated row += multiplier * A[i][j]. *)
Fixpoint axpy (mult : Z) (a : list Z) (row : list Z) : outcome (list Z) :=
  match a, row with
  | [], _ => Ok row
  | c :: a', r :: row' => bind (axpy mult a' row') (fun t => Ok (r + mult * c :: t))
  | _ :: _, [] => Err OutOfBounds
  end.
(** aggregation.cpp:121-123: copy entries j < num_cols. *)
Fixpoint copy_into (a : list Z) (row : list Z) : outcome (list Z) :=
  match a, row with
  | [], _ => Ok row
  | c :: a', r :: row' => bind (copy_into a' row') (fun t => Ok (c :: t))
  | _ :: _, [] => Err OutOfBounds
  end.

Record kstate := mkK { kmat : cddmat; li : Z; slack_var : nat; slack_row : nat; dest_row : nat }.

(** aggregation.cpp:94-128, one row. *)
Definition kstep (aggrow : nat) (lambda lmp1 : Z) (s : kstate) (r : krow) : outcome kstate :=
  if agg r then
    let multiplier := lmp1 + li s in
    bind (modify (kmat s) aggrow (fun x => bind (axpy multiplier (coef r) (snd x)) (fun c => Ok (fst x, c)))) (fun m1 =>
    if lin r then Ok (mkK m1 (li s * lambda) (slack_var s) (slack_row s) (dest_row s))
    else
      bind (set_entry m1 aggrow (slack_var s) (- multiplier)) (fun m2 =>
      bind (set_entry m2 (slack_row s) (slack_var s) 1) (fun m3 =>
      Ok (mkK m3 (li s * lambda) (S (slack_var s)) (S (slack_row s)) (dest_row s)))))
  else
    bind (modify (kmat s) (dest_row s) (fun x => bind (copy_into (coef r) (snd x)) (fun c => Ok (fst x, c)))) (fun m1 =>
    bind (if lin r then set_lin m1 (dest_row s) else Ok m1) (fun m2 =>
    Ok (mkK m2 (li s) (slack_var s) (slack_row s) (S (dest_row s))))).
Fixpoint kloop (aggrow : nat) (lambda lmp1 : Z) (s : kstate) (rows : list krow) : outcome kstate :=
  match rows with
  | [] => Ok s
  | r :: rows' => bind (kstep aggrow lambda lmp1 s r) (fun s' => kloop aggrow lambda lmp1 s' rows')
  end.

(** aggregation.cpp:36-130 *)
Definition kannan (rows : list krow) (num_cols : nat) : outcome cddmat :=
  let num_rows := length rows in
  let num_aggrows := length (filter agg rows) in
  bind (scan rows 0 0 0) (fun '(num_slacks, b_max, A_max) =>
  let new_num_rows := (num_rows + num_slacks - num_aggrows + 1)%nat in
  let new_num_cols := (num_cols + num_slacks)%nat in
  let aggrow_index := (new_num_rows - 1)%nat in
  bind (set_lin (create new_num_rows new_num_cols) aggrow_index) (fun m0 =>
  let lambda := 3 * Z.of_nat num_aggrows * (Z.of_nat num_cols - 1) * A_max * b_max in
  let lmp1 := lambda ^ (Z.of_nat num_aggrows + 1) in
  bind (kloop aggrow_index lambda lmp1
          (mkK m0 lambda num_cols (num_rows - num_aggrows)%nat 0) rows) (fun s => Ok (kmat s)))).
