(** What the utilities promise. *)
From Verif Require Import Common Util.
Open Scope Z_scope.

(** A timer, seen from outside: is it running, and how long did it run since the last
    clear?  Time is accumulated between consecutive events while it runs. *)
Definition legal (running : bool) (op : top) : bool :=
  match op with TStart => negb running | TStop => running | TClear | TGet => negb running end.
Definition run_after (running : bool) (op : top) : bool :=
  match op with TStart => true | TStop => false | TClear | TGet => running end.
(** [ran running last total ops]: answers of TGet, event by event; [last] is the time of
    the previous event. *)
Fixpoint answers (running : bool) (last total : Z) (ops : list (top * Z)) : list (option Z) :=
  match ops with
  | [] => []
  | (op, now) :: ops' =>
      let total1 := if running then total + (now - last) else total in
      (match op with TGet => Some total1 | _ => None end)
      :: answers (run_after running op) now (match op with TClear => 0 | _ => total1 end) ops'
  end.
Fixpoint all_legal (running : bool) (ops : list (top * Z)) : bool :=
  match ops with [] => true | (op, _) :: ops' => legal running op && all_legal (run_after running op) ops' end.

(** Rounding to double: relative error at most 2^-53 (round to nearest), non-negative
    integers to non-negative integers. *)
Definition double_rounding (rnd : Z -> Z) : Prop :=
  forall p, 0 <= p -> 0 <= rnd p /\ 2 ^ 53 * Z.abs (rnd p - p) <= p.
