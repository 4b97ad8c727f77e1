(** What a client program over RationalNTL variables means mathematically:
    variables hold elements of Q, operations are those of the field. *)
From Coq Require Import QArith.
From Verif Require Import Common Rational.
Open Scope Q_scope.

(** The rational number an object stands for. *)
Definition value (r : rat) : Q := num r # Z.to_pos (den r).
(** Lowest terms, positive denominator. *)
Definition lowest_terms (r : rat) : Prop := (0 < den r)%Z /\ Z.gcd (num r) (den r) = 1%Z.

Definition qstore := nat -> Q.
Definition qset (s : qstore) (i : nat) (q : Q) : qstore := fun k => if Nat.eqb k i then q else s k.
Definition qinit : qstore := fun _ => 0.

(** [None]: the statement has no mathematical meaning (a zero denominator, a
    division by zero, a negative power of zero). *)
Definition qdiv (a b : Q) : option Q := if Qeq_bool b 0 then None else Some (a / b).
Definition qset_opt (s : qstore) (i : nat) (o : option Q) : option qstore :=
  match o with Some q => Some (qset s i q) | None => None end.

Definition spec_step (s : qstore) (o : op) : option qstore :=
  match o with
  | OSet i n d => qset_opt s i (qdiv (inject_Z n) (inject_Z d))
  | OSetZ i z => Some (qset s i (inject_Z z))
  | OAssign i j => Some (qset s i (s j))
  | OAdd i j => Some (qset s i (s i + s j))
  | OSub i j => Some (qset s i (s i - s j))
  | OMul i j => Some (qset s i (s i * s j))
  | ODiv i j => qset_opt s i (qdiv (s i) (s j))
  | OPlus i j k => Some (qset s i (s j + s k))
  | OMinus i j k => Some (qset s i (s j - s k))
  | OTimes i j k => Some (qset s i (s j * s k))
  | OOver i j k => qset_opt s i (qdiv (s j) (s k))
  | OMulZ i z => Some (qset s i (s i * inject_Z z))
  | ODivZ i z => qset_opt s i (qdiv (s i) (inject_Z z))
  | ONeg i => Some (qset s i (- s i))
  | OPow i e => if (e <? 0)%Z && Qeq_bool (s i) 0 then None else Some (qset s i (s i ^ e))
  end.

Fixpoint spec_run (s : qstore) (p : list op) : option qstore :=
  match p with
  | [] => Some s
  | o :: p' => match spec_step s o with Some s' => spec_run s' p' | None => None end
  end.

(** The only statement excluded: dividing a variable in place by itself. *)
Definition self_division (o : op) : bool :=
  match o with ODiv i j => Nat.eqb i j | _ => false end.

(** The mathematical inner product of two vectors of rationals. *)
Fixpoint qdot (v w : list rat) : Q :=
  match v, w with
  | a :: v', b :: w' => value a * value b + qdot v' w'
  | _, _ => 0
  end.

