(** Functions of the parameter T that client programs over periodic functions denote. *)
From Coq Require Import QArith Qround Qpower.
From Verif Require Import Common Rational RationalSpec Periodic.
Open Scope Q_scope.

(** Fractional part x - floor(x). *)
Definition fracpart (x : Q) : Q := x - inject_Z (Qfloor x).
(** Value of an expression at T = t, read off the printed form (PeriodicFunction.cpp:246-275). *)
Fixpoint pvalue (f : pf) (t : Q) : Q :=
  match f with
  | Num r => value r
  | Frac r => fracpart (t * value r)
  | Node Oplus l r => pvalue l t + pvalue r t
  | Node Ominus l r => pvalue l t - pvalue r t
  | Node Otimes l r => pvalue l t * pvalue r t
  | Node Odivide l r => pvalue l t / pvalue r t
  | Node Opower l r => pvalue l t ^ Qfloor (pvalue r t)
  end.
(** A NULL head is 0. *)
Definition fvalue (f : option pf) (t : Q) : Q := match f with None => 0 | Some g => pvalue g t end.

Definition qfstore := nat -> Q -> Q.
Definition qfset (s : qfstore) (i : nat) (f : Q -> Q) : qfstore := fun k => if Nat.eqb k i then f else s k.
Definition qfinit : qfstore := fun _ _ => 0.
(** Pointwise meaning of the statements; [None] for a zero denominator, a division by zero
    or a negative power. *)
Definition pspec_step (s : qfstore) (o : pstmt) : option qfstore :=
  match o with
  | PConst i n d => if (d =? 0)%Z then None else Some (qfset s i (fun _ => inject_Z n / inject_Z d))
  | PFrac i n d => if (d =? 0)%Z then None else Some (qfset s i (fun t => fracpart (t * (inject_Z n / inject_Z d))))
  | PCopy i j => Some (qfset s i (s j))
  | PAdd i j => Some (qfset s i (fun t => s i t + s j t))
  | PSub i j => Some (qfset s i (fun t => s i t - s j t))
  | PMul i j => Some (qfset s i (fun t => s i t * s j t))
  | PScale i n d => if (d =? 0)%Z then None else Some (qfset s i (fun t => s i t * (inject_Z n / inject_Z d)))
  | PDivZ i z => if (z =? 0)%Z then None else Some (qfset s i (fun t => s i t / inject_Z z))
  | PPow i p => if (p <? 0)%Z then None else Some (qfset s i (fun t => s i t ^ p))
  end.
Fixpoint pspec_run (s : qfstore) (p : list pstmt) : option qfstore :=
  match p with [] => Some s | o :: p' => match pspec_step s o with Some s' => pspec_run s' p' | None => None end end.

(** Every variable is given a value before it is used. *)
Definition known (l : list nat) (i : nat) : bool := existsb (Nat.eqb i) l.
Fixpoint initialised (l : list nat) (p : list pstmt) : bool :=
  match p with
  | [] => true
  | PConst i _ _ :: p' | PFrac i _ _ :: p' => initialised (i :: l) p'
  | PCopy i j :: p' => known l j && initialised (i :: l) p'
  | PAdd i j :: p' | PSub i j :: p' | PMul i j :: p' => known l i && known l j && initialised l p'
  | PScale i _ _ :: p' | PDivZ i _ :: p' | PPow i _ :: p' => known l i && initialised l p'
  end.
