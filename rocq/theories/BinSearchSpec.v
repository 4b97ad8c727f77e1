(** What an optimum is, and what a correct counter is. *)
From Coq Require Import QArith.
From Verif Require Import Common BinSearch.
Open Scope Z_scope.
Fixpoint zdot (a x : list Z) : Z := match a, x with c :: a', y :: x' => c * y + zdot a' x' | _, _ => 0 end.
Definition rowval (r x : list Z) : Z := match r with [] => 0 | b :: a => b + zdot a x end.
(** Point x satisfies the file: row i (1-based) is an equation if listed in the
    linearity, else an inequality. *)
Definition file_holds (f : lfile) (x : list Z) : Prop :=
  forall i r, nth_error (frows f) i = Some r ->
    if in_dec Nat.eq_dec (S i) (flin f) then rowval r x = 0 else 0 <= rowval r x.
(** The problem's integer points: matrix rows are equations, ineq rows inequalities. *)
Definition ip_point (matrix ineq : list (list Z)) (n : nat) (x : list Z) : Prop :=
  length x = n /\ Forall (fun r => rowval r x = 0) matrix /\ Forall (fun r => 0 <= rowval r x) ineq.
(** A counter is correct for a problem if, for each file describing a subset of the
    problem's points, it returns the number of integer points. *)
Definition counts_correctly (n : nat) (count : lfile -> Z) (matrix ineq : list (list Z)) : Prop :=
  forall f L, (forall x, length x = n -> file_holds f x -> ip_point matrix ineq n x) ->
  NoDup L -> (forall x, In x L <-> length x = n /\ file_holds f x) -> count f = Z.of_nat (length L).
Definition is_max_value (matrix ineq : list (list Z)) (n : nat) (cost : list Z) (v : Z) : Prop :=
  (exists x, ip_point matrix ineq n x /\ zdot cost x = v) /\
  (forall x, ip_point matrix ineq n x -> zdot cost x <= v).
Definition is_min_value (matrix ineq : list (list Z)) (n : nat) (cost : list Z) (v : Z) : Prop :=
  (exists x, ip_point matrix ineq n x /\ zdot cost x = v) /\
  (forall x, ip_point matrix ineq n x -> v <= zdot cost x).
(** The problem is bounded and [lo], [hi] are (LP) bounds of its cost. *)
Definition lp_bounds (matrix ineq : list (list Z)) (n : nat) (cost : list Z) (lo hi : Q) : Prop :=
  (lo <= hi)%Q /\ forall x, ip_point matrix ineq n x -> (lo <= inject_Z (zdot cost x) <= hi)%Q.
(** All integer points can be listed. *)
Definition finite_ip (matrix ineq : list (list Z)) (n : nat) (pts : list (list Z)) : Prop :=
  NoDup pts /\ forall x, In x pts <-> ip_point matrix ineq n x.
