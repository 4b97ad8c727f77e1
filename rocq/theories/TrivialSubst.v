(** Model of TrivialSubst.cpp and of the file func.rat of count.cpp: the monomial
    substitution (x_1, ..., x_n) -> t for the last variable and 1 for the others.
    Simplifications: the file is the text written to it; opening and closing it, and the
    message before exit(1), are not modelled.  The text written before exit(1) is lost with the
    outcome Exited.  Reading past the end of an NTL vector is OutOfBounds. *)
From Coq Require Import String Ascii.
From Verif Require Import Common ListOps Rational ZMat RatVec Piped Irrational Barvinok Text Count GenFun.
Open Scope Z_scope.

(** TrivialSubst.cpp:36, 44, 48: v[numOfVars - 1]. *)
Definition last_entry (n : nat) (v : list Z) : outcome Z :=
  match n with O => Err OutOfBounds | S m => match nth_error v m with Some z => Ok z | None => Err OutOfBounds end end.
(** TrivialSubst.cpp:36 *)
Definition subst_point (n : nat) (p : list Z) : outcome text :=
  bind (last_entry n p) (fun e => Ok (lit "t^(" ++ show_Z e ++ lit ")")%list).
(** TrivialSubst.cpp:44-48 *)
Definition subst_ray (n : nat) (r : list Z) : outcome text :=
  bind (last_entry n r) (fun e => if e =? 0 then Err Exited else Ok (lit "(1 - t^(" ++ show_Z e ++ lit "))")%list).
(** TrivialSubst.cpp:23-52 TrivialMonomialSubstitutionMapleOutput_Single *)
Definition subst_cone (n : nat) (c : gcone) : outcome text :=
  let '(coef, rays, pts) := c in
  bind (mapM (subst_point n) pts) (fun ps =>
  bind (mapM (subst_ray n) rays) (fun rs =>
  Ok (lit "(" ++ show_Z coef ++ lit ")" ++ lit " * (" ++ separated (lit " + ") ps ++ lit ") / (" ++ separated (lit " * ") rs ++ lit ")" ++ newline)%list)).
(** TrivialSubst.cpp:54-66 TrivialMonomialSubstitutionMapleOutput *)
Definition subst_cones (n : nat) (cones : list gcone) : outcome text :=
  bind (mapM (subst_cone n) cones) (fun ts => Ok (separated (lit " + ") ts)).
(** count.cpp:679-682, the file func.rat. *)
Definition func_rat (n : nat) (cones : list gcone) : outcome text :=
  bind (subst_cones n cones) (fun t => Ok (lit "HS := " ++ t ++ lit ";")%list).
