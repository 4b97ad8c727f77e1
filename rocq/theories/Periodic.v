(** Model of code/latte/top-knapsack/PeriodicFunction.{h,cpp}: expression trees over
    rational constants and fractional parts {q T}.  The file contains two implementations,
    selected at configuration time: with shared pointers (lines 11-277) and without
    (279-587); both are modelled.  Trees are immutable in the first and deep-copied in the
    second, so they are values here.  A node is a leaf (a number or {q T}) or an operator
    with two children; operator nodes have isNumber = false (lines 37-40, 300-303). *)
From Verif Require Import Common Rational RatFun.
Open Scope Z_scope.

(** PeriodicFunction.h:52 *)
Inductive pop := Oplus | Ominus | Otimes | Odivide | Opower.
(** PeriodicFunction.h:46-76 *)
Inductive pf := Num (r : rat) | Frac (r : rat) | Node (o : pop) (l r : pf).

(** Client statements over PeriodicFunction variables. *)
Inductive pstmt :=
| PConst (i : nat) (n d : Z)   (* f_i.setToConstant(RationalNTL(n,d)) *)
| PFrac (i : nat) (n d : Z)    (* f_i = PeriodicFunction(RationalNTL(n,d), false) *)
| PCopy (i j : nat)            (* f_i = f_j *)
| PAdd (i j : nat)             (* f_i.add(f_j), f_i += f_j *)
| PSub (i j : nat)             (* f_i.subtract(f_j) *)
| PMul (i j : nat)             (* f_i.times(f_j), f_i *= f_j *)
| PScale (i : nat) (n d : Z)   (* f_i.times(RationalNTL(n,d)) *)
| PDivZ (i : nat) (z : Z)      (* f_i.div(z) *)
| PPow (i : nat) (p : Z).      (* f_i.pow(p) *)

(** * With shared pointers *)
Definition pstore := nat -> pf.
Definition pset (s : pstore) (i : nat) (f : pf) : pstore := fun k => if Nat.eqb k i then f else s k.
(** PeriodicFunction.cpp:74-80: constant 0. *)
Definition pinit : pstore := fun _ => Num (mkRat 0 1).
(** PeriodicFunction.cpp:99-109 *)
Definition padd (f g : pf) : pf := match f, g with Num a, Num b => Num (rat_add a b) | _, _ => Node Oplus f g end.
(** PeriodicFunction.cpp:114-124 *)
Definition psub (f g : pf) : pf := match f, g with Num a, Num b => Num (rat_sub a b) | _, _ => Node Ominus f g end.
(** PeriodicFunction.cpp:190-199 *)
Definition pmul (f g : pf) : pf := match f, g with Num a, Num b => Num (rat_mul a b) | _, _ => Node Otimes f g end.
(** PeriodicFunction.cpp:178-188 *)
Definition pscale (f : pf) (d : rat) : pf := match f with Num a => Num (rat_mul a d) | _ => Node Otimes f (Num d) end.
(** PeriodicFunction.cpp:165-173 *)
Definition pdivz (f : pf) (d : Z) : pf :=
  if d =? 1 then f else match f with Num a => Num (rat_divz a d) | _ => Node Odivide f (Num (mkRat d 1)) end.
(** PeriodicFunction.cpp:149-160 *)
Definition ppow (f : pf) (p : Z) : outcome pf :=
  if p =? 0 then Ok (Num (mkRat 1 1))
  else match f with Num a => bind (rat_pow a p) (fun r => Ok (Num r)) | _ => Ok (Node Opower f (Num (mkRat p 1))) end.
(** PeriodicFunction.cpp:209-212 operator==(int) *)
Definition pis (f : pf) (x : Z) : bool := match f with Num a => rat_eqb_z a x | _ => false end.

Definition pstep (s : pstore) (o : pstmt) : outcome pstore :=
  match o with
  | PConst i n d => Ok (pset s i (Num (rat_make n d)))
  | PFrac i n d => Ok (pset s i (Frac (rat_make n d)))
  | PCopy i j => Ok (pset s i (s j))
  | PAdd i j => Ok (pset s i (padd (s i) (s j)))
  | PSub i j => Ok (pset s i (psub (s i) (s j)))
  | PMul i j => Ok (pset s i (pmul (s i) (s j)))
  | PScale i n d => Ok (pset s i (pscale (s i) (rat_make n d)))
  | PDivZ i z => Ok (pset s i (pdivz (s i) z))
  | PPow i p => bind (ppow (s i) p) (fun f => Ok (pset s i f))
  end.
Fixpoint prun (s : pstore) (p : list pstmt) : outcome pstore :=
  match p with [] => Ok s | o :: p' => bind (pstep s o) (fun s' => prun s' p') end.

(** * Without shared pointers: head may be NULL, standing for 0 *)
Definition fstore := nat -> option pf.
Definition fset (s : fstore) (i : nat) (f : option pf) : fstore := fun k => if Nat.eqb k i then f else s k.
(** PeriodicFunction.cpp:347-348 *)
Definition finit : fstore := fun _ => None.
(** PeriodicFunction.cpp:368-383 *)
Definition fadd (f g : option pf) : option pf :=
  match g with None => f | Some g' => match f with None => Some g' | Some f' => Some (padd f' g') end end.
(** PeriodicFunction.cpp:385-398; line 391 copies p, not -p, when head is NULL *)
Definition fsub (f g : option pf) : option pf :=
  match g with None => f | Some g' => match f with None => Some g' | Some f' => Some (psub f' g') end end.
(** PeriodicFunction.cpp:478-489: p.head is dereferenced unchecked *)
Definition fmul (f g : option pf) : outcome (option pf) :=
  match f with None => Ok None | Some f' => match g with None => Err NullDeref | Some g' => Ok (Some (pmul f' g')) end end.
(** PeriodicFunction.cpp:464-476 *)
Definition fscale (f : option pf) (d : rat) : option pf := match f with None => None | Some f' => Some (pscale f' d) end.
(** PeriodicFunction.cpp:451-462 *)
Definition fdivz (f : option pf) (d : Z) : option pf := match f with None => None | Some f' => Some (pdivz f' d) end.
(** PeriodicFunction.cpp:431-449 *)
Definition fpow (f : option pf) (p : Z) : outcome (option pf) :=
  if p =? 0 then Ok (Some (Num (mkRat 1 1)))
  else match f with None => Ok None | Some f' => if p =? 1 then Ok f else bind (ppow f' p) (fun r => Ok (Some r)) end.
(** PeriodicFunction.cpp:496-503 operator==(int) *)
Definition fis (f : option pf) (x : Z) : bool := match f with None => x =? 0 | Some f' => pis f' x end.

Definition fstep (s : fstore) (o : pstmt) : outcome fstore :=
  match o with
  | PConst i n d => Ok (fset s i (Some (Num (rat_make n d))))
  | PFrac i n d => Ok (fset s i (Some (Frac (rat_make n d))))
  | PCopy i j => Ok (fset s i (s j))
  | PAdd i j => Ok (fset s i (fadd (s i) (s j)))
  | PSub i j => Ok (fset s i (fsub (s i) (s j)))
  | PMul i j => bind (fmul (s i) (s j)) (fun f => Ok (fset s i f))
  | PScale i n d => Ok (fset s i (fscale (s i) (rat_make n d)))
  | PDivZ i z => Ok (fset s i (fdivz (s i) z))
  | PPow i p => bind (fpow (s i) p) (fun f => Ok (fset s i f))
  end.
Fixpoint frun (s : fstore) (p : list pstmt) : outcome fstore :=
  match p with [] => Ok s | o :: p' => bind (fstep s o) (fun s' => frun s' p') end.
