(** Vocabulary for the rational-vector properties. *)
From Coq Require Import QArith.
From Verif Require Import Common RatVec.

(** The visible content of an object, through numerators() and denominators(). *)
Definition dim (v : rvec) : nat := length (enumerator v).
Definition num_at (v : rvec) (i : nat) : Z := nth i (enumerator v) 0%Z.
Definition den_at (v : rvec) (i : nat) : Z := nth i (denominator v) 1%Z.
Definition coord (v : rvec) (i : nat) : Q := inject_Z (num_at v i) / inject_Z (den_at v i).

Definition ctor_dim (c : rctor) : nat :=
  match c with CZero n => n | CScalar ns _ => length ns | CPair ns _ => length ns end.
(** Denominators satisfy [P] (non-zero, or positive). *)
Definition ctor_ok (P : Z -> Prop) (c : rctor) : Prop :=
  match c with CZero _ => P 1%Z | CScalar _ d => P d | CPair ns ds => length ns = length ds /\ Forall P ds end.
Definition op_ok (P : Z -> Prop) (n : nat) (o : rop) : Prop :=
  match o with
  | RSetEntry i _ d _ => (i < n)%nat /\ P d
  | RSetNum i _ => (i < n)%nat
  | RSetDen i d => (i < n)%nat /\ P d
  | RScalarMul _ d => P d
  | RCanon | RNormalize | RScale => True
  end.
Definition nonzero (d : Z) : Prop := d <> 0%Z.
Definition positive (d : Z) : Prop := (0 < d)%Z.

(** [reachable P c v]: v results from constructor c by some legal history. *)
Definition reachable (P : Z -> Prop) (c : rctor) (v : rvec) : Prop :=
  ctor_ok P c /\ exists v0 p, rnew c = Ok v0 /\ Forall (op_ok P (ctor_dim c)) p /\ rrun v0 p = Ok v.

(** gcd of all entries *)
Definition content (l : list Z) : Z := fold_right Z.gcd 0%Z l.
