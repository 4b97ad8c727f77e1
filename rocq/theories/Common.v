(** Outcomes of modelled C++ code.  A C++ run that would abort ([assert],
    [abort], NTL's division-by-zero error), throw, exit, or run into undefined
    behaviour is a distinct outcome, never a normal-looking value. *)
From Coq Require Export List ZArith Lia Bool.
Export ListNotations.

Inductive err : Type :=
| AssertFail      (* assert(...) fails: abort() *)
| DivByZero       (* NTL/GMP integer division by zero: aborts *)
| OutOfBounds     (* C++ array / vector index out of range: undefined behaviour *)
| NullDeref       (* dereference of a NULL pointer: undefined behaviour *)
| DanglingPtr     (* use of freed memory: undefined behaviour *)
| IntOverflow     (* signed machine-integer overflow: undefined behaviour *)
| Thrown          (* LattException / other C++ exception *)
| Exited          (* exit(code) *)
| OutOfFuel.      (* the model's recursion budget ran out: the C++ loop may not end *)

Inductive outcome (A : Type) : Type :=
| Ok (a : A)
| Err (e : err).
Arguments Ok {A} a.
Arguments Err {A} e.

Definition bind {A B} (o : outcome A) (f : A -> outcome B) : outcome B :=
  match o with Ok a => f a | Err e => Err e end.

Definition obind {A B} (o : option A) (f : A -> option B) : option B :=
  match o with Some a => f a | None => None end.

(** C++ [assert(b); k] *)
Definition assert_then {A} (b : bool) (k : outcome A) : outcome A :=
  if b then k else Err AssertFail.

Definition is_ok {A} (o : outcome A) : bool :=
  match o with Ok _ => true | Err _ => false end.

Lemma bind_ok {A B} (o : outcome A) (f : A -> outcome B) b :
  bind o f = Ok b -> exists a, o = Ok a /\ f a = Ok b.
Proof. destruct o; simpl; intros H; [eauto | discriminate]. Qed.

(** Write entry [i] of an array kept as a list. *)
Fixpoint upd {A} (l : list A) (i : nat) (x : A) : list A :=
  match l, i with
  | [], _ => []
  | _ :: t, O => x :: t
  | h :: t, S j => h :: upd t j x
  end.

Lemma length_upd {A} (l : list A) i x : length (upd l i x) = length l.
Proof. revert i; induction l as [|h t IH]; intros [|i]; simpl; auto. Qed.

Lemma nth_upd_eq {A} (l : list A) i x d : i < length l -> nth i (upd l i x) d = x.
Proof.
  revert i; induction l as [|h t IH]; intros [|i] H; simpl in *; try lia; auto.
  apply IH; lia.
Qed.

Lemma nth_upd_neq {A} (l : list A) i j x d : i <> j -> nth j (upd l i x) d = nth j l d.
Proof.
  revert i j; induction l as [|h t IH]; intros [|i] [|j] H; simpl; auto; try congruence.
Qed.

Lemma upd_out {A} (l : list A) i x : length l <= i -> upd l i x = l.
Proof.
  revert i; induction l as [|h t IH]; intros [|i] H; simpl in *; auto; try lia.
  now rewrite IH by lia.
Qed.
