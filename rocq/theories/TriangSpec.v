(** Facets of a cone given by generators, and what is asked of cddlib. *)
From Coq Require Import QArith.
From Verif Require Import Common PipedSpec ConeSpec CountSpec.
Open Scope Q_scope.

Definition pairing (m : nat) (y : nat -> Q) (g : list Z) : Q := sumq m (fun k => y k * zpoint g k).
(** The vectors V span the space: only 0 is orthogonal to all of them. *)
Definition spans (n : nat) (V : list (list Z)) : Prop :=
  forall y, (forall r, In r V -> pairing n y r == 0) -> forall k, (k < n)%nat -> y k == 0.
(** [fs] describes the cone generated by [gens]: for some vectors a_0, a_1, ..., one for each
    entry of [fs],
    - the cone consists of the x with <a_i, x> >= 0, and = 0 where the entry is an equality;
    - entry i lists which generators are orthogonal to a_i;
    - an entry that is no equality is a facet: the generators orthogonal to a_i determine a_i
      on the cone up to a factor; and no facet occurs twice. *)
Definition describes (m : nat) (gens : list (list Z)) (fs : list (bool * list bool)) : Prop :=
  exists a : nat -> nat -> Q,
  let facet i := (i < length fs)%nat /\ fst (nth i fs (true, [])) = false in
  (forall i g, (i < length fs)%nat -> fst (nth i fs (true, [])) = true -> In g gens -> pairing m (a i) g == 0) /\
  (forall i g, facet i -> In g gens -> 0 <= pairing m (a i) g) /\
  (forall x, (forall i, (i < length fs)%nat -> fst (nth i fs (true, [])) = true -> sumq m (fun k => a i k * x k) == 0) ->
             (forall i, facet i -> 0 <= sumq m (fun k => a i k * x k)) -> in_gen m gens x) /\
  (forall i, (i < length fs)%nat -> length (snd (nth i fs (true, []))) = length gens) /\
  (forall i j, facet i -> (j < length gens)%nat -> nth j (snd (nth i fs (true, []))) false = true <-> pairing m (a i) (nth j gens []) == 0) /\
  (forall i y, facet i -> (forall g, In g gens -> pairing m (a i) g == 0 -> pairing m y g == 0) -> exists c, forall g, In g gens -> pairing m y g == c * pairing m (a i) g) /\
  (forall i j, facet i -> facet j -> (exists c, 0 < c /\ forall g, In g gens -> pairing m (a i) g == c * pairing m (a j) g) -> i = j).
Definition cddlib_contract (dd : list (list Z) -> option (list (bool * list bool))) : Prop :=
  forall m gens fs, Forall (fun g => length g = m) gens -> dd gens = Some fs -> describes m gens fs.
(** A hyperplane with C on one side and D on the other. *)
Definition separated (n : nat) (C D : list (list Z)) : Prop :=
  exists w, (exists k, (k < n)%nat /\ ~ w k == 0) /\ (forall r, In r C -> 0 <= pairing n w r) /\ (forall r, In r D -> pairing n w r <= 0).
(** The cones Cs subdivide the cone generated by V: full-dimensional cones generated by some
    of the vectors V, covering it, any two on different sides of a hyperplane. *)
Definition subdivides (n : nat) (V : list (list Z)) (Cs : list (list (list Z))) : Prop :=
  (forall C, In C Cs -> incl C V /\ spans n C) /\
  (forall x, in_gen n V x <-> exists C, In C Cs /\ in_gen n C x) /\
  (forall i j, (i < j)%nat -> (j < length Cs)%nat -> separated n (nth i Cs []) (nth j Cs [])).
