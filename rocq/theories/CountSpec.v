(** Polyhedra, their vertices and tangent cones, and their integer points. *)
From Coq Require Import QArith.
From Verif Require Import Common PipedSpec ConeSpec.
Open Scope Q_scope.

(** A row (b, a_1, ..., a_n) of a polyhedron stands for b + a_1 x_1 + ... + a_n x_n >= 0. *)
Definition slack (n : nat) (row : list Z) (x : nat -> Q) : Q :=
  inject_Z (nth 0 row 0%Z) + sumq n (fun k => x k * inject_Z (nth (S k) row 0%Z)).
Definition in_polyhedron (n : nat) (rows : list (list Z)) (x : nat -> Q) : Prop :=
  forall c, In c rows -> 0 <= slack n c x.
(** x satisfies the rows that are tight at v. *)
Definition in_tangent_cone (n : nat) (rows : list (list Z)) (v x : nat -> Q) : Prop :=
  forall c, In c rows -> slack n c v == 0 -> 0 <= slack n c x.
(** v is a vertex: it belongs to the polyhedron and no direction is orthogonal to all the
    rows tight at v. *)
Definition is_vertex (n : nat) (rows : list (list Z)) (v : nat -> Q) : Prop :=
  in_polyhedron n rows v /\
  forall y, (forall c, In c rows -> slack n c v == 0 -> sumq n (fun k => y k * inject_Z (nth (S k) c 0%Z)) == 0) ->
  forall k, (k < n)%nat -> y k == 0.
Definition same_point (n : nat) (p q : nat -> Q) : Prop := forall k, (k < n)%nat -> p k == q k.
(** The integer points of the polyhedron, each once. *)
Definition integer_points (n : nat) (rows : list (list Z)) (points : list (list Z)) : Prop :=
  NoDup points /\ forall x, In x points <-> length x = n /\ in_polyhedron n rows (zpoint x).
(** x is a nonnegative combination of the vectors V. *)
Definition in_gen (n : nat) (V : list (list Z)) (x : nat -> Q) : Prop :=
  exists a, (forall k, (k < length V)%nat -> 0 <= a k) /\ forall i, (i < n)%nat -> x i == sumq (length V) (fun k => a k * inject_Z (vat V k i)).
(** <y, r> <= 0 for all r in V. *)
Definition below (n : nat) (V : list (list Z)) (y : nat -> Q) : Prop := forall r, In r V -> sumq n (fun k => y k * zpoint r k) <= 0.
Definition origin : nat -> Q := fun _ => 0.
(** The simplicial cones Ts triangulate the cone generated by V: they cover it and the
    interiors of two of them are disjoint. *)
Definition triangulates (n : nat) (V : list (list Z)) (Ts : list (list (list Z))) : Prop :=
  (forall T, In T Ts -> n_vectors n T /\ lin_indep n T) /\
  (forall x, in_gen n V x <-> exists T, In T Ts /\ in_cone n origin T x) /\
  (forall i j x, (i < j)%nat -> (j < length Ts)%nat -> ~ (in_open_cone n origin (nth i Ts []) x /\ in_open_cone n origin (nth j Ts []) x)).
(** The list has every vertex exactly once. *)
Definition all_vertices (n : nat) (rows : list (list Z)) (vs : list (nat -> Q)) : Prop :=
  (forall v, In v vs -> is_vertex n rows v) /\ (forall v, is_vertex n rows v -> exists w, In w vs /\ same_point n v w) /\
  (forall i j, (i < j)%nat -> (j < length vs)%nat -> ~ same_point n (nth i vs origin) (nth j vs origin)).
(** The outer normals of the rows tight at v, the last row first. *)
Definition outer_normals (n : nat) (rows : list (list Z)) (v : nat -> Q) : list (list Z) :=
  rev (map (fun c => map Z.opp (tl c)) (filter (fun c => Qeq_bool (slack n c v) 0) rows)).
(** The row of the polyhedron tP: t b + <a, x> >= 0. *)
Definition dilate_row (t : Z) (c : list Z) : list Z := match c with [] => [] | b :: a => (t * b)%Z :: a end.
