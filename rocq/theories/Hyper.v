(** Hypersimplices, Kneser graphs and edge polytopes
    (code/latte/buildPolytopes/BuildHypersimplexEdgePolytope.cpp, GraphMaker.cpp:176-233,
    483-506, BuildGraphPolytope.cpp, BuildPolytope.cpp:43-47).

    Points are lists of integers (the code keeps them as mpq_class).  Sizes are assumed
    not to be negative. *)
From Verif Require Import Common Text Graph.
Open Scope Z_scope.

(** p[i] = x *)
Definition put (p : list Z) (i : nat) (x : Z) : outcome (list Z) :=
  if (i <? length p)%nat then Ok (upd p i x) else Err OutOfBounds.
(** p[i] *)
Definition get (p : list Z) (i : nat) : outcome Z :=
  match nth_error p i with Some x => Ok x | None => Err OutOfBounds end.
(** BuildHypersimplexEdgePolytope.cpp:39-43: the search for the last one; [m] iterations
    are left, -1 means "not found yet". *)
Fixpoint find_last (p : list Z) (k m : nat) (last : Z) : outcome Z :=
  match m with
  | O => Ok last
  | S m' => if last =? -1 then bind (get p k) (fun x => find_last p (S k) m' (if x =? 0 then Z.of_nat k - 1 else last)) else Ok last
  end.
(** BuildHypersimplexEdgePolytope.cpp:55-60: the one moves to the right, [m] times. *)
Fixpoint move_one (p : list Z) (k m : nat) : outcome (list (list Z)) :=
  match m with
  | O => Ok []
  | S m' => bind (put p k 0) (fun p1 => bind (put p1 (S k) 1) (fun p2 =>
            bind (move_one p2 (S k) m') (fun l => Ok (p2 :: l))))
  end.
(** BuildHypersimplexEdgePolytope.cpp:79-80: p[j] = 1 for [m] entries from j on. *)
Fixpoint put_ones (p : list Z) (j m : nat) : outcome (list Z) :=
  match m with O => Ok p | S m' => bind (put p j 1) (fun p' => put_ones p' (S j) m') end.
(** BuildHypersimplexEdgePolytope.cpp:76-93: the shifts; [rec] is the recursive call. *)
Fixpoint shift_loop (rec : list Z -> nat -> bool -> outcome (list (list Z))) (k : nat) (p : list Z) (base : nat) (last : Z) : outcome (list (list Z)) :=
  match k with
  | O => Ok []
  | S k' =>
      bind (put p base 0) (fun p1 =>
      bind (put_ones p1 (S base) (Z.to_nat (last + 1 - Z.of_nat base))) (fun p2 =>
      bind (rec p2 (S (S base)) true) (fun l =>
      bind (shift_loop rec k' p2 (S base) (last + 1)) (fun l' => Ok (l ++ l')))))
  end.
(** BuildHypersimplexEdgePolytope.cpp:27-96 addToPoints: the points appended to the list. *)
Fixpoint add_points (fuel dim : nat) (p : list Z) (base : nat) (addCurrent : bool) : outcome (list (list Z)) :=
  match fuel with
  | O => Err OutOfFuel
  | S f =>
      let now := if addCurrent then [p] else [] in
      if (dim <=? base + 1)%nat then Ok now else
      bind (find_last p base (dim - base) (-1)) (fun last =>
      if last =? -1 then Ok (now ++ if addCurrent then [] else [p])
      else if last - Z.of_nat base =? 0 then
        bind (move_one p (Z.to_nat last) (dim - 1 - Z.to_nat last)) (fun l => Ok (now ++ l))
      else
        bind (add_points f dim p (S base) false) (fun l1 =>
        bind (shift_loop (add_points f dim) (Z.to_nat (Z.of_nat dim - last - 1)) p base last) (fun l2 =>
        Ok (now ++ l1 ++ l2))))
  end.
(** The starting point 1...10...0 (BuildHypersimplexEdgePolytope.cpp:112-115, GraphMaker.cpp:203-208). *)
Definition starter (n k : nat) : list Z := repeat 1 k ++ repeat 0 (n - k).
Definition all_points (n k : nat) : outcome (list (list Z)) := add_points (S n) n (starter n k) 0 true.
(** BuildHypersimplexEdgePolytope.cpp:103-122 generatePoints, with BuildPolytope.cpp:43-47
    addPoint, which puts a 1 in front. *)
Definition generate_points (n k : nat) : outcome (list (list Z)) := bind (all_points n k) (fun l => Ok (map (cons 1) l)).

(** GraphMaker.cpp:483-506 nchoosek: the numerator of the reduced fraction, as an int
    (a value outside int is reported as an overflow). *)
Fixpoint falling (n : Z) (k : nat) : Z := match k with O => 1 | S k' => falling n k' * (n - Z.of_nat k') end.
Fixpoint factorial (k : nat) : Z := match k with O => 1 | S k' => factorial k' * Z.of_nat k end.
Definition nchoosek (n k : nat) : outcome Z :=
  if (n <? k)%nat then Ok (-1) else
  let t := falling (Z.of_nat n) k in let b := factorial k in
  let z := t / Z.gcd t b in
  if int_range z then Ok z else Err IntOverflow.

(** GraphMaker.cpp:218-223: do two points share a one? *)
Fixpoint share (p q : list Z) : bool :=
  match p, q with
  | x :: p', y :: q' => ((x =? 1) && (x =? y)) || share p' q'
  | _, _ => false
  end.
(** GraphMaker.cpp:215-230: the two loops; [i] is the index of the first point of the list. *)
Fixpoint kneser_row (p : list Z) (l : list (list Z)) (i k : nat) : list (nat * nat) :=
  match l with [] => [] | q :: l' => (if share p q then [] else [(i, k)]) ++ kneser_row p l' i (S k) end.
Fixpoint kneser_pushes (l : list (list Z)) (i : nat) : list (nat * nat) :=
  match l with [] => [] | p :: l' => kneser_row p l' i (S i) ++ kneser_pushes l' (S i) end.
(** GraphMaker.cpp:176-233 makeKneserGraph *)
Definition make_kneser (g : graph) (n k : nat) : outcome graph :=
  bind (generate_points n k) (fun _ =>
  if (Z.of_nat k >? (Z.of_nat n + 1) / 2) then Ok g else
  bind (nchoosek n k) (fun c =>
  bind (fresh c) (fun e =>
  if (n <=? k)%nat then Ok (mkGraph c e) else
  bind (all_points n k) (fun l =>
  bind (pushes e (kneser_pushes l 0)) (fun e' => Ok (mkGraph c e')))))).

(** BuildGraphPolytope.cpp:23-38 findEdgePolytope: e_i + e_j for the edges in order, with
    a 1 in front. *)
Fixpoint edge_rows (f : nat -> nat -> outcome (list (list Z))) (e : list (list nat)) (i : nat) : outcome (list (list Z)) :=
  match e with
  | [] => Ok []
  | row :: e' =>
      bind ((fix go (r : list nat) := match r with
             | [] => Ok []
             | j :: r' => bind (f i j) (fun p => bind (go r') (fun q => Ok (p ++ q))) end) row) (fun a =>
      bind (edge_rows f e' (S i)) (fun b => Ok (a ++ b)))
  end.
Definition edge_polytope (e : list (list nat)) : outcome (list (list Z)) :=
  edge_rows (fun i j =>
    bind (put (repeat 0 (length e)) i 1) (fun p => bind (put p j 1) (fun q => Ok [1 :: q]))) e 0.
(** BuildGraphPolytope.cpp:46-64 findSymmetricEdgePolytope: e_i - e_j and e_j - e_i. *)
Definition symmetric_edge_polytope (e : list (list nat)) : outcome (list (list Z)) :=
  edge_rows (fun i j =>
    bind (put (repeat 0 (length e)) i 1) (fun p => bind (put p j (-1)) (fun q =>
    bind (put q i (-1)) (fun p' => bind (put p' j 1) (fun q' => Ok [1 :: q; 1 :: q']))))) e 0.
