(** Graph generators of the polytope builder (code/latte/buildPolytopes/GraphMaker.cpp).

    rand() is an arbitrary stream of numbers [rnd]; the generators carry the position
    of the next number to be drawn.  Vertices are nat, sizes are C++ ints.  Output to
    cout is not modelled, nor is running out of memory. *)
From Verif Require Import Common Text.
Open Scope Z_scope.

(** GraphMaker.h:33-36: edges[k] lists the larger ends of the edges whose smaller end is k. *)
Record graph := mkGraph { numVertex : Z; edges : list (list nat) }.
(** GraphMaker.cpp:16-20 *)
Definition new_graph : graph := mkGraph 0 [].

(** edges[i].push_back(b) *)
Definition push (e : list (list nat)) (i b : nat) : outcome (list (list nat)) :=
  if (i <? length e)%nat then Ok (upd e i (nth i e [] ++ [b])) else Err OutOfBounds.
(** A sequence of push_backs, in program order. *)
Fixpoint pushes (e : list (list nat)) (l : list (nat * nat)) : outcome (list (list nat)) :=
  match l with
  | [] => Ok e
  | (i, b) :: l' => bind (push e i b) (fun e' => pushes e' l')
  end.
(** edges.clear(); edges.resize(n) *)
Definition fresh (n : Z) : outcome (list (list nat)) := if n <? 0 then Err Thrown else Ok (repeat [] (Z.to_nat n)).

(** GraphMaker.cpp:28-42 addEdgeInOrder (the recursion swaps the arguments once). *)
Definition add_edge (e : list (list nat)) (v1 v2 : nat) : outcome (list (list nat) * bool) :=
  let '(a, b) := if (v1 <=? v2)%nat then (v1, v2) else (v2, v1) in
  if (a <? length e)%nat then
    if existsb (Nat.eqb b) (nth a e []) then Ok (e, false)
    else bind (push e a b) (fun e' => Ok (e', true))
  else Err OutOfBounds.

(** A family given by its number of vertices and its push_backs. *)
Definition build (n : Z) (l : list (nat * nat)) : outcome graph :=
  bind (fresh n) (fun e => bind (pushes e l) (fun e' => Ok (mkGraph n e'))).

(** GraphMaker.cpp:60-101 makeCheckerboard: the three loops. *)
Definition checker_pushes (row col : nat) : list (nat * nat) :=
  flat_map (fun r => flat_map (fun c => [(r * col + c, r * col + c + 1); (r * col + c, (r + 1) * col + c)]%nat)
     (seq 0 (col - 1))) (seq 0 (row - 1)) ++
  map (fun r => (r * col + col - 1, (r + 1) * col + col - 1)%nat) (seq 0 (row - 1)) ++
  map (fun c => ((row - 1) * col + c, (row - 1) * col + c + 1)%nat) (seq 0 (col - 1)).
Definition make_checkerboard (g : graph) (row col : Z) : outcome graph :=
  if (row <=? 1) || (col <=? 1) then Ok g
  else if int_range (row * col) then build (row * col) (checker_pushes (Z.to_nat row) (Z.to_nat col))
  else Err IntOverflow.

(** GraphMaker.cpp:112-146 makeCircleWithCenter *)
Definition center_pushes (n : nat) (offset : Z) : list (nat * nat) :=
  map (fun k => (k, k + 1)%nat) (seq 0 (n - 2)) ++ [(0, n - 2)%nat] ++
  map (fun k => (k, n - 1)%nat) (filter (fun k => Z.rem (Z.of_nat k) offset =? 0) (seq 0 (n - 1))).
Definition make_circle_with_center (g : graph) (size offset : Z) : outcome graph :=
  if size <=? 3 then Ok g
  else if offset =? 0 then Err DivByZero
  else build size (center_pushes (Z.to_nat size) offset).

(** GraphMaker.cpp:151-171 makeCircleGraph *)
Definition circle_pushes (n : nat) : list (nat * nat) :=
  map (fun k => (k, k + 1)%nat) (seq 0 (n - 1)) ++ [(0, n - 1)%nat].
Definition make_circle (g : graph) (size : Z) : outcome graph :=
  if size <=? 2 then Ok g else build size (circle_pushes (Z.to_nat size)).

(** GraphMaker.cpp:240-258 makeLinearGraph *)
Definition linear_pushes (n : nat) : list (nat * nat) := map (fun k => (k, k + 1)%nat) (seq 0 (n - 1)).
Definition make_linear (g : graph) (size : Z) : outcome graph :=
  if size <=? 1 then Ok g else build size (linear_pushes (Z.to_nat size)).

(** GraphMaker.cpp:292-304 makePetersenSubGraph *)
Definition petersen_pushes (s : nat) : list (nat * nat) :=
  (map (fun i => (i, i + 1)) (seq s 4) ++ [(s, s + 4)] ++
   map (fun i => (i, i + 5)) (seq s 5) ++
   map (fun i => (i, i + 2)) (seq (s + 5) 3) ++
   map (fun i => (i, i + 3)) (seq (s + 5) 2))%nat.
(** GraphMaker.cpp:264-271 makePetersenGraph *)
Definition make_petersen : outcome graph := build 10 (petersen_pushes 0).
(** GraphMaker.cpp:276-286 makePetersenFunGraph *)
Definition make_petersen_fun (num : Z) : outcome graph :=
  if int_range (10 * num) then build (10 * num) (flat_map (fun i => petersen_pushes (i * 10)) (seq 0 (Z.to_nat num)))
  else Err IntOverflow.

(** GraphMaker.cpp:418-442 makeRandomSpanningTree: [m] is lastUnused + 1.  swap exchanges
    two entries. *)
Definition swap (l : list nat) (i j : nat) : list nat := upd (upd l i (nth j l O)) j (nth i l O).
Fixpoint tree_loop (rnd : nat -> nat) (m : nat) (unused used : list nat) (e : list (list nat)) (pos : nat) : outcome (list (list nat) * nat) :=
  match m with
  | O => Ok (e, pos)
  | S last =>
      let u := nth (rnd pos mod length used) used O in
      let i := (rnd (pos + 1) mod S last)%nat in
      let unused' := swap unused i last in
      let v := nth last unused' O in
      bind (add_edge e u v) (fun p => tree_loop rnd last unused' (used ++ [v]) (fst p) (pos + 2))
  end.
(** The vector of numVertex-1 entries cannot be made for a fresh object. *)
Definition spanning_tree (rnd : nat -> nat) (g : graph) (pos : nat) : outcome (graph * nat) :=
  if numVertex g - 1 <? 0 then Err Thrown else
  let m := Z.to_nat (numVertex g - 1) in
  bind (tree_loop rnd m (seq 0 m) [m] (edges g) pos) (fun p => Ok (mkGraph (numVertex g) (fst p), snd p)).

(** GraphMaker.cpp:394-407, 338-347, 351-363: pick pairs among [n] vertices starting at
    [off] until [target] new edges were added; [cnt] is the current number. *)
Fixpoint fill (fuel : nat) (rnd : nat -> nat) (n off : nat) (target cnt : Z) (e : list (list nat)) (pos : nat) : outcome (list (list nat) * nat) :=
  match fuel with
  | O => Err OutOfFuel
  | S f =>
      if cnt <? target then
        let v1 := (rnd pos mod n + off)%nat in let v2 := (rnd (pos + 1)%nat mod n + off)%nat in
        if (v1 =? v2)%nat then fill f rnd n off target cnt e (pos + 2)
        else bind (add_edge e v1 v2) (fun p =>
             fill f rnd n off target (if snd p then cnt + 1 else cnt) (fst p) (pos + 2))
      else Ok (e, pos)
  end.
(** GraphMaker.cpp:370-412 makeRandomConnectedGraph *)
Definition random_connected (fuel : nat) (rnd : nat -> nat) (g : graph) (size edgeCount : Z) (pos : nat) : outcome (graph * nat) :=
  if size <=? 2 then Ok (g, pos)
  else if negb (int_range (edgeCount + 1)) then Err IntOverflow
  else if size >? edgeCount + 1 then Ok (g, pos)
  else if negb (int_range (size * (size - 1))) then Err IntOverflow
  else if edgeCount >? size * (size - 1) / 2 then Ok (g, pos)
  else
    bind (fresh size) (fun e =>
    bind (spanning_tree rnd (mkGraph size e) pos) (fun p =>
    bind (fill fuel rnd (Z.to_nat size) 0 edgeCount (size - 1) (edges (fst p)) (snd p)) (fun q =>
    Ok (mkGraph size (fst q), snd q)))).
(** GraphMaker.cpp:310-365 makeRandomDisconnectedGraph *)
Definition random_disconnected (fuel : nat) (rnd : nat -> nat) (g : graph) (size edgeCount : Z) (pos : nat) : outcome (graph * nat) :=
  if size <? 4 then Ok (g, pos)
  else if negb (int_range (size + 1) && int_range (edgeCount + 1)) then Err IntOverflow
  else
    let n1 := Z.to_nat (Z.quot (size + 1) 2) in let n2 := Z.to_nat (Z.quot size 2) in
    bind (fresh size) (fun e =>
    bind (fill fuel rnd n1 0 (Z.quot (edgeCount + 1) 2) 0 e pos) (fun p =>
    bind (fill fuel rnd n2 n1 (Z.quot edgeCount 2) 0 (fst p) (snd p)) (fun q =>
    Ok (mkGraph size (fst q), snd q)))).

(** GraphMaker.cpp:448-477 makeYourOwnGraph: the pairs typed in, -1 ends. *)
Fixpoint own_loop (n : Z) (l : list (Z * Z)) (e : list (list nat)) : outcome (list (list nat)) :=
  match l with
  | [] => Ok e
  | (v1, v2) :: l' =>
      if v1 =? -1 then Ok e
      else if (v1 >=? n) || (v2 >=? n) || (v1 <? 0) || (v2 <? 0) then own_loop n l' e
      else bind (add_edge e (Z.to_nat v1) (Z.to_nat v2)) (fun p => own_loop n l' (fst p))
  end.
Definition make_own (n : Z) (l : list (Z * Z)) : outcome graph :=
  bind (fresh n) (fun e => bind (own_loop n l e) (fun e' => Ok (mkGraph n e'))).

(** ** Calls on one object *)
Inductive call := Linear (n : Z) | Circle (n : Z) | Center (n o : Z) | Checker (r c : Z) | Petersen | Petersens (k : Z)
  | Tree | Connected (n k : Z) | Disconnected (n k : Z) | Own (n : Z) (l : list (Z * Z)).
Definition call_step (fuel : nat) (rnd : nat -> nat) (s : graph * nat) (c : call) : outcome (graph * nat) :=
  let '(g, pos) := s in
  let keep o := bind o (fun g' => Ok (g', pos)) in
  match c with
  | Linear n => keep (make_linear g n)
  | Circle n => keep (make_circle g n)
  | Center n o => keep (make_circle_with_center g n o)
  | Checker r c => keep (make_checkerboard g r c)
  | Petersen => keep make_petersen
  | Petersens k => keep (make_petersen_fun k)
  | Tree => spanning_tree rnd g pos
  | Connected n k => random_connected fuel rnd g n k pos
  | Disconnected n k => random_disconnected fuel rnd g n k pos
  | Own n l => keep (make_own n l)
  end.
Fixpoint calls (fuel : nat) (rnd : nat -> nat) (s : graph * nat) (l : list call) : outcome (graph * nat) :=
  match l with [] => Ok s | c :: l' => bind (call_step fuel rnd s c) (fun s' => calls fuel rnd s' l') end.
