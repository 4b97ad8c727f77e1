(** Model of the choice of short vectors that avoid the hyperplane x_n = 0
    (code/latte/barvinok/SubspaceAvoidingDecomposition.cpp).  NTL's LLL is a parameter, as in
    Omega.v.  The block of lines 77-108 is disabled (#if 0) and not modelled. *)
From Verif Require Import Common ZMat Hermite Det Piped Irrational Barvinok Omega.
Open Scope Z_scope.

(** SubspaceAvoidingDecomposition.cpp:29-40 max_norm. *)
Definition max_norm (x : list Z) : Z := fold_left (fun s y => if s <? Z.abs y then Z.abs y else s) x 0.
(** Lines 58-69: the first row of L of least norm among those whose row of U does not end in 0,
    counted from 0; the state is (least_max_norm, least_max_norm_index), None if not anyone. *)
Definition avoid_row (n : nat) (L U : list (list Z)) : option (Z * nat) :=
  fold_left (fun st i =>
    if nth (n - 1) (nth i U []) 0 =? 0 then st
    else let nr := max_norm (nth i L []) in
         match st with
         | None => Some (nr, i)
         | Some (least, _) => if nr <? least then Some (nr, i) else st
         end) (seq 0 n) None.
(** SubspaceAvoidingDecomposition.cpp:42-110 ComputeShortVectorAvoidingSubspace (the assertion
    of line 46 holds for the square matrices of barvinokStep; B is not used otherwise). *)
Definition compute_avoiding (lll : list (list Z) -> list (list Z) * list (list Z)) (Dual : list (list Z)) (n : nat) : outcome (list Z) :=
  let LL := neg_transpose n Dual in
  let '(L, U) := lll LL in
  match avoid_row n L U with
  | None => Err AssertFail
  | Some (_, i) => Ok (nth i U [])
  end.
(** barvinok.cpp:317-318, 348-350: the dual matrix is built from the cone.  (Total: [] where
    there is a failure; P_Avoiding.v shows that there is none for independent rays.) *)
Definition avoiding_vector (lll : list (list Z) -> list (list Z) * list (list Z)) (l : nat) (rays : list (list Z)) : list Z :=
  let n := length rays in
  match bind (det_and_facets n rays) (fun c => bind (facet_matrix c) (fun Dual => compute_avoiding lll Dual n)) with Ok z => z | Err _ => [] end.
