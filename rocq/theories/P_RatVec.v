(** Property theorems about rational vectors (C05, C06, C07, C54). *)
From Coq Require Import QArith.
From Verif Require Import Common RatVec RatVecSpec RatVecProofs.
Open Scope Q_scope.

(** Every legal history (denominators non-zero / positive, indices in range) runs. *)
Theorem ratvec_histories_run : forall P c p, P = nonzero \/ P = positive ->
  ctor_ok P c -> Forall (op_ok P (ctor_dim c)) p ->
  exists v0 v, rnew c = Ok v0 /\ rrun v0 p = Ok v.
Proof. exact history_runs. Qed.
Print Assumptions ratvec_histories_run.

(** C05.  After any history, scaling to an integer vector returns w and s with
    s <> 0 (s > 0 when denominators are positive) and w = s * v exactly, where v is
    the vector visible through numerators()/denominators(): the cache is never
    stale. *)
Theorem ratvec_scale_exact : forall P c v, P = nonzero \/ P = positive -> reachable P c v ->
  exists v' w s, scale_to_integer v (dim v) = Ok (v', w, s) /\ (s <> 0)%Z /\ length w = dim v /\
    (forall i, (i < dim v)%nat -> inject_Z (nth i w 0%Z) == inject_Z s * coord v i) /\
    (P = positive -> (0 < dim v)%nat -> (0 < s)%Z).
Proof. exact scale_exact. Qed.
Print Assumptions ratvec_scale_exact.

(** C05, minimality: when the coordinates are in lowest terms (as after
    canonicalisation or scalar multiplication) the factor divides every integer t
    that makes t*v integral. *)
Theorem ratvec_scale_minimal : forall P c v, P = nonzero \/ P = positive -> reachable P c v -> (0 < dim v)%nat ->
  (forall i, (i < dim v)%nat -> Z.gcd (num_at v i) (den_at v i) = 1%Z) ->
  forall v' w s, scale_to_integer v (dim v) = Ok (v', w, s) ->
  forall t : Z, (forall i, (i < dim v)%nat -> exists z : Z, inject_Z z == inject_Z t * coord v i) -> (s | t)%Z.
Proof. exact scale_minimal. Qed.
Print Assumptions ratvec_scale_minimal.

(** C54.  What each mutator does to the visible vector. *)
Theorem ratvec_set_entry_effect : forall P c v i n d lazy v', P = nonzero \/ P = positive ->
  reachable P c v -> op_ok P (dim v) (RSetEntry i n d lazy) -> rstep v (RSetEntry i n d lazy) = Ok v' ->
  num_at v' i = n /\ den_at v' i = d /\ forall j, j <> i -> num_at v' j = num_at v j /\ den_at v' j = den_at v j.
Proof. exact effect_set_entry. Qed.
Print Assumptions ratvec_set_entry_effect.
Theorem ratvec_canonicalize_effect : forall P c v v', P = nonzero \/ P = positive -> reachable P c v ->
  rstep v RCanon = Ok v' ->
  forall i, (i < dim v)%nat -> Z.gcd (num_at v' i) (den_at v' i) = 1%Z /\ coord v' i == coord v i.
Proof. exact effect_canon. Qed.
Print Assumptions ratvec_canonicalize_effect.
Theorem ratvec_scalar_multiplication_effect : forall P c v n d v', P = nonzero \/ P = positive -> reachable P c v ->
  P d -> rstep v (RScalarMul n d) = Ok v' ->
  forall i, (i < dim v)%nat -> Z.gcd (num_at v' i) (den_at v' i) = 1%Z /\
    coord v' i == coord v i * (inject_Z n / inject_Z d).
Proof. exact effect_scalar. Qed.
Print Assumptions ratvec_scalar_multiplication_effect.

(** C07 *)
Theorem ratvec_normalize_effect : forall c v v', reachable positive c v -> rstep v RNormalize = Ok v' ->
  exists q : Z, (0 < q)%Z /\ forall i, (i < dim v)%nat -> den_at v' i = 1%Z /\ coord v' i == inject_Z q * coord v i.
Proof. exact effect_normalize. Qed.
Print Assumptions ratvec_normalize_effect.

Definition ratvec_demo_ctor := CPair [3; 4; -10]%Z [4; 6; 15]%Z.
Definition ratvec_demo : list rop :=
  [RScale; RSetEntry 1 7 9 true; RSetNum 0 5; RScale; RScalarMul 6 5; RSetDen 2 14; RCanon]%Z.
Example ratvec_demo_reachable : ctor_ok positive ratvec_demo_ctor /\ Forall (op_ok positive 3) ratvec_demo /\
  match bind (rnew ratvec_demo_ctor) (fun v => rrun v ratvec_demo) with
  | Ok v => scale_to_integer v 3 = Ok (v, [315; 196; -60], 210)%Z
  | Err _ => False end.
Proof.
  split; [|split].
  - split; [reflexivity|]. repeat apply Forall_cons; try apply Forall_nil; unfold positive; lia.
  - repeat apply Forall_cons; try apply Forall_nil; cbn; unfold positive; repeat split; lia.
  - vm_compute. reflexivity.
Qed.

(** C06.  The edge direction between two different points is the primitive integer
    vector pointing from v to w; equal points abort with a division by zero. *)
Theorem construct_ray_primitive : forall cv cw v w, reachable positive cv v -> reachable positive cw w ->
  dim v = dim w -> (exists i, (i < dim v)%nat /\ ~ coord v i == coord w i) ->
  exists r, construct_ray v w (dim v) = Ok r /\ length r = dim v /\ content r = 1%Z /\
    exists q, 0 < q /\ forall i, (i < dim v)%nat -> inject_Z (nth i r 0%Z) == q * (coord w i - coord v i).
Proof. exact construct_ray_ok. Qed.
Print Assumptions construct_ray_primitive.
Theorem construct_ray_equal_points_abort : forall cv cw v w, reachable positive cv v -> reachable positive cw w ->
  dim v = dim w -> (0 < dim v)%nat -> (forall i, (i < dim v)%nat -> coord v i == coord w i) ->
  construct_ray v w (dim v) = Err DivByZero.
Proof. exact construct_ray_equal. Qed.
Print Assumptions construct_ray_equal_points_abort.
Example construct_ray_demo :
  bind (rnew (CPair [1; 1; 5] [2; 3; 6])%Z) (fun v =>
  bind (rnew (CScalar [9; 0; 5] 6)%Z) (fun w => construct_ray v w 3)) = Ok [3; -1; 0]%Z.
Proof. reflexivity. Qed.
