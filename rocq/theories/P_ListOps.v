(** Property theorems about linked lists and constraint lists (C35, C46, C47, C55, C56). *)
From Coq Require Import QArith.
From Verif Require Import Common ListOps ListOpsSpec ListOpsProofs.

(** C47: length, copy, append, free. *)
Open Scope nat_scope.
Theorem list_length_counts :
  forall A (m : mem A) p ads xs, linked m p ads xs ->
  forall f n, length xs <= f -> length_list f m p n = Ok (n + length xs).
Proof. exact @length_list_ok. Qed.
Print Assumptions list_length_counts.

(** The copy holds the same payloads in the same order, on fresh nodes; the
    original list and every other node stay as they were. *)
Theorem list_copy_faithful :
  forall A (m : mem A) next p ads xs f,
  linked m p ads xs -> (forall a, next <= a -> m a = None) -> length xs <= f ->
  exists m' p', copy_list f m next p = Ok (m', next + length xs, p') /\
    linked m' p' (seq next (length xs)) xs /\ linked m' p ads xs /\
    (forall a, m a <> None -> m' a = m a) /\ (forall a, In a (seq next (length xs)) -> ~ In a ads).
Proof. exact @copy_ok. Qed.
Print Assumptions list_copy_faithful.

(** Appending two lists without common nodes. *)
Theorem list_append_concatenates :
  forall A (m : mem A) a b adsA xsA adsB xsB f,
  linked m a adsA xsA -> linked m b adsB xsB ->
  (forall q, In q adsA -> ~ In q adsB) -> length xsA <= f ->
  exists m' p, append_lists f m a b = Ok (m', p) /\ linked m' p (adsA ++ adsB) (xsA ++ xsB) /\
    (forall q, ~ In q adsA -> m' q = m q).
Proof. exact @append_ok. Qed.
Print Assumptions list_append_concatenates.

(** The disjointness above is needed: a non-empty list appended to itself never ends. *)
Theorem list_append_to_itself_never_ends :
  forall A (m : mem A) a ads xs f m' p, linked m (Some a) ads xs -> length xs <= f ->
  append_lists f m (Some a) (Some a) = Ok (m', p) ->
  forall g n, length_list g m' p n = Err OutOfFuel.
Proof. exact @append_self_endless. Qed.
Print Assumptions list_append_to_itself_never_ends.

(** Freeing releases exactly the list's nodes, each once (a second release would be
    a DanglingPtr outcome). *)
Theorem list_free_exact :
  forall A ads (m : mem A) p xs f, linked m p ads xs -> length xs <= f ->
  exists m', free_list f m p = Ok m' /\ (forall a, In a ads -> m' a = None) /\ (forall a, ~ In a ads -> m' a = m a).
Proof. exact @free_list_ok. Qed.
Print Assumptions list_free_exact.

(** The collecting consumer, fed any sequence of distinct single cones not yet in
    its collection, ends up with all of them, newest first. *)
Theorem collector_keeps_every_cone :
  forall A cones (m : mem A) coll adsC xsC,
  linked m coll adsC xsC -> NoDup cones -> (forall a, In a cones -> ~ In a adsC) ->
  (forall a, In a cones -> exists x, m a = Some (x, None)) ->
  exists m' coll', consume_all (m, coll) cones = Ok (m', coll') /\
    exists xs, linked m' coll' (rev cones ++ adsC) (rev xs ++ xsC) /\ map (fun a => option_map fst (m a)) cones = map Some xs.
Proof. exact @consume_all_ok. Qed.
Print Assumptions collector_keeps_every_cone.

Theorem collector_rejects_chains :
  forall A (m : mem A) coll c x q, m c = Some (x, Some q) -> consume (m, coll) c = Err AssertFail.
Proof. exact @consume_rejects_chain. Qed.
Print Assumptions collector_rejects_chains.

Definition demo_mem : mem Z := fun a =>
  match a with 0 => Some (7%Z, Some 1) | 1 => Some (8%Z, None) | 2 => Some (9%Z, None) | 3 => Some (10%Z, None) | _ => None end.
Example demo_linked : linked demo_mem (Some 0) [0; 1] [7; 8]%Z.
Proof. repeat (econstructor; [reflexivity|]); constructor. Qed.
Example demo_lists :
  (match copy_list 5 demo_mem 4 (Some 0) with
   | Ok (m', 6, Some 4) => m' 4 = Some (7%Z, Some 5) /\ m' 5 = Some (8%Z, None) | _ => False end) /\
  (match append_lists 5 demo_mem (Some 0) (Some 2) with
   | Ok (m', Some 0) => length_list 5 m' (Some 0) 0 = Ok 3 | _ => False end) /\
  (match consume_all (demo_mem, Some 0) [2; 3] with
   | Ok (m', Some 3) => m' 3 = Some (10%Z, Some 2) /\ m' 2 = Some (9%Z, Some 0) | _ => False end) /\
  (match free_list 5 demo_mem (Some 0) with Ok m' => m' 0 = None /\ m' 1 = None /\ m' 2 = Some (9%Z, None) | _ => False end).
Proof. vm_compute. repeat split. Qed.

(** C35, the three-argument membership test is right. *)
Theorem vector_membership_correct :
  forall v l, Forall (fun w => length w = length v) l ->
  exists b, in_list3 v l (length v) = Ok b /\ (b = true <-> In v l).
Proof. exact in_list3_ok. Qed.
Print Assumptions vector_membership_correct.

(** The two-argument one, and the comparison built on it, are not: the list
    [[1;0];[0;1]] is reported different from itself, and a vector in it as absent. *)
Theorem point_list_comparison_refuted :
  (exists l, NoDup l /\ Forall (fun w => length w = 2) l /\ is_equal l l = Ok false) /\
  (exists v l, In v l /\ in_list2 v l = Ok false) /\
  (forall v, in_list2 v [] = Ok true).
Proof. exact (conj is_equal_refl_witness (conj in_list2_witness in_list2_empty)). Qed.
Print Assumptions point_list_comparison_refuted.

(** What they compute for every input: "all elements equal v", and "same number of
    elements, and every element of the one equals every element of the other". *)
Theorem point_list_membership_actual :
  forall v l, Forall (fun w => length w = length v) l ->
  exists b, in_list2 v l = Ok b /\ (b = true <-> Forall (fun w => w = v) l).
Proof. exact in_list2_ok. Qed.
Print Assumptions point_list_membership_actual.
Theorem point_list_comparison_actual :
  forall n first second, Forall (fun w => length w = n) first -> Forall (fun w => length w = n) second ->
  exists b, is_equal first second = Ok b /\
   (b = true <-> length first = length second /\ forall v w, In v first -> In w second -> v = w).
Proof. exact is_equal_ok. Qed.
Print Assumptions point_list_comparison_actual.

(** C46.  Refuted: a non-redundant constraint is removed (the row 1 >= 0 makes the
    code unlink a later one), and the code dereferences NULL if the trivial row is last. *)
Theorem redundant_constraint_removal_refuted :
  (exists rows rows' x, check_list rows 2 = Ok rows' /\ ~ feasible rows x /\ feasible rows' x) /\
  (exists rows, check_list rows 2 = Err NullDeref /\ feasible rows [0%Z]).
Proof. exact (conj check_list_witness check_list_crash_witness). Qed.
Print Assumptions redundant_constraint_removal_refuted.

(** Partial: without a row "positive >= 0" the list is unchanged, or the program
    stops and then no integer point satisfies the rows. *)
Theorem redundant_constraint_removal_partial :
  forall n rows, rows <> [] -> Forall (fun r => length r = S n) rows ->
  Forall (fun r => ~ trivially_true r) rows ->
  check_list rows (S n) = Ok rows \/ (check_list rows (S n) = Err Exited /\ forall x, ~ feasible rows x).
Proof. exact check_list_clean. Qed.
Print Assumptions redundant_constraint_removal_partial.

Example check_list_cases :
  check_list [[5; -1]; [0; 1]; [0; 0]]%Z 2 = Ok [[5; -1]; [0; 1]; [0; 0]]%Z /\
  check_list [[5; -1]; [-2; 0]]%Z 2 = Err Exited.
Proof. split; reflexivity. Qed.

(** C55: the dilated rows describe the dilated polytope: y satisfies them exactly if
    the rational point y/dil satisfies the original rows. *)
Theorem dilated_rows_describe_dilation :
  forall dil rows y, (0 < dil)%Z ->
  feasible (dilate_rows dil rows) y <-> feasibleQ rows (map (fun z => inject_Z z / inject_Z dil)%Q y).
Proof. exact dilate_ok. Qed.
Print Assumptions dilated_rows_describe_dilation.

(** C56: the integer points of the "interior" rows are those strictly satisfying
    every constraint. *)
Theorem interior_rows_describe_interior :
  forall rows x, feasible (interior_rows rows) x <->
  Forall (fun r => match r with [] => True | b :: a => (0 < b + dot a x)%Z end) rows.
Proof. exact interior_ok. Qed.
Print Assumptions interior_rows_describe_interior.
Example interior_demo : feasible (interior_rows [[2; -1]; [0; 1]]%Z) [1]%Z /\ ~ feasible (interior_rows [[2; -1]; [0; 1]]%Z) [2]%Z /\
  feasible (dilate_rows 3 [[2; -1]; [0; 1]]%Z) [6]%Z /\ feasible (dilate_rows 3 [[2; -1]; [0; 1]]%Z) [5]%Z /\ ~ feasible (dilate_rows 3 [[2; -1]; [0; 1]]%Z) [7]%Z.
Proof.
  split; [|split; [|split; [|split]]]; unfold feasible; simpl;
  try (repeat constructor; simpl; lia); intros H; inversion H as [|? ? K _]; simpl in K; lia.
Qed.
