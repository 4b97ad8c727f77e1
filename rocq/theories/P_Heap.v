(** Property theorems about binary heaps (C08, C09). *)
From Coq Require Import Permutation.
From Verif Require Import Common Heap HeapSpec HeapProofs.

(** C08/C09.  Any call history on a fresh heap that does not abort behaves as the
    priority queue of HeapSpec: same outputs, and the final array holds exactly the
    queue's entries.  Freezing, frozen inserts, thawing and clearing included. *)
Theorem heap_is_priority_queue :
  forall (W D : Type) (cmp : W -> W -> Z), total_preorder cmp ->
  forall sz (junk : nat -> W * D) (p : list (hop W D)) h rs,
  hrun cmp (heap_alloc sz junk) p = Ok (h, rs) ->
  pq_run cmp sz (mkPQ [] false) p rs (mkPQ (map (arr h) (seq 0 (next_pos h))) (frozen h)).
Proof. exact @hrun_sound. Qed.
Print Assumptions heap_is_priority_queue.

(** ... and a history aborts only by a failed assertion at a call the priority
    queue refuses (pop/top/change on empty, insert when full, pop/top while
    frozen, freeze twice, thaw when not frozen); loops always end. *)
Theorem heap_aborts_only_on_illegal_calls :
  forall (W D : Type) (cmp : W -> W -> Z), total_preorder cmp ->
  forall sz (junk : nat -> W * D) (p : list (hop W D)),
  (exists h rs, hrun cmp (heap_alloc sz junk) p = Ok (h, rs)) \/
  (hrun cmp (heap_alloc sz junk) p = Err AssertFail /\
   exists p1 o p2 rs s, p = p1 ++ o :: p2 /\
     pq_run cmp sz (mkPQ [] false) p1 rs s /\ refused sz s o).
Proof. exact @hrun_progress. Qed.
Print Assumptions heap_aborts_only_on_illegal_calls.

(** C08, last part: popping to exhaustion after any history yields all stored
    entries in ascending order of weight. *)
Theorem heap_pops_sorted :
  forall (W D : Type) (cmp : W -> W -> Z), total_preorder cmp ->
  forall sz (junk : nat -> W * D) (p : list (hop W D)) h rs h' out,
  hrun cmp (heap_alloc sz junk) p = Ok (h, rs) ->
  hrun cmp h (repeat HPop (next_pos h)) = Ok (h', out) ->
  exists l, Permutation l (map (arr h) (seq 0 (next_pos h))) /\ ascending cmp l /\
            out = map (fun e => RData (snd e)) l /\ next_pos h' = 0.
Proof. exact @pop_all. Qed.
Print Assumptions heap_pops_sorted.

(** The built-in orders HEAP_INT_MIN and HEAP_INT_MAX meet the hypothesis. *)
Theorem heap_int_orders : total_preorder cmp_min /\ total_preorder cmp_max.
Proof. exact (conj cmp_min_preorder cmp_max_preorder). Qed.
Print Assumptions heap_int_orders.

Definition heap_demo : list (hop Z nat) :=
  [HInsert (5%Z, 50); HInsert (3%Z, 30); HInsert (9%Z, 90); HTop; HChangeTop 7%Z; HFreeze;
   HInsert (1%Z, 10); HInsert (8%Z, 80); HThaw; HPop; HNumFill]%nat.
Example heap_demo_runs :
  match hrun cmp_min (heap_alloc 8 (fun _ => (0%Z, 0))) heap_demo with
  | Ok (h, rs) => rs = [RNone; RNone; RNone; RData 30; RNone; RNone; RNone; RNone; RNone; RData 10; RNum 4] /\
      match hrun cmp_min h (repeat HPop (next_pos h)) with
      | Ok (_, out) => out = [RData 50; RData 30; RData 80; RData 90] | _ => False end
  | Err _ => False
  end.
Proof. vm_compute. split; reflexivity. Qed.
