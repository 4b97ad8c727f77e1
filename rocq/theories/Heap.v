(** Model of code/latte/heap.cpp.  One model covers the three variants (int_min,
    int_max, custom): the comparison of weights is a parameter [cmp] with the
    strcmp convention (heap.h:38-42); [cmp_min] and [cmp_max] are the built-in
    integer orders.  The dbl variants have the same text with double weights; NaN
    weights are outside the model.  The array is a total function; the code only
    touches indices below next_pos (or next_pos itself in insert, after the
    assertion next_pos < size). *)
From Verif Require Import Common.

Section Heap.
Context {W D : Type}.
Variable cmp : W -> W -> Z.

(** heap.h:44-55 *)
Definition entry := (W * D)%type.
Definition weight (e : entry) : W := fst e.
Definition data (e : entry) : D := snd e.

(** heap.h:57-72 *)
Record heap := mkHeap { size : nat; next_pos : nat; frozen : bool; arr : nat -> entry }.

(** "xxx = a[i]; a[i] = a[j]; a[j] = xxx" (heap.cpp:46-48 and passim). *)
Definition swap (a : nat -> entry) (i j : nat) : nat -> entry :=
  fun k => if Nat.eqb k i then a j else if Nat.eqb k j then a i else a k.
Definition store (a : nat -> entry) (i : nat) (e : entry) : nat -> entry :=
  fun k => if Nat.eqb k i then e else a k.

(** heap.cpp:31-54, 55-78, 127-152: percolate_down.  One loop pass per fuel unit;
    tmp_pos strictly grows, so next_pos passes are enough. *)
Fixpoint percolate_down (fuel : nat) (n : nat) (a : nat -> entry) (tmp_pos : nat) : outcome (nat -> entry) :=
  match fuel with
  | O => Err OutOfFuel
  | S f =>
      let child := 2 * tmp_pos + 1 in
      if Nat.ltb child n then
        let child := if Nat.ltb child (n - 1) && (cmp (weight (a (child + 1)%nat)) (weight (a child)) <? 0)%Z
                     then child + 1 else child in
        if (0 <? cmp (weight (a tmp_pos)) (weight (a child)))%Z
        then percolate_down f n (swap a tmp_pos child) child
        else Ok a
      else Ok a
  end.

(** heap.cpp:155-170, 171-186, 219-237: bubble_up. *)
Fixpoint bubble_up (fuel : nat) (a : nat -> entry) (temp_pos : nat) : outcome (nat -> entry) :=
  match fuel with
  | O => Err OutOfFuel
  | S f =>
      if Nat.ltb 0 temp_pos then
        let parent := Nat.div (temp_pos - 1) 2 in
        if (cmp (weight (a temp_pos)) (weight (a parent)) <? 0)%Z
        then bubble_up f (swap a temp_pos parent) parent
        else Ok a
      else Ok a
  end.

(** heap.cpp:240-283 heapify: "do percolate_down(h,k) while (k-- > 0)". *)
Fixpoint heapify_loop (n : nat) (a : nat -> entry) (k : nat) : outcome (nat -> entry) :=
  bind (percolate_down (S n) n a k) (fun a' =>
    match k with O => Ok a' | S k' => heapify_loop n a' k' end).
Definition heapify (n : nat) (a : nat -> entry) : outcome (nat -> entry) :=
  if Nat.leb n 1 then Ok a else heapify_loop n a (Nat.div (n - 1 - 1) 2).

(** heap.cpp:288-327 heap_alloc (malloc assumed to succeed; the array content is
    uninitialised memory, here the arbitrary function [junk]). *)
Definition heap_alloc (sz : nat) (junk : nat -> entry) : heap := mkHeap sz 0 false junk.

Inductive hop :=
| HInsert (e : entry)       (* heap_insert_*weight *)
| HPop | HTop
| HChangeTop (w : W)        (* heap_change_top_intweight *)
| HFreeze | HThaw | HClear
| HNumFill.                 (* heap_num_fill; heap_empty_p is "= 0" *)
Inductive hout := RNone | RData (d : D) | RNum (n : nat).

Definition hstep (h : heap) (o : hop) : outcome (heap * hout) :=
  let '(mkHeap sz n fr a) := h in
  match o with
  | HInsert e =>                       (* heap.cpp:437-486 *)
      assert_then (Nat.ltb n sz)
        (let a1 := store a n e in
         bind (if fr then Ok a1 else bubble_up (S n) a1 n) (fun a2 =>
         Ok (mkHeap sz (n + 1) fr a2, RNone)))
  | HPop =>                            (* heap.cpp:384-434 *)
      assert_then (Nat.ltb 0 n) (assert_then (negb fr)
        (let d := data (a 0) in
         let n' := n - 1 in
         let a1 := store a 0 (weight (a n'), data (a n')) in
         bind (percolate_down (S n') n' a1 0) (fun a2 =>
         Ok (mkHeap sz n' fr a2, RData d))))
  | HTop =>                            (* heap.cpp:355-381 *)
      assert_then (Nat.ltb 0 n) (assert_then (negb fr) (Ok (h, RData (data (a 0)))))
  | HChangeTop w =>                    (* heap.cpp:490-504 *)
      assert_then (negb (Nat.eqb n 0))
        (let a1 := store a 0 (w, data (a 0)) in
         bind (if fr then Ok a1 else percolate_down (S n) n a1 0) (fun a2 =>
         Ok (mkHeap sz n fr a2, RNone)))
  | HFreeze =>                         (* heap.cpp:330-338 *)
      assert_then (negb fr) (Ok (mkHeap sz n true a, RNone))
  | HThaw =>                           (* heap.cpp:341-352 *)
      assert_then fr (bind (heapify n a) (fun a' => Ok (mkHeap sz n false a', RNone)))
  | HClear => Ok (mkHeap sz 0 fr a, RNone)   (* heap.cpp:507-512 *)
  | HNumFill => Ok (h, RNum n)               (* heap.cpp:534-539 *)
  end.

(** A client's call history: the outputs of all calls and the final heap. *)
Fixpoint hrun (h : heap) (p : list hop) : outcome (heap * list hout) :=
  match p with
  | [] => Ok (h, [])
  | o :: p' => bind (hstep h o) (fun '(h', r) =>
               bind (hrun h' p') (fun '(h'', rs) => Ok (h'', r :: rs)))
  end.

End Heap.
Arguments heap W D : clear implicits.
Arguments hop W D : clear implicits.
Arguments hout D : clear implicits.

(** HEAP_INT_MIN / HEAP_INT_MAX (heap.cpp:42-45, 66-69, 161, 177). *)
Definition cmp_min (a b : Z) : Z := (a - b)%Z.
Definition cmp_max (a b : Z) : Z := (b - a)%Z.
