(** The two binary heaps of latte-maximize / latte-minimize: Vector_Heap (ConeInfo.cpp:36-470) and
    ConeInfo_Heap (ConeInfo.cpp:1023-1336).  They have the same text up to the type of the stored values
    and the key (Total_Sum, Current_Highest_Term), so one model serves both.
    Simplified: Node_Count is unbounded (the code uses an unsigned int and starts its bit mask at
    bit 31); memory management (the Controller) is left out; Parent pointers are the path of the recursion. *)
From Verif Require Import Common.
Open Scope Z_scope.

Section DigHeap.
Context {A : Type}.
Variable key : A -> Z.

(** Heap_Node / ConeInfo_Heap_Node (ConeInfo.h:39-58, 155-161) *)
Inductive tree := Leaf | Node (x : A) (l r : tree).
(** Root_Node and Node_Count *)
Record heap := mkHeap { h_count : N; h_root : tree }.
Definition empty_heap : heap := mkHeap 0 Leaf.

(** The bits of Node_Count below its highest one, most significant first: false = Left, true = Right
    (ConeInfo.cpp:86-107, 208-230, 1077-1098). *)
Fixpoint path_to (p : positive) (acc : list bool) : list bool :=
  match p with xH => acc | xO q => path_to q (false :: acc) | xI q => path_to q (true :: acc) end.

(** Put a new node at the end of the path and Restore_Up from there (ConeInfo.cpp:100-146, 430-458, 1086-1119,
    1289-1312).  The flag says that the new value has arrived at the root of this subtree, so that Restore_Up
    goes on with its parent; it stops at the first parent that is not smaller. *)
Fixpoint insert_at (p : list bool) (x : A) (t : tree) : outcome (tree * bool) :=
  match p with
  | [] => Ok (Node x Leaf Leaf, true)
  | b :: p' =>
      match t with
      | Leaf => Err NullDeref
      | Node y l r =>
          bind (insert_at p' x (if b then r else l)) (fun '(t', up) =>
          match t' with
          | Leaf => Err NullDeref
          | Node z l' r' =>
              if up && (key y <? key z)
              then Ok (if b then Node z l (Node y l' r') else Node z (Node y l' r') r, true)
              else Ok (if b then Node y l t' else Node y t' r, false)
          end)
      end
  end.
(** ConeInfo.cpp:79-167, 1070-1134 Add_Heap *)
Definition add_heap (x : A) (h : heap) : outcome heap :=
  match h_count h with
  | N0 => Ok (mkHeap 1 (Node x Leaf Leaf))
  | Npos c => bind (insert_at (path_to (Pos.succ c) []) x (h_root h)) (fun '(t, _) => Ok (mkHeap (Npos (Pos.succ c)) t))
  end.

(** Follow the path, take the last node out (ConeInfo.cpp:208-262, 1168-1211). *)
Fixpoint remove_at (p : list bool) (t : tree) : outcome (A * tree) :=
  match t with
  | Leaf => Err NullDeref
  | Node y l r =>
      match p with
      | [] => Ok (y, Leaf)
      | b :: p' => bind (remove_at p' (if b then r else l)) (fun '(z, t') => Ok (z, if b then Node y l t' else Node y t' r))
      end
  end.
(** ConeInfo.cpp:298-360, 1238-1287 Restore_Down; [x] is the value at the root of the subtree. *)
Fixpoint restore_down (x : A) (t : tree) : tree :=
  match t with
  | Leaf => Leaf
  | Node _ l r =>
      let swap_left := match l with Leaf => false | Node a _ _ => negb (key a <=? key x) end in
      let swap_right := match r with Leaf => false | Node b _ _ => negb (key b <=? key x) end in
      let left_larger := match l, r with Node a _ _, Node b _ _ => key b <? key a | _, _ => false end in
      if swap_left && (negb swap_right || left_larger)
      then match l with Leaf => Node x l r | Node a _ _ => Node a (restore_down x l) r end
      else if swap_right
      then match r with Leaf => Node x l r | Node b _ _ => Node b l (restore_down x r) end
      else Node x l r
  end.
(** ConeInfo.cpp:187-296, 1153-1236 Pop_Top_Heap.  An empty Vector_Heap returns 0, an empty ConeInfo_Heap
    dereferences NULL (ConeInfo.cpp:1156): None stands for both. *)
Definition pop_heap (h : heap) : outcome (option (A * heap)) :=
  match h_root h, h_count h with
  | Leaf, _ => Ok None
  | Node x _ _, Npos xH => Ok (Some (x, empty_heap))
  | Node x l r, Npos c => bind (remove_at (path_to c []) (h_root h)) (fun '(z, t) => Ok (Some (x, mkHeap (Npos c - 1) (restore_down z t))))
  | Node x _ _, N0 => Err NullDeref
  end.
(** Check_Top_Heap (ConeInfo.cpp:362-374, 1314-1330) *)
Definition check_top (k : Z) (h : heap) : bool := match h_root h with Leaf => false | Node x _ _ => key x =? k end.

Fixpoint values (t : tree) : list A := match t with Leaf => [] | Node x l r => x :: values l ++ values r end.
End DigHeap.
Arguments tree A : clear implicits.
Arguments heap A : clear implicits.
