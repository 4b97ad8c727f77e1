(** Pointer-level model of the singly linked lists listVector / listCone
    (code/latte/cone.h, cone.cpp:32-162, cone_consumer.cpp:35-46, ramon.cpp:66-163).
    A node is a payload and a "rest" pointer; [None] is NULL. *)
From Verif Require Import Common.

Section Lists.
Context {A : Type}.
Definition addr := nat.
Definition ptr := option addr.
Definition node := (A * ptr)%type.
(** [None]: not allocated (never allocated or deleted). *)
Definition mem := addr -> option node.
Definition mset (m : mem) (p : addr) (n : option node) : mem :=
  fun q => if Nat.eqb q p then n else m q.

Definition load (m : mem) (p : addr) : outcome node :=
  match m p with Some n => Ok n | None => Err DanglingPtr end.

(** cone.cpp:32-37 lengthListVector and 96-101 lengthListCone; one loop pass per fuel. *)
Fixpoint length_list (fuel : nat) (m : mem) (p : ptr) (len : nat) : outcome nat :=
  match p with
  | None => Ok len
  | Some a => match fuel with
    | O => Err OutOfFuel
    | S f => bind (load m a) (fun n => length_list f m (snd n) (len + 1))
    end
  end.

(** cone.cpp:40-45 appendVectorToListVector: a new node in front ([fresh] is the
    address returned by operator new). *)
Definition append_vector (m : mem) (fresh : addr) (v : A) (REST : ptr) : mem * ptr :=
  (mset m fresh (Some (v, REST)), Some fresh).

(** cone.cpp:48-58 copyListVector.  [dst] is rest_p: [None] points at the local
    variable "result", [Some q] at node q's rest field.  The allocator hands out
    consecutive fresh addresses. *)
Fixpoint copy_loop (fuel : nat) (m : mem) (next : addr) (l : ptr) (result : ptr) (dst : option addr)
  : outcome (mem * addr * ptr) :=
  match l with
  | None => Ok (m, next, result)
  | Some a => match fuel with
    | O => Err OutOfFuel
    | S f =>
        bind (load m a) (fun n =>
        let m1 := mset m next (Some (fst n, None)) in
        bind (match dst with
              | None => Ok (m1, Some next)
              | Some q => bind (load m1 q) (fun nq => Ok (mset m1 q (Some (fst nq, Some next)), result))
              end) (fun '(m2, result') =>
        copy_loop f m2 (next + 1) (snd n) result' (Some next)))
    end
  end.
Definition copy_list (fuel : nat) (m : mem) (next : addr) (l : ptr) := copy_loop fuel m next l None None.

(** cone.cpp:61-68 freeListVector (and 114-121 freeListCone). *)
Fixpoint free_list (fuel : nat) (m : mem) (p : ptr) : outcome mem :=
  match p with
  | None => Ok m
  | Some a => match fuel with
    | O => Err OutOfFuel
    | S f => bind (load m a) (fun n => free_list f (mset m a None) (snd n))
    end
  end.

(** cone.cpp:123-132 appendListCones *)
Fixpoint append_walk (fuel : nat) (m : mem) (c : addr) (b : ptr) : outcome mem :=
  match fuel with
  | O => Err OutOfFuel
  | S f => bind (load m c) (fun n =>
      match snd n with
      | None => Ok (mset m c (Some (fst n, b)))
      | Some c' => append_walk f m c' b
      end)
  end.
Definition append_lists (fuel : nat) (m : mem) (a b : ptr) : outcome (mem * ptr) :=
  match a with
  | None => Ok (m, b)
  | Some c => bind (append_walk fuel m c b) (fun m' => Ok (m', a))
  end.

(** cone_consumer.cpp:40-46 CollectingConeConsumer::ConsumeCone *)
Definition consume (st : mem * ptr) (cone : addr) : outcome (mem * ptr) :=
  let (m, collected) := st in
  bind (load m cone) (fun n =>
  match snd n with
  | Some _ => Err AssertFail
  | None => Ok (mset m cone (Some (fst n, collected)), Some cone)
  end).
Fixpoint consume_all (st : mem * ptr) (cones : list addr) : outcome (mem * ptr) :=
  match cones with [] => Ok st | c :: cs => bind (consume st c) (fun st' => consume_all st' cs) end.
End Lists.
Arguments mem A : clear implicits.

(** ramon.cpp:66-72 isVectorEqualToVector on the first numOfVars entries; reading
    past the end of a vector is undefined behaviour. *)
Fixpoint vec_eq (v w : list Z) (n : nat) : outcome bool :=
  match n with
  | O => Ok true
  | S k => match v, w with
    | x :: v', y :: w' => if (x =? y)%Z then vec_eq v' w' k else Ok false
    | _, _ => Err OutOfBounds
    end
  end.
(** ramon.cpp:75-84, the three-argument overload. *)
Fixpoint in_list3 (v : list Z) (l : list (list Z)) (n : nat) : outcome bool :=
  match l with
  | [] => Ok false
  | w :: l' => bind (vec_eq v w n) (fun b => if b then Ok true else in_list3 v l' n)
  end.
(** ramon.cpp:89-101, the two-argument overload. *)
Fixpoint in_list2_loop (v : list Z) (n : nat) (l : list (list Z)) : outcome bool :=
  match l with
  | [] => Ok true
  | w :: l' => bind (vec_eq v w n) (fun b => if negb b then Ok false else in_list2_loop v n l')
  end.
Definition in_list2 (v : list Z) (l : list (list Z)) : outcome bool := in_list2_loop v (length v) l.
(** ramon.cpp:142-163 isEqual *)
Fixpoint is_equal_loop (first second : list (list Z)) : outcome bool :=
  match first with
  | [] => Ok true
  | v :: f' => bind (in_list2 v second) (fun b => if negb b then Ok false else is_equal_loop f' second)
  end.
Definition is_equal (first second : list (list Z)) : outcome bool :=
  if negb (Nat.eqb (length first) (length second)) then Ok false else is_equal_loop first second.

(** preprocess.cpp:185-211 checkListVector on the list of rows (RHS first).  The
    loop advances [basis] before calling removeListVector(basis) (ramon.cpp:48-57),
    which unlinks the node *after* its argument and dereferences its argument.
    A list that starts empty makes the program report 0 and exit.  Returns the list
    as seen from the original head afterwards. *)
Fixpoint row_abs_sum (r : list Z) (n : nat) : outcome Z :=
  match n with
  | O => Ok 0%Z
  | S k => match r with [] => Err OutOfBounds | x :: r' => bind (row_abs_sum r' k) (fun s => Ok (Z.abs x + s)%Z) end
  end.
Fixpoint check_loop (fuel : nat) (rows : list (list Z)) (numOfVars : nat) : outcome (list (list Z)) :=
  match rows with
  | [] => Ok []
  | r :: rest =>
    match fuel with
    | O => Err OutOfFuel
    | S f =>
      match r with
      | [] => Err OutOfBounds
      | rhs :: coeffs =>
        bind (row_abs_sum coeffs (numOfVars - 1)) (fun counter =>
        if (counter =? 0)%Z && (rhs <? 0)%Z then Err Exited
        else if (counter =? 0)%Z && (0 <? rhs)%Z then
          match rest with
          | [] => Err NullDeref
          | [a] => bind (check_loop f [a] numOfVars) (fun l => Ok (r :: l))
          | a :: _ :: rest' => bind (check_loop f (a :: rest') numOfVars) (fun l => Ok (r :: l))
          end
        else bind (check_loop f rest numOfVars) (fun l => Ok (r :: l)))
      end
    end
  end.
Definition check_list (rows : list (list Z)) (numOfVars : nat) : outcome (list (list Z)) :=
  match rows with [] => Err Exited | _ => check_loop (length rows) rows numOfVars end.

(** preprocess.cpp:213-222 dilateListVector, 224-230 Interior. *)
Definition dilate_rows (dil : Z) (rows : list (list Z)) : list (list Z) :=
  map (fun r => match r with [] => [] | b :: a => (dil * b)%Z :: a end) rows.
Definition interior_rows (rows : list (list Z)) : list (list Z) :=
  map (fun r => match r with [] => [] | b :: a => (b - 1)%Z :: a end) rows.
