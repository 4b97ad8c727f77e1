(** Model of ReadSubcones.cpp:30-255, ReadSubcones.h:28-79: files that list subcones of a master cone by
    0/1 rows, one column per ray of the master cone.

    A stream that is read is its remaining text and good().  An int that "f >> x" does not assign
    (end of file reached before the first character) has the value [u], which is arbitrary.
    The file that is written is its text; every row is flushed ("endl"), so this is also what is on
    the disk.  The counters num_vectors and cone_count are unbounded here.  Writing never fails.  The vertex of
    the master cone is copied and has any type. *)
From Coq Require Import String.
From Verif Require Import Common Text LatteText.
Open Scope Z_scope.

(** cone.h:44-98, the fields that are used; listVector with its index_hint. *)
Record ray := mkRay { vector : list Z; hint : Z }.
Record cone {V : Type} := mkCone { vertex : V; rays : list ray; cone_hint : Z }.
Arguments cone : clear implicits. Arguments mkCone {V}.

(** istream >> int. *)
Definition stream := (text * bool)%type.
Definition get_int (u : Z) (f : stream) : Z * stream :=
  let '(s, good) := f in
  if good then
    match skip_space s with
    | [] => (u, ([], false))
    | s' => match read_signed s' with
            | None => (0, (s', false))
            | Some (z, r) => if int_range z then (z, (r, match r with [] => false | _ => true end)) else (if z <? 0 then -2147483648 else 2147483647, (r, false))
            end
    end
  else (u, f).
(** ReadSubcones.cpp:30-36, check_stream. *)
Definition check_stream (f : stream) : outcome unit := if snd f then Ok tt else Err Exited.

(** ReadSubcones.cpp:50-65, cone_from_ray_indicator: rays are put at the front. *)
Fixpoint pick (i : Z) (rs : list ray) (ind : list bool) (acc : list ray) : list ray :=
  match rs, ind with
  | r :: rs', b :: ind' => pick (i + 1) rs' ind' (if b then mkRay (vector r) i :: acc else acc)
  | _, _ => acc
  end.
Definition cone_from_indicator {V} (master : cone V) (ind : list bool) (i : Z) : cone V := mkCone (vertex master) (pick 0 (rays master) ind []) i.
(** ReadSubcones.cpp:88-97: a row of the file. *)
Fixpoint read_bits (u : Z) (k : nat) (f : stream) : outcome (list bool * stream) :=
  match k with
  | O => Ok ([], f)
  | S k' => let '(x, f1) := get_int u f in
            if negb (x =? 0) && negb (x =? 1) then Err Exited
            else bind (read_bits u k' f1) (fun p => Ok ((x =? 1) :: fst p, snd p))
  end.
(** ReadSubcones.cpp:87-104 *)
Fixpoint read_cones {V} (u : Z) (master : cone V) (k : nat) (i : Z) (f : stream) : outcome (list (cone V)) :=
  match k with
  | O => Ok []
  | S k' => bind (read_bits u (length (rays master)) f) (fun '(ind, f1) => bind (check_stream f1) (fun _ =>
            bind (read_cones u master k' (i + 1) f1) (fun l => Ok (cone_from_indicator master ind i :: l))))
  end.
(** ReadSubcones.cpp:67-105: the cones given to the consumer. *)
Definition read_subcones {V} (u : Z) (master : cone V) (file : text) : outcome (list (cone V)) :=
  let '(num_subcones, f1) := get_int u (file, true) in
  let '(num_rays, f2) := get_int u f1 in
  bind (check_stream f2) (fun _ =>
  if negb (num_rays =? Z.of_nat (length (rays master))) then Err Exited
  else read_cones u master (Z.to_nat num_subcones) 0 f2).

(** ReadSubcones.h:54-66, IncrementalVectorFileWriter. *)
Record writer := mkWriter { contents : text; num_vectors : Z; dimension : nat }.
(** setw(16) << left *)
Definition pad16 (t : text) : text := (t ++ repeat " "%char (16 - length t))%list.
(** ReadSubcones.cpp:135-145 *)
Definition new_writer (dim : nat) : writer := mkWriter (pad16 (show_Z (-1)) ++ " "%char :: show_nat dim ++ [newline])%list 0 dim.
(** ReadSubcones.cpp:169-182, WriteVector. *)
Definition show_bits (v : list bool) : text := (flat_map (fun b : bool => (if b then "1" else "0") :: [" "])%char v ++ [newline])%list.
Definition write_vector (w : writer) (v : list bool) : outcome writer :=
  if Nat.eqb (length v) (dimension w) then Ok (mkWriter (contents w ++ show_bits v)%list (num_vectors w + 1) (dimension w)) else Err AssertFail.
(** ReadSubcones.cpp:199-210, UpdateNumVectors: writes over the first characters. *)
Definition update_num_vectors (w : writer) : writer :=
  let t := pad16 (show_Z (num_vectors w)) in mkWriter (t ++ skipn (length t) (contents w))%list (num_vectors w) (dimension w).

(** ReadSubcones.cpp:218-225: index_map; insert keeps the first index of a vector. *)
Definition same_vector (a b : list Z) : bool := if list_eq_dec Z.eq_dec a b then true else false.
Fixpoint find_index (i : nat) (rs : list ray) (v : list Z) : option nat :=
  match rs with
  | [] => None
  | r :: rs' => if same_vector (vector r) v then Some i else find_index (S i) rs' v
  end.
Definition map_size (rs : list ray) : nat := length (nodup (list_eq_dec Z.eq_dec) (map vector rs)).
(** ReadSubcones.cpp:234-255, SubconePrintingConeConsumer::ConsumeCone.  Writing outside of
    ray_indicator is [Err OutOfBounds]. *)
Fixpoint set_bit (v : list bool) (i : nat) : outcome (list bool) :=
  match v, i with
  | [], _ => Err OutOfBounds
  | _ :: v', O => Ok (true :: v')
  | b :: v', S i' => bind (set_bit v' i') (fun w => Ok (b :: w))
  end.
Definition ray_index (master : list ray) (r : ray) : outcome nat :=
  if (0 <=? hint r) && (hint r <? Z.of_nat (length master)) && same_vector (vector r) (vector (nth (Z.to_nat (hint r)) master (mkRay [] 0))) then Ok (Z.to_nat (hint r))
  else match find_index 0 master (vector r) with Some i => Ok i | None => Err Exited end.
Fixpoint indicate (master : list ray) (rs : list ray) (v : list bool) : outcome (list bool) :=
  match rs with
  | [] => Ok v
  | r :: rs' => bind (ray_index master r) (fun i => bind (set_bit v i) (fun v' => indicate master rs' v'))
  end.
Definition consume_cone {V} (master : list ray) (w : writer) (c : cone V) : outcome writer :=
  bind (indicate master (rays c) (repeat false (map_size master))) (fun v => write_vector w v).
(** One call for every cone. *)
Fixpoint consume_all {V} (master : list ray) (w : writer) (cones : list (cone V)) : outcome writer :=
  match cones with [] => Ok w | c :: l => bind (consume_cone master w c) (fun w' => consume_all master w' l) end.
(** Construction, the calls, destruction. *)
Definition print_subcones {V} (master : cone V) (cones : list (cone V)) : outcome text :=
  bind (consume_all (rays master) (new_writer (length (rays master))) cones) (fun w => Ok (contents (update_num_vectors w))).
