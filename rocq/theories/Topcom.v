(** Model of triangulations computed by the TOPCOM programs
    (code/latte/triangulation/TriangulationWithTOPCOM.cpp, the part under HAVE_TOPCOM_BIN and
    not HAVE_TOPCOM_LIB, which configure disables).  A cone is the list of its rays; the
    vertex, copied to every cone, and the cones already delivered when the program exits are
    not modelled.  Running a TOPCOM program is a function from the text of its input file to
    the text it prints (None: failure, upon which system_with_error_check exits). *)
From Coq Require Import String.
From Verif Require Import Common Text LatteText Subcones.
Open Scope Z_scope.
Definition open_brace : ascii := "{"%char.
Definition close_brace : ascii := "}"%char.
Definition comma : ascii := ","%char.

(** Lines 126-127: to the first left brace; None if there is none. *)
Fixpoint find_brace (s : text) : option text :=
  match s with [] => None | c :: r => if is_char open_brace c then Some r else find_brace r end.
(** in.get(c): None if there is no character. *)
Definition get_char (f : stream) : option (ascii * stream) :=
  match f with (c :: r, true) => Some (c, (r, true)) | _ => None end.
(** in.peek() before line 141, then in.get(c) if it is a comma; at the end of the text the
    stream is no longer good. *)
Definition skip_comma (f : stream) : stream :=
  match f with
  | (c :: r, true) => if is_char comma c then (r, true) else f
  | ([], true) => ([], false)
  | _ => f
  end.
(** rays[index] *)
Definition ray_at (rays : list (list Z)) (i : Z) : outcome (list Z) :=
  if (0 <=? i) && (i <? Z.of_nat (length rays)) then Ok (nth (Z.to_nat i) rays []) else Err OutOfBounds.
(** Lines 135-142: the indices of a simplex; rays are put at the front.  [u] is the value of
    the variable index when nothing is stored into it (it is not initialised). *)
Fixpoint read_simplex (fuel : nat) (u : Z) (rays : list (list Z)) (acc : list (list Z)) (f : stream) : outcome (list (list Z) * stream) :=
  match fuel with
  | O => Err OutOfFuel
  | S k =>
      let body f := let '(i, f1) := get_int u f in bind (ray_at rays i) (fun r => read_simplex k u rays (r :: acc) (skip_comma f1)) in
      match f with
      | (_, false) => Ok (acc, f)
      | ([], true) => body ([], false)
      | (c :: _, true) => if is_char close_brace c then Ok (acc, f) else body f
      end
  end.
(** Lines 129-151: the simplices; the second component is what follows the triangulation. *)
Fixpoint read_simplices (fuel : nat) (u : Z) (rays : list (list Z)) (f : stream) : outcome (list (list (list Z)) * stream) :=
  match fuel with
  | O => Err OutOfFuel
  | S k =>
      match get_char f with
      | None => Err Exited
      | Some (c, f1) =>
          if negb (is_char open_brace c) then Err Exited
          else bind (read_simplex (S (S (length (fst f1)))) u rays [] f1) (fun '(simp, f2) =>
            match get_char f2 with
            | None => Err Exited
            | Some (_, f3) =>
                match get_char f3 with
                | None => Err Exited
                | Some (c, f4) =>
                    if is_char close_brace c then Ok ([simp], f4)
                    else if is_char comma c then bind (read_simplices k u rays f4) (fun '(l, f5) => Ok (simp :: l, f5))
                    else Err Exited
                end
            end)
      end
  end.
(** TriangulationWithTOPCOM.cpp:114-155 read_TOPCOM_triangulation, the stream being good. *)
Definition read_triangulation (u : Z) (rays : list (list Z)) (s : text) : outcome (list (list (list Z)) * stream) :=
  match find_brace s with None => Err Exited | Some r => read_simplices (S (length r)) u rays (r, true) end.

(** TriangulationWithTOPCOM.cpp:157-173 write_TOPCOM_point_configuration; ray->first[0] and
    so on are the entries of a vector of length numOfVars >= 1. *)
Definition write_point (v : list Z) : text :=
  match v with [] => lit "[]" | x :: v' => (lit "[" ++ show_Z x ++ flat_map (fun y => lit ", " ++ show_Z y) v' ++ lit "]")%list end.
Fixpoint write_points (V : list (list Z)) : text :=
  match V with
  | [] => []
  | [v] => write_point v
  | v :: V' => (write_point v ++ lit "," ++ [newline] ++ write_points V')%list
  end.
Definition write_configuration (V : list (list Z)) : text := (lit "[" ++ write_points V ++ lit "]" ++ [newline])%list.
(** TriangulationWithTOPCOM.cpp:177-191 triangulate_cone_with_TOPCOM (the output file exists if
    the program succeeded). *)
Definition triangulate_with_topcom (points2placingtriang : text -> option text) (u : Z) (rays : list (list Z)) : outcome (list (list (list Z))) :=
  match points2placingtriang (write_configuration rays) with
  | None => Err Exited
  | Some s => bind (read_triangulation u rays s) (fun p => Ok (fst p))
  end.
(** TriangulationWithTOPCOM.cpp:206-214, the loop: while the stream is good a triangulation is
    read and put at the front (CollectingConeConsumer collects at the front as well). *)
Fixpoint read_all (fuel : nat) (u : Z) (rays : list (list Z)) (f : stream) (acc : list (list (list (list Z)))) : outcome (list (list (list (list Z)))) :=
  match fuel with
  | O => Err OutOfFuel
  | S k =>
      if snd f then
        bind (read_triangulation u rays (fst f)) (fun '(t, f1) =>
          match t with [] => Ok acc | _ => read_all k u rays f1 (rev t :: acc) end)
      else Ok acc
  end.
(** TriangulationWithTOPCOM.cpp:193-216 all_triangulations_of_cone_with_TOPCOM; [opened] tells
    whether the output file could be opened. *)
Definition all_triangulations (points2triangs : text -> option text) (opened : bool) (u : Z) (rays : list (list Z)) : outcome (list (list (list (list Z)))) :=
  match points2triangs (write_configuration rays) with
  | None => Err Exited
  | Some s => read_all (S (S (length s))) u rays (s, opened) []
  end.
