(** The exchange with the program cdd, code/latte/vertices/cdd.cpp: createCddIneFile (122-146),
    readCddExtFile (503-611), readCddEadFile (613-703) and computeVertexCones (875-914), with ReadCDD
    (code/latte/rational.cpp:703-793).

    The files latte_cdd.ine, .ext and .ead are texts.  exit(0) after writing the file
    numOfLatticePoints is [Stop (Some k)] with the number written, exit(0) without a number is
    [Stop None].  Simplifications: a failing extraction of an int is [Err Thrown] (in the code the
    variable becomes 0 and the checks below it act on that); getline or get at the end of the
    file in a loop that waits for something is [Err OutOfFuel]: the loop does not end; messages on cerr are left
    out. *)
From Coq Require Import String.
From Verif Require Import Common Rational Text LatteText RatVec CheckEmpty.
Open Scope Z_scope.

(** cdd.cpp:122-146; [width] is numOfVars there. *)
Definition write_ine (rows : list (list Z)) (width : nat) : text :=
  (lit "H-representation" ++ newline :: lit "begin " ++ newline :: show_nat (length rows) ++ lit " " ++ show_nat width ++ lit " integer" ++ newline ::
   flat_map (fun row => flat_map (fun i => show_Z (nth i row 0) ++ lit " ") (seq 0 width) ++ [newline]) rows ++
   lit "end" ++ newline :: lit "adjacency" ++ newline :: lit "incidence" ++ [newline])%list.

(** getline *)
Fixpoint get_line (s : text) : text * text :=
  match s with
  | [] => ([], [])
  | c :: s' => if is_char newline c then ([], s') else let '(l, r) := get_line s' in (c :: l, r)
  end.
(** while (tmpString != "begin") getline(in, tmpString); *)
Fixpoint skip_begin (fuel : nat) (s : text) : outcome text :=
  match fuel with
  | O => Err OutOfFuel
  | S f => match s with
           | [] => Err OutOfFuel
           | _ => let '(l, r) := get_line s in if text_eqb l (lit "begin") then Ok r else skip_begin f r
           end
  end.

(** rational.cpp:787-792 *)
Definition read_cdd (s : text) : outcome (rat * text) := let '(w, r) := next_word s in bind (rat_of_text w) (fun q => Ok (q, r)).

(** cdd.cpp:538-556: the character after the header has been taken by in.get(read). *)
Definition blank (c : ascii) : bool := is_char newline c || is_char (ascii_of_nat 13) c || is_char " " c || is_char (ascii_of_nat 9) c.
Definition line_end (c : ascii) : bool := is_char newline c || is_char (ascii_of_nat 13) c.
Fixpoint has_slash (s : text) (flag : bool) : outcome bool :=
  match s with
  | [] => Err OutOfFuel
  | c :: s' => if line_end c then Ok flag else has_slash s' (flag || is_char "/" c)
  end.
Inductive answer := Stop (written : option Z) | Vertices (numOfVars : Z) (vs : list rvec).
Fixpoint one_vertex (s : text) : outcome answer :=
  match s with
  | [] => Err OutOfFuel
  | c :: s' =>
      if blank c then
        match s' with
        | d :: _ => if is_char "0" d then Ok (Stop None) else one_vertex s'
        | [] => Err OutOfFuel
        end
      else bind (has_slash s false) (fun flag => Ok (Stop (Some (if flag : bool then 0 else 1))))
  end.

(** cdd.cpp:580-586: entries 1, ..., numOfVars - 1 of a row, [lead] being entry 0. *)
Fixpoint read_coords (k j : nat) (lead : rat) (v : rvec) (s : text) : outcome (rvec * text) :=
  match k with
  | O => Ok (v, s)
  | S k' => bind (read_cdd s) (fun '(q, s1) => bind (set_entry v j (num q * den lead) (den q * num lead) false) (fun v' => read_coords k' (S j) lead v' s1))
  end.
(** cdd.cpp:571-605; None: a row begins with 0, the polyhedron is called unbounded. *)
Fixpoint read_vertices (n : nat) (width : nat) (s : text) : outcome (option (list rvec)) :=
  match n with
  | O => Ok (Some [])
  | S n' =>
      bind (read_cdd s) (fun '(lead, s1) =>
      if num lead =? 0 then Ok None else
      bind (read_coords (width - 1) 0 lead (rv_zero (width - 1)) s1) (fun '(v, s2) =>
      bind (read_vertices n' width s2) (fun r => Ok (match r with Some vs => Some (v :: vs) | None => None end))))
  end.
(** cdd.cpp:503-611 *)
Definition read_ext (s : text) : outcome answer :=
  bind (skip_begin (S (length s)) s) (fun s1 =>
  bind (read_int s1) (fun '(numOfVertices, s2) => bind (read_int s2) (fun '(numOfVars, s3) =>
  let '(_, s4) := next_word s3 in
  if numOfVertices =? 0 then Ok (Stop (Some 0))
  else if numOfVertices =? 1 then one_vertex s4
  else if numOfVars <? 1 then Err OutOfBounds
  else bind (read_vertices (Z.to_nat numOfVertices) (Z.to_nat numOfVars) s4) (fun r =>
       Ok (match r with Some vs => Vertices numOfVars vs | None => Stop (Some 0) end))))).

(** cdd.cpp:613-703.  constructRay(vertices[i], vertices[k - 1], numOfVars - 1). *)
Definition ray_to (vs : list rvec) (v : rvec) (n : nat) (k : Z) : outcome (list Z) :=
  if (1 <=? k) && (k <=? Z.of_nat (length vs)) then construct_ray v (nth (Z.to_nat (k - 1)) vs (rv_zero 0)) n else Err OutOfBounds.
(** 659-666 *)
Fixpoint listed_rays (vs : list rvec) (v : rvec) (n : nat) (count : nat) (s : text) : outcome (list (list Z) * text) :=
  match count with
  | O => Ok ([], s)
  | S c => bind (read_int s) (fun '(k, s1) => bind (ray_to vs v n k) (fun r => bind (listed_rays vs v n c s1) (fun '(rs, s2) => Ok (r :: rs, s2))))
  end.
(** 675-682, 685-691: while (r < k) *)
Fixpoint rays_until (fuel : nat) (vs : list rvec) (v : rvec) (n : nat) (r k : Z) : outcome (list (list Z) * Z) :=
  match fuel with
  | O => Err OutOfFuel
  | S f => if r <? k then bind (ray_to vs v n r) (fun w => bind (rays_until f vs v n (r + 1) k) (fun '(ws, r') => Ok (w :: ws, r'))) else Ok ([], r)
  end.
Definition until (vs : list rvec) (v : rvec) (n : nat) (r k : Z) : outcome (list (list Z) * Z) := rays_until (S (Z.to_nat (k - r))) vs v n r k.
(** 672-684 *)
Fixpoint unlisted_rays (vs : list rvec) (v : rvec) (n : nat) (count : nat) (r : Z) (s : text) : outcome (list (list Z) * Z * text) :=
  match count with
  | O => Ok ([], r, s)
  | S c => bind (read_int s) (fun '(k, s1) => bind (until vs v n r k) (fun '(ws, r1) =>
           bind (unlisted_rays vs v n c (r1 + 1) s1) (fun '(ws', r2, s2) => Ok (ws ++ ws', r2, s2))))
  end.
(** 641-699: the cones of the vertices i, i + 1, ... *)
Fixpoint read_adjacency (vs : list rvec) (n : nat) (numOfVertices : Z) (i : Z) (rest : list rvec) (s : text) : outcome (list (rvec * list (list Z))) :=
  match rest with
  | [] => Ok []
  | v :: rest' =>
      bind (read_int s) (fun '(k, s1) =>
      if negb (i =? k - 1) then Err Exited else
      bind (read_int s1) (fun '(numOfRays, s2) =>
      let '(_, s3) := next_word s2 in
      bind (if 0 <=? numOfRays then listed_rays vs v n (Z.to_nat numOfRays) s3
            else bind (unlisted_rays vs v n (Z.to_nat (numOfVertices - - numOfRays)) 1 s3) (fun '(ws, r, s4) =>
                 bind (until vs v n r (numOfVertices + 1)) (fun '(ws', _) => Ok (ws ++ ws', s4)))) (fun '(rays, s5) =>
      bind (read_adjacency vs n numOfVertices (i + 1) rest' s5) (fun cones => Ok ((v, rays) :: cones)))))
  end.
Definition read_ead (vs : list rvec) (n : nat) (s : text) : outcome (list (rvec * list (list Z))) :=
  bind (skip_begin (S (length s)) s) (fun s1 =>
  bind (read_int s1) (fun '(numOfVertices, s2) =>
  let '(_, s3) := get_line s2 in
  if Z.of_nat (length vs) <? numOfVertices then Err NullDeref else
  let used := firstn (Z.to_nat numOfVertices) vs in
  bind (read_adjacency used n numOfVertices 0 used s3) (fun cones =>
  (* the cones after these keep no rays *)
  Ok (cones ++ map (fun v => (v, [])) (skipn (Z.to_nat numOfVertices) vs))))).

(** cdd.cpp:875-914.  [cdd ine] is the pair of files .ext and .ead. *)
Inductive cones_answer := Stopped (written : option Z) | Cones (cs : list (rvec * list (list Z))).
Definition compute_vertex_cones (cdd : text -> text * text) (rows : list (list Z)) (numOfVars : nat) : outcome cones_answer :=
  let '(ext, ead) := cdd (write_ine rows (S numOfVars)) in
  bind (read_ext ext) (fun a =>
  match a with
  | Stop w => Ok (Stopped w)
  | Vertices k vs => if k =? Z.of_nat numOfVars + 1 then bind (read_ead vs numOfVars ead) (fun cs => Ok (Cones cs)) else Err AssertFail
  end).
