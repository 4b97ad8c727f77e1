(** The format in which TOPCOM is given points and prints triangulations. *)
From Coq Require Import String.
From Verif Require Import Common Text CountSpec TriangSpec PipedSpec.
Open Scope Z_scope.

Fixpoint joined (l : list text) : text := match l with [] => [] | [a] => a | a :: l' => (a ++ lit "," ++ joined l')%list end.
(** {0,1,2} *)
Definition simplex_text (s : list nat) : text := (lit "{" ++ joined (map (fun i => show_Z (Z.of_nat i)) s) ++ lit "}")%list.
(** {{0,1,2},{1,2,3}} *)
Definition triangulation_text (T : list (list nat)) : text := (lit "{" ++ joined (map simplex_text T) ++ lit "}")%list.
(** The text is a list of points, [[1,2],[3,4]], but for white space. *)
Definition point_text (v : list Z) : text := (lit "[" ++ joined (map show_Z v) ++ lit "]")%list.
Definition denotes_points (t : text) (V : list (list Z)) : Prop :=
  filter (fun c => negb (is_space c)) t = (lit "[" ++ joined (map point_text V) ++ lit "]")%list.
(** The rays with the numbers in s. *)
Definition picked (V : list (list Z)) (s : list nat) : list (list Z) := map (fun i => nth i V []) s.
(** points2placingtriang, given the vectors V: it prints a triangulation, after something
    without left braces, such as "T[1]:=". *)
Definition topcom_contract (topcom : text -> option text) (n : nat) (V : list (list Z)) : Prop :=
  forall t, denotes_points t V ->
  exists before T after, topcom t = Some (before ++ triangulation_text T ++ after)%list /\ ~ In "{"%char before /\
    Forall (Forall (fun i => (i < length V)%nat)) T /\ triangulates n V (map (picked V) T).
