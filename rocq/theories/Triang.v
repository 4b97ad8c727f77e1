(** Model of the regular triangulation of a cone with cddlib:
    code/latte/triangulation/RegularTriangulationWithCddlib.cpp, RegularTriangulation.cpp,
    triangulate.cpp and latte_cddlib.cpp.
    Simplifications: cddlib (dd_DDMatrix2Poly, dd_CopyInequalities, dd_CopyIncidence) is the
    parameter [dd]: from the rows of a generator matrix to the inequalities, each reduced to what
    the code looks at: whether it is in the linset, and which rows are incident; None is an
    error.  The values of rand() are a stream, with the position of the next one threaded
    through.  The vertex, which every cone gets unchanged, and the messages are left out. *)
From Verif Require Import Common Util.
Open Scope Z_scope.

(** The two height functions of the methods "cddlib" and "delaunay". *)
Inductive heights := RandomHeights | DeloneHeights.
(** RegularTriangulation.cpp:43-49 random_height, 59-69 delone_height *)
Definition height (rnd : Z -> Z) (max_height : Z) (h : heights) (ray : list Z) (rs : nat -> Z) (k : nat) : outcome (Z * nat) :=
  match h with
  | RandomHeights => bind (random_int rnd 1 max_height (rs k)) (fun v => Ok (v, S k))
  | DeloneHeights => Ok (fold_left (fun acc x => acc + x * x) ray 0, k)
  end.
(** RegularTriangulationWithCddlib.cpp:67-71: the heights of all rays in turn. *)
Fixpoint draw_heights (rnd : Z -> Z) (max_height : Z) (h : heights) (rays : list (list Z)) (rs : nat -> Z) (k : nat) : outcome (list Z * nat) :=
  match rays with
  | [] => Ok ([], k)
  | r :: rays' => bind (height rnd max_height h r rs k) (fun '(v, k1) =>
                  bind (draw_heights rnd max_height h rays' rs k1) (fun '(vs, k2) => Ok (v :: vs, k2)))
  end.
(** latte_cddlib.cpp:42-65 rays_to_cddlib_matrix with two extra columns and one extra row,
    then RegularTriangulationWithCddlib.cpp:64-71. *)
Definition lifted (n : nat) (hs : list Z) (rays : list (list Z)) : list (list Z) :=
  map (fun '(h, r) => 0 :: h :: firstn n r) (combine hs rays) ++ [0 :: 1 :: repeat 0 n].
(** RegularTriangulationWithCddlib.cpp:30-45 cone_from_ray_set *)
Definition cone_from_ray_set (rays : list (list Z)) (set : list bool) : list (list Z) :=
  fold_left (fun acc (p : list Z * bool) => if snd p then fst p :: acc else acc) (combine rays set) [].
Definition set_card (set : list bool) : nat := length (filter (fun b => b) set).
(** RegularTriangulationWithCddlib.cpp:91-132: the walk through the facets; [rec] is the
    recursive call.  The cones come in the order in which they are passed on. *)
Fixpoint walk (rec : list (list Z) -> nat -> outcome (list (list (list Z)) * nat)) (nonsimplicial : bool) (dimension : nat)
    (rays : list (list Z)) (facets : list (bool * list bool)) (k : nat) : outcome (list (list (list Z)) * nat) :=
  match facets with
  | [] => Ok ([], k)
  | (equality, set) :: facets' =>
      if equality then walk rec nonsimplicial dimension rays facets' k
      else if nth (length rays) set false then walk rec nonsimplicial dimension rays facets' k
      else
        let c := cone_from_ray_set rays set in
        let m := set_card set in
        if (dimension <? m)%nat && negb nonsimplicial then
          bind (rec c k) (fun '(cs, k1) => bind (walk rec nonsimplicial dimension rays facets' k1) (fun '(ds, k2) => Ok (cs ++ ds, k2)))
        else if (m <? dimension)%nat then Err Exited
        else bind (walk rec nonsimplicial dimension rays facets' k) (fun '(ds, k2) => Ok (c :: ds, k2))
  end.
(** RegularTriangulationWithCddlib.cpp:47-138 triangulate_cone_with_cddlib; after the first level
    the heights are random. *)
Fixpoint triangulate_cddlib (dd : list (list Z) -> option (list (bool * list bool))) (rnd : Z -> Z) (max_height : Z) (nonsimplicial : bool) (n : nat)
    (rs : nat -> Z) (fuel : nat) (h : heights) (rays : list (list Z)) (k : nat) : outcome (list (list (list Z)) * nat) :=
  match fuel with
  | O => Err OutOfFuel
  | S f =>
      if existsb (fun r => (length r <? n)%nat) rays then Err OutOfBounds
      else bind (draw_heights rnd max_height h rays rs k) (fun '(hs, k1) =>
      match dd (lifted n hs rays) with
      | None => Err Exited
      | Some facets =>
          if existsb (fun f => negb (length (snd f) =? length rays + 1)%nat) facets then Err AssertFail
          else walk (triangulate_cddlib dd rnd max_height nonsimplicial n rs f RandomHeights) nonsimplicial n rays facets k1
      end)
  end.
(** triangulate.cpp:103-137, 96-102 triangulateCone with a CollectingConeConsumer
    (cone_consumer.cpp: every cone is put in front of the list), for the methods "cddlib" and
    "delaunay". *)
Definition triangulate_cone (dd : list (list Z) -> option (list (bool * list bool))) (rnd : Z -> Z) (max_height : Z) (nonsimplicial assume_fulldim : bool) (n : nat)
    (rs : nat -> Z) (fuel : nat) (h : heights) (rays : list (list Z)) (k : nat) : outcome (list (list (list Z)) * nat) :=
  if assume_fulldim && (n =? length rays)%nat then Ok ([rays], k)
  else bind (triangulate_cddlib dd rnd max_height nonsimplicial n rs fuel h rays k) (fun '(cs, k1) => Ok (rev cs, k1)).
