(** Model of the regular triangulation of a cone with 4ti2:
    code/latte/triangulation/RegularTriangulationWith4ti2.cpp, RegularTriangulation.cpp, triangulate.cpp and latte_4ti2.cpp.
    Simplifications: 4ti2's RayAlgorithm, with the basis of the kernel it gets, is a function of the matrix and of the sign-restricted columns, None being a
    failure; its upper_triangle, called twice for the rank with and without the heights, is a test [dep]; the integers of rand() are a stream as in Triang.v; the vertex, which every cone
    gets unchanged, the counters, the files for debugging and the messages are left out. *)
From Verif Require Import Common Util Triang Dualize.
Open Scope Z_scope.

(** RegularTriangulation.cpp:43-49 and 59-69 (Triang.v), 51-57 biased_random_height, 71-97 prescribed_height: special rays with their heights. *)
Inductive heights4 := Basic (h : heights) | Biased (percentage : Z) | Prescribed (special : list (list Z * Z)).
Definition ray_eqb (a b : list Z) : bool := if list_eq_dec Z.eq_dec a b then true else false.
Definition height4 (rnd : Z -> Z) (max_height : Z) (h : heights4) (ray : list Z) (rs : nat -> Z) (k : nat) : outcome (Z * nat) :=
  match h with
  | Basic b => height rnd max_height b ray rs k
  | Biased p => bind (random_int rnd 0 99 (rs k)) (fun x => Ok (if x <? p then 2 else 1, S k))
  | Prescribed special => Ok (match find (fun s => ray_eqb (fst s) ray) special with Some s => snd s | None => 0 end, k)
  end.
(** RegularTriangulationWith4ti2.cpp:98-109 *)
Fixpoint draw_heights4 (rnd : Z -> Z) (max_height : Z) (h : heights4) (rays : list (list Z)) (rs : nat -> Z) (k : nat) : outcome (list Z * nat) :=
  match rays with
  | [] => Ok ([], k)
  | r :: rays' => bind (height4 rnd max_height h r rs k) (fun '(v, k1) =>
                  bind (draw_heights4 rnd max_height h rays' rs k1) (fun '(vs, k2) => Ok (v :: vs, k2)))
  end.
(** RegularTriangulationWith4ti2.cpp:103-106, 111: no height differs from the first. *)
Definition same_heights (hs : list Z) : bool := forallb (fun h => h =? hd 0 hs) hs.
(** RegularTriangulationWith4ti2.cpp:135-140, 152-161, with latte_4ti2.cpp:26-44: the rays behind their heights, and the vertical ray. *)
Definition lifted_rays (n : nat) (hs : list Z) (rays : list (list Z)) : list (list Z) :=
  map (fun '(h, r) => h :: firstn n r) (combine hs rays) ++ [1 :: repeat 0 n].
(** RegularTriangulationWith4ti2.cpp:232-254: the slacks that are zero; the last entry is about the vertical ray. *)
Definition zero_slacks (m : nat) (facet : list Z) : bool * list bool := (false, map (fun j => nth j facet 0 =? 0) (seq 0 (S m))).
(** A call of 4ti2: rays and basis of the subspace. *)
Definition ray_oracle := list (list Z) -> nat -> list bool -> option (list (list Z) * list (list Z)).
(** RegularTriangulationWith4ti2.cpp:86-281 triangulate_cone_with_4ti2.  The loop 228-281 with cone_from_ray_BitSet (35-52) is the loop [walk] of Triang.v,
    for the dimension computed in 225; in the recursion the heights are random (263-266). *)
Fixpoint triangulate_4ti2 (F : ray_oracle) (dep : list (list Z) -> list Z -> bool) (rnd : Z -> Z) (max_height : Z) (nonsimplicial : bool) (n : nat)
    (rs : nat -> Z) (fuel : nat) (h : heights4) (rays : list (list Z)) (k : nat) : outcome (list (list (list Z)) * nat) :=
  match fuel with
  | O => Err OutOfFuel
  | S f =>
      bind (draw_heights4 rnd max_height h rays rs k) (fun '(hs, k1) =>
      if same_heights hs then Ok ([rays], k1)
      else if existsb (fun r => (length r <? n)%nat) rays then Err OutOfBounds
      else if dep rays hs then Ok ([rays], k1)
      else
        let m := length rays in
        match F (Dualize.lifted (lifted_rays n hs rays)) (S n + S m)%nat (repeat true (S m) ++ repeat false (S n))%list with
        | None => Err Exited
        | Some (facets, subspace) =>
            walk (triangulate_4ti2 F dep rnd max_height nonsimplicial n rs f (Basic RandomHeights)) nonsimplicial (n - length subspace) rays (map (zero_slacks m) facets) k1
        end)
  end.
(** triangulate.cpp:96-110, 172-176 for the method "4ti2" with a CollectingConeConsumer (the last cone first), and RegularTriangulationWith4ti2.cpp:284-306, which choose the heights. *)
Definition chosen_heights (prescribed : option (list (list Z * Z))) (bias : Z) : heights4 :=
  match prescribed with Some special => Prescribed special | None => if 0 <=? bias then Biased bias else Basic RandomHeights end.
Definition triangulate_cone_4ti2 (F : ray_oracle) (dep : list (list Z) -> list Z -> bool) (rnd : Z -> Z) (max_height : Z) (nonsimplicial assume_fulldim : bool) (n : nat)
    (rs : nat -> Z) (fuel : nat) (h : heights4) (rays : list (list Z)) (k : nat) : outcome (list (list (list Z)) * nat) :=
  if assume_fulldim && (n =? length rays)%nat then Ok ([rays], k)
  else bind (triangulate_4ti2 F dep rnd max_height nonsimplicial n rs fuel h rays k) (fun '(cs, k1) => Ok (rev cs, k1)).
