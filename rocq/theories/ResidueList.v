(** Model of Residue.cpp:42-578 Residue: the number of lattice points from the list of all unimodular cones
    (latte-maximize, latte-minimize, the drivers ehrhart and ehrhart3 and count when it keeps the cones).
    The arithmetic of the big loop (Residue.cpp:450-549) is the same text as in Residue_Single_Cone:
    [contribution] and [flip] of Residue.v.
    Simplified: machine ints are unbounded; clocks, messages, the file numOfLatticePoints and the freeing of the
    cones are left out; a cone whose number of rays is not that of the first one runs off its list of
    rays (Residue.cpp:115-126) or, if it is a multiple, gives its denominators to the following cones: both are
    [NullDeref] here. *)
From Verif Require Import Common ZMat Piped Residue.
Open Scope Z_scope.

(** Residue.cpp:217-223, 225-233: the products of one cone from the first ray on, up to the first that is 0; [f] gives
    the new value from the ray and the old value. *)
Fixpoint dots_cone (f : list Z -> Z -> Z) (rays : list (list Z)) (ds : list Z) : list Z * option (list Z) :=
  match rays, ds with
  | r :: rays', d :: ds' =>
      let d' := f r d in
      if d' =? 0 then (d' :: ds', Some r) else let '(l, h) := dots_cone f rays' ds' in (d' :: l, h)
  | _, _ => (ds, None)
  end.
(** Residue.cpp:220: the sum of dlambda[p] * D[p] for p >= n *)
Definition partial_dot (dim n : nat) (dl r : list Z) : Z := zsum (dim - n) (fun p => nth (n + p) dl 0 * nth (n + p) r 0).
(** Residue.cpp:216-233: the products of the cones before haltCone ([hc], -1 is 0) are brought up to date, the others computed;
    the first zero ends both loops.  [dots] is dotProducts, by cones; the result has the new
    haltCone and the ray where the loops ended. *)
Fixpoint check (dim hc n : nat) (dl lambda : list Z) (i : nat) (B : list (list (list Z))) (dots : list (list Z)) : list (list Z) * option (nat * list Z) :=
  match B, dots with
  | rays :: B', ds :: dots' =>
      let '(ds', h) := dots_cone (if (i <? hc)%nat then fun r d => d + partial_dot dim n dl r else fun r _ => zdot lambda r) rays ds in
      match h with
      | Some r => (ds' :: dots', Some (i, r))
      | None => let '(l, h') := check dim hc n dl lambda (S i) B' dots' in (ds' :: l, h')
      end
  | _, _ => (dots, None)
  end.
(** Residue.cpp:239-242: going down from n while lambda[n] is 2 or no entry of the ray from n on is different from 0 *)
Fixpoint down (n : nat) (m : bool) (r lambda : list Z) : nat :=
  match n with
  | O => O
  | S n' => if (nth n lambda 0 =? 2) || negb m then down n' (m || negb (nth n' r 0 =? 0)) r lambda else n
  end.
Definition next_index (dim : nat) (r lambda : list Z) : nat := down (dim - 1) (negb (nth (dim - 1) r 0 =? 0)) r lambda.
(** Residue.cpp:246-251 *)
Definition next_lambda (dim n : nat) (lambda : list Z) : list Z := map (fun j => if (j <? n)%nat then nth j lambda 0 else if Nat.eqb j n then nth j lambda 0 + 1 else -1) (seq 0 dim).
Definition next_change (dim n : nat) (lambda dl : list Z) : list Z := map (fun j => if (j <? n)%nat then nth j dl 0 else if Nat.eqb j n then 1 else -1 - nth j lambda 0) (seq 0 dim).
(** Residue.cpp:213-255, loop 1; [left] is 5000 - k *)
Fixpoint search (left dim : nat) (B : list (list (list Z))) (hc n : nat) (dl lambda : list Z) (dots : list (list Z)) : option (list Z * list (list Z)) :=
  match left with
  | O => None
  | S left' =>
      let '(dots', h) := check dim hc n dl lambda 0 B dots in
      match h with
      | None => Some (lambda, dots')
      | Some (i, r) =>
          let n' := next_index dim r lambda in
          if (nth n' lambda 0 =? 2) || (left' =? 0)%nat then None
          else search left' dim B i n' (next_change dim n' lambda dl) (next_lambda dim n' lambda) dots'
      end
  end.
Definition lambda_tries : nat := Z.to_nat 5000.
(** Residue.cpp:270-307, loop 2: random vectors; [rnd k] is the k-th *)
Fixpoint random_search (fuel dim : nat) (rnd : nat -> list Z) (k : nat) (B : list (list (list Z))) (dots : list (list Z)) : outcome (list Z * list (list Z)) :=
  match fuel with
  | O => Err OutOfFuel
  | S f => let '(dots', h) := check dim 0 0 [] (rnd k) 0 B dots in
           match h with None => Ok (rnd k, dots') | Some _ => random_search f dim rnd (S k) B dots' end
  end.
Definition find_lambda (fuel dim : nat) (rnd : nat -> list Z) (B : list (list (list Z))) : outcome (list Z * list (list Z)) :=
  let dots := map (map (fun _ => 0)) B in
  match search lambda_tries dim B 0 0 (repeat 0 dim) (repeat 0 dim) dots with
  | Some x => Ok x
  | None => random_search fuel dim rnd 0 B dots
  end.
(** Residue.cpp:366-381: j *)
Fixpoint step_size (j : Z) (lambda : list Z) : Z :=
  match lambda with
  | [] => j
  | x :: l => if (x =? 1) || (x =? -1) then 1 else if (x <? j) && (0 <? x) then step_size x l else if (- x <? j) && (x <? 0) then step_size (- x) l else step_size j l
  end.
(** Residue.cpp:384-386: translation *)
Fixpoint every_hundredth (i : nat) (l : list Z) : Z := match l with [] => 0 | x :: l' => match i with O => x + every_hundredth 99 l' | S i' => every_hundredth i' l' end end.
Definition translation (lambda nums : list Z) : Z :=
  let t := every_hundredth 0 nums / (1 + Z.of_nat (length nums) / 100) in t - t mod step_size 10000 lambda.
(** Residue.cpp:409-410: tenPow *)
Fixpoint ten_loop (fuel : nat) (i t : Z) : Z := match fuel with O => t | S f => if 0 <? i then ten_loop f (i / 10) (t * 10) else t end.
Definition ten_of (cones : nat) : Z := ten_loop (S cones) (Z.of_nat cones) 10.
(** Residue.cpp:446-549: the sum of the contributions; an item has the exponents of the denominator, that of the numerator and the sign *)
Fixpoint contributions (m : nat) (ten : Z) (l : list (list Z * Z * Z)) : outcome Z :=
  match l with
  | [] => Ok 0
  | (ds, a, e) :: l' => bind (contribution m ten e ds a) (fun x => bind (contributions m ten l') (fun s => Ok (x + s)))
  end.
(** Residue.cpp:42-578; a cone is its coefficient, rays and latticePoints *)
Definition residue (fuel : nat) (rnd : nat -> list Z) (dim : nat) (cones : list (Z * list (list Z) * list (list Z))) : outcome Z :=
  match cones with
  | [] => Err NullDeref                                   (* cones->rays, line 73 *)
  | (_, rays0, _) :: _ =>
      let m := length rays0 in
      if negb (forallb (fun c => (length (snd c) =? 1)%nat) cones) then Err AssertFail
      else if negb (forallb (fun c => (length (snd (fst c)) =? m)%nat) cones) then Err NullDeref
      else
        bind (find_lambda fuel dim rnd (map (fun c => snd (fst c)) cones)) (fun '(lambda, dots) =>
        let items := map (fun p => let '(c, ds) := p in flip ds (zdot lambda (hd [] (snd c))) (fst (fst c))) (combine cones dots) in
        let tr := translation lambda (map (fun it => snd (fst it)) items) in
        bind (contributions m (ten_of (length cones)) (map (fun it => (fst (fst it), snd (fst it) - tr, snd it)) items)) (fun s =>
        Ok (round_total (ten_of (length cones)) s)))
  end.
