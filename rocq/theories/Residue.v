(** Model of the polynomial substitution (the default of count): Residue.cpp:582-955
    Residue_Single_Cone, barvinok/dec.cpp:170-285.
    Simplifications: the list of cones given to Residue_Single_Cone has one element, as in its
    only call.  Clocks and output are not modelled.  See Count.v for the loops over cones. *)
From Coq Require Import QArith.
From Verif Require Import Common ZMat RatVec Piped Irrational Barvinok Count.
Open Scope Z_scope.

(** Residue.cpp:838-842, 846-850: the entries from j on, when prev is the entry j - 1.  NTL's
    division rounds down. *)
Fixpoint den_loop (k : nat) (j prev nn : Z) : list Z := match k with O => [] | S k' => let x := prev * (nn - j) / (j + 1) in x :: den_loop k' (j + 1) x nn end.
(** The coefficients of ((1+s)^nn - 1)/s up to s^m. *)
Definition den_factor (m : nat) (nn : Z) : list Z := nn :: den_loop m 1 nn nn.
(** Residue.cpp:851-855, 887-891; k goes down, so the entries read are the old ones. *)
Definition mul_trunc (m : nat) (D V : list Z) : list Z := map (fun k => zsum (S k) (fun i => nth i D 0 * nth (k - i) V 0)) (seq 0 (S m)).
(** Residue.cpp:882-886, 893-897 *)
Fixpoint num_loop (k : nat) (j prev nn : Z) : list Z := match k with O => [] | S k' => let x := prev * (nn + 1 - j) / j in x :: num_loop k' (j + 1) x nn end.
Definition power_coeffs (m : nat) (nn : Z) : list Z := 1 :: num_loop m 1 1 nn.
(** Residue.cpp:836-857 *)
Definition denominator_coeffs (m : nat) (ds : list Z) : list Z :=
  match ds with [] => [] | d :: ds' => fold_left (fun D nn => mul_trunc m D (den_factor m nn)) ds' (den_factor m d) end.
(** Residue.cpp:911-919, k iterations left, from j = length T on; T is tempVec, Dm the changed
    part of D, temp the power of D[0]. *)
Fixpoint div_loop (k : nat) (N D T Dm : list Z) (temp : Z) : list Z * Z :=
  match k with
  | O => (T, temp)
  | S k' => let j := length T in
            let temp1 := temp * nth 0 D 0 in
            let Dm1 := Dm ++ [nth j D 0 * temp] in
            let t := nth j N 0 * temp1 - zsum j (fun i => nth (j - (i + 1)) T 0 * nth (i + 1) Dm1 0) in
            div_loop k' N D (T ++ [t]) Dm1 temp1
  end.
(** Residue.cpp:835-926, one pass of the big loop: m is noGsPerC, ds the (positive) exponents
    of the denominator, a that of the numerator, e the sign. *)
Definition contribution (m : nat) (ten e : Z) (ds : list Z) (a : Z) : outcome Z :=
  match ds with
  | [] => Err OutOfBounds
  | _ =>
      let D := denominator_coeffs m ds in
      let '(N, D') := if a <? 0 then (1 :: repeat 0 m, mul_trunc m D (power_coeffs m (- a))) else (power_coeffs m a, D) in
      let '(T, temp) := div_loop m N D' [nth 0 N 0] [nth 0 D' 0] 1 in
      let temp' := temp * nth 0 D' 0 in
      if temp' =? 0 then Err DivByZero else Ok (nth m T 0 * ten * e / temp')
  end.
(** Residue.cpp:706-713: negative exponents of the denominator are changed. *)
Definition flip (rs : list Z) (a e : Z) : list Z * Z * Z :=
  fold_left (fun st kk => let '(ds, a, e) := st in if kk <? 0 then (ds ++ [- kk], a - kk, - e) else (ds ++ [kk], a, e)) rs ([], a, e).
(** Residue.cpp:582-955; None is the status -1. *)
Definition sumM (f : list Z -> outcome Z) (l : list (list Z)) (acc : Z) : outcome Z := fold_left (fun o p => bind o (fun s => bind (f p) (fun x => Ok (s + x)))) l (Ok acc).
Definition residue_single_cone (ten : Z) (lambda : list Z) (coef : Z) (rays pts : list (list Z)) (total : Z) : outcome (option Z) :=
  let rs := map (zdot lambda) rays in
  match pts with
  | [] => Ok (Some total)
  | _ => if existsb (fun r => r =? 0) rs then Ok None
         else bind (sumM (fun p => let '(ds, a, e) := flip rs (zdot lambda p) coef in contribution (length rays) ten e ds a) pts 0) (fun s => Ok (Some (total + s)))
  end.
(** dec.cpp:182-199 ConsumeCone without DUAL_APPROACH, with barvinok.cpp:401-404; the state is
    Total_Lattice_Points and Total_Uni_Cones. *)
Definition ten_power : Z := 10 ^ 10.
Definition residue_consume (P : params) (n : nat) (g w : list Z) (v : rvec) (d : bcone) (acc : Z * Z) : outcome (option (Z * Z)) :=
  bind (points (q_fuel2 P) (q_xg P) n (b_cone d) v) (fun ps =>
  bind (residue_single_cone ten_power g (b_coef d) (s_rays (b_cone d)) ps (fst acc)) (fun o =>
  match o with None => Ok None | Some t => Ok (Some (t, snd acc + 1)) end)).
(** dec.cpp:201-285 decomposeAndComputeResidue; the number and the number of cones. *)
Definition round_total (ten t : Z) : Z := (Z.abs t + ten / 2) / ten.
Definition count_residue_cones (P : params) (n : nat) (guesses : list (list Z)) (cones : list vcone) : outcome (Z * Z) :=
  bind (decomposition_list P n (residue_consume P n) (0, 0) cones guesses) (fun tu => Ok (round_total ten_power (fst tu), snd tu)).
(** count.cpp:502-540, dual and irrational primal decomposition. *)
Definition count_residue (P : params) (n : nat) (guesses : list (list Z)) (rows : list (list Z)) (vs : list rvec) : outcome (Z * Z) :=
  bind (dual_cones n rows vs) (count_residue_cones P n guesses).
