(** Model of exact integration over a simplex: powers and binomial coefficients and
    computeResidue (code/latte/integration/residue.cpp:7-267), update and
    integrateLinFormSum (code/latte/integration/newIntegration.cpp:126-285), decompose
    (code/latte/integration/PolyTrie.cpp:480-614) and integrateMonomialSum
    (newIntegration.cpp:502-514).  ZZ is Z; int is Z too (sizes far below 2^31: overflow
    of int arithmetic is not modelled here), except that the fixed-size arrays bi[20]
    and repeat[1000] are checked. *)
From Verif Require Import Common Rational Trie.
Open Scope Z_scope.

(** residue.cpp:11-18: the binary digits, lowest first, into bi[20]. *)
Fixpoint bits (fuel : nat) (b : Z) : outcome (list Z) :=
  if b <=? 0 then Ok []
  else match fuel with
       | O => Err OutOfBounds
       | S f => bind (bits f (b / 2)) (fun l => Ok (b mod 2 :: l))
       end.
(** residue.cpp:7-27 Power_ZZ. *)
Definition power_ZZ (a b : Z) : outcome Z :=
  if b =? 0 then Ok 1 else
  bind (bits 20 b) (fun l =>
  Ok (fold_right (fun bit t => if bit =? 1 then t * t * a else t * t) a (removelast l))).

(** residue.cpp:36-39 *)
Fixpoint choose_loop (n : nat) (i : Z) (a t : Z) : Z :=
  match n with O => t | S n' => choose_loop n' (i + 1) a (t * (a - i + 1) / i) end.
(** residue.cpp:29-41 AChooseB. *)
Definition choose (a b : Z) : Z :=
  if a <? b then 0
  else let b' := if a <? 2 * b then a - b else b in choose_loop (Z.to_nat b') 1 a 1.

(** residue.cpp:94-113: the pairs (index[j], counter[j]), j < k; both arrays have
    length [d]. *)
Fixpoint bump (x : Z) (l : list (Z * Z)) : option (list (Z * Z)) :=
  match l with
  | [] => None
  | (y, n) :: l' => if x =? y then Some ((y, n + 1) :: l')
                    else match bump x l' with Some r => Some ((y, n) :: r) | None => None end
  end.
Fixpoint tally (d : nat) (diffs : list Z) (l : list (Z * Z)) : outcome (list (Z * Z)) :=
  match diffs with
  | [] => Ok l
  | x :: diffs' =>
      match bump x l with
      | Some l' => tally d diffs' l'
      | None => if (length l <? d)%nat then tally d diffs' (l ++ [(x, 1)]) else Err OutOfBounds
      end
  end.

(** residue.cpp:129-130 *)
Fixpoint residue_den (c0 : Z) (l : list (Z * Z)) (de : Z) : outcome Z :=
  match l with
  | [] => Ok de
  | (x, n) :: l' => bind (power_ZZ x (n + c0)) (fun q => residue_den c0 l' (de * q))
  end.

(** residue.cpp:139-144: m1 = the expansion of (p + z)^(M+d), degrees 0..counter[0];
    [n] steps from [i]. *)
Fixpoint numer_series (n : nat) (i e p : Z) (m : msum rat) : outcome (msum rat) :=
  match n with
  | O => Ok m
  | S n' => bind (power_ZZ p (e - i)) (fun q =>
            bind (insert_monomial rat_add rat_zero m (mkRat (choose e i * q) 1) [i]) (fun m' =>
            numer_series n' (i + 1) e p m'))
  end.
(** residue.cpp:150-160: m2 = the series of 1/(x+z)^c times x^(c + counter[0]). *)
Fixpoint denom_series (n : nat) (j c c0 x : Z) (m : msum rat) : outcome (msum rat) :=
  match n with
  | O => Ok m
  | S n' => bind (power_ZZ x (c0 - j)) (fun q =>
            let r := mkRat (choose (c + j - 1) j * q) 1 in
            let r' := if j mod 2 =? 1 then canonicalize (mkRat (num r * -1) (den r * 1)) else r in
            bind (insert_monomial rat_add rat_zero m r' [j]) (fun m' => denom_series n' (j + 1) c c0 x m'))
  end.
Definition deref {A} (o : option A) : outcome A := match o with None => Err NullDeref | Some a => Ok a end.
(** residue.cpp:145-184: the loop over i = 1..k-1; [m1], [sub] are the two buffers,
    multiplied alternately (setTrie keeps the pointer, the destination is overwritten). *)
Fixpoint residue_loop (l : list (Z * Z)) (i : nat) (c0 : Z) (m1 sub : option (trie rat)) : outcome (option (trie rat) * option (trie rat)) :=
  match l with
  | [] => Ok (m1, sub)
  | (x, c) :: l' =>
      bind (denom_series (S (Z.to_nat c0)) 0 c c0 x (new_sum 1)) (fun m2 =>
      bind (deref (ms_trie m2)) (fun t2 =>
      if Nat.odd i then
        bind (deref m1) (fun t1 => bind (trie_multiply rat_add rat_zero rat_mul_fun t1 t2 1 [0] [c0]) (fun t =>
        residue_loop l' (S i) c0 m1 (Some t)))
      else
        bind (deref sub) (fun t1 => bind (trie_multiply rat_add rat_zero rat_mul_fun t1 t2 1 [0] [c0]) (fun t =>
        residue_loop l' (S i) c0 (Some t) sub))))
  end.
(** residue.cpp:241-249: the first delivered term of degree counter[0]; findCoeff is 0/1
    otherwise. *)
Fixpoint find_coeff (l : list (bterm rat)) (c0 : Z) : rat :=
  match l with
  | [] => mkRat 0 1
  | t :: l' => if nth 0 (t_exps t) 0 =? c0 then t_coef t else find_coeff l' c0
  end.
(** residue.cpp:251-258, newIntegration.cpp:236-241 *)
Definition reduce (a b : Z) : Z * Z :=
  let g := Z.gcd a b in if negb (g =? 0) then (a / g, b / g) else (a, b).

(** residue.cpp:71-267 computeResidue; [d], [M] are the dimension and the power. *)
Definition compute_residue (d M : Z) (diffs : list Z) (p : Z) : outcome (Z * Z) :=
  if p =? 0 then Ok (0, 1)
  else if d =? 0 then Err OutOfBounds                      (* index[0] of an empty vector *)
  else
  bind (tally (Z.to_nat d) diffs [(0, 0)]) (fun l =>
  match l with
  | [] => Err OutOfBounds
  | (_, n0) :: rest =>
      let c0 := n0 - 1 in                                   (* counter[0]-- *)
      bind (residue_den c0 rest 1) (fun de =>
      bind (numer_series (Z.to_nat (c0 + 1)) 0 (M + d) p (new_sum 1)) (fun m1 =>
      bind (residue_loop rest 1 c0 (ms_trie m1) None) (fun ms =>
      bind (deref (if Nat.odd (length l) then fst ms else snd ms)) (fun t =>
      bind (iterate rat_zero t 1) (fun terms =>
      let c := find_coeff terms c0 in
      Ok (reduce (1 * num c) (de * den c)))))))
  end).

(** ** newIntegration.cpp *)
(** newIntegration.cpp:146-148 *)
Fixpoint dotz (a b : list Z) (acc : Z) : Z :=
  match a, b with x :: a', y :: b' => dotz a' b' (acc + x * y) | _, _ => acc end.
(** newIntegration.cpp:150-158: repeat[i]: some earlier value is equal. *)
Fixpoint memz (x : Z) (l : list Z) : bool :=
  match l with [] => false | y :: l' => (y =? x) || memz x l' end.
(** newIntegration.cpp:172-173 *)
Fixpoint mul_n (n : nat) (x acc : Z) : Z := match n with O => acc | S n' => mul_n n' x (acc * x) end.
(** newIntegration.cpp:176-178: the product of (xs[i] - xs[j]) over j <> i. *)
Fixpoint prod_diff (xs : list Z) (j i : nat) (x acc : Z) : Z :=
  match xs with
  | [] => acc
  | y :: xs' => prod_diff xs' (S j) i x (if (j =? i)%nat then acc else acc * (x - y))
  end.
(** newIntegration.cpp:163-209: the fraction of vertex [i] with value [x]. *)
Definition vertex_fraction (d m : Z) (xs : list Z) (i : nat) (x : Z) : outcome (Z * Z) :=
  let nu := mul_n (Z.to_nat (m + d)) x 1 in
  let de := prod_diff xs 0 i x 1 in
  let '(nu, de) := if (nu <? 0) && (de <? 0) then (- nu, - de) else (nu, de) in
  if de =? 0 then compute_residue d m (map (fun y => x - y) xs) x else Ok (nu, de).
(** newIntegration.cpp:163-209: all vertices that do not repeat an earlier value.
    [seen] are the earlier values. *)
Fixpoint fractions (d m : Z) (all seen rest : list Z) (i : nat) : outcome (list (Z * Z)) :=
  match rest with
  | [] => Ok []
  | x :: rest' =>
      if memz x seen then fractions d m all (x :: seen) rest' (S i)
      else bind (vertex_fraction d m all i x) (fun f =>
           bind (fractions d m all (x :: seen) rest' (S i)) (fun fs => Ok (f :: fs)))
  end.
(** newIntegration.cpp:199-202: lcm of the denominators, in order. *)
Fixpoint lcm_dens (fs : list (Z * Z)) (l : Z) : Z :=
  match fs with
  | [] => l
  | (_, de) :: fs' => lcm_dens fs' (if negb (de =? 0) then l * de / Z.gcd l de else l)
  end.
(** newIntegration.cpp:211-215 *)
Fixpoint total_of (fs : list (Z * Z)) (l tot : Z) : Z :=
  match fs with
  | [] => tot
  | (nu, de) :: fs' => total_of fs' l (if negb (de =? 0) then tot + nu * (l / de) else tot)
  end.
(** newIntegration.cpp:222-241: accumulate total/lcm into a/b. *)
Definition accumulate (a b total lcm : Z) : Z * Z :=
  let '(a', b') :=
    if a =? 0 then (total, lcm)
    else if negb (lcm =? 0) && negb (b =? 0) then
      let tem := b * lcm / Z.gcd b lcm in (a * tem / b + total * tem / lcm, tem)
    else (a, b) in
  reduce a' b'.
(** simplexZZ: d, the d+1 vertices and v = |det of the edge vectors|. *)
Record simplex := mkSimplex { s_dim : nat; s_vertices : list (list Z); s_vol : Z }.
(** newIntegration.cpp:126-242 update. *)
Definition update (a b : Z) (l : list Z) (s : simplex) (m : Z) (coe : rat) (de : Z) : outcome (Z * Z) :=
  if (1000 <=? s_dim s)%nat then Err OutOfBounds           (* bool repeat[1000] *)
  else
  let xs := map (fun v => dotz l v 0) (s_vertices s) in
  let d := Z.of_nat (s_dim s) in
  bind (fractions d m xs [] xs 0) (fun fs =>
  let lcm := lcm_dens fs 1 in
  let total := total_of fs lcm 0 in
  Ok (accumulate a b (total * s_vol s * num coe) (lcm * de * den coe))).

(** newIntegration.cpp:269-273: (d+m)! *)
Fixpoint fact_loop (n : nat) (i acc : Z) : Z := match n with O => acc | S n' => fact_loop n' (i + 1) (acc * i) end.
(** newIntegration.cpp:247-285 integrateLinFormSum on the terms the iterator delivers. *)
Fixpoint integrate_loop (ts : list (bterm rat)) (s : simplex) (a b : Z) : outcome (Z * Z) :=
  match ts with
  | [] => Ok (a, b)
  | t :: ts' =>
      let m := t_deg t in
      bind (update a b (t_exps t) s m (t_coef t) (fact_loop (Z.to_nat (Z.of_nat (s_dim s) + m)) 1 1)) (fun r =>
      integrate_loop ts' s (fst r) (snd r))
  end.
Definition integrate_forms (ts : list (bterm rat)) (s : simplex) : outcome (Z * Z) :=
  bind (integrate_loop ts s 0 0) (fun r => let '(a, b) := r in if b <? 0 then Ok (a * -1, b * -1) else Ok (a, b)).

(** ** PolyTrie.cpp: a monomial as a sum of powers of linear forms *)
(** rational.cpp:314-319, 382-385: RationalNTL *= ZZ. *)
Definition rat_mul_z (a : rat) (z : Z) : rat := canonicalize (mkRat (num a * z) (den a)).
(** PolyTrie.cpp:562-570: one step of the odometer; the state is (counter[i],
    binomCoeffs[i]) for each i. *)
Fixpoint advance (exps : list Z) (st : list (Z * Z)) : outcome (list (Z * Z)) :=
  match exps, st with
  | e :: es, (c, b) :: st' =>
      if e <? c + 1 then bind (advance es st') (fun r => Ok ((0, 1) :: r))
      else Ok ((c + 1, b * (e - (c + 1) + 1) / (c + 1)) :: st')
  | _, _ => Err OutOfBounds
  end.
(** PolyTrie.cpp:573-608: gcd, parity, coefficient and the normalised form. *)
Definition form_of (st : list (Z * Z)) (deg : Z) (coef : rat) : rat * list Z :=
  let p := map fst st in
  let g := fold_left Z.gcd (tl p) (hd 0 p) in
  let parity := fold_left Z.sub p deg in
  let temp := fold_left (fun r cb => rat_mul_z r (snd cb)) (tl st) (mkRat (snd (hd (0, 1) st)) 1) in
  let temp := rat_mul_fun temp coef in
  let temp := if Z.rem parity 2 =? 1 then rat_mul_z temp (-1) else temp in
  if negb (g =? 1) then (rat_mul_z temp (g ^ deg), map (fun x => Z.quot x g) p) else (temp, p).
(** PolyTrie.cpp:559-610 *)
Fixpoint decompose_loop (n : nat) (exps : list Z) (st : list (Z * Z)) (deg : Z) (coef : rat) (m : msum rat) : outcome (msum rat) :=
  match n with
  | O => Ok m
  | S n' => bind (advance exps st) (fun st' =>
            let f := form_of st' deg coef in
            bind (insert_form rat_add rat_zero m (fst f) deg (snd f)) (fun m' =>
            decompose_loop n' exps st' deg coef m'))
  end.
(** PolyTrie.cpp:506-614 decompose(term); varCount is the length of the exponents. *)
Definition decompose_term (coef : rat) (exps : list Z) (m : msum rat) : outcome (msum rat) :=
  let count := fold_left (fun a e => a * (e + 1)) exps 1 - 1 in
  let deg := fold_left Z.add exps 0 in
  if count =? 0 then insert_form rat_add rat_zero m coef 0 (map (fun _ => 0) exps)
  else decompose_loop (Z.to_nat count) exps (map (fun _ => (0, 1)) exps) deg coef m.
(** PolyTrie.cpp:480-504 decompose(iterator): a do-while over nextTerm. *)
Fixpoint decompose_terms (l : list (bterm rat)) (m : msum rat) : outcome (msum rat) :=
  match l with
  | [] => Ok m
  | t :: l' => bind (decompose_term (t_coef t) (t_exps t) m) (decompose_terms l')
  end.
Definition decompose (l : list (bterm rat)) (m : msum rat) : outcome (msum rat) :=
  match l with [] => Err NullDeref | _ :: _ => decompose_terms l m end.
(** newIntegration.cpp:502-514 integrateMonomialSum. *)
Definition integrate_monomials (p : msum rat) (s : simplex) : outcome (Z * Z) :=
  bind (sum_terms rat_zero p) (fun ts =>
  bind (decompose ts (new_sum (ms_vars p))) (fun forms =>
  bind (sum_terms rat_zero forms) (fun fs => integrate_forms fs s))).
