(** Model of the gcd, Moebius and Bernoulli parts of code/latte/top-knapsack/TopKnapsack.cpp
    (lines 23-175, 1226-1372). *)
From Verif Require Import Common Rational RatFun.
Open Scope Z_scope.

(** * Moebius list *)
(** TopKnapsack.h:39-47 MobiusPair *)
Record mpair := mkPair { m_gcd : Z; m_mu : Z; m_valid : bool }.
(** TopKnapsack.cpp:37-49 insertGCD *)
Definition insert_gcd (l : list mpair) (v : Z) : list mpair :=
  if existsb (fun p => m_gcd p =? v) l then l else l ++ [mkPair v 0 false].
(** NTL's divide(a, b): does b divide a (b = 0 divides only 0). *)
Definition ntl_divide (a b : Z) : bool := if b =? 0 then a =? 0 else a mod b =? 0.
Definition mdef : mpair := mkPair 0 0 false.
(** TopKnapsack.cpp:76-92 computeMobius(int i): [rec] is the recursive call, [mloop] the
    for-loop over j (n iterations left). *)
Fixpoint mloop (rec : nat -> list mpair -> outcome (list mpair)) (i n j : nat) (sum : Z) (l : list mpair) : outcome (Z * list mpair) :=
  match n with
  | O => Ok (sum, l)
  | S n' =>
      if negb (i =? j)%nat && ntl_divide (m_gcd (nth j l mdef)) (m_gcd (nth i l mdef)) then
        bind (if m_valid (nth j l mdef) then Ok l else rec j l) (fun l' =>
        mloop rec i n' (S j) (sum + m_mu (nth j l' mdef)) l')
      else mloop rec i n' (S j) sum l
  end.
Fixpoint mobius_at (fuel : nat) (i : nat) (l : list mpair) : outcome (list mpair) :=
  match fuel with
  | O => Err OutOfFuel
  | S f =>
      if (length l <=? i)%nat then Err OutOfBounds
      else if m_valid (nth i l mdef) then Ok l
      else bind (mloop (mobius_at f) i (length l) 0 0 l) (fun sl =>
           Ok (upd (snd sl) i (mkPair (m_gcd (nth i (snd sl) mdef)) (1 - fst sl) true)))
  end.
(** TopKnapsack.cpp:58-62: the last index holding 1, or -1. *)
Fixpoint index_of_one (l : list mpair) (i : nat) (found : option nat) : option nat :=
  match l with [] => found | p :: l' => index_of_one l' (S i) (if m_gcd p =? 1 then Some i else found) end.
(** TopKnapsack.cpp:54-68 computeMobius() *)
Definition compute_mobius (l : list mpair) : outcome (list mpair) :=
  let l0 := map (fun p => mkPair (m_gcd p) 0 false) l in
  match index_of_one l0 O None with
  | None => Err Thrown
  | Some i => mobius_at (length l0 + 1) i l0
  end.

(** * Binomial coefficients *)
(** TopKnapsack.cpp:1251-1252: n * (n-1) * ... (k factors). *)
Fixpoint falling (n : Z) (k : nat) : Z := match k with O => 1 | S k' => n * falling (n - 1) k' end.
(** TopKnapsack.cpp:1253-1254 *)
Fixpoint fact (k : nat) : Z := match k with O => 1 | S k' => Z.of_nat k * fact k' end.
(** TopKnapsack.cpp:1242-1256 binomial.  If n/k (integer division) is below 0.5 the call
    binomial(n, n-k) is made, which again has that property: it never returns.  NTL's
    num/denum is floor division, exact here. *)
Definition tk_binomial (n k : Z) : outcome Z :=
  if (k =? n) || (k =? 0) then Ok 1
  else if Z.quot n k <=? 0 then Err OutOfFuel
  else Ok (falling n (Z.to_nat k) / fact (Z.to_nat k)).

(** * Bernoulli numbers *)
(** TopKnapsack.cpp:157-160: B[m] += B[j]*RationalNTL(binomial(m,j), m-j+1) for j < m. *)
Fixpoint bsum (m : nat) (B : list rat) (j n : nat) (acc : rat) : outcome rat :=
  match n with
  | O => Ok acc
  | S n' => bind (tk_binomial (Z.of_nat m) (Z.of_nat j)) (fun c =>
            bsum m B (S j) n' (rat_add acc (rat_mul (nth j B rat_default) (rat_make c (Z.of_nat (m - j + 1))))))
  end.
(** TopKnapsack.cpp:147-164: entries m, m+1, ... ([n] of them) appended to [B]. *)
Fixpoint bloop (n m : nat) (B : list rat) : outcome (list rat) :=
  match n with
  | O => Ok B
  | S n' =>
      if (1 <? m)%nat && Nat.odd m then bloop n' (S m) (B ++ [mkRat 0 1])
      else bind (bsum m B 0 m (mkRat 0 1)) (fun s => bloop n' (S m) (B ++ [rat_add (rat_neg s) (rat_make 1 1)]))
  end.
(** TopKnapsack.cpp:139-170 setBernoulli *)
Definition set_bernoulli (k : nat) : outcome (list rat) :=
  bind (bloop k 1 [mkRat 1 1]) (fun B =>
  Ok (if (1 <=? k)%nat then upd B 1 (rat_mulz (nth 1 B rat_default) (-1)) else B)).

(** * Greatest common divisors of sublists *)
(** std::lower_bound on positions first..first+len-1. *)
Fixpoint lower_bound (fuel : nat) (l : list Z) (first len : nat) (v : Z) : nat :=
  match fuel with
  | O => first
  | S f =>
      match len with
      | O => first
      | _ => let half := Nat.div2 len in
             if nth (first + half) l 0 <? v then lower_bound f l (first + half + 1) (len - half - 1) v
             else lower_bound f l first half v
      end
  end.
(** std::binary_search *)
Definition binary_search (l : list Z) (v : Z) : bool :=
  let p := lower_bound (length l) l 0 (length l) v in
  (p <? length l)%nat && negb (v <? nth p l 0).
(** TopKnapsack.cpp:1290-1296, 1305-1311: append and move down while the predecessor is
    larger; on the reversed list. *)
Fixpoint bubble (r : list Z) (x : Z) : list Z :=
  match r with [] => [x] | a :: r' => if x <? a then a :: bubble r' x else x :: r end.
Definition push_sorted (l : list Z) (x : Z) : list Z := rev (bubble (rev l) x).
Definition insert_new (l : list Z) (x : Z) : list Z := if binary_search l x then l else push_sorted l x.
(** TopKnapsack.cpp:1284-1299: the loop over j; output.size() is re-read each time. *)
Fixpoint gcd_loop (fuel : nat) (out : list Z) (j : nat) (a : Z) : outcome (list Z) :=
  if (length out <=? j)%nat then Ok out
  else match fuel with
       | O => Err OutOfFuel
       | S f => gcd_loop f (insert_new out (Z.gcd (nth j out 0) a)) (S j) a
       end.
(** TopKnapsack.cpp:1279-1313 *)
Fixpoint gcd_all (out : list Z) (alpha : list Z) : outcome (list Z) :=
  match alpha with
  | [] => Ok out
  | a :: alpha' => bind (gcd_loop (2 * length out) out 0 a) (fun o => gcd_all (insert_new o a) alpha')
  end.
(** TopKnapsack.cpp:1317-1325: keep the values dividing at least N+1-k entries.  NTL's %
    by zero aborts. *)
Fixpoint gcd_keep (out : list Z) (alpha : list Z) (k : Z) (l : list mpair) : outcome (list mpair) :=
  match out with
  | [] => Ok l
  | g :: out' =>
      if g =? 0 then match alpha with [] => gcd_keep out' alpha k l | _ => Err DivByZero end
      else let n := Z.of_nat (length (filter (fun a => a mod g =? 0) alpha)) in
           gcd_keep out' alpha k (if Z.of_nat (length alpha) - k <=? n then insert_gcd l g else l)
  end.
(** TopKnapsack.cpp:1276-1328 everyGCDFromEntireList *)
Definition gcds_entire (alpha : list Z) (k : Z) (l : list mpair) : outcome (list mpair) :=
  bind (gcd_all [] alpha) (fun out => gcd_keep out alpha k l).

(** TopKnapsack.cpp:1362-1376: next index list (1-based, decreasing) for bound n:
    the carry loop upwards and the reset loop downwards as one recursion. *)
Fixpoint advance (n : Z) (s : list Z) : outcome (list Z) :=
  match s with
  | [] => Err OutOfBounds
  | h :: t =>
      if n <? h + 1 then
        bind (advance (n - 1) t) (fun t' => match t' with h2 :: _ => Ok ((h2 + 1) :: t') | [] => Err OutOfBounds end)
      else Ok ((h + 1) :: t)
  end.
(** TopKnapsack.cpp:1352-1355: gcd of the entries selected by the index list. *)
Definition select (alpha : list Z) (s : list Z) : list Z := map (fun i => nth (Z.to_nat (i - 1)) alpha 0) s.
Definition gcd_of_first (l : list Z) : Z := match l with [] => 0 | a :: l' => fold_left Z.gcd l' a end.
(** TopKnapsack.cpp:1349-1379: [todo] = limit - counter + 1 iterations are left. *)
Fixpoint subset_loop (todo : nat) (alpha : list Z) (s : list Z) (l : list mpair) : outcome (list mpair) :=
  match todo with
  | O => Ok l
  | S t =>
      let l' := insert_gcd l (gcd_of_first (select alpha s)) in
      match t with
      | O => Ok l'
      | _ => bind (advance (Z.of_nat (length alpha)) s) (fun s' => subset_loop t alpha s' l')
      end
  end.
(** TopKnapsack.cpp:1346-1347: [k; k-1; ...; 1] *)
Fixpoint countdown (k : nat) : list Z := match k with O => [] | S k' => Z.of_nat k :: countdown k' end.
(** TopKnapsack.cpp:1335-1381 everyGCDFromSubsets (k >= 1: sublist[0] is read) *)
Definition gcds_subsets (alpha : list Z) (k : nat) (l : list mpair) : outcome (list mpair) :=
  if (k =? length alpha)%nat then Ok (insert_gcd l 1)
  else match k with
       | O => Err OutOfBounds
       | _ => bind (tk_binomial (Z.of_nat (length alpha)) (Z.of_nat k)) (fun limit =>
              subset_loop (Z.to_nat limit) alpha (countdown k) l)
       end.
(** TopKnapsack.cpp:1261-1269 findGCDs: sizes N+1, N, ..., N+1-k ([n] sizes from [i]). *)
Fixpoint gcds_sizes (n i : nat) (alpha : list Z) (l : list mpair) : outcome (list mpair) :=
  match n with O => Ok l | S n' => bind (gcds_subsets alpha (length alpha - i) l) (fun l' => gcds_sizes n' (S i) alpha l') end.
Definition find_gcds (by_subsets : bool) (alpha : list Z) (k : nat) : outcome (list mpair) :=
  if by_subsets then gcds_sizes (k + 1) 0 alpha [] else gcds_entire alpha (Z.of_nat k) [].
