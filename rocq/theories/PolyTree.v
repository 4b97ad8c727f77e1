(** Model of code/latte/PolyTree.cpp / PolyTree.h: expression trees for generating functions,
    their cached truncated power series, and the node pool.
    Nodes are numbers; [nodes] gives each node's contents, so that nodes may be shared.  ZZ is Z.
    Simplifications: the caller's result array is the returned list (every branch writes all of
    it); printing is not modelled; Degree_of_Expansion is a nat. *)
From Verif Require Import Common ZMat.
Open Scope Z_scope.

(** PolyTree.h:39-64, 78-93: T_Node, and PolyTree_Node by Node_Type.  [ch] are the children
    actually set; for EXP the exponent is Number_of_Children. *)
Inductive pnode :=
| PT (coef expo : Z)
| PAdd (ch : list nat)
| PMul (ch : list nat)
| PDiv (ch : list nat)
| PExp (ch : list nat) (e : Z).
(** PolyTree.h:60-63: Taylor_Expansion_Result_Dirty and the result array. *)
Record cell := mkCell { dirty : bool; cached : list Z }.

(** PolyTree.cpp:228-235, 377-384: multiply in place, from the top coefficient down. *)
Definition mul_step (tmp r : list Z) (j : nat) : list Z :=
  upd r j (nth j r 0 * nth 0 tmp 0 + zsum j (fun k => nth (S k) tmp 0 * nth (j - S k) r 0)).
Definition mul_inplace (deg : nat) (r tmp : list Z) : list Z := fold_left (mul_step tmp) (rev (seq 0 (deg + 1))) r.
(** PolyTree.cpp:358-373: square in place. *)
Definition square_step (r : list Z) (j : nat) : list Z :=
  match j with
  | O => upd r 0 (nth 0 r 0 * nth 0 r 0)
  | S _ => upd r j (nth j r 0 * (2 * nth 0 r 0) + zsum (j - 1) (fun k => nth (S k) r 0 * nth (j - S k) r 0))
  end.
Definition square_inplace (deg : nat) (r : list Z) : list Z := fold_left square_step (rev (seq 0 (deg + 1))) r.
(** PolyTree.cpp:336-337: position of the highest set bit, searching from bit [k-1] downwards;
    with exponent 0 the mask becomes 0 and the loop never ends. *)
Fixpoint top_bit (k : nat) (e : Z) : outcome nat :=
  match k with O => Err OutOfFuel | S k' => if Z.testbit e (Z.of_nat k') then Ok k' else top_bit k' e end.
(** PolyTree.cpp:354-388: for the bits below the highest one. *)
Fixpoint pow_loop (m : nat) (deg : nat) (e : Z) (tmp r : list Z) : list Z :=
  match m with
  | O => r
  | S m' => let r1 := square_inplace deg r in
            pow_loop m' deg e tmp (if Z.testbit e (Z.of_nat m') then mul_inplace deg r1 tmp else r1)
  end.
(** PolyTree.cpp:280-291: one coefficient of the quotient (before scaling). *)
Fixpoint div_inner (j cnt : nat) (k : nat) (b res : list Z) (bz acc : Z) : Z * Z :=
  match cnt with
  | O => (acc, bz)
  | S cnt' => div_inner (S j) cnt' k b res (bz * nth 0 b 0) (acc - nth j b 0 * nth (k - j) res 0 * bz)
  end.
Definition div_coef (k : nat) (a b res : list Z) : Z := let '(acc, bz) := div_inner 1 k k b res 1 0 in acc + bz * nth k a 0.
Fixpoint div_loop (cnt k : nat) (a b res : list Z) : list Z :=
  match cnt with O => res | S cnt' => div_loop cnt' (S k) a b (res ++ [div_coef k a b res]) end.
(** PolyTree.cpp:293-303: scale and divide (NTL division rounds down). *)
Fixpoint div_scale (ten b0 bz : Z) (res : list Z) : list Z :=
  match res with [] => [] | r :: res' => r * ten / bz :: div_scale ten b0 (bz * b0) res' end.
Definition div_series (deg : nat) (ten : Z) (a b : list Z) : outcome (list Z) :=
  let b0 := nth 0 b 0 in
  if b0 =? 0 then Err DivByZero else Ok (div_scale ten b0 b0 (div_loop deg 1 a b [nth 0 a 0])).
(** PolyTree.cpp:415-436 T_Node::Taylor_Expansion *)
Definition t_series (deg : nat) (c e : Z) : outcome (list Z) :=
  if e <? 0 then Err Exited
  else Ok (if e <=? Z.of_nat deg then upd (repeat 0 (deg + 1)) (Z.to_nat e) c else repeat 0 (deg + 1)).
(** PolyTree.cpp:402-411: store the result and clear the dirty flag; the array has as many
    entries as the pool allocated. *)
Fixpoint overwrite (old new : list Z) : outcome (list Z) :=
  match new, old with
  | [], _ => Ok old
  | _ :: _, [] => Err OutOfBounds
  | x :: new', _ :: old' => bind (overwrite old' new') (fun l => Ok (x :: l))
  end.
Definition store (st : list cell) (id : nat) (r : list Z) : outcome (list cell) :=
  match nth_error st id with
  | None => Err OutOfBounds
  | Some c => bind (overwrite (cached c) r) (fun l => Ok (upd st id (mkCell false l)))
  end.
Fixpoint add_lists (a b : list Z) : list Z := match a, b with x :: a', y :: b' => (x + y) :: add_lists a' b' | _, _ => a end.

Section expand.
Variable nodes : list pnode.
Variable deg : nat.
Variable ten : Z.
(** Loops over the children: PolyTree.cpp:160-169 (sum) and 224-238 (product). *)
Fixpoint add_children (ex : list cell -> nat -> outcome (list Z * list cell)) (st : list cell) (acc : list Z) (ch : list nat) : outcome (list Z * list cell) :=
  match ch with [] => Ok (acc, st) | c :: ch' => bind (ex st c) (fun p => add_children ex (snd p) (add_lists acc (fst p)) ch') end.
Fixpoint mul_children (ex : list cell -> nat -> outcome (list Z * list cell)) (st : list cell) (acc : list Z) (ch : list nat) : outcome (list Z * list cell) :=
  match ch with [] => Ok (acc, st) | c :: ch' => bind (ex st c) (fun p => mul_children ex (snd p) (mul_inplace deg acc (fst p)) ch') end.
(** PolyTree.cpp:131-412 Taylor_Expansion (virtual; 415-450 for T_Node). *)
Fixpoint expand (fuel : nat) (st : list cell) (id : nat) {struct fuel} : outcome (list Z * list cell) :=
  match fuel with
  | O => Err OutOfFuel
  | S fuel' =>
      match nth_error nodes id with
      | None => Err NullDeref
      | Some (PT c e) => bind (t_series deg c e) (fun r => Ok (r, st))
      | Some nd =>
          match nth_error st id with
          | None => Err NullDeref
          | Some ce =>
              if negb (dirty ce) then
                (if (length (cached ce) <=? deg)%nat then Err OutOfBounds else Ok (firstn (deg + 1) (cached ce), st))
              else
                bind (match nd with
                      | PT c e => Err NullDeref
                      | PAdd ch => add_children (expand fuel') st (repeat 0 (deg + 1)) ch
                      | PMul ch => match ch with
                                   | [] => Err NullDeref
                                   | c :: ch' => bind (expand fuel' st c) (fun p => mul_children (expand fuel') (snd p) (fst p) ch')
                                   end
                      | PDiv ch => match ch with
                                   | a :: b :: _ => bind (expand fuel' st a) (fun pa => bind (expand fuel' (snd pa) b) (fun pb =>
                                                    bind (div_series deg ten (fst pa) (fst pb)) (fun r => Ok (r, snd pb))))
                                   | _ => Err NullDeref
                                   end
                      | PExp ch e => match ch with
                                     | [] => Err NullDeref
                                     | c :: _ => bind (top_bit 32 e) (fun tb => bind (expand fuel' st c) (fun p => Ok (pow_loop tb deg e (fst p) (fst p), snd p)))
                                     end
                      end)
                     (fun p => bind (store (snd p) id (fst p)) (fun st' => Ok (fst p, st')))
          end
      end
  end.
End expand.

(** The node pool (PolyTree.cpp:517-625): nodes 0, 1, 2, ... in the order of allocation.
    [pused] is the position of PolyTree_Node_Unused; the last node allocated is never the one
    handed out without a successor being appended. *)
Record pool := mkPool { pcells : list cell; pused : nat }.
Definition new_cell (degree : nat) : cell := mkCell true (repeat 0 (degree + 1)).
(** PolyTree.cpp:517-546 *)
Definition pool_new (degree : nat) : pool := mkPool [new_cell degree] 0.
(** PolyTree.cpp:548-581 Get_PolyTree_Node *)
Definition pool_get (degree : nat) (p : pool) : outcome (nat * pool) :=
  match nth_error (pcells p) (pused p) with
  | None => Err NullDeref
  | Some c =>
      let cells := upd (pcells p) (pused p) (mkCell true (cached c)) in
      if (S (pused p) <? length cells)%nat then Ok (pused p, mkPool cells (S (pused p)))
      else Ok (pused p, mkPool (cells ++ [new_cell degree]) (S (pused p)))
  end.
(** PolyTree.cpp:619-625 Reset *)
Definition pool_reset (p : pool) : pool := mkPool (pcells p) 0.
