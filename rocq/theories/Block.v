(** Model of the block representation of polynomials: _insertMonomial and
    _insertLinForm (code/latte/integration/blockReps.h:55-204), the block
    iterators (code/latte/integration/iterators.hpp:149-317) and the
    block-representation product (code/latte/integration/multiply.h:94-135).
    Coefficients are of an arbitrary type [T] with addition. A block is the pair of
    an eBlock (exponent array of varCount * BLOCK_SIZE ints) and the cBlock with
    the same position in its own list (both lists are extended and walked in step).
    A pointer to a block is its position in the list. *)
From Verif Require Import Common.
Open Scope Z_scope.

(** blockReps.h:11 *)
Definition BLOCK_SIZE : nat := 64.

Section Block.
Context {T : Type}.
Variable tadd : T -> T -> T.
Variable tmul : T -> T -> T.
Variable tdef : T.                     (* value of a default-constructed coefficient *)
Variable B : nat.                      (* BLOCK_SIZE; the theorems hold for every positive size *)

Notation block := (list Z * list T)%type.
(** blockReps.h:38-43 struct _monomialSum *)
Record bsum := mkB { b_terms : nat; b_vars : nat; b_blocks : list block }.
Definition new_bsum (v : nat) : bsum := mkB 0 v [].
(** blockReps.h:99-100, 115-116: a new block; the int array is uninitialised
    (modelled by zeros, never read before being written). *)
Definition new_block (v : nat) : block := (repeat 0 (v * B), repeat tdef B).

(** blockReps.h:76-81: compare data[base + j] with exponents[j] for all j. *)
Fixpoint match_at (data : list Z) (base : nat) (exps : list Z) : outcome bool :=
  match exps with
  | [] => Ok true
  | x :: exps' =>
      match nth_error data base with
      | None => Err OutOfBounds
      | Some y => if y =? x then match_at data (S base) exps' else Ok false
      end
  end.
(** blockReps.h:102-105, 117-120: data[base + j] = exponents[j]. *)
Fixpoint write_at (data : list Z) (base : nat) (exps : list Z) : outcome (list Z) :=
  match exps with
  | [] => Ok data
  | x :: exps' =>
      if (base <? length data)%nat then write_at (upd data base x) (S base) exps' else Err OutOfBounds
  end.

(** blockReps.h:68-90: the search loop, from index [i] with block pointer [p],
    [k] indices left; the result is the final pointer and the index found. *)
Fixpoint search (k i p : nat) (v : nat) (bs : list block) (exps : list Z) : outcome (nat * option nat) :=
  match k with
  | O => Ok (p, None)
  | S k' =>
      let p' := if (0 <? i)%nat && (i mod B =? 0)%nat then S p else p in
      match nth_error bs p' with
      | None => Err NullDeref
      | Some b =>
          bind (match_at (fst b) ((i mod B) * v) exps) (fun found =>
          if found then Ok (p', Some i) else search k' (S i) p' v bs exps)
      end
  end.

Definition store_term (m : bsum) (bs : list block) (p : nat) (c : T) (exps : list Z) : outcome bsum :=
  match nth_error bs p with
  | None => Err NullDeref
  | Some b =>
      let o := (b_terms m mod B)%nat in
      bind (write_at (fst b) (o * b_vars m) exps) (fun d =>
      if (o <? length (snd b))%nat then Ok (mkB (S (b_terms m)) (b_vars m) (upd bs p (d, upd (snd b) o c))) else Err OutOfBounds)
  end.

(** blockReps.h:55-125 _insertMonomial. *)
Definition block_insert (m : bsum) (c : T) (exps : list Z) : outcome bsum :=
  if (0 <? b_terms m)%nat then
    bind (search (b_terms m) 0 0 (b_vars m) (b_blocks m) exps) (fun r =>
    let '(p, f) := r in
    match f with
    | None =>
        if (b_terms m mod B =? 0)%nat then
          (* myExps->next = malloc: the new block follows block p *)
          store_term m (firstn (S p) (b_blocks m) ++ [new_block (b_vars m)]) (S p) c exps
        else store_term m (b_blocks m) p c exps
    | Some i =>
        match nth_error (b_blocks m) p with
        | None => Err NullDeref
        | Some b =>
            match nth_error (snd b) (i mod B)%nat with
            | None => Err OutOfBounds
            | Some c0 => Ok (mkB (b_terms m) (b_vars m) (upd (b_blocks m) p (fst b, upd (snd b) (i mod B)%nat (tadd c0 c))))
            end
        end
    end)
  else store_term m [new_block (b_vars m)] 0 c exps.

Fixpoint block_insert_all (l : list (T * list Z)) (m : bsum) : outcome bsum :=
  match l with [] => Ok m | (c, x) :: l' => bind (block_insert m c x) (fun m' => block_insert_all l' m') end.

(** iterators.hpp:149-232 MBlockIterator: termIndex, blockIndex and the pointer
    shared by curCoeff / curExp. *)
Record biter := mkBI { bi_term : nat; bi_block : nat; bi_ptr : nat }.
Definition bi_begin : biter := mkBI 0 0 0.
Fixpoint read_at (data : list Z) (base k : nat) : outcome (list Z) :=
  match k with
  | O => Ok []
  | S k' => match nth_error data base with
            | None => Err OutOfBounds
            | Some y => bind (read_at data (S base) k') (fun r => Ok (y :: r))
            end
  end.
(** iterators.hpp:180-205 nextTerm; the recursive call happens at most once
    per term, [fuel] = 2 is enough for a positive block size. *)
Fixpoint bi_next (fuel : nat) (m : bsum) (it : biter) : outcome (biter * option (T * list Z)) :=
  match fuel with
  | O => Err OutOfFuel
  | S fuel' =>
    match nth_error (b_blocks m) (bi_ptr it) with
    | None => Ok (it, None)                                  (* curCoeff or curExp NULL *)
    | Some b =>
        if (bi_term it =? b_terms m)%nat then Ok (it, None)
        else if (bi_block it <? B)%nat then
          match nth_error (snd b) (bi_block it) with
          | None => Err OutOfBounds
          | Some c =>
              bind (read_at (fst b) (b_vars m * bi_block it) (b_vars m)) (fun x =>
              Ok (mkBI (S (bi_term it)) (S (bi_block it)) (bi_ptr it), Some (c, x)))
          end
        else bi_next fuel' m (mkBI (bi_term it) 0 (S (bi_ptr it)))
    end
  end.
Fixpoint bi_drain (n : nat) (m : bsum) (it : biter) : outcome (list (T * list Z)) :=
  match n with
  | O => Err OutOfFuel
  | S n' => bind (bi_next 2 m it) (fun r => let '(it', o) := r in
      match o with None => Ok [] | Some t => bind (bi_drain n' m it') (fun l => Ok (t :: l)) end)
  end.
Definition block_terms (m : bsum) : outcome (list (T * list Z)) := bi_drain (S (b_terms m)) m bi_begin.

(** multiply.h:94-135, block version.  [l1], [l2] are what the two iterators
    deliver from their beginnings.  Lines 103-104 fetch the first terms, the inner
    loop (109-127) runs while secondTerm is not NULL, and after "it2->begin()"
    (line 128) secondTerm is not fetched again: it is still NULL.
    [second] is the list of terms from secondTerm on. *)
Fixpoint box_sum (a b mn mx : list Z) : option (list Z) :=
  match a, b, mn, mx with
  | x :: a', y :: b', l :: mn', h :: mx' =>
      if (x + y <? l) || (h <? x + y) then None
      else match box_sum a' b' mn' mx' with Some r => Some (x + y :: r) | None => None end
  | _, _, _, _ => Some []
  end.
Fixpoint bmul_inner (a : T * list Z) (second : list (T * list Z)) (mn mx : list Z) (m : bsum) : outcome bsum :=
  match second with
  | [] => Ok m
  | b :: second' =>
      bind (match box_sum (snd a) (snd b) mn mx with
            | Some x => block_insert m (tmul (fst a) (fst b)) x
            | None => Ok m
            end) (fun m' => bmul_inner a second' mn mx m')
  end.
Fixpoint bmul_outer (first : list (T * list Z)) (second : list (T * list Z)) (mn mx : list Z) (m : bsum) : outcome bsum :=
  match first with
  | [] => Ok m
  | a :: first' => bind (bmul_inner a second mn mx m) (fun m' => bmul_outer first' [] mn mx m')
  end.
Definition block_multiply (l1 l2 : list (T * list Z)) (mn mx : list Z) (m : bsum) : outcome bsum := bmul_outer l1 l2 mn mx m.

End Block.
Arguments bsum T : clear implicits.
