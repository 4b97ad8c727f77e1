(** Model of the burst trie that stores monomials and linear forms
    (code/latte/integration/burstTrie.hpp), of its iterator
    (code/latte/integration/iterators.hpp:1-147) and of the clients
    insertMonomial / insertLinForm (code/latte/integration/PolyTrie.cpp:82-109,
    230-258), multiply (code/latte/integration/multiply.h:35-91) and class
    GeneralMonomialSum (code/latte/integration/GeneralMonomialSum.h).

    The templates are modelled once for an arbitrary coefficient type [T] with an
    in-place addition [tadd] (operator+=) and a zero test [tzero] (operator==(0));
    the exponent type S (int, ZZ) is Z.  Pointers to list nodes are the list
    suffix starting at the node, NULL is the empty suffix. *)
From Verif Require Import Common.
Open Scope Z_scope.

Section Trie.
Context {T : Type}.
Variable tadd : T -> T -> T.
Variable tzero : T -> bool.

(** burstTrie.hpp:17-85 class BurstTerm (length is [length t_exps]). *)
Record bterm := mkTerm { t_coef : T; t_exps : list Z; t_deg : Z }.

(** burstTrie.hpp:5-11 struct trieElem, 88-201 BurstContainer (termCount is the
    length of the list: it is incremented exactly when a node is linked in, lines
    129, 140, 173), 203-354 BurstTrie: [range] is NULL or range[0], range[1]. *)
Inductive elem :=
| ETrie (t : trie)
| ECont (c : list bterm)
with trie :=
| BT (range : option (Z * Z)) (elems : list elem).

(** burstTrie.hpp:26-38: the constructor copies the exponents from [start] on. *)
Definition new_term (c : T) (exps : list Z) (start : nat) (deg : Z) : bterm :=
  mkTerm c (skipn start exps) deg.

(** burstTrie.hpp:50-77 BurstTerm::lessThan; the result and the reference
    parameter [equal]. *)
Fixpoint exps_less (a b : list Z) : outcome (bool * bool) :=
  match a, b with
  | x :: a', y :: b' =>
      if x <? y then Ok (true, false)
      else if y <? x then Ok (false, false)
      else exps_less a' b'
  | [], [] => Ok (false, true)
  | _, _ => Err AssertFail
  end.
Definition less_than (a b : bterm) : outcome (bool * bool) :=
  if t_deg a <? t_deg b then Ok (true, false)
  else if t_deg b <? t_deg a then Ok (false, false)
  else exps_less (t_exps a) (t_exps b).

(** burstTrie.hpp:151-173: the search loop of BurstContainer::insertTerm from
    [cur] on, and the linking.  (At the first node the loop's comparison is
    firstTerm < newTerm, which is what is left after lines 136-149.) *)
Fixpoint cont_loop (nt : bterm) (cur : list bterm) : outcome (list bterm) :=
  match cur with
  | [] => Ok [nt]
  | t :: cur' =>
      bind (less_than t nt) (fun r =>
        if fst r then bind (cont_loop nt cur') (fun l => Ok (t :: l))
        else if snd r then Ok (mkTerm (tadd (t_coef t) (t_coef nt)) (t_exps t) (t_deg t) :: cur')
        else Ok (nt :: t :: cur'))
  end.

(** burstTrie.hpp:121-174 BurstContainer::insertTerm. *)
Definition cont_insert (c : T) (exps : list Z) (start : nat) (deg : Z) (l : list bterm) : outcome (list bterm) :=
  let nt := new_term c exps start deg in
  match l with
  | [] => Ok [nt]
  | f :: l' =>
      bind (less_than nt f) (fun r =>
        if fst r then Ok (nt :: f :: l')
        else if snd r then Ok (mkTerm (tadd (t_coef f) (t_coef nt)) (t_exps f) (t_deg f) :: l')
        else cont_loop nt l)
  end.

(** burstTrie.hpp:309-350 checkRange on a non-NULL range. *)
Definition check_range (lo hi : Z) (es : list elem) (v : Z) : (Z * Z) * list elem :=
  if v <? lo then ((v, hi), ECont [] :: repeat (ECont []) (Z.to_nat (lo - (v + 1))) ++ es)
  else if hi <? v then ((lo, v), es ++ repeat (ECont []) (Z.to_nat (v - hi)))
  else ((lo, hi), es).

(** burstTrie.h:9 *)
Definition BURST_MAX : nat := 2.

Fixpoint fold_out {A B} (f : B -> A -> outcome B) (l : list A) (b : B) : outcome B :=
  match l with [] => Ok b | a :: l' => bind (f b a) (fun b' => fold_out f l' b') end.

(** burstTrie.hpp:250-307 BurstTrie::insertTerm (with burst, 176-188, inlined:
    the terms of the container are inserted with start 0 into a new trie).
    [fuel] bounds the recursion depth; [length exps - start] is enough. *)
Fixpoint trie_insert (fuel : nat) (t : trie) (c : T) (exps : list Z) (start : nat) (deg : Z) {struct fuel} : outcome trie :=
  match fuel with
  | O => Err OutOfFuel
  | S fuel' =>
    if (length exps =? 0)%nat then Err AssertFail
    else match nth_error exps start with
    | None => Err OutOfBounds
    | Some v =>
      let '(BT rng es) := t in
      let '(r, es1) :=
        match rng with
        | None => let v0 := nth 0 exps 0 in ((v0, v0), [ECont []])   (* newExps[0], line 263 *)
        | Some (lo, hi) => check_range lo hi es v
        end in
      let i := Z.to_nat (v - fst r) in
      match nth_error es1 i with
      | None => Err NullDeref
      | Some (ETrie sub) =>
          bind (trie_insert fuel' sub c exps (S start) deg) (fun sub' =>
          Ok (BT (Some r) (upd es1 i (ETrie sub'))))
      | Some (ECont l) =>
          if ((length l =? BURST_MAX) && (1 <? length exps - start))%nat then
            bind (fold_out (fun tr tm => trie_insert fuel' tr (t_coef tm) (t_exps tm) 0 (t_deg tm)) l (BT None [])) (fun nt =>
            bind (trie_insert fuel' nt c exps (S start) deg) (fun nt' =>
            Ok (BT (Some r) (upd es1 i (ETrie nt')))))
          else
            bind (cont_insert c exps (S start) deg l) (fun l' =>
            Ok (BT (Some r) (upd es1 i (ECont l'))))
      end
    end
  end.

Definition empty_trie : trie := BT None [].
Definition insert_term (t : trie) (c : T) (exps : list Z) (deg : Z) : outcome trie :=
  trie_insert (length exps) t c exps 0 deg.

(** ** The iterator: iterators.hpp:1-147 *)

(** members of BTrieIterator; [it_depth] is curDepth + 1 (begin sets curDepth = -1);
    curTerm.exps and triePath are arrays of [dimension] entries. *)
Record iter := mkIter { it_depth : nat; it_path : list (list elem); it_exps : list Z; it_stored : list bterm }.

(** iterators.hpp:13-28 setTrie + begin (the arrays start uninitialised: modelled
    by empty suffixes and zeros, never read before being written). *)
Definition it_begin (dim : nat) : iter := mkIter 0 (repeat [] dim) (repeat 0 dim) [].

(** iterators.hpp:41-63: skip empty containers, counting the exponent up. *)
Fixpoint skip_empty (e : Z) (l : list elem) : Z * list elem :=
  match l with
  | ECont [] :: l' => skip_empty (e + 1) l'
  | _ => (e, l)
  end.

(** iterators.hpp:80-97 firstContainer, starting from the element whose list
    suffix has just been stored in triePath[curDepth]. *)
Fixpoint first_container (depth : nat) (path : list (list elem)) (exps : list Z) (e : elem) {struct e}
  : outcome (nat * list (list elem) * list Z * list bterm) :=
  match e with
  | ECont l => Ok (depth, path, exps, l)
  | ETrie (BT rng es) =>
      if (length path <=? depth)%nat then Err OutOfBounds else
      match rng with
      | None => Err NullDeref
      | Some (lo, _) =>
          match es with
          | [] => Err NullDeref
          | e' :: _ => first_container (S depth) (upd path depth es) (upd exps depth lo) e'
          end
      end
  end.

(** iterators.hpp:30-78 nextContainer; the recursion goes one level up each time.
    The depth argument is curDepth + 1; [None]: NULL was returned. *)
Fixpoint next_container (t : trie) (depth : nat) (path : list (list elem)) (exps : list Z) {struct depth}
  : outcome (nat * list (list elem) * list Z * option (list bterm)) :=
  let found d p x e := bind (first_container d p x e) (fun r => let '(d', p', x', l) := r in Ok (d', p', x', Some l)) in
  match depth with
  | O =>
      let '(BT rng es) := t in
      match rng with
      | None => Err NullDeref
      | Some (lo, _) =>
          match path with
          | [] => Err OutOfBounds
          | _ :: _ =>
              let path' := upd path 0 es in
              let exps' := upd exps 0 lo in
              match es with
              | [] => Ok (1%nat, path', exps', None)
              | e :: _ => found 1%nat path' exps' e
              end
          end
      end
  | S d =>
      match nth d path [] with
      | [] => Err NullDeref                       (* triePath[curDepth]->next with NULL *)
      | _ :: nx =>
          let '(v, l) := skip_empty (nth d exps 0 + 1) nx in
          let path' := upd path d l in
          let exps' := upd exps d v in
          match l with
          | e :: _ => found (S d) path' exps' e
          | [] =>
              match d with
              | O => Ok (1%nat, path', exps', None)
              | S _ => next_container t d path' exps'
              end
          end
      end
  end.

(** iterators.hpp:99-133 nextTerm: writes the tail of the exponents, returns the
    term, or skips it (recursively) if its coefficient is zero.  [None]: NULL. *)
Fixpoint next_term (fuel : nat) (t : trie) (it : iter) : outcome (iter * option bterm) :=
  match fuel with
  | O => Err OutOfFuel
  | S fuel' =>
    bind
      (match it_stored it with
       | _ :: _ => Ok (it_depth it, it_path it, it_exps it, Some (it_stored it))
       | [] => next_container t (it_depth it) (it_path it) (it_exps it)
       end)
      (fun r => let '(d, p, x, o) := r in
        match o with
        | None => Ok (mkIter d p x [], None)
        | Some [] => Err NullDeref               (* storedTerm NULL is dereferenced *)
        | Some (tm :: rest) =>
            if (length (t_exps tm) =? length x - d)%nat then
              let x' := firstn d x ++ t_exps tm in
              let it' := mkIter d p x' rest in
              if tzero (t_coef tm) then next_term fuel' t it'
              else Ok (it', Some (mkTerm (t_coef tm) x' (t_deg tm)))
            else Err OutOfBounds
        end)
  end.

(** A client loop "while (temp = it->nextTerm()) ...": all terms delivered from
    the state [it] on, and the final state. *)
Fixpoint drain (n fuel : nat) (t : trie) (it : iter) : outcome (list bterm) :=
  match n with
  | O => Err OutOfFuel
  | S n' =>
      bind (next_term fuel t it) (fun r => let '(it', o) := r in
        match o with
        | None => Ok []
        | Some tm => bind (drain n' fuel t it') (fun l => Ok (tm :: l))
        end)
  end.

(** Number of stored terms: a bound for the loops above. *)
Fixpoint elem_terms (e : elem) : nat :=
  match e with
  | ECont l => length l
  | ETrie (BT _ es) => fold_right (fun e n => (elem_terms e + n)%nat) O es
  end.
Definition trie_terms (t : trie) : nat :=
  elem_terms (ETrie t).
Definition iterate (t : trie) (dim : nat) : outcome (list bterm) :=
  drain (S (trie_terms t)) (S (trie_terms t)) t (it_begin dim).

(** ** Clients *)

(** PolyTrie.cpp:82-109 insertMonomial / 230-258 insertLinForm (degree -1 for
    monomials) and GeneralMonomialSum.h:186-203: a zero coefficient is ignored, a
    new trie is created when termCount is 0, termCount counts insertions.
    [ms_trie = None] is the NULL pointer. *)
Record msum := mkSum { ms_terms : nat; ms_vars : nat; ms_trie : option trie }.
Definition new_sum (vars : nat) : msum := mkSum 0 vars None.
Definition insert_form (m : msum) (c : T) (deg : Z) (exps : list Z) : outcome msum :=
  if tzero c then Ok m else
  let t := if (ms_terms m =? 0)%nat then Some empty_trie else ms_trie m in
  match t with
  | None => Err NullDeref
  | Some tr => bind (insert_term tr c exps deg) (fun tr' => Ok (mkSum (S (ms_terms m)) (ms_vars m) (Some tr')))
  end.
Definition insert_monomial (m : msum) (c : T) (exps : list Z) : outcome msum := insert_form m c (-1) exps.

(** The loop of a client that inserts several terms, then iterates
    (PolyTrie.cpp:113-144 printMonomials, newIntegration.cpp, ...): with a NULL
    trie pointer the iteration dereferences NULL. *)
Definition insert_all (l : list (T * Z * list Z)) (m : msum) : outcome msum :=
  fold_out (fun m x => insert_form m (fst (fst x)) (snd (fst x)) (snd x)) l m.
Definition sum_terms (m : msum) : outcome (list bterm) :=
  match ms_trie m with None => Err NullDeref | Some t => iterate t (ms_vars m) end.

Variable tmul : T -> T -> T.

(** multiply.h:50-61: one exponent vector; [None]: the box test failed (break). *)
Fixpoint add_in_box (a b mn mx : list Z) : option (list Z) :=
  match a, b, mn, mx with
  | x :: a', y :: b', l :: mn', h :: mx' =>
      if (x + y <? l) || (h <? x + y) then None
      else match add_in_box a' b' mn' mx' with Some r => Some (x + y :: r) | None => None end
  | _, _, _, _ => Some []
  end.

(** multiply.h:35-66 multiply(it, it2, result, min, max): both factors are read
    through iterators over tries, every pair of terms is combined. The iterators
    deliver the lists [l1], [l2]. *)
Definition mul_row (a : bterm) (l2 : list bterm) (mn mx : list Z) (t : trie) : outcome trie :=
  fold_out (fun t b =>
    match add_in_box (t_exps a) (t_exps b) mn mx with
    | None => Ok t
    | Some x => insert_term t (tmul (t_coef a) (t_coef b)) x (-1)
    end) l2 t.
Definition mul_lists (l1 l2 : list bterm) (mn mx : list Z) : outcome trie :=
  fold_out (fun t a => mul_row a l2 mn mx t) l1 empty_trie.
Definition trie_multiply (t1 t2 : trie) (dim : nat) (mn mx : list Z) : outcome trie :=
  bind (iterate t1 dim) (fun l1 =>
  match l1 with
  | [] => Ok empty_trie                      (* the inner loop never runs *)
  | _ => bind (iterate t2 dim) (fun l2 => mul_lists l1 l2 mn mx)
  end).

(** GeneralMonomialSum.h:67-121 multiply: zero factors (termCount 0) are special;
    otherwise termCount counts the inserted products and the trie pointer stays
    non-NULL even if nothing was inserted. *)
Fixpoint count_products (l1 l2 : list bterm) (mn mx : list Z) : nat :=
  match l1 with
  | [] => O
  | a :: l1' => (length (filter (fun b => match add_in_box (t_exps a) (t_exps b) mn mx with Some _ => true | None => false end) l2)
                 + count_products l1' l2 mn mx)%nat
  end.
Definition gms_multiply (m g : msum) (mn mx : list Z) : outcome msum :=
  if negb (ms_vars m =? ms_vars g)%nat then Err AssertFail
  else if (ms_terms m =? 0)%nat then Ok m
  else if (ms_terms g =? 0)%nat then Ok (mkSum 0 (ms_vars m) None)
  else bind (sum_terms m) (fun l1 => bind (match l1 with [] => Ok [] | _ => sum_terms g end) (fun l2 =>
       bind (mul_lists l1 l2 mn mx) (fun t =>
       Ok (mkSum (count_products l1 l2 mn mx) (ms_vars m) (Some t))))).

(** GeneralMonomialSum.h:152-178 add. *)
Definition gms_add (m g : msum) : outcome msum :=
  if negb (ms_vars m =? ms_vars g)%nat then Err AssertFail
  else if (ms_terms g =? 0)%nat then Ok m
  else
    let '(tr, cnt) := match ms_trie m with None => (empty_trie, O) | Some t => (t, ms_terms m) end in
    bind (sum_terms g) (fun l =>
    bind (fold_out (fun t tm => insert_term t (t_coef tm) (t_exps tm) (-1)) l tr) (fun tr' =>
    Ok (mkSum (cnt + length l) (ms_vars m) (Some tr')))).

End Trie.
Arguments bterm T : clear implicits.
Arguments elem T : clear implicits.
Arguments trie T : clear implicits.
Arguments msum T : clear implicits.
Arguments iter T : clear implicits.

(** ** Instance: coefficients are RationalNTL *)
From Verif Require Import Rational.
(** rational.cpp:253-256 operator+= (via 225-239) on distinct objects; see
    [Rational.add_ref]. *)
Definition rat_add (a b : rat) : rat :=
  canonicalize (mkRat (num a * den b + num b * den a) (den a * den b)).
(** rational.cpp:418-432 operator==(0). *)
Definition rat_zero (a : rat) : bool := rat_eqb_z a 0.

(** Client programs over GeneralMonomialSum<RationalNTL,int> objects. *)
Inductive gop :=
| GInsert (i : nat) (c : rat) (x : list Z)      (* m_i.insertMonomial(c, x)         *)
| GAdd (i j : nat)                              (* m_i.add(m_j), i and j different  *)
| GMul (i j : nat) (mn mx : list Z).            (* m_i.multiply(m_j, min, max)      *)
Definition gstore := nat -> msum rat.
Definition gset (s : gstore) i m : gstore := fun k => if Nat.eqb k i then m else s k.
Definition gstep (s : gstore) (o : gop) : outcome gstore :=
  match o with
  | GInsert i c x => bind (insert_monomial rat_add rat_zero (s i) c x) (fun m => Ok (gset s i m))
  | GAdd i j => bind (gms_add rat_add rat_zero (s i) (s j)) (fun m => Ok (gset s i m))
  | GMul i j mn mx => bind (gms_multiply rat_add rat_zero rat_mul_fun (s i) (s j) mn mx) (fun m => Ok (gset s i m))
  end.
Fixpoint grun (s : gstore) (p : list gop) : outcome gstore :=
  match p with [] => Ok s | o :: p' => bind (gstep s o) (fun s' => grun s' p') end.
