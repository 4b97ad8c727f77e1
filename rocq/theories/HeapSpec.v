(** A priority queue, independent of the heap: the stored entries as a list whose
    first element is the current top; the order of the others is immaterial. *)
From Coq Require Import Permutation.
From Verif Require Import Common Heap.

Section Spec.
Context {W D : Type}.
Variable cmp : W -> W -> Z.

(** [cmp] is a strcmp-style comparison of a total preorder. *)
Definition total_preorder : Prop :=
  (forall a b, (0 < cmp a b)%Z <-> (cmp b a < 0)%Z) /\
  (forall a b c, (cmp a b <= 0)%Z -> (cmp b c <= 0)%Z -> (cmp a c <= 0)%Z).

Record pq := mkPQ { items : list (W * D); accumulating : bool }.

(** the first entry has a least weight *)
Definition first_is_least (l : list (W * D)) : Prop :=
  match l with [] => True | t :: rest => forall e, In e rest -> (cmp (fst t) (fst e) <= 0)%Z end.

(** [pq_step cap s o r s']: call [o] in state [s] is legal, returns [r] and may
    lead to [s']. *)
Inductive pq_step (cap : nat) : pq -> hop W D -> hout D -> pq -> Prop :=
| PInsert l e l' : length l < cap -> Permutation l' (e :: l) -> first_is_least l' ->
    pq_step cap (mkPQ l false) (HInsert e) RNone (mkPQ l' false)
| PInsertFrozen l e : length l < cap ->
    pq_step cap (mkPQ l true) (HInsert e) RNone (mkPQ (l ++ [e]) true)
| PPop t rest l' : Permutation l' rest -> first_is_least l' ->
    pq_step cap (mkPQ (t :: rest) false) HPop (RData (snd t)) (mkPQ l' false)
| PTop t rest :
    pq_step cap (mkPQ (t :: rest) false) HTop (RData (snd t)) (mkPQ (t :: rest) false)
| PChange t rest w l' : Permutation l' ((w, snd t) :: rest) -> first_is_least l' ->
    pq_step cap (mkPQ (t :: rest) false) (HChangeTop w) RNone (mkPQ l' false)
| PChangeFrozen t rest w :
    pq_step cap (mkPQ (t :: rest) true) (HChangeTop w) RNone (mkPQ ((w, snd t) :: rest) true)
| PFreeze l : pq_step cap (mkPQ l false) HFreeze RNone (mkPQ l true)
| PThaw l l' : Permutation l' l -> first_is_least l' ->
    pq_step cap (mkPQ l true) HThaw RNone (mkPQ l' false)
| PClear l f : pq_step cap (mkPQ l f) HClear RNone (mkPQ [] f)
| PNum l f : pq_step cap (mkPQ l f) HNumFill (RNum (length l)) (mkPQ l f).

Inductive pq_run (cap : nat) : pq -> list (hop W D) -> list (hout D) -> pq -> Prop :=
| PRnil s : pq_run cap s [] [] s
| PRcons s o r s1 p rs s2 : pq_step cap s o r s1 -> pq_run cap s1 p rs s2 ->
    pq_run cap s (o :: p) (r :: rs) s2.

(** The call is refused (assertion) exactly in these cases. *)
Definition refused (cap : nat) (s : pq) (o : hop W D) : Prop :=
  match o with
  | HInsert _ => cap <= length (items s)
  | HPop | HTop => items s = [] \/ accumulating s = true
  | HChangeTop _ => items s = []
  | HFreeze => accumulating s = true
  | HThaw => accumulating s = false
  | HClear | HNumFill => False
  end.

(** Sorted by weight. *)
Fixpoint ascending (l : list (W * D)) : Prop :=
  match l with [] => True | t :: rest => first_is_least l /\ ascending rest end.
End Spec.
