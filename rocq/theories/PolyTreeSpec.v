(** What a generating-function tree denotes, independent of caching and truncation. *)
From Coq Require Import QArith.
From Verif Require Import Common ZMat Series PolyTree.
Open Scope Z_scope.

(** Integer power series. *)
Definition zser := nat -> Z.
Definition zadd (f g : zser) : zser := fun k => f k + g k.
Definition zmul (f g : zser) : zser := fun k => zsum (S k) (fun i => f i * g (k - i)%nat).
Definition zzero : zser := fun _ => 0.
Definition zone : zser := fun k => match k with O => 1 | _ => 0 end.
Fixpoint zpower (f : zser) (n : nat) : zser := match n with O => zone | S n' => zmul f (zpower f n') end.
Definition monomial (c e : Z) : zser := fun k => if Z.of_nat k =? e then c else 0.
Definition to_q (f : zser) : ser := fun k => inject_Z (f k).
(** q_k = floor (ten * c_k), where c is the power series quotient a / b. *)
Definition rounded_quotient (ten : Z) (a b q : zser) : Prop :=
  b O <> 0 /\ exists c : ser, (forall k, conv c (to_q b) k == to_q a k)%Q /\
    forall k, (inject_Z (q k) <= inject_Z ten * c k)%Q /\ (inject_Z ten * c k < inject_Z (q k + 1))%Q.

(** Node [id] denotes the series f (up to pointwise equality). *)
Inductive denotes (nodes : list pnode) (ten : Z) : nat -> zser -> Prop :=
| den_t id c e f : nth_error nodes id = Some (PT c e) -> 0 <= e -> (forall k, f k = monomial c e k) -> denotes nodes ten id f
| den_add id ch f : nth_error nodes id = Some (PAdd ch) -> den_sum nodes ten ch f -> denotes nodes ten id f
| den_mul id c ch f : nth_error nodes id = Some (PMul (c :: ch)) -> den_prod nodes ten (c :: ch) f -> denotes nodes ten id f
| den_div id a b ch fa fb f : nth_error nodes id = Some (PDiv (a :: b :: ch)) -> denotes nodes ten a fa -> denotes nodes ten b fb -> rounded_quotient ten fa fb f -> denotes nodes ten id f
| den_exp id c ch e fc f : nth_error nodes id = Some (PExp (c :: ch) e) -> 0 < e < 2 ^ 32 -> denotes nodes ten c fc -> (forall k, f k = zpower fc (Z.to_nat e) k) -> denotes nodes ten id f
with den_sum (nodes : list pnode) (ten : Z) : list nat -> zser -> Prop :=
| sum_nil f : (forall k, f k = 0) -> den_sum nodes ten [] f
| sum_cons c ch fc fr f : denotes nodes ten c fc -> den_sum nodes ten ch fr -> (forall k, f k = zadd fc fr k) -> den_sum nodes ten (c :: ch) f
with den_prod (nodes : list pnode) (ten : Z) : list nat -> zser -> Prop :=
| prod_nil f : (forall k, f k = zone k) -> den_prod nodes ten [] f
| prod_cons c ch fc fr f : denotes nodes ten c fc -> den_prod nodes ten ch fr -> (forall k, f k = zmul fc fr k) -> den_prod nodes ten (c :: ch) f.

(** The children of a node were created before it. *)
Definition children (nd : pnode) : list nat := match nd with PT _ _ => [] | PAdd l | PMul l | PDiv l => l | PExp l _ => l end.
Definition ordered (nodes : list pnode) : Prop := forall id nd c, nth_error nodes id = Some nd -> In c (children nd) -> (c < id)%nat.
(** The first n coefficients *)
Definition truncation (f : zser) (deg : nat) : list Z := map f (seq 0 (deg + 1)).
