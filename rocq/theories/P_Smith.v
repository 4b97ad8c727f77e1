(** Property theorems about SmithNormalFormIlio (C32). *)
From Verif Require Import Common ZMat Det Smith SmithSpec SmithProofs SmithProofs2 SmithProofs3.
Open Scope Z_scope.

(** C32, what holds for every non-singular matrix and every extended gcd meeting NTL's
    contract: the computation ends without a division by zero; the result is diagonal but
    possibly for one entry, (n-1, n-2); its diagonal is positive; when that entry is zero
    the result is diagonal and L A R = S with L, R invertible over the integers; and in
    every case the diagonal part of S equals L' A R for some invertible L' with the R
    returned.  Missing: the entry (n-1, n-2) need not be zero (next theorem). *)
Theorem smith_form_partial : forall xg n A, xgcd_contract xg -> (0 < n)%nat -> det n A <> 0 ->
  exists fuel S L R, (forall f, (fuel <= f)%nat -> smith f xg n A = Ok (S, L, R)) /\
  (forall i j, (i < n)%nat -> (j < n)%nat -> i <> j -> S i j = 0 \/ (i = n - 1 /\ j = n - 2)%nat) /\
  (forall i, (i < n)%nat -> 0 < S i i) /\
  (diagonal n S -> smith_transform n A S L R) /\
  exists L', smith_transform n A (fun i j => if (i =? j)%nat then S i j else 0) L' R.
Proof. exact smith_right. Qed.
Print Assumptions smith_form_partial.
(** The contract can be met, and a non-trivial matrix: *)
Theorem xgcd_contract_can_be_met : xgcd_contract xgcd_euclid.
Proof. exact xgcd_euclid_contract. Qed.
Print Assumptions xgcd_contract_can_be_met.
Definition of_rows (l : list (list Z)) : zmat := fun i j => nth j (nth i l []) 0.
Example smith_sample :
  let A := of_rows [[2;4;4];[-6;6;12];[10;-4;-16]] in
  det 3 A <> 0 /\
  match smith 5 xgcd_euclid 3 A with
  | Ok (D, L, R) => map (fun i => map (fun j => D i j) [0;1;2]%nat) [0;1;2]%nat = [[2;0;0];[0;6;0];[0;0;12]] /\
      map (fun i => map (fun j => mmul 3 (mmul 3 L A) R i j) [0;1;2]%nat) [0;1;2]%nat = [[2;0;0];[0;6;0];[0;0;12]]
  | Err _ => False
  end.
Proof. split; [vm_compute; discriminate|]. vm_compute. split; reflexivity. Qed.

(** C32 fails: for this non-singular matrix and whatever (correct) extended gcd, the
    returned "Smith normal form" is not diagonal. *)
Theorem smith_form_diagonal_refuted : forall xg, xgcd_contract xg -> 
  let A := of_rows [[-3;0];[3;-3]] in det 2 A <> 0 /\
  forall f, (1 <= f)%nat -> exists S L R, smith f xg 2 A = Ok (S, L, R) /\ S 1%nat 0%nat = 6 /\ ~ diagonal 2 S.
Proof.
  intros xg XG A. split; [vm_compute; discriminate|]. intros [|f] Hf; [lia|].
  assert (E : exists D L0 R0, diagonalize (S f) xg 2 A = Ok (D, L0, R0) /\ D 1%nat 0%nat = 6).
  { eexists. eexists. eexists. split; vm_compute; reflexivity. }
  destruct E as (D & L0 & R0 & E & E6). unfold smith. rewrite E. cbn [bind].
  pose proof (pairs_off xg 2 (D, L0, R0) 1 0 ltac:(lia) ltac:(lia) ltac:(lia)) as O. destruct (pairs xg 2 (D, L0, R0)) as [[S L] R]. unfold dA in O. cbn [fst] in O.
  exists S, L, R. split; [reflexivity|]. split; [congruence|]. intros DG. specialize (DG 1%nat 0%nat ltac:(lia) ltac:(lia) ltac:(lia)). rewrite O, E6 in DG. discriminate.
Qed.
Print Assumptions smith_form_diagonal_refuted.
Example smith_refuted_sample :
  match smith 3 xgcd_euclid 2 (of_rows [[-3;0];[3;-3]]) with Ok (D, _, _) => map (fun i => map (fun j => D i j) [0;1]%nat) [0;1]%nat = [[3;0];[6;3]] | Err _ => False end.
Proof. vm_compute. reflexivity. Qed.
