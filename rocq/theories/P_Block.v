(** Property theorems about the block representation (C11, C14). *)
From Verif Require Import Common Rational Trie TrieSpec TrieProofs Block BlockSpec BlockProofs.
Open Scope Z_scope.

(** C11.  Any insertions into a new block sum are stored and iterated as the list
    specification says: equal exponent vectors merge, the others stay in the order of first
    insertion; for every coefficient type and every positive block size (64 in the code). *)
Theorem block_storage_exact :
  forall (T : Type) (tadd : T -> T -> T) (tdef : T) (B : nat), B <> O ->
  forall v l, Forall (fun p => length (snd p) = v) l ->
  exists m, block_insert_all tadd tdef B l (new_bsum v) = Ok m /\
    b_terms m = length (add_terms tadd l) /\ block_terms B m = Ok (add_terms tadd l).
Proof. exact @block_storage. Qed.
Print Assumptions block_storage_exact.
Definition many : list (Z * list Z) := map (fun i => (Z.of_nat i, [Z.of_nat (i mod 70); 1])) (seq 0 140).
Example block_storage_sample :
  exists m, block_insert_all Z.add 0 BLOCK_SIZE many (new_bsum 2) = Ok m /\ b_terms m = 70%nat /\ length (b_blocks m) = 2%nat /\
    block_terms BLOCK_SIZE m = Ok (map (fun i => (Z.of_nat (i + (i + 70)), [Z.of_nat i; 1])) (seq 0 70)).
Proof. eexists. vm_compute. repeat split. Qed.
Example block_storage_hypotheses : Forall (fun p => length (snd p) = 2%nat) many.
Proof. unfold many. apply Forall_forall. intros p H. apply in_map_iff in H as (i & <- & _). reflexivity. Qed.

(** C14.  REFUTED: (x + y) * (x + y) in block representation gives x^2 + xy. *)
Theorem block_product_refuted :
  exists (l : list (Z * list Z)) m,
    block_multiply Z.add Z.mul 0 BLOCK_SIZE l l [0;0] [9;9] (new_bsum 2) = Ok m /\
    block_terms BLOCK_SIZE m = Ok [(1, [2;0]); (1, [1;1])] /\
    l = [(1, [1;0]); (1, [0;1])].
Proof. do 2 eexists. split; [|split; [|reflexivity]]; [vm_compute; reflexivity|vm_compute; reflexivity]. Qed.
Print Assumptions block_product_refuted.
(** What it computes instead, for every input: the products with the first term of the
    first factor only. *)
Theorem block_product_actual :
  forall (T : Type) (tadd tmul : T -> T -> T) (tdef : T) (B : nat) a l1 l2 mn mx m,
  block_multiply tadd tmul tdef B (a :: l1) l2 mn mx m = block_multiply tadd tmul tdef B [a] l2 mn mx m.
Proof. intros. now rewrite !block_multiply_first_row. Qed.
Print Assumptions block_product_actual.
(** ... so for a first factor of one term the product is right. *)
Theorem block_product_partial :
  forall (T : Type) (tadd tmul : T -> T -> T) (tdef : T) (B : nat), B <> O ->
  forall v a l2 mn mx, length (snd a) = v -> length mn = v -> length mx = v -> Forall (fun p => length (snd p) = v) l2 ->
  exists m, block_multiply tadd tmul tdef B [a] l2 mn mx (new_bsum v) = Ok m /\
    block_terms B m = Ok (add_terms tadd (row_products tmul a l2 mn mx)).
Proof. intros. now apply block_multiply_single. Qed.
Print Assumptions block_product_partial.
Example block_product_one_row :
  bind (block_multiply Z.add Z.mul 0 BLOCK_SIZE [(3, [1;0])] [(1, [1;0]); (2, [0;1]); (5, [4;4])] [0;0] [3;3] (new_bsum 2)) (block_terms BLOCK_SIZE)
  = Ok [(3, [2;0]); (6, [1;1])].
Proof. vm_compute. reflexivity. Qed.
