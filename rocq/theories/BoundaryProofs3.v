(** The search for the interior vector is exhaustive. *)
From Verif Require Import Common ZMat Hermite HermiteProofs Det DetProofs IntComb IntCombSpec IntCombProofs Piped Boundary BoundarySpec BoundaryProofs BoundaryProofs2.
Open Scope Z_scope.

Definition shifted (x : Z) (v : list Z) := map (fun y => y - x) v.
Definition passes (n nc : nat) (alpha UF : list (list Z)) (multi : list Z) := singularity_avoiding nc n (row_times n nc multi alpha) (row_times n (nc * (n - 1)) multi UF).
Lemma try_list n nc alpha UF U x : forall vs s s' fuel, get_many (length vs + 1) s = Ok (s', map Some vs ++ [None])%list -> (length vs < fuel)%nat -> match try_combinations fuel n nc alpha UF U x s with
  | Ok (Some _) => True | Ok None => forall v, In v vs -> existsb (fun y => Z.abs y =? x) (shifted x v) && passes n nc alpha UF (shifted x v) = false | Err _ => False end.
Proof.
  induction vs as [|v vs IH]; intros s s' fuel E L; (destruct fuel as [|fuel]; [cbn in L; lia|]); cbn [length Nat.add get_many] in E; cbn [try_combinations].
  - destruct (get_next s) as [[s1 r]|]; [|discriminate]. cbn in E. injection E as _ ->. cbn [bind]. intros v [].
  - destruct (get_next s) as [[s1 r]|]; [|discriminate]. cbn [bind] in E. destruct (get_many (length vs + 1) s1) as [[s2 rs]|] eqn:G; [|discriminate]. cbn [bind map app] in E. injection E as _ -> ->. cbn [bind]. fold (shifted x v). fold (passes n nc alpha UF (shifted x v)).
    destruct (existsb (fun y => Z.abs y =? x) (shifted x v) && passes n nc alpha UF (shifted x v)) eqn:T; [exact Logic.I|]. cbn [length] in L. specialize (IH s1 s2 fuel G ltac:(lia)). destruct (try_combinations fuel n nc alpha UF U x s1) as [[?|]|]; [exact Logic.I| |contradiction]. intros v' [<-|H]; [exact T|exact (IH v' H)].
Qed.
Lemma size_mono n (x y : Z) : 0 <= x <= y -> 0 < box_size (repeat x n) <= box_size (repeat y n).
Proof. intros H. induction n as [|n IH]; cbn [repeat box_size]; [lia|nia]. Qed.
Lemma try_box n nc alpha UF U (x : Z) fuel : (0 < n)%nat -> 0 <= x -> (Z.to_nat (box_size (repeat (2 * x)%Z n)) < fuel)%nat -> match try_combinations fuel n nc alpha UF U x (ice_new (repeat (2 * x) n)) with
  | Ok (Some _) => True | Ok None => forall multi, length multi = n -> Forall (fun y => Z.abs y <= x) multi -> (exists y, In y multi /\ Z.abs y = x) -> passes n nc alpha UF multi = false | Err _ => False end.
Proof.
  intros P X F. assert (U0 : Forall (fun y => 0 <= y) (repeat (2 * x) n)) by (apply Forall_forall; intros y Hy; apply repeat_spec in Hy; lia).
  destruct (enum_ok (repeat (2 * x) n) ltac:(rewrite repeat_length; exact P) U0 1%nat) as (s' & vs & E & _ & B & L & _). rewrite <- L in E, F.
  pose proof (try_list n nc alpha UF U x vs _ s' fuel E F) as H. destruct (try_combinations fuel n nc alpha UF U x _) as [[?|]|]; [exact Logic.I| |contradiction]. intros multi Lm A (y & Iy & My).
  assert (S : shifted x (map (fun z => z + x) multi) = multi). { unfold shifted. rewrite map_map. rewrite <- (map_id multi) at 2. apply map_ext. intros; ring. }
  specialize (H (map (fun z => z + x) multi)). rewrite S in H. apply Bool.andb_false_iff in H.
  - destruct H as [H|H]; [|exact H]. exfalso. rewrite <- Bool.not_true_iff_false in H. apply H. apply existsb_exists. exists y. split; [exact Iy|]. now apply Z.eqb_eq.
  - apply B. clear -Lm A. unfold in_box. revert n Lm. induction A as [|y l Hy A IH]; intros [|n] Lm; try discriminate; cbn [repeat map]; constructor; try lia. apply IH. now injection Lm.
Qed.
Lemma try_reaches n nc alpha UF U multi fuel' (X : Z) : (0 < n)%nat -> length multi = n -> Forall (fun y => Z.abs y <= X) multi -> (exists y, In y multi /\ Z.abs y = X) -> passes n nc alpha UF multi = true ->
  (Z.to_nat (box_size (repeat (2 * X)%Z n)) < fuel')%nat -> forall k x fuel, 0 <= x -> x + Z.of_nat k = X -> (k < fuel)%nat -> exists p, try_coefficients fuel fuel' n nc alpha UF U x = Ok p.
Proof.
  intros P L A M T F. induction k as [|k IH]; intros x fuel X0 E K; (destruct fuel as [|fuel]; [lia|]); cbn [try_coefficients].
  - assert (x = X) as -> by lia. pose proof (try_box n nc alpha UF U X fuel' P X0 F) as H. destruct (try_combinations fuel' n nc alpha UF U X _) as [[p|]|]; cbn [bind]; [eauto| |contradiction]. rewrite (H multi L A M) in T. discriminate.
  - pose proof (try_box n nc alpha UF U x fuel' P X0) as H. pose proof (size_mono n (2 * x) (2 * X) ltac:(lia)). destruct (try_combinations fuel' n nc alpha UF U x _) as [[p|]|]; cbn [bind]; [eauto|apply IH; lia|]. destruct H. lia.
Qed.
Lemma max_abs l : (exists y, In y l /\ y <> 0) -> exists X, 0 < X /\ Forall (fun y => Z.abs y <= X) l /\ exists y, In y l /\ Z.abs y = X.
Proof.
  intros (y0 & I0 & N0). assert (H : l <> [] -> exists X, Forall (fun y => Z.abs y <= X) l /\ exists y, In y l /\ Z.abs y = X).
  { clear. induction l as [|a l IH]; [congruence|]. intros _. destruct l as [|b l]; [exists (Z.abs a); split; [repeat constructor; lia|exists a; split; [now left|reflexivity]]|].
    destruct IH as (X & A & y & Iy & My); [discriminate|]. destruct (Z.le_gt_cases (Z.abs a) X) as [C|C].
    - exists X. split; [now constructor|]. exists y. split; [now right|exact My].
    - exists (Z.abs a). split; [constructor; [lia|]; eapply Forall_impl; [|exact A]; cbn; intros; lia|]. exists a. split; [now left|reflexivity]. }
  destruct H as (X & A & M); [destruct l; [destruct I0|discriminate]|]. exists X. split; [|split; assumption]. rewrite Forall_forall in A. specialize (A y0 I0). lia.
Qed.
(** A matrix of determinant 1 or -1 represents every vector. *)
Lemma represents n U w : Z.abs (det n (ent U)) = 1 -> length w = n -> exists multi, length multi = n /\ row_times n n multi U = w.
Proof.
  intros D L. exists (map (fun i => det n (ent U) * zsum n (fun k => nth k w 0 * adj n (ent U) k i)) (seq 0 n)). split; [now rewrite map_length, seq_length|].
  apply nth_ext with (d := 0) (d' := 0); rewrite row_times_len; [now rewrite L|]. intros j Hj. rewrite row_times_nth by exact Hj.
  transitivity (det n (ent U) * zsum n (fun i => zsum n (fun k => nth k w 0 * adj n (ent U) k i) * ent U i j)).
  - rewrite <- zsum_scal. apply zsum_ext. intros i Hi. rewrite nth_map_seq by exact Hi. ring.
  - rewrite <- zsum_assoc. rewrite (zsum_single n _ j); [|exact Hj|].
    + pose proof (adj_l n (ent U) j j Hj Hj) as A. unfold mmul in A. rewrite A. unfold delta. rewrite Nat.eqb_refl. nia.
    + intros i Hi Ni. pose proof (adj_l n (ent U) i j Hi Hj) as A. unfold mmul in A. rewrite A. unfold delta. destruct (Nat.eqb_spec i j); [contradiction|]. ring.
Qed.
Lemma search_finds LLL n cones w : (0 < n)%nat -> lll_contract n LLL -> Forall (boundary_cone n) cones ->
  (forall alpha, length alpha = n -> let '(rank, U, _) := LLL alpha in rank = n /\ Z.abs (det n (ent U)) = 1) ->
  length w = n -> (exists k, nth k w 0 <> 0) -> Forall (fun c => avoids n c w) cones -> exists fuel fuel' p, interior_vector LLL fuel fuel' n cones = Ok p.
Proof.
  intros P C BC R Lw (k0 & NZ) A. destruct (bases_total n cones BC) as (bs & Hbs). destruct (alpha_matrix_shape n bs) as (S1 & S2). pose proof (C (length bs) (alpha_matrix n bs) S1 S2) as CL. specialize (R (alpha_matrix n bs) S1). destruct (LLL (alpha_matrix n bs)) as [[rank U] alpha'] eqn:EL. destruct CL as (LU & _ & PR). destruct R as (-> & DU). destruct (mapM_len _ _ _ Hbs) as (LB & _). rewrite LB in PR.
  destruct (represents n U w DU Lw) as (multi & Lm & Ew). assert (NM : exists y, In y multi /\ y <> 0).
  { destruct (existsb (fun y => negb (y =? 0)) multi) eqn:EX; [apply existsb_exists in EX; destruct EX as (y & Iy & Hy); exists y; split; [exact Iy|]; destruct (Z.eqb_spec y 0); [discriminate|assumption]|]. exfalso. apply NZ.
    assert (K : (k0 < n)%nat). { destruct (Nat.lt_ge_cases k0 n); [assumption|]. rewrite nth_overflow in NZ by lia. congruence. }
    rewrite <- Ew, row_times_nth by exact K. apply zsum_zero. intros i Hi. assert (Z0 : nth i multi 0 = 0); [|rewrite Z0; reflexivity]. destruct (Z.eqb_spec (nth i multi 0) 0) as [|N]; [assumption|]. exfalso. rewrite <- Bool.not_true_iff_false in EX. apply EX. apply existsb_exists. exists (nth i multi 0). split; [apply nth_In; lia|]. destruct (Z.eqb_spec (nth i multi 0) 0); [contradiction|reflexivity]. }
  destruct (max_abs multi NM) as (X & X0 & AX & MX). set (UF := map (fun u => row_times n (length cones * (n - 1)) u (F_matrix n bs)) U).
  assert (T : passes n (length cones) alpha' UF multi = true). { apply (test_exact n cones BC bs Hbs U alpha' LU PR). unfold vec. rewrite Ew. exact A. }
  destruct (try_reaches n (length cones) alpha' UF U multi (S (Z.to_nat (box_size (repeat (2 * X) n)))) X P Lm AX MX T ltac:(lia) (Z.to_nat (X - 1)) 1 (S (Z.to_nat (X - 1))) ltac:(lia) ltac:(lia) ltac:(lia)) as (p & E).
  eexists _, _, p. unfold interior_vector. rewrite Hbs. cbn [bind]. rewrite EL, Nat.eqb_refl. cbn [negb]. exact E.
Qed.
