From Coq Require Import Permutation Znumtheory.
From Verif Require Import Common ZMat Hermite HermiteSpec HermiteProofs HermiteProofs2 KnapsackSpec.
Open Scope Z_scope.

Definition colmat (alpha : list Z) : list (list Z) := map (fun a => [a]) alpha.
Lemma colmat_mat alpha : is_mat (colmat alpha) (length alpha) 1.
Proof. split; [apply map_length|]. apply Forall_map, Forall_forall. reflexivity. Qed.
Lemma ent_colmat alpha i : ent (colmat alpha) i 0 = nth i alpha 0.
Proof. unfold ent, colmat. destruct (Nat.lt_ge_cases i (length alpha)) as [H|H].
  - rewrite (nth_indep _ [] [0]) by (rewrite map_length; lia). now rewrite (map_nth (fun a => [a])).
  - rewrite (nth_overflow (map _ _)) by (rewrite map_length; lia). rewrite (nth_overflow alpha) by lia. reflexivity.
Qed.
(** U alpha = (h, 0, ..., 0) *)
Lemma column_hermite alpha : alpha <> [] -> exists fuel rank S' U rhs' h, let n := length alpha in
  (forall f, (fuel <= f)%nat -> ihermite f (colmat alpha) (repeat 0 n) 1 n = Ok (rank, S', U, rhs')) /\
  is_mat S' n 1 /\ is_mat U n n /\ invertible n (ent U) /\ 0 <= h /\ ent S' 0 0 = h /\
  forall i, (i < n)%nat -> zsum n (fun k => ent U i k * nth k alpha 0) = if (i =? 0)%nat then h else 0.
Proof.
  intros NE. assert (N : (0 < length alpha)%nat) by (destruct alpha; [congruence|cbn; lia]).
  destruct (ihermite_ok (length alpha) 1 (colmat alpha) (repeat 0 (length alpha)) (colmat_mat alpha)) as (fuel & rank & S' & U & rhs' & (M & MU & _ & K & I & (p & P & _ & _ & E) & D & T & Z0) & G); [rewrite repeat_length; lia|].
  assert (p = [0%nat]) as -> by (apply Permutation_sym in P; now apply Permutation_length_1_inv in P).
  exists fuel, rank, S', U, rhs', (ent S' 0 0). cbn zeta. refine (conj G (conj M (conj MU (conj I (conj _ (conj eq_refl _)))))).
  - destruct (Nat.eq_dec rank 0) as [->|NR]; [rewrite (Z0 0%nat 0%nat) by lia; lia|]. specialize (D 0%nat ltac:(lia)). lia.
  - intros i Hi. specialize (E i 0%nat Hi ltac:(lia)). cbn [nth] in E. rewrite (zsum_ext _ _ (fun k => ent U i k * ent (colmat alpha) k 0)) by (intros; now rewrite ent_colmat). rewrite E.
    destruct (Nat.eqb_spec i 0) as [->|NI]; auto. destruct (Nat.eq_dec rank 0) as [->|NR]; [apply Z0; lia|apply T; lia].
Qed.
Lemma quotient_divides f h y : f <> 0 -> ((f | y * h) <-> (f / Z.gcd f h | y)).
Proof.
  intros Hf. assert (G : 0 < Z.gcd f h) by (pose proof (Z.gcd_nonneg f h); destruct (Z.eq_dec (Z.gcd f h) 0) as [E|E]; [apply Z.gcd_eq_0_l in E; congruence|lia]).
  destruct (Z.gcd_divide_l f h) as [a Ea]. destruct (Z.gcd_divide_r f h) as [b Eb]. set (g := Z.gcd f h) in *.
  assert (Q : f / g = a) by (rewrite Ea; apply Z.div_mul; lia). rewrite Q.
  assert (RP : rel_prime a b).
  { apply Zgcd_1_rel_prime. assert (X : g * Z.gcd a b = g); [|nia]. rewrite <- Z.gcd_mul_mono_l_nonneg by lia. rewrite (Z.mul_comm g a), (Z.mul_comm g b), <- Ea, <- Eb. reflexivity. }
  split.
  - intros H. apply (Gauss a b); auto. rewrite Ea, Eb in H. replace (y * (b * g)) with (g * (b * y)) in H by ring. rewrite (Z.mul_comm a g) in H. now apply Z.mul_divide_cancel_l in H; [|lia].
  - intros [q ->]. rewrite Ea at 1. rewrite Eb. exists (q * b). ring.
Qed.
Lemma dot_through n (U : zmat) (al : nat -> Z) y :
  zsum n (fun i => al i * zsum n (fun k => y k * U k i)) = zsum n (fun k => y k * zsum n (fun i => U k i * al i)).
Proof.
  rewrite (zsum_ext n _ (fun i => zsum n (fun k => y k * (U k i * al i)))).
  - rewrite zsum_swap. apply zsum_ext. intros k _. now rewrite zsum_scal.
  - intros i _. rewrite <- zsum_scal. apply zsum_ext. intros; ring.
Qed.
Lemma row_back n (U V : zmat) (x : nat -> Z) i : meq n n (mmul n V U) delta -> (i < n)%nat ->
  zsum n (fun k => zsum n (fun l => x l * V l k) * U k i) = x i.
Proof.
  intros H Hi. pose proof (mmul_assoc n n (fun _ => x) V U 0%nat i) as A. unfold mmul at 1 2 in A. rewrite A. unfold mmul.
  rewrite (zsum_ext n _ (fun k => x k * delta k i)) by (intros k Hk; f_equal; now apply (H k i)).
  rewrite (zsum_single n _ i); auto; [rewrite delta_eq; ring|]. intros k _ N. rewrite delta_neq by auto. ring.
Qed.
Theorem lattice_basis_ok alpha f : alpha <> [] -> f <> 0 -> exists fuel B, let n := length alpha in
  (forall k, (fuel <= k)%nat -> find_lattice_basis k alpha f = Ok B) /\ is_mat B n n /\
  (forall x, (f | dotp alpha x) <-> exists y, forall i, (i < n)%nat -> x i = combination B y i) /\
  (forall y, (forall i, (i < n)%nat -> combination B y i = 0) -> forall k, (k < n)%nat -> y k = 0).
Proof.
  intros NE Hf. destruct (column_hermite alpha NE) as (fuel & rank & S' & U & rhs' & h & G & M & MU & (V & I1 & I2) & Hh & E0 & E). cbn zeta.
  set (n := length alpha) in *. assert (N : (0 < n)%nat) by (unfold n; destruct alpha; [congruence|cbn; lia]).
  assert (exists u0 us, U = u0 :: us) as (u0 & us & EU) by (destruct U as [|u0 us]; [destruct MU as [L _]; cbn in L; lia|eauto]).
  assert (exists s0 ss, S' = s0 :: ss) as (s0 & ss & ES) by (destruct S' as [|s0 ss]; [destruct M as [L _]; cbn in L; lia|eauto]).
  set (nf := f / Z.gcd f h). assert (Nf : nf <> 0).
  { unfold nf. destruct (Z.gcd_divide_l f h) as [a Ea]. intros X. rewrite Ea in X at 1. rewrite Z.div_mul in X by (intros Y; apply Z.gcd_eq_0_l in Y; congruence). subst a. lia. }
  exists fuel, (map (fun x => x * nf) u0 :: us).
  assert (EB : forall y i, (i < n)%nat -> combination (map (fun x => x * nf) u0 :: us) y i = zsum n (fun k => (if (k =? 0)%nat then y k * nf else y k) * ent U k i)).
  { intros y i Hi. unfold combination. destruct MU as [LU FU]. rewrite EU in LU. cbn [length] in LU |- *. rewrite LU. apply zsum_ext. intros k Hk. rewrite EU. unfold ent. destruct k as [|k]; cbn [nth Nat.eqb].
    - rewrite (nth_indep _ 0 (0 * nf)) by (rewrite map_length; rewrite EU in FU; apply Forall_inv in FU; lia). rewrite (map_nth (fun x => x * nf)). ring.
    - reflexivity. }
  assert (DP : forall y, dotp alpha (fun i => zsum n (fun k => y k * ent U k i)) = y 0%nat * h).
  { intros y. unfold dotp. fold n. rewrite dot_through. rewrite (zsum_ext n _ (fun k => y k * (if (k =? 0)%nat then h else 0))) by (intros k Hk; now rewrite E).
    rewrite (zsum_single n _ 0%nat); auto. intros k _ NK. rewrite (proj2 (Nat.eqb_neq k 0)) by auto. ring. }
  refine (conj _ (conj _ (conj _ _))).
  - intros k Hk. unfold find_lattice_basis. fold n. change (map (fun a => [a]) alpha) with (colmat alpha). rewrite G by auto. cbn [bind]. rewrite EU, ES. rewrite ES in E0. unfold ent in E0; cbn [nth] in E0. rewrite E0.
    replace (Z.gcd f h =? 0) with false by (symmetry; apply Z.eqb_neq; intros Y; apply Z.gcd_eq_0_l in Y; congruence). reflexivity.
  - destruct MU as [LU FU]. rewrite EU in LU, FU. split; [exact LU|]. constructor; [rewrite map_length; now apply Forall_inv in FU|now apply Forall_inv_tail in FU].
  - intros x. set (y' := fun k => zsum n (fun l => x l * V l k)). assert (X : forall i, (i < n)%nat -> x i = zsum n (fun k => y' k * ent U k i)) by (intros i Hi; symmetry; now apply row_back).
    assert (DX : dotp alpha x = y' 0%nat * h). { rewrite <- DP. unfold dotp. fold n. apply zsum_ext. intros i Hi. f_equal. auto. }
    rewrite DX, quotient_divides by auto. fold nf. split.
    + intros [q Hq]. exists (fun k => if (k =? 0)%nat then q else y' k). intros i Hi. rewrite EB, X by auto. apply zsum_ext. intros k Hk. destruct (Nat.eqb_spec k 0%nat) as [E1|E1]; auto. rewrite E1. now rewrite Hq.
    + intros [y Hy]. exists (y 0%nat). unfold y'. rewrite (zsum_ext n _ (fun l => zsum n (fun k => (if (k =? 0)%nat then y k * nf else y k) * ent U k l) * V l 0%nat)) by (intros l Hl; now rewrite Hy, EB by auto).
      apply (row_back n V (ent U) (fun k => if (k =? 0)%nat then y k * nf else y k) 0%nat I1 N).
  - intros y Hy. assert (Y : forall k, (k < n)%nat -> (if (k =? 0)%nat then y k * nf else y k) = 0).
    { intros k Hk. rewrite <- (row_back n V (ent U) (fun k => if (k =? 0)%nat then y k * nf else y k) k I1 Hk). apply zsum_zero. intros l Hl. rewrite <- EB, Hy by auto. ring. }
    intros k Hk. specialize (Y k Hk). cbn beta in Y. destruct (Nat.eqb_spec k 0%nat) as [E1|E1]; auto. nia.
Qed.
Theorem vertex_ok alpha f : gcd_list (alpha ++ [f]) = 1 -> exists fuel v,
  (forall k, (fuel <= k)%nat -> find_vertex k alpha f = Ok v) /\ length v = length alpha /\
  exists t, dotp alpha (fun i => nth i v 0) + t * f = 1.
Proof.
  intros Hg. set (al := alpha ++ [f]) in *. assert (L : length al = (length alpha + 1)%nat) by (unfold al; rewrite app_length; reflexivity).
  destruct (column_hermite al) as (fuel & rank & S' & U & rhs' & h & G & M & MU & (V & I1 & I2) & Hh & E0 & E); [unfold al; now destruct alpha|]. cbn zeta in *.
  set (n := length al) in *. assert (N : (0 < n)%nat) by lia.
  (* h divides everything *)
  assert (DV : forall i, (i < n)%nat -> (h | nth i al 0)).
  { intros i Hi. exists (V i 0%nat). rewrite <- (mmul_id_l n (fun k _ => nth k al 0) i 0%nat Hi).
    rewrite <- (mmul_ext n n 1 _ _ (fun k _ => nth k al 0) _ I2 (fun _ _ _ _ => eq_refl) i 0%nat Hi ltac:(lia)). rewrite mmul_assoc. unfold mmul at 1.
    rewrite (zsum_ext n _ (fun k => V i k * (if (k =? 0)%nat then h else 0))) by (intros k Hk; f_equal; unfold mmul; now rewrite E).
    rewrite (zsum_single n _ 0%nat); auto. intros k _ NK. rewrite (proj2 (Nat.eqb_neq k 0)) by auto. ring. }
  assert (D1 : (h | 1)).
  { rewrite <- Hg. assert (X : forall l, (forall i, (i < length l)%nat -> (h | nth i l 0)) -> (h | gcd_list l)); [|now apply X].
    induction l as [|a l IH]; intros H; [apply Z.divide_0_r|]. cbn [gcd_list fold_right]. apply Z.gcd_greatest; [apply (H 0%nat); cbn; lia|]. apply IH. intros i Hi. apply (H (S i)). cbn; lia. }
  assert (h = 1) as -> by (apply Z.divide_1_r_nonneg in D1; auto).
  assert (LR : length (nth 0 U []) = n) by (apply (mat_row U n n); auto).
  exists fuel, (firstn (length alpha) (nth 0 U [])). refine (conj _ (conj _ _)).
  - intros k Hk. unfold find_vertex. fold al. rewrite <- L. change (map (fun a => [a]) al) with (colmat al). rewrite G by auto. cbn [bind]. replace (n - 1)%nat with (length alpha) by lia. reflexivity.
  - rewrite firstn_length. lia.
  - exists (ent U 0 (length alpha)). specialize (E 0%nat N). cbn [Nat.eqb] in E. rewrite L in E. replace (length alpha + 1)%nat with (S (length alpha)) in E by lia. cbn [zsum] in E.
    unfold dotp. rewrite <- E. f_equal.
    + apply zsum_ext. intros i Hi. unfold al. rewrite app_nth1 by auto. unfold ent. rewrite <- (firstn_skipn (length alpha) (nth 0 U [])) at 2. rewrite app_nth1 by (rewrite firstn_length; lia). ring.
    + unfold al. rewrite app_nth2, Nat.sub_diag by lia. reflexivity.
Qed.
