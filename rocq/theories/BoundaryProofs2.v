(** The search for the interior vector. *)
From Verif Require Import Common ZMat Hermite HermiteProofs Det DetProofs IntComb IntCombSpec IntCombProofs Piped PipedProofs BarvinokProofs4 Boundary BoundarySpec BoundaryProofs.
Open Scope Z_scope.

Lemma mapM_len {A B} (f : A -> outcome B) l : forall r, mapM f l = Ok r -> length r = length l /\ forall k x, nth_error l k = Some x -> exists y, nth_error r k = Some y /\ f x = Ok y.
Proof.
  induction l as [|a l IH]; intros r H; cbn [mapM] in H; [injection H as <-; split; [reflexivity|]; intros [|k] x H; discriminate|].
  destruct (f a) as [y|] eqn:E; [|discriminate]. cbn [bind] in H. destruct (mapM f l) as [ys|] eqn:E2; [|discriminate]. injection H as <-. destruct (IH ys eq_refl) as (L & K). split; [cbn; now rewrite L|]. intros [|k] x Hx; cbn in *; [injection Hx as <-; eauto|apply K; exact Hx].
Qed.
Lemma mapM_total {A B} (f : A -> outcome B) l : (forall x, In x l -> exists y, f x = Ok y) -> exists r, mapM f l = Ok r.
Proof. induction l as [|a l IH]; intros H; [eexists; reflexivity|]. cbn [mapM]. destruct (H a (or_introl eq_refl)) as (y & ->). destruct IH as (r & ->); [intros x Hx; apply H; now right|]. eexists. reflexivity. Qed.

Lemma zsum_assoc n (x : nat -> Z) (U : nat -> nat -> Z) (A : nat -> Z) : zsum n (fun i => x i * zsum n (fun k => U i k * A k)) = zsum n (fun k => zsum n (fun i => x i * U i k) * A k).
Proof.
  transitivity (zsum n (fun i => zsum n (fun k => x i * U i k * A k))).
  - apply zsum_ext. intros i _. rewrite <- zsum_scal. apply zsum_ext. intros. ring.
  - rewrite zsum_swap. apply zsum_ext. intros k _. rewrite Z.mul_comm, <- zsum_scal. apply zsum_ext. intros. ring.
Qed.
Lemma nth_flat_map {A} (g : A -> list Z) p bs : (forall b, In b bs -> length (g b) = p) -> forall k l b, nth_error bs k = Some b -> (l < p)%nat -> nth (k * p + l) (flat_map g bs) 0 = nth l (g b) 0.
Proof.
  induction bs as [|a bs IH]; intros H k l b Hk Hl; [destruct k; discriminate|]. destruct k as [|k]; cbn in Hk.
  - injection Hk as ->. cbn [flat_map Nat.mul Nat.add]. rewrite app_nth1; [reflexivity|]. rewrite H by (now left). exact Hl.
  - cbn [flat_map]. rewrite app_nth2 by (rewrite H by (now left); cbn; lia). rewrite H by (now left). replace (S k * p + l - p)%nat with (k * p + l)%nat by (cbn; lia). apply IH; auto. intros b' Hb. apply H. now right.
Qed.
Lemma row_times_nth n width x M j : (j < width)%nat -> nth j (row_times n width x M) 0 = zsum n (fun i => nth i x 0 * ent M i j).
Proof. intros H. unfold row_times. now rewrite nth_map_seq. Qed.
Lemma row_times_len n width x M : length (row_times n width x M) = width.
Proof. unfold row_times. now rewrite map_length, seq_length. Qed.

Section Search.
Context (n : nat) (cones : list (list (list Z))) (BC : Forall (boundary_cone n) cones) (bs : list (list Z * list (list Z))) (Hbs : mapM (alpha_basis n) cones = Ok bs)
  (U alpha' : list (list Z)) (LU : length U = n) (PR : product_of n (length cones) U (alpha_matrix n bs) alpha').
Let nc := length cones.
Definition vec (multi : list Z) := row_times n n multi U.
Lemma basis_at k c : nth_error cones k = Some c -> exists b, nth_error bs k = Some b /\ length (fst b) = n /\ length (snd b) = n /\ Forall (fun f => length f = (n - 1)%nat) (snd b) /\
  forall w, length w = n -> Al n w b = cone_det n c w /\ (cone_det n c w <> 0 -> ((forall l, (l < n - 1)%nat -> Fl n w b l <> 0) <-> avoids n c w)).
Proof using BC Hbs.
  intros H. destruct (mapM_len _ _ _ Hbs) as (_ & K). destruct (K k c H) as (b & Hb & E). exists b. split; [exact Hb|]. rewrite Forall_forall in BC. destruct (basis_ok n c (BC c (nth_error_In _ _ H))) as (b' & E' & R). rewrite E in E'. injection E' as <-. exact R.
Qed.
Lemma alpha_at multi k b : nth_error bs k = Some b -> nth k (row_times n nc multi alpha') 0 = Al n (vec multi) b.
Proof using Hbs PR.
  intros Hb. assert (Hk : (k < nc)%nat). { destruct (mapM_len _ _ _ Hbs) as (L & _). unfold nc. rewrite <- L. apply nth_error_Some. congruence. }
  rewrite row_times_nth by exact Hk. destruct PR as (_ & P). rewrite (zsum_ext n _ (fun i => nth i multi 0 * zsum n (fun s => ent U i s * nth s (fst b) 0))).
  - rewrite zsum_assoc. unfold Al. apply zsum_ext. intros s Hs. unfold vec. now rewrite row_times_nth.
  - intros i Hi. f_equal. rewrite P by assumption. apply zsum_ext. intros s Hs. f_equal. unfold ent, alpha_matrix. rewrite nth_map_seq by exact Hs. erewrite nth_error_nth; [reflexivity|]. rewrite nth_error_map, Hb. reflexivity.
Qed.
Lemma basis_lens b : In b bs -> forall s, (s < n)%nat -> length (nth s (snd b) []) = (n - 1)%nat.
Proof using BC Hbs.
  clear LU PR.
  intros Hb s Hs. apply In_nth_error in Hb. destruct Hb as (k & Hk). assert (Hk' : (k < length bs)%nat) by (apply nth_error_Some; congruence). destruct (mapM_len _ _ _ Hbs) as (L & _). destruct (nth_error cones k) as [c|] eqn:C; [|apply nth_error_None in C; lia].
  destruct (basis_at k c C) as (b' & Hb' & _ & L2 & F & _). rewrite Hk in Hb'. injection Hb' as <-. rewrite Forall_forall in F. apply F, nth_In. lia.
Qed.
Lemma F_at multi k l b : nth_error bs k = Some b -> (l < n - 1)%nat ->
  nth (k * (n - 1) + l) (row_times n (nc * (n - 1)) multi (map (fun u => row_times n (nc * (n - 1)) u (F_matrix n bs)) U)) 0 = Fl n (vec multi) b l.
Proof using BC Hbs LU.
  intros Hb Hl. assert (Hk : (k < nc)%nat). { destruct (mapM_len _ _ _ Hbs) as (L & _). unfold nc. rewrite <- L. apply nth_error_Some. congruence. }
  assert (J : (k * (n - 1) + l < nc * (n - 1))%nat) by nia.
  rewrite row_times_nth by exact J. rewrite (zsum_ext n _ (fun i => nth i multi 0 * zsum n (fun s => ent U i s * nth l (nth s (snd b) []) 0))).
  - rewrite zsum_assoc. unfold Fl. apply zsum_ext. intros s Hs. unfold vec. now rewrite row_times_nth.
  - intros i Hi. f_equal. unfold ent at 1. destruct (nth_error U i) as [u|] eqn:EU; [|apply nth_error_None in EU; lia]. rewrite (nth_error_nth (map _ U) i [] (x := row_times n (nc * (n - 1)) u (F_matrix n bs))) by (rewrite nth_error_map, EU; reflexivity).
    rewrite row_times_nth by exact J. apply zsum_ext. intros s Hs. unfold ent. rewrite (nth_error_nth U i [] EU). f_equal. unfold F_matrix. rewrite nth_map_seq by exact Hs. apply (nth_flat_map (fun b => nth s (snd b) [])); [|exact Hb|exact Hl]. intros b' Hb'. apply basis_lens; assumption.
Qed.
Lemma dets_eq multi : row_times n nc multi alpha' = map (fun c => cone_det n c (vec multi)) cones.
Proof using BC Hbs LU PR.
  apply nth_ext with (d := 0) (d' := 0); rewrite row_times_len; [now rewrite map_length|]. intros k Hk. destruct (nth_error cones k) as [c|] eqn:C; [|apply nth_error_None in C; unfold nc in Hk; lia].
  destruct (basis_at k c C) as (b & Hb & _ & _ & _ & R). rewrite (alpha_at multi k b Hb). rewrite (nth_error_nth (map _ cones) k 0 (x := cone_det n c (vec multi))) by (rewrite nth_error_map, C; reflexivity). apply R. apply row_times_len.
Qed.
Lemma test_exact multi : singularity_avoiding nc n (row_times n nc multi alpha') (row_times n (nc * (n - 1)) multi (map (fun u => row_times n (nc * (n - 1)) u (F_matrix n bs)) U)) = true <-> Forall (fun c => avoids n c (vec multi)) cones.
Proof using BC Hbs LU PR.
  unfold singularity_avoiding. rewrite forallb_forall, Forall_forall. split.
  - intros H c Hc. apply In_nth_error in Hc. destruct Hc as (k & Hk). destruct (basis_at k c Hk) as (b & Hb & _ & _ & _ & R). destruct (R (vec multi) (row_times_len _ _ _ _)) as (RA & RF).
    destruct (Z.eq_dec (cone_det n c (vec multi)) 0) as [Z|NZ]; [left; exact Z|]. apply (RF NZ). intros l Hl. assert (Hk' : (k < nc)%nat) by (apply nth_error_Some; congruence). specialize (H k ltac:(apply in_seq; lia)). rewrite (alpha_at multi k b Hb), RA in H. destruct (Z.eqb_spec (cone_det n c (vec multi)) 0); [contradiction|]. cbn [orb] in H. rewrite forallb_forall in H. specialize (H l ltac:(apply in_seq; lia)). rewrite (F_at multi k l b Hb Hl) in H. destruct (Z.eqb_spec (Fl n (vec multi) b l) 0); [discriminate|assumption].
  - intros H k Hk. apply in_seq in Hk. destruct (nth_error cones k) as [c|] eqn:C; [|apply nth_error_None in C; unfold nc in Hk; lia]. destruct (basis_at k c C) as (b & Hb & _ & _ & _ & R). destruct (R (vec multi) (row_times_len _ _ _ _)) as (RA & RF). rewrite (alpha_at multi k b Hb), RA. destruct (Z.eqb_spec (cone_det n c (vec multi)) 0) as [Z|NZ]; [reflexivity|]. cbn [orb]. apply forallb_forall. intros l Hl. apply in_seq in Hl. rewrite (F_at multi k l b Hb) by lia. specialize (H c (nth_error_In _ _ C)). apply (RF NZ) with (l := l) in H; [|lia]. destruct (Z.eqb_spec (Fl n (vec multi) b l) 0); [contradiction|reflexivity].
Qed.
End Search.

Definition good (n : nat) (s : ice) : Prop := length (ub s) = n /\ (live s \/ finished s).
Lemma good_next n s : good n s -> exists s' r, get_next s = Ok (s', r) /\ (forall v, r = Some v -> length v = n /\ good n s').
Proof.
  intros (L & [H|H]).
  - destruct (get_next_step s H) as (v & c & E & B & St). eexists _, _. split; [exact E|]. intros v' [= <-]. pose proof (in_box_len _ _ B) as LB. split; [lia|]. split; [exact L|]. destruct St as [(_ & _ & C)|(_ & N & C)].
    + left. destruct H as (_ & P & _). split; [exact B|]. split; [exact P|exact C].
    + right. split; [exact N|exact C].
  - eexists _, _. split; [apply get_next_finished, H|discriminate].
Qed.
Lemma good_new n x : (0 < n)%nat -> 0 <= x -> good n (ice_new (repeat x n)).
Proof.
  intros P X. split; [cbn; apply repeat_length|left]. split; [|split]; cbn [ub prev cur_col ice_new]; rewrite ?repeat_length; try lia. unfold in_box. clear P. induction n; cbn; constructor; [lia|assumption].
Qed.
Lemma try_result n nc alpha UF U x : forall fuel s, good n s -> match try_combinations fuel n nc alpha UF U x s with
  | Ok (Some (w, d)) => exists multi, length multi = n /\ existsb (fun y => Z.abs y =? x) multi = true /\ singularity_avoiding nc n (row_times n nc multi alpha) (row_times n (nc * (n - 1)) multi UF) = true /\ w = row_times n n multi U /\ d = row_times n nc multi alpha
  | Ok None => True | Err e => e = OutOfFuel end.
Proof.
  induction fuel as [|f IH]; intros s G; [reflexivity|]. cbn [try_combinations]. destruct (good_next n s G) as (s' & r & -> & K). cbn [bind]. destruct r as [v|]; [|exact Logic.I]. destruct (K v eq_refl) as (Lv & G'). set (multi := map (fun y => y - x) v).
  destruct (existsb (fun y => Z.abs y =? x) multi && _) eqn:T; [|apply IH; exact G']. apply andb_prop in T. destruct T as (T1 & T2). exists multi. repeat split; auto. unfold multi. now rewrite map_length.
Qed.
Lemma search_result n nc alpha UF U fuel' : (0 < n)%nat -> forall fuel x, 0 < x -> match try_coefficients fuel fuel' n nc alpha UF U x with
  | Ok (w, d) => exists multi, length multi = n /\ (exists y, In y multi /\ y <> 0) /\ singularity_avoiding nc n (row_times n nc multi alpha) (row_times n (nc * (n - 1)) multi UF) = true /\ w = row_times n n multi U /\ d = row_times n nc multi alpha
  | Err e => e = OutOfFuel end.
Proof.
  intros P. induction fuel as [|f IH]; intros x X; [reflexivity|]. cbn [try_coefficients]. pose proof (try_result n nc alpha UF U x fuel' _ (good_new n (2 * x) P ltac:(lia))) as H.
  destruct (try_combinations fuel' n nc alpha UF U x (ice_new (repeat (2 * x) n))) as [[[w d]|]|e]; cbn [bind].
  - destruct H as (multi & L & E & T & W & D). exists multi. split; [exact L|]. split; [|auto]. apply existsb_exists in E. destruct E as (y & I1 & E). exists y. split; [exact I1|]. apply Z.eqb_eq in E. lia.
  - apply IH. lia.
  - exact H.
Qed.
Lemma alpha_matrix_shape n bs : length (alpha_matrix n bs) = n /\ Forall (fun r => length r = length bs) (alpha_matrix n bs).
Proof. unfold alpha_matrix. rewrite map_length, seq_length. split; [reflexivity|]. apply Forall_map, Forall_forall. intros. apply map_length. Qed.
Lemma bases_total n cones : Forall (boundary_cone n) cones -> exists bs, mapM (alpha_basis n) cones = Ok bs.
Proof. intros H. apply mapM_total. intros c Hc. rewrite Forall_forall in H. destruct (basis_ok n c (H c Hc)) as (b & E & _). eauto. Qed.

Lemma interior_result LLL fuel fuel' n cones : (0 < n)%nat -> lll_contract n LLL -> Forall (boundary_cone n) cones -> match interior_vector LLL fuel fuel' n cones with
  | Ok (w, d) => exists rank U alpha' multi bs, mapM (alpha_basis n) cones = Ok bs /\ LLL (alpha_matrix n bs) = (rank, U, alpha') /\ length multi = n /\ (exists y, In y multi /\ y <> 0) /\ w = row_times n n multi U /\ d = map (fun c => cone_det n c w) cones /\ Forall (fun c => avoids n c w) cones
  | Err OutOfFuel => True
  | Err e => e = AssertFail /\ exists bs, mapM (alpha_basis n) cones = Ok bs /\ fst (fst (LLL (alpha_matrix n bs))) <> n end.
Proof.
  intros P C BC. unfold interior_vector. destruct (bases_total n cones BC) as (bs & Hbs). rewrite Hbs. cbn [bind]. destruct (alpha_matrix_shape n bs) as (S1 & S2). pose proof (C (length bs) (alpha_matrix n bs) S1 S2) as CL. destruct (LLL (alpha_matrix n bs)) as [[rank U] alpha'] eqn:EL. destruct CL as (LU & _ & PR). destruct (mapM_len _ _ _ Hbs) as (LB & _). rewrite LB in PR.
  destruct (Nat.eqb_spec rank n) as [->|NR]; cbn [negb].
  2:{ split; [reflexivity|]. exists bs. split; [reflexivity|]. rewrite EL. exact NR. }
  pose proof (search_result n (length cones) alpha' (map (fun u => row_times n (length cones * (n - 1)) u (F_matrix n bs)) U) U fuel' P fuel 1 ltac:(lia)) as H. destruct (try_coefficients fuel fuel' n (length cones) alpha' _ U 1) as [[w d]|e]; [|subst e; exact Logic.I].
  destruct H as (multi & L & E & T & W & D). exists n, U, alpha', multi, bs. split; [reflexivity|]. split; [exact EL|]. split; [exact L|]. split; [exact E|]. split; [exact W|]. subst w d. split; [apply (dets_eq n cones BC bs Hbs U alpha' LU PR)|]. now apply (test_exact n cones BC bs Hbs U alpha' LU PR).
Qed.

Lemma completed_spec n w : forall cones acc, completed w (map (fun c => cone_det n c w) cones) cones acc = (rev (map (cons w) (filter (fun c => negb (cone_det n c w =? 0)%Z) cones)) ++ acc)%list.
Proof.
  induction cones as [|c cones IH]; intros acc; [reflexivity|]. cbn [completed map tl nth filter]. rewrite IH. destruct (cone_det n c w =? 0); cbn [negb]; [reflexivity|]. cbn [map rev]. rewrite <- app_assoc. reflexivity.
Qed.
