(** The test for singularities. *)
From Verif Require Import Common ZMat Hermite HermiteProofs Det DetProofs IntComb Piped PipedProofs BarvinokProofs4 Boundary BoundarySpec.
Open Scope Z_scope.

Section Core.
Context (n m : nat) (Hn : S m = n) (M : zmat) (D0 : det n M <> 0) (w : nat -> Z).
Let X : zmat := adj n M.
Let D : Z := det n M.
Definition al : Z := zsum n (fun s => w s * adj n M s m).
Definition be (l : nat) : Z := zsum n (fun s => w s * adj n M s l).
Definition uu (l k : nat) : Z := al * adj n M k l - be l * adj n M k m.
Lemma lin2 f (a b : Z) g h : zsum n (fun k => f k * (a * g k - b * h k)) = a * zsum n (fun k => f k * g k) - b * zsum n (fun k => f k * h k).
Proof using. rewrite (zsum_ext n _ (fun k => a * (f k * g k) + - b * (f k * h k))) by (intros; ring). rewrite zsum_add, !zsum_scal. ring. Qed.
Lemma u_row i l : (i < n)%nat -> (l < n)%nat -> zsum n (fun k => M i k * uu l k) = al * (D * delta i l) - be l * (D * delta i m).
Proof using Hn. intros Hi Hl. unfold uu. rewrite lin2. pose proof (adj_r n M i l Hi Hl) as E1. pose proof (adj_r n M i m Hi ltac:(lia)) as E2. unfold mmul in E1, E2. rewrite E1, E2. reflexivity. Qed.
Lemma u_w l : zsum n (fun k => w k * uu l k) = 0.
Proof using. unfold uu. rewrite lin2. change (al * be l - be l * al = 0). ring. Qed.
Lemma F_u l : zsum n (fun s => w s * (adj n M s m * adj n M m l - adj n M s l * adj n M m m)) = uu l m.
Proof using. unfold uu. rewrite (zsum_ext n _ (fun s => w s * (adj n M m l * adj n M s m - adj n M m m * adj n M s l))) by (intros; ring). rewrite lin2. fold al. fold (be l). ring. Qed.
Lemma only_zero v : al <> 0 -> (forall i, (i < m)%nat -> zsum n (fun k => M i k * v k) = 0) -> zsum n (fun k => w k * v k) = 0 -> forall k, (k < n)%nat -> v k = 0.
Proof using Hn D0.
  intros NA HV HW. set (t := zsum n (fun k => M m k * v k)). assert (E : forall k, (k < n)%nat -> D * v k = adj n M k m * t).
  { intros k Hk. transitivity (zsum n (fun j => zsum n (fun i => adj n M k i * M i j) * v j)).
    - rewrite (zsum_ext n _ (fun j => D * (delta k j * v j))). + rewrite zsum_scal, zsum_delta by exact Hk. reflexivity. + intros j Hj. pose proof (adj_l n M k j Hk Hj) as E1. unfold mmul in E1. rewrite E1. unfold D. ring.
    - rewrite (zsum_ext n _ (fun j => zsum n (fun i => adj n M k i * (M i j * v j)))). + rewrite zsum_swap. rewrite (zsum_single n _ m); [rewrite zsum_scal; reflexivity|lia|]. intros i Hi Ni. rewrite zsum_scal, (HV i) by lia. ring. + intros j _. rewrite Z.mul_comm, <- zsum_scal. apply zsum_ext. intros i _. ring. }
  assert (T : t * al = 0).
  { transitivity (D * zsum n (fun k => w k * v k)); [|rewrite HW; ring]. rewrite <- zsum_scal. unfold al. rewrite <- zsum_scal. apply zsum_ext. intros k Hk. transitivity (w k * (D * v k)); [rewrite (E k Hk); ring|ring]. }
  assert (t = 0) as T0 by (apply Z.mul_eq_0 in T; tauto). intros k Hk. specialize (E k Hk). rewrite T0 in E. assert (D * v k = 0) as E0 by lia. apply Z.mul_eq_0 in E0. destruct E0; [contradiction|assumption].
Qed.
(** The normals of the facet are the multiples of u. *)
Lemma normal_multiple l b : al <> 0 -> (l < m)%nat -> zsum n (fun k => w k * b k) = 0 -> (forall i, (i < m)%nat -> i <> l -> zsum n (fun k => M i k * b k) = 0) ->
  forall k, (k < n)%nat -> (al * D) * b k = zsum n (fun k => M l k * b k) * uu l k.
Proof using Hn D0.
  intros NA Hl BW BR k Hk. set (c := zsum n (fun k => M l k * b k)). cut ((al * D) * b k - c * uu l k = 0); [lia|]. refine (only_zero (fun k => (al * D) * b k - c * uu l k) NA _ _ k Hk).
  - intros i Hi. rewrite lin2, u_row by lia. unfold delta at 2. destruct (Nat.eqb_spec i m); [lia|]. unfold delta. destruct (Nat.eqb_spec i l) as [->|N].
    + fold c. ring.
    + rewrite (BR i Hi N). ring.
  - rewrite lin2, u_w, BW. ring.
Qed.
Lemma u_nonzero l : al <> 0 -> (l < m)%nat -> exists k, (k < n)%nat /\ uu l k <> 0.
Proof using Hn D0.
  intros NA Hl. destruct (some_nonzero n (uu l)) as [H|H]; [exact H|]. exfalso. pose proof (u_row l l ltac:(lia) ltac:(lia)) as E. rewrite (zsum_zero n) in E by (intros i Hi; rewrite H by exact Hi; ring). unfold delta in E. rewrite Nat.eqb_refl in E. destruct (Nat.eqb_spec l m); [lia|]. assert (al * D = 0) as E0 by lia. apply Z.mul_eq_0 in E0. unfold D in E0. tauto.
Qed.
End Core.

Lemma unit_len n j : length (unit_row n j) = n.
Proof. unfold unit_row. now rewrite map_length, seq_length. Qed.
Lemma complete_spec n rays js M : complete_rays n rays js = Some M -> det n (ent M) <> 0 /\ exists e, length e = n /\ M = (rays ++ [e])%list.
Proof.
  induction js as [|j js IH]; [discriminate|]. cbn [complete_rays]. destruct (Z.eqb_spec (det n (ent (rays ++ [unit_row n j]))) 0) as [E|E]; [exact IH|]. intros [= <-]. split; [exact E|]. exists (unit_row n j). split; [apply unit_len|reflexivity].
Qed.
Lemma upd_app {A} (l : list A) x y : upd (l ++ [x]) (length l) y = (l ++ [y])%list.
Proof. induction l as [|a l IH]; [reflexivity|]. cbn. now rewrite IH. Qed.
Lemma det_by_adj n rays e w : S (length rays) = n -> length w = n -> cone_det n rays w = zsum n (fun s => nth s w 0 * adj n (ent (rays ++ [e])) s (length rays)).
Proof. intros L W. unfold cone_det. rewrite <- (upd_app rays e w). apply upd_det; [lia|rewrite app_length; cbn; lia|exact W]. Qed.
Lemma complete_total n rays : boundary_cone n rays -> complete_rays n rays (seq 0 n) <> None.
Proof.
  intros (L & F & w & W & NZ) E. apply NZ. assert (H : forall js, complete_rays n rays js = None -> forall j, In j js -> det n (ent (rays ++ [unit_row n j])) = 0).
  { induction js as [|j js IH]; [intros _ j []|]. cbn [complete_rays]. destruct (Z.eqb_spec (det n (ent (rays ++ [unit_row n j]))) 0) as [E0|E0]; [|discriminate]. intros E1 j' [<-|Hj]; [exact E0|exact (IH E1 j' Hj)]. }
  rewrite (det_by_adj n rays w w L W). apply zsum_zero. intros j Hj. specialize (H _ E j ltac:(apply in_seq; lia)). pose proof (det_by_adj n rays w (unit_row n j) L (unit_len n j)) as E1. unfold cone_det in E1. rewrite H in E1. rewrite (zsum_single n _ j) in E1; [|exact Hj|].
  - unfold unit_row in E1. rewrite nth_map_seq, Nat.eqb_refl in E1 by exact Hj. rewrite Z.mul_1_l in E1. rewrite <- E1. ring.
  - intros i Hi Ni. unfold unit_row. rewrite nth_map_seq by exact Hi. destruct (Nat.eqb_spec i j); [congruence|]. reflexivity.
Qed.
Definition Fl (n : nat) (w : list Z) (b : list Z * list (list Z)) (l : nat) : Z := zsum n (fun s => nth s w 0 * nth l (nth s (snd b) []) 0).
Definition Al (n : nat) (w : list Z) (b : list Z * list (list Z)) : Z := zsum n (fun s => nth s w 0 * nth s (fst b) 0).
Lemma zdot_comm a b : length a = length b -> zdot a b = zdot b a.
Proof. intros L. unfold zdot. rewrite L. apply zsum_ext. intros. ring. Qed.
Lemma basis_ok n rays : boundary_cone n rays -> exists b, alpha_basis n rays = Ok b /\ length (fst b) = n /\ length (snd b) = n /\ Forall (fun f => length f = (n - 1)%nat) (snd b) /\
  forall w, length w = n -> Al n w b = cone_det n rays w /\ (cone_det n rays w <> 0 -> ((forall l, (l < n - 1)%nat -> Fl n w b l <> 0) <-> avoids n rays w)).
Proof.
  intros BC. pose proof (complete_total n rays BC) as CT. destruct BC as (L & F & _). unfold alpha_basis. rewrite L, Nat.eqb_refl. cbn [negb]. destruct (complete_rays n rays (seq 0 n)) as [M|] eqn:E; [|congruence]. destruct (complete_spec n rays _ M E) as (D0 & e & Le & ->). eexists. split; [reflexivity|]. cbn [fst snd]. rewrite !map_length, seq_length. split; [reflexivity|]. split; [reflexivity|]. split; [apply Forall_map, Forall_forall; intros; rewrite map_length, seq_length; reflexivity|].
  set (M := ent (rays ++ [e])) in *. intros w W. assert (Em : (n - 1)%nat = length rays) by lia. rewrite Em. set (m := length rays) in *. assert (A : cone_det n rays w = al n m M (fun s => nth s w 0)) by (apply det_by_adj; assumption).
  assert (FL : forall l, (l < m)%nat -> Fl n w (map (fun s => adj n M s m) (seq 0 n), map (fun s => map (fun l => adj n M s m * adj n M m l - adj n M s l * adj n M m m) (seq 0 m)) (seq 0 n)) l = uu n m M (fun s => nth s w 0) l m).
  { intros l Hl. unfold Fl. cbn [snd]. rewrite <- F_u. apply zsum_ext. intros s Hs. rewrite nth_map_seq by exact Hs. now rewrite nth_map_seq by exact Hl. }
  split.
  - rewrite A. unfold Al, al. cbn [fst]. apply zsum_ext. intros s Hs. now rewrite nth_map_seq by exact Hs.
  - intros NZ. assert (MR : forall i r, nth_error rays i = Some r -> (i < m)%nat /\ length r = n /\ forall k, M i k = nth k r 0).
    { intros i r H. assert (Hi : (i < m)%nat) by (apply nth_error_Some; congruence). split; [exact Hi|]. split; [rewrite Forall_forall in F; apply F; eapply nth_error_In; exact H|]. intros k. unfold M, ent. rewrite app_nth1 by exact Hi. now rewrite (nth_error_nth _ _ _ H). }
    pose proof NZ as NA. rewrite A in NA. split.
    + intros H. right. intros l b Hl (Lb & (k0 & NB) & BW & BR). rewrite Em. fold m. fold m in Hl. intros B0.
      assert (K0 : (k0 < n)%nat). { destruct (Nat.lt_ge_cases k0 n); [assumption|]. rewrite nth_overflow in NB by lia. congruence. }
      assert (NM : forall k, (k < n)%nat -> (al n m M (fun s => nth s w 0) * det n M) * nth k b 0 = zsum n (fun k => M l k * nth k b 0) * uu n m M (fun s => nth s w 0) l k).
      { refine (normal_multiple n m L M D0 (fun s => nth s w 0) l (fun k => nth k b 0) NA Hl _ _).
        - rewrite zdot_comm in BW by lia. unfold zdot in BW. rewrite W in BW. exact BW.
        - intros i Hi Ni. destruct (nth_error rays i) as [r|] eqn:R; [|apply nth_error_None in R; fold m in R; lia]. destruct (MR i r R) as (_ & Lr & EM). specialize (BR i r R Ni). rewrite zdot_comm in BR by lia. unfold zdot in BR. rewrite Lr in BR. refine (eq_trans _ BR). apply zsum_ext. intros k _. cbn beta. rewrite (EM k). reflexivity. }
      pose proof (NM m ltac:(lia)) as E1. rewrite B0, Z.mul_0_r in E1. symmetry in E1. apply Z.mul_eq_0 in E1. destruct E1 as [E1|E1]; [|rewrite <- FL in E1 by exact Hl; exact (H l Hl E1)]. specialize (NM k0 K0). rewrite E1, Z.mul_0_l in NM. apply Z.mul_eq_0 in NM. destruct NM as [NM|NM]; [apply Z.mul_eq_0 in NM; tauto|contradiction].
    + intros [H|H]; [contradiction|]. intros l Hl FZ. rewrite (FL l Hl) in FZ. destruct (u_nonzero n m L M D0 (fun s => nth s w 0) l NA Hl) as (k & Hk & NK).
      apply (H l (map (uu n m M (fun s => nth s w 0) l) (seq 0 n)) Hl).
      * split; [now rewrite map_length, seq_length|]. split; [exists k; now rewrite nth_map_seq|]. split.
        -- unfold zdot. rewrite map_length, seq_length. refine (eq_trans _ (u_w n m M (fun s => nth s w 0) l)). apply zsum_ext. intros s Hs. rewrite nth_map_seq by exact Hs. cbn beta. ring.
        -- intros i r R Ni. destruct (MR i r R) as (Hi & _ & EM). unfold zdot. rewrite map_length, seq_length. pose proof (u_row n m L M (fun s => nth s w 0) i l ltac:(lia) ltac:(lia)) as UR. unfold delta in UR. destruct (Nat.eqb_spec i l); [congruence|]. destruct (Nat.eqb_spec i m); [lia|]. transitivity (zsum n (fun k => M i k * uu n m M (fun s => nth s w 0) l k)); [|rewrite UR; ring]. apply zsum_ext. intros s Hs. rewrite nth_map_seq by exact Hs. rewrite EM. ring.
      * rewrite Em. fold m. rewrite nth_map_seq by lia. exact FZ.
Qed.
