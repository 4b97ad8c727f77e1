(** From a triangulation of a cone, or of its dual, to lattice functions. *)
From Coq Require Import QArith Qfield Lqa.
From Verif Require Import Common ZMat Hermite HermiteProofs Det DetProofs RatVec RatVecSpec Piped PipedSpec PipedProofs PipedProofs3 PipedProofs4 ConeSpec ConeProofs Irrational IrrationalProofs IrrationalProofs2 IrrationalProofs3 ExpSpec ExpProofs3 CountSpec Barvinok BarvinokSpec BarvinokProofs2 BarvinokProofs3 BrionLinear BrionProofs BrionProofs2 EulerProofs BrionProofs4.
Open Scope Q_scope.

Lemma in_gen_cone n V x : length V = n -> (in_gen n V x <-> in_cone n origin V x).
Proof.
  intros L. unfold in_gen, in_cone, combination. rewrite L. split; intros (a & P & E); exists a; (split; [exact P|]); intros i Hi; specialize (E i Hi); unfold origin in *; lra.
Qed.
Lemma cone_of n T : n_vectors n T -> lin_indep n T -> exists c, cone_full n c /\ s_rays c = T.
Proof. intros NV LI. destruct (det_and_facets_full n T NV (indep_det n T LI)) as (c & _ & FC & ER). eauto. Qed.
Lemma facets_normals n c : cone_ok n c -> proper_normals n (s_facets c).
Proof.
  intros OK. destruct (Nat.eq_0_gt_0_cases n) as [E|Hn]; [|exact (facets_proper n Hn c OK)]. subst n. pose proof (i_lf 0 c OK) as L. destruct (s_facets c); [intros h []|discriminate].
Qed.
(** Normals of the walls of a list of simplicial cones. *)
Definition wall_normals (n : nat) (Ts : list (list (list Z))) (H : list (list Z)) : Prop :=
  proper_normals n H /\ forall x, off n (map zpoint H) x -> forall T, In T Ts -> ~ on_wall n origin T x.
Lemma phi_dot n c x i : phi n c x i == dotq n x (zpoint (nth i (s_facets c) [])).
Proof. reflexivity. Qed.
Lemma phi_origin n c i : phi n c origin i == 0.
Proof. unfold phi, origin. rewrite (sumq_ext n _ (fun _ => 0)) by (intros; ring). apply sumq_0. Qed.
Lemma walls n Ts : (forall T, In T Ts -> n_vectors n T /\ lin_indep n T) -> exists H, wall_normals n Ts H.
Proof.
  induction Ts as [|T Ts IH]; intros HT.
  - exists []. split; [intros h []|intros x _ T []].
  - destruct (IH (fun T' H' => HT T' (or_intror H'))) as (H & P & O). destruct (HT T (or_introl eq_refl)) as [NV LI]. destruct (cone_of n T NV LI) as (c & FC & ER). pose proof FC as [OK _].
    exists (s_facets c ++ H). split.
    + intros h Hh. apply in_app_iff in Hh as [Hh|Hh]; [exact (facets_normals n c OK h Hh)|exact (P h Hh)].
    + intros x OX T' [<-|H'].
      * subst T. intros W. apply (on_wall_iff n c OK) in W as (i & Hi & E). rewrite phi_origin, phi_dot in E. apply (OX (zpoint (nth i (s_facets c) []))); [|exact E]. apply in_map, in_app_iff. left. apply nth_In. rewrite (i_lf n c OK). exact Hi.
      * apply O; [|exact H']. intros h Hh. apply OX. rewrite map_app. apply in_app_iff. now right.
Qed.
Lemma open_of_cone n T x : in_cone n origin T x -> ~ on_wall n origin T x -> in_open_cone n origin T x.
Proof.
  intros (a & P & C) W. exists a. split; [|exact C]. intros k Hk. specialize (P k Hk). destruct (Qlt_le_dec 0 (a k)) as [L|L]; [exact L|]. exfalso. apply W. exists a, k. split; [exact Hk|]. split; [lra|exact C].
Qed.
Lemma one_of {A} (f : A -> bool) (d : A) l : (forall i j, (i < j)%nat -> (j < length l)%nat -> f (nth i l d) = true -> f (nth j l d) = true -> False) ->
  lsum (map (fun a => b2z (f a)) l) = b2z (existsb f l).
Proof.
  induction l as [|a l IH]; intros H; [reflexivity|]. cbn [map existsb]. change (lsum (b2z (f a) :: map (fun a => b2z (f a)) l)) with (b2z (f a) + lsum (map (fun a => b2z (f a)) l))%Z.
  rewrite IH by (intros i j Hij Hj; apply (H (S i) (S j)); cbn [length]; lia). destruct (f a) eqn:E; cbn [orb]; [|reflexivity]. destruct (existsb f l) eqn:X; [|reflexivity]. exfalso. apply existsb_exists in X as (b & Hb & Eb). apply (In_nth _ _ d) in Hb as (j & Hj & Ej). apply (H 0%nat (S j)); [lia|cbn [length]; lia|exact E|cbn [nth]; now rewrite Ej].
Qed.
(** Off the walls, a point of the cone is in exactly one piece. *)
Lemma tri_count n V Ts H x : triangulates n V Ts -> wall_normals n Ts H -> off n (map zpoint H) x ->
  lsum (map (fun T => b2z (satb n (gen_rows n T) x)) Ts) = b2z (satb n (gen_rows n V) x).
Proof.
  intros (T1 & T2 & T3) [_ W] OX. specialize (W x OX). assert (G : forall T, In T Ts -> (satb n (gen_rows n T) x = true <-> in_cone n origin T x)) by (intros T HT; rewrite gen_ok; apply in_gen_cone; apply (T1 T HT)).
  rewrite (one_of (fun T => satb n (gen_rows n T) x) []).
  - f_equal. apply eq_iff_eq_true. rewrite existsb_exists, gen_ok, T2. split; intros (T & HT & E); exists T; (split; [exact HT|]); now apply G.
  - intros i j Hij Hj Fi Fj. apply (T3 i j x Hij Hj). split; apply open_of_cone; first [apply W, nth_In; lia | apply G; [apply nth_In; lia|assumption]].
Qed.
(** The polars of the pieces add up to the polar of the cone, modulo periodic functions. *)
Definition fpol (n : nat) (v : nat -> Q) (V : list (list Z)) (x : list Z) : Z := b2z (polb n (at_ v x) (gen_rows n V)).
Lemma fsum_units {A} (f : A -> bool) (l : list A) : fsum f (map (fun a => (1%Z, a)) l) = lsum (map (fun a => b2z (f a)) l).
Proof. unfold fsum. rewrite map_map. apply lsum_ext. intros a _. cbn [fst snd]. ring. Qed.
Lemma fsum_map2 {A B} (g : A -> B) (f : B -> bool) (l : list A) : fsum f (map (fun a => (1%Z, g a)) l) = lsum (map (fun a => b2z (f (g a))) l).
Proof. unfold fsum. rewrite map_map. apply lsum_ext. intros a _. cbn [fst snd]. ring. Qed.
Lemma tri_polar n V Ts v : triangulates n V Ts -> negl n (fun x => lsum (map (fun T => fpol n v T x) Ts) - fpol n v V x)%Z.
Proof.
  intros TR. destruct (walls n Ts (proj1 TR)) as (H & WN).
  set (L := map (fun T => (1%Z, gen_rows n T)) Ts ++ [((-1)%Z, gen_rows n V)]).
  apply (negl_ext n (fun x => fsum (polb n (at_ v x)) L)).
  - intros x _. unfold L. rewrite fsum_app, fsum_map2, fsum_cons. unfold fpol. cbn [fst snd]. change (fsum (polb n (at_ v x)) []) with 0%Z. lia.
  - apply (polar_negl n v H L).
    + unfold L. apply Forall_app. split; [apply Forall_map, Forall_forall; intros T _; apply gen_hom|constructor; [apply gen_hom|constructor]].
    + exact (proj1 WN).
    + intros x OX. unfold L. rewrite fsum_app, fsum_map2, fsum_cons. cbn [fst snd]. rewrite (tri_count n V Ts H x TR WN OX). change (fsum (fun r => satb n r x) []) with 0%Z. lia.
Qed.
(** A simplicial cone as the polar of its facets... and the polar of a polar. *)
Definition polrows (rs : list (list Z)) : list row := map (fun r => (0, fun k => - zpoint r k)) rs.
Lemma polrows_hom rs : hom (polrows rs).
Proof. intros c Hc. apply in_map_iff in Hc as (r & <- & _). reflexivity. Qed.
Lemma polrows_ok n rs x : satb n (polrows rs) x = true <-> below n rs x.
Proof.
  rewrite satb_iff. split.
  - intros H r Hr. specialize (H (0, fun k => - zpoint r k) (in_map (fun r => (0, fun k => - zpoint r k)) rs r Hr)). rewrite evr_dot_neg in H. change (dotq n x (zpoint r) <= 0). lra.
  - intros H c Hc. apply in_map_iff in Hc as (r & <- & Hr). rewrite evr_dot_neg. specialize (H r Hr). change (dotq n x (zpoint r) <= 0) in H. lra.
Qed.
Lemma below_polar n rs v x : length rs = n -> (below n rs (fun k => x k - v k) <-> in_polar n v rs x).
Proof.
  intros L. unfold below, in_polar. split.
  - intros H r Hr. apply (H (nth r rs [])), nth_In. lia.
  - intros H r Hr. apply (In_nth _ _ []) in Hr as (i & Hi & <-). apply (H i). lia.
Qed.
Lemma bipolar n c y : cone_ok n c -> (polb n y (polrows (s_rays c)) = true <-> in_cone n origin (s_rays c) y).
Proof.
  intros OK. rewrite polb_iff by apply polrows_hom. split.
  - intros H. apply (in_cone_iff n c OK). intros i Hi. rewrite phi_origin, phi_dot, dotq_comm. apply H. apply polrows_ok. intros r Hr. apply (In_nth _ _ []) in Hr as (j & Hj & <-). pose proof OK as ((LR & _) & _). 
    pose proof (c_pair n c OK j i ltac:(lia) Hi) as P. apply Qle_trans with (inject_Z (if (j =? i)%nat then - nth i (s_divs c) 0 else 0)%Z).
    + rewrite <- P. rewrite <- sumq_inj. apply Qle_lteq. right. apply sumq_ext. intros k Hk. rewrite inject_Z_mult. unfold zpoint, ent. ring.
    + change 0 with (inject_Z 0). rewrite <- Zle_Qle. pose proof (c_dl n c OK i Hi). destruct (j =? i)%nat; lia.
  - intros H x Sx. apply polrows_ok in Sx. pose proof (proj2 (gen_polar n (s_rays c) x) Sx) as G. rewrite polb_iff in G by apply gen_hom. rewrite dotq_comm. apply G, gen_ok. apply in_gen_cone; [exact (proj1 (proj1 OK))|exact H].
Qed.
(** ** Signed decompositions *)
Definition boxed (n : nat) (v : nat -> Q) (c : scone) (x : list Z) : Z := b2z (ind n v (zpoint x) c).
(** What is added up for the cones [ds] with apex v. *)
Definition csum (n : nat) (v : nat -> Q) (ds : list bcone) (x : list Z) : Z := lsum (map (fun d => b_coef d * boxed n v (b_cone d) x)%Z ds).
Lemma csum_app n v l l' x : csum n v (l ++ l') x = (csum n v l x + csum n v l' x)%Z.
Proof. unfold csum. rewrite map_app. apply lsum_app. Qed.
Lemma signed_csum n v ds x k : (forall d, In d ds -> cone_ok n (b_cone d)) -> signed_count (fun rs => in_cone n v rs (zpoint x)) (pairs ds) k -> csum n v ds x = k.
Proof.
  revert k. induction ds as [|d ds IH]; intros k OK SC; unfold pairs in SC; cbn [map] in SC.
  - inversion SC. reflexivity.
  - assert (E : csum n v (d :: ds) x = (b_coef d * boxed n v (b_cone d) x + csum n v ds x)%Z) by reflexivity. rewrite E. pose proof (ind_iff n v (zpoint x) (b_cone d) (OK d (or_introl eq_refl))) as II. unfold boxed in *.
    inversion SC as [|c r l k0 I S0|c r l k0 I S0]; subst.
    + apply II in I. rewrite I. rewrite (IH k0 (fun d' H' => OK d' (or_intror H')) S0). cbn [b2z]. lia.
    + destruct (ind n v (zpoint x) (b_cone d)) eqn:EI; [exfalso; apply I, II; reflexivity|]. rewrite (IH k (fun d' H' => OK d' (or_intror H')) S0). cbn [b2z]. lia.
Qed.
(** Membership in the polars of the cones: as in dual decomposition. *)
Lemma signed_fsum n v ds y k : (forall d, In d ds -> length (s_rays (b_cone d)) = n) -> signed_count (fun rs => in_polar n v rs (fun i => y i + v i)) (pairs ds) k ->
  fsum (fun r => satb n r y) (map (fun d => (b_coef d, polrows (s_rays (b_cone d)))) ds) = k.
Proof.
  assert (E : forall rs, length rs = n -> (satb n (polrows rs) y = true <-> in_polar n v rs (fun i => y i + v i))).
  { intros rs L. rewrite polrows_ok, <- (below_polar n rs v) by exact L. unfold below. split; intros H r Hr; specialize (H r Hr); [rewrite (sumq_ext n _ (fun k => y k * zpoint r k)) by (intros; ring)|rewrite (sumq_ext n _ (fun k => (y k + v k - v k) * zpoint r k)) by (intros; ring)]; exact H. }
  revert k. induction ds as [|d ds IH]; intros k L SC; unfold pairs in SC; cbn [map] in SC |- *.
  - inversion SC. reflexivity.
  - rewrite fsum_cons. cbn [fst snd]. specialize (E (s_rays (b_cone d)) (L d (or_introl eq_refl))).
    inversion SC as [|c r l k0 I S0|c r l k0 I S0]; subst.
    + apply E in I. rewrite I, (IH k0 (fun d' H' => L d' (or_intror H')) S0). cbn [b2z]. lia.
    + destruct (satb n (polrows (s_rays (b_cone d))) y) eqn:EI; [exfalso; apply I, E; reflexivity|]. rewrite (IH k (fun d' H' => L d' (or_intror H')) S0). cbn [b2z]. lia.
Qed.
Lemma in_cone_shift n v rs y : in_cone n v rs (fun i => y i + v i) <-> in_cone n origin rs y.
Proof. unfold in_cone, combination, origin. split; intros (a & P & C); exists a; (split; [exact P|]); intros i Hi; specialize (C i Hi); cbv beta in *; lra. Qed.
(** Dual decomposition of all pieces of a triangulation. *)
Definition dual_piece (n : nat) (v : nat -> Q) (T : list (list Z)) (ds : list bcone) : Prop :=
  (forall d, In d ds -> cone_ok n (b_cone d)) /\
  exists H, proper_normals n H /\ forall x, off_hyperplanes n v H x -> counts_to (fun rs => in_polar n v rs x) (pairs ds) 1 (in_cone n v T x).
Lemma off_shift n v H y : off n (map zpoint H) y -> off_hyperplanes n v H (fun i => y i + v i).
Proof. intros O h Hh E. apply (O (zpoint h) (in_map zpoint _ _ Hh)). unfold dotq. rewrite <- E. apply sumq_ext. intros k _. unfold zpoint. ring. Qed.
Lemma dual_pieces n v Ts dss : (forall T, In T Ts -> n_vectors n T /\ lin_indep n T) -> Forall2 (dual_piece n v) Ts dss ->
  exists H, proper_normals n H /\ forall y, off n (map zpoint H) y ->
    fsum (fun r => satb n r y) (map (fun d => (b_coef d, polrows (s_rays (b_cone d)))) (concat dss)) = lsum (map (fun T => b2z (satb n (gen_rows n T) y)) Ts).
Proof.
  intros HT F. induction F as [|T ds Ts dss D F IH].
  - exists []. split; [intros h []|]. intros y _. reflexivity.
  - destruct (IH (fun T' H' => HT T' (or_intror H'))) as (H & P & E). destruct D as (OK & H1 & P1 & C). exists (H1 ++ H). split; [intros h Hh; apply in_app_iff in Hh as [Hh|Hh]; auto|].
    intros y OY. rewrite map_app in OY. cbn [concat]. rewrite map_app, fsum_app. rewrite E by (intros h Hh; apply OY, in_app_iff; auto). cbn [map].
    change (lsum (b2z (satb n (gen_rows n T) y) :: map (fun T => b2z (satb n (gen_rows n T) y)) Ts)) with (b2z (satb n (gen_rows n T) y) + lsum (map (fun T => b2z (satb n (gen_rows n T) y)) Ts))%Z. f_equal.
    specialize (C (fun i => y i + v i) (off_shift n v H1 y (fun h Hh => OY h (proj2 (in_app_iff _ _ _) (or_introl Hh))))). destruct C as [C1 C2].
    assert (LR : forall d, In d ds -> length (s_rays (b_cone d)) = n) by (intros d Hd; exact (proj1 (proj1 (OK d Hd)))).
    destruct (HT T (or_introl eq_refl)) as [[LT _] _]. pose proof (gen_ok n T y) as G. rewrite (in_gen_cone n T y LT), <- (in_cone_shift n v) in G.
    destruct (satb n (gen_rows n T) y) eqn:EG; cbn [b2z]; apply (signed_fsum n v); auto; [apply C1, G; reflexivity|apply C2; intros I; apply G in I; discriminate].
Qed.
Theorem dual_cone_sum n v V Ts dss : triangulates n V Ts -> Forall2 (dual_piece n v) Ts dss -> negl n (fun x => csum n v (concat dss) x - fpol n v V x)%Z.
Proof.
  intros TR F. destruct (walls n Ts (proj1 TR)) as (H & WN). destruct (dual_pieces n v Ts dss (proj1 TR) F) as (H2 & P2 & E).
  assert (OK : forall d, In d (concat dss) -> cone_ok n (b_cone d)).
  { intros d Hd. apply in_concat in Hd as (ds & Hds & Hd). clear -F Hds Hd. induction F as [|T ds' Ts dss D F IH]; [destruct Hds|]. destruct Hds as [->|Hds]; [exact (proj1 D d Hd)|auto]. }
  set (L := map (fun d => (b_coef d, polrows (s_rays (b_cone d)))) (concat dss) ++ [((-1)%Z, gen_rows n V)]).
  apply (negl_ext n (fun x => fsum (polb n (at_ v x)) L)).
  - intros x _. unfold L. rewrite fsum_app, fsum_cons. cbn [fst snd]. change (fsum (polb n (at_ v x)) []) with 0%Z. unfold fpol.
    assert (S0 : fsum (polb n (at_ v x)) (map (fun d => (b_coef d, polrows (s_rays (b_cone d)))) (concat dss)) = csum n v (concat dss) x); [|lia].
    unfold fsum, csum. rewrite map_map. apply lsum_ext. intros d Hd. cbn [fst snd]. f_equal. unfold boxed. f_equal. apply eq_iff_eq_true. rewrite (bipolar n _ _ (OK d Hd)), (ind_iff n v _ _ (OK d Hd)). rewrite <- (in_cone_shift n v). unfold in_cone, combination, at_.
    split; intros (a & P & C); exists a; (split; [exact P|]); intros i Hi; specialize (C i Hi); cbv beta in *; lra.
  - apply (polar_negl n v (H ++ H2) L).
    + unfold L. apply Forall_app. split; [apply Forall_map, Forall_forall; intros d _; apply polrows_hom|constructor; [apply gen_hom|constructor]].
    + intros h Hh. apply in_app_iff in Hh as [Hh|Hh]; [exact (proj1 WN h Hh)|exact (P2 h Hh)].
    + intros y OY. rewrite map_app in OY. unfold L. rewrite fsum_app, fsum_cons. cbn [fst snd]. rewrite E by (intros h Hh; apply OY, in_app_iff; auto). rewrite (tri_count n V Ts H y TR WN) by (intros h Hh; apply OY, in_app_iff; auto). change (fsum (fun r => satb n r y) []) with 0%Z. lia.
Qed.
(** Irrational primal decomposition of the duals of the pieces, each with its own apex. *)
Definition primal_piece (n : nat) (v : nat -> Q) (T : list (list Z)) (p : (nat -> Q) * list bcone) : Prop :=
  (forall d, In d (snd p) -> cone_ok n (b_cone d)) /\
  forall x, counts_to (fun rs => in_cone n (fst p) rs (zpoint x)) (pairs (snd p)) 1 (in_polar n v T (zpoint x)).
Definition psum (n : nat) (ps : list ((nat -> Q) * list bcone)) (x : list Z) : Z := lsum (map (fun p => csum n (fst p) (snd p) x) ps).
Lemma primal_piece_sum n v T p x : length T = n -> primal_piece n v T p -> csum n (fst p) (snd p) x = fpol n v T x.
Proof.
  intros L (OK & C). destruct (C x) as [C1 C2]. pose proof (gen_polar n T (at_ v x)) as G. unfold at_ in G. rewrite (below_polar n T v (zpoint x) L) in G. unfold fpol, at_.
  destruct (polb n (fun k => zpoint x k - v k) (gen_rows n T)); cbn [b2z]; apply signed_csum; auto; [apply C1, G; reflexivity|apply C2; intros I; apply G in I; discriminate].
Qed.
Theorem primal_cone_sum n v V Ts ps : triangulates n V Ts -> Forall2 (primal_piece n v) Ts ps -> negl n (fun x => psum n ps x - fpol n v V x)%Z.
Proof.
  intros TR F. apply (negl_ext n (fun x => lsum (map (fun T => fpol n v T x) Ts) - fpol n v V x)%Z); [|now apply tri_polar]. intros x _. f_equal. unfold psum. pose proof (proj1 TR) as T1. clear TR. induction F as [|T p Ts ps P F IH]; [reflexivity|].
  cbn [map]. change (lsum (fpol n v T x :: map (fun T => fpol n v T x) Ts)) with (fpol n v T x + lsum (map (fun T => fpol n v T x) Ts))%Z. change (lsum (csum n (fst p) (snd p) x :: map (fun p => csum n (fst p) (snd p) x) ps)) with (csum n (fst p) (snd p) x + lsum (map (fun p => csum n (fst p) (snd p) x) ps))%Z.
  rewrite (primal_piece_sum n v T p x (proj1 (proj1 (T1 T (or_introl eq_refl)))) P), (IH (fun T' H' => T1 T' (or_intror H'))). reflexivity.
Qed.
(** All-primal: integer points are on no wall, so they are counted exactly. *)
Definition exact_piece (n : nat) (v : nat -> Q) (T : list (list Z)) (ds : list bcone) : Prop :=
  (forall d, In d ds -> cone_ok n (b_cone d)) /\ (forall x, ~ on_wall n v T (zpoint x)) /\
  forall x, counts_to (fun rs => in_cone n v rs (zpoint x)) (pairs ds) 1 (in_cone n v T (zpoint x)).
Definition fgen (n : nat) (v : nat -> Q) (V : list (list Z)) (x : list Z) : Z := b2z (satb n (gen_rows n V) (at_ v x)).
Theorem exact_cone_sum n v V Ts dss : triangulates n V Ts -> Forall2 (exact_piece n v) Ts dss -> forall x, csum n v (concat dss) x = fgen n v V x.
Proof.
  intros (T1 & T2 & T3) F x. unfold fgen.
  assert (SH : forall T, in_cone n origin T (at_ v x) <-> in_cone n v T (zpoint x)).
  { intros T. rewrite <- (in_cone_shift n v). unfold in_cone, combination, at_. split; intros (a & P & C); exists a; (split; [exact P|]); intros i Hi; specialize (C i Hi); cbv beta in *; lra. }
  assert (SW : forall T, on_wall n origin T (at_ v x) -> on_wall n v T (zpoint x)).
  { intros T (a & j & Hj & Z0 & C). exists a, j. split; [exact Hj|]. split; [exact Z0|]. intros i Hi. specialize (C i Hi). unfold at_, origin in C. lra. }
  assert (W : forall T, In T Ts -> ~ on_wall n origin T (at_ v x)).
  { intros T HT WT. apply SW in WT. clear -F HT WT. induction F as [|T' ds Ts dss D F IH]; [destruct HT|]. destruct HT as [->|HT]; [exact (proj1 (proj2 D) x WT)|auto]. }
  assert (G : forall T, In T Ts -> (satb n (gen_rows n T) (at_ v x) = true <-> in_cone n origin T (at_ v x))) by (intros T HT; rewrite gen_ok; apply in_gen_cone; apply (T1 T HT)).
  assert (S1 : csum n v (concat dss) x = lsum (map (fun T => b2z (satb n (gen_rows n T) (at_ v x))) Ts)).
  { clear T2 T3 W. revert T1 G. induction F as [|T ds Ts dss D F IH]; intros T1 G; [reflexivity|]. cbn [concat map]. rewrite csum_app. rewrite (IH (fun T' H' => T1 T' (or_intror H')) (fun T' H' => G T' (or_intror H'))).
    change (lsum (b2z (satb n (gen_rows n T) (at_ v x)) :: map (fun T => b2z (satb n (gen_rows n T) (at_ v x))) Ts)) with (b2z (satb n (gen_rows n T) (at_ v x)) + lsum (map (fun T => b2z (satb n (gen_rows n T) (at_ v x))) Ts))%Z. f_equal.
    destruct D as (OK & _ & C). destruct (C x) as [C1 C2]. specialize (G T (or_introl eq_refl)). rewrite SH in G. destruct (satb n (gen_rows n T) (at_ v x)); cbn [b2z]; apply signed_csum; auto; [apply C1, G; reflexivity|apply C2; intros I; apply G in I; discriminate]. }
  rewrite S1, (one_of (fun T => satb n (gen_rows n T) (at_ v x)) []).
  - f_equal. apply eq_iff_eq_true. rewrite existsb_exists, gen_ok, T2. split; intros (T & HT & E); exists T; (split; [exact HT|]); now apply G.
  - intros i j Hij Hj Fi Fj. apply (T3 i j (at_ v x) Hij Hj). split; apply open_of_cone; first [apply W, nth_In; lia | apply G; [apply nth_In; lia|assumption]].
Qed.
