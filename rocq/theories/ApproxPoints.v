(** The integer points of a parallelepiped, whatever their number (as points_ok_core, without the limits of int). *)
From Coq Require Import QArith Permutation.
From Verif Require Import Common ZMat Hermite HermiteProofs Det DetProofs RatVec RatVecSpec RatVecProofs IntComb IntCombSpec IntCombProofs Smith SmithSpec SmithProofs SmithProofs2 SmithProofs3 Piped PipedSpec PipedProofs PipedProofs2 PipedProofs3 PipedProofs4.
Open Scope Z_scope.
Section Gen.
Context (xg : Z -> Z -> Z * Z * Z) (XG : xgcd_contract xg) (n : nat) (Hn : (0 < n)%nat) (c : scone) (OK : cone_ok n c) (v : rvec).
Context (w : list Z) (s : Z) (v' : rvec) (SE : scale_to_integer v n = Ok (v', w, s)) (Hs : s <> 0) (Lw : length w = n) (SV : forall i, (i < n)%nat -> (inject_Z (nth i w 0%Z) == inject_Z s * coord v i)%Q).
Let A := ent (s_rays c). Let F := ent (s_facets c). Let dl := fun j => nth j (s_divs c) 0. Let dd := Z.abs (det n A). Let sc := fun j => dd / dl j.
Let bb := fun i => pr n F (fun k => nth k w 0) i / s.
Lemma piped_core : exists ps, NoDup ps /\ (forall x, In x ps <-> in_parallelepiped n v (s_rays c) x) /\ Z.of_nat (length ps) = Z.abs (s_det c).
Proof.
  destruct (gen_ok xg XG n Hn c OK v w s v' SE Hs Lw) as (fuel & g & G & Lm & Pm & Ec & Es & (W & Wi & R & Ri & I1 & I2 & I3 & FAC & MU)). destruct OK as (NV & ED & D0 & DU & DV).
  assert (DN : det n A <> 0) by (unfold A; now rewrite <- ED). assert (DV' : forall j, (j < n)%nat -> (nth j (s_divs c) 0 | det n (ent (s_rays c)))) by (intros j Hj; rewrite <- ED; now apply DV).
  assert (DD : 0 < dd) by (unfold dd; lia).
  pose proof (w_pair n (s_rays c) (s_facets c) (s_divs c) DU) as PAIR. pose proof (w_dl n (s_rays c) (s_facets c) (s_divs c) DU) as DL. pose proof (w_sc n (s_rays c) (s_facets c) (s_divs c) DU DV') as SC.
  change (forall i j, (i < n)%nat -> (j < n)%nat -> zsum n (fun k => A i k * F j k) = if (i =? j)%nat then - dl j else 0) in PAIR. change (forall j, (j < n)%nat -> 0 < dl j) in DL. change (forall j, (j < n)%nat -> sc j * dl j = dd) in SC.
  set (mx := p_max g) in *. set (u := map (fun x => x - 1) mx).
  assert (FP : Forall (fun x => 0 < x) mx) by (apply Forall_forall; intros x Hx; apply In_nth with (d := 0) in Hx as (j & Hj & <-); apply Pm; now rewrite <- Lm).
  assert (PRD : zprod mx = dd).
  { unfold dd. rewrite <- (adapted_prod n A W (fun j => nth j mx 0)); [|exists Wi, R, Ri; auto|exact Pm]. f_equal. apply list_map_nth. exact Lm. }
  assert (DDE : dd = Z.abs (s_det c)) by (unfold dd, A; now rewrite ED).
  assert (Lu : length u = n) by (unfold u; now rewrite map_length).
  destruct (enum_ok u) with (extra := 1%nat) as (s1 & kss & EM & ND & IB & LK & _); [lia|apply Forall_forall; intros x Hx; unfold u in Hx; apply in_map_iff in Hx as (y & <- & Hy); rewrite Forall_forall in FP; specialize (FP y Hy); lia|].
  exists (map (generate_point n c g) kss). set (P := fun ks l => pt n A F dl W bb (fun j => nth j ks 0) l).
  assert (GP : forall ks, generate_point n c g ks = map (P ks) (seq 0 n)).
  { intros ks. unfold generate_point. apply map_ext_in. intros l Hl. apply in_seq in Hl. rewrite Ec.
    rewrite (zsum_ext n _ (fun i => mult n F dl W bb (fun j => nth j ks 0) i * sc i * A i l)) by (intros i Hi; rewrite nth_map_seq, MU, Es by auto; reflexivity).
    rewrite (sum_mult n A F dl sc dd DN PAIR DL SC W bb) by lia. rewrite Z.mul_comm, Z.div_mul by lia. reflexivity. }
  assert (BX : forall ks, In ks kss <-> length ks = n /\ forall j, (j < n)%nat -> 0 <= nth j ks 0 < nth j mx 0) by (intros ks; rewrite IB; unfold u; rewrite box_iff, Lm; reflexivity).
  assert (INJ : forall ks ks', In ks kss -> In ks' kss -> generate_point n c g ks = generate_point n c g ks' -> ks = ks').
  { intros ks ks' H H' E. apply BX in H as [L B]. apply BX in H' as [L' B']. rewrite !GP in E.
    apply nth_ext with (d := 0) (d' := 0); [congruence|]. rewrite L. apply (pt_inj n A F dl W Wi R Ri (fun j => nth j mx 0) I2 I3 FAC bb); auto.
    intros l Hl. change (P ks l = P ks' l). apply (f_equal (fun z => nth l z 0)) in E. now rewrite !nth_map_seq in E by auto. }
  split; [|split].
  - clear -ND INJ. induction kss as [|k kss IH]; cbn [map]; constructor.
    + intros H. apply in_map_iff in H as (k' & E & H'). inversion ND; subst. assert (k' = k) by (apply INJ; auto; [now right|now left]). subst. auto.
    + inversion ND; subst. apply IH; auto. intros a b Ha Hb. apply INJ; now right.
  - intros x. assert (WIN : forall x, length x = n -> in_parallelepiped n v (s_rays c) x <-> forall i, (i < n)%nat -> bb i - dl i < pr n F (fun k => nth k x 0) i <= bb i).
    { intros x0 Lx. apply (in_piped_iff n (s_rays c) (s_facets c) (s_divs c) v w s DU DN Hs DV' SV x0 Lx). }
    rewrite in_map_iff. split.
    + intros (ks & <- & Hk). rewrite GP. assert (LG : length (map (P ks) (seq 0 n)) = n) by (now rewrite map_length, seq_length). apply (WIN _ LG). intros i Hi.
      rewrite (pr_ext n F _ (P ks)) by (intros l Hl; now rewrite nth_map_seq). apply (pt_window n A F dl PAIR DL W bb _ i Hi).
    + intros H. assert (Lx : length x = n) by apply H. pose proof (proj1 (WIN x Lx) H) as H1. clear H. rename H1 into H.
      destruct (pt_onto n A F dl sc dd DN DD PAIR DL SC W Wi R (fun j => nth j mx 0) I1 FAC Pm bb (fun k => nth k x 0) H) as (k & Bk & Ek).
      exists (map k (seq 0 n)). split.
      * rewrite GP. etransitivity; [|symmetry; apply (list_map_nth x n Lx)]. apply map_ext_in. intros l Hl. apply in_seq in Hl. rewrite <- (Ek l) by lia. unfold P, pt. assert (EW : forall l, wk n W (fun j => nth j (map k (seq 0 n)) 0) l = wk n W k l) by (intros l0; unfold wk; apply zsum_ext; intros j Hj; now rewrite nth_map_seq).
        rewrite EW. f_equal. apply zsum_ext. intros i Hi. unfold quo. rewrite (pr_ext n F (wk n W (fun j => nth j (map k (seq 0 n)) 0)) (wk n W k)) by (intros; apply EW). reflexivity.
      * apply BX. split; [now rewrite map_length, seq_length|]. intros j Hj. rewrite nth_map_seq by auto. now apply Bk.
  - rewrite map_length, LK. unfold u. rewrite box_size_prod, PRD, <- DDE. lia.
Qed.
End Gen.
Theorem piped_points xg n c v : xgcd_contract xg -> (0 < n)%nat -> cone_ok n c -> (exists P k, (P = nonzero \/ P = positive) /\ reachable P k v) -> dim v = n ->
  exists ps, NoDup ps /\ (forall x, In x ps <-> in_parallelepiped n v (s_rays c) x) /\ Z.of_nat (length ps) = Z.abs (s_det c).
Proof.
  intros XG Hn OK (P & k & HP & RV) Dv. destruct (scale_exact P k v HP RV) as (v' & w & s & SE & Hs & Lw & SV & _). rewrite Dv in SE, Lw, SV. exact (piped_core xg XG n Hn c OK v w s v' SE Hs Lw SV).
Qed.
