(** Proofs about hilbert-from-rays. *)
From Coq Require Import QArith Qround Lqa.
From Verif Require Import Common ZMat Hermite HermiteProofs Det DetProofs RatVec RatVecSpec RatVecProofs Util UtilProofs SmithSpec Piped PipedSpec PipedProofs PipedProofs2 PipedProofs3 PipedProofs4 P_Piped ConeSpec CountSpec Normalize NormalizeSpec.
Open Scope Z_scope.

Lemma same_vector_eq x y : same_vector x y = true <-> x = y.
Proof. unfold same_vector. destruct (list_eq_dec Z.eq_dec x y); split; congruence. Qed.
Lemma existsb_in v l : existsb (same_vector v) l = true <-> In v l.
Proof.
  rewrite existsb_exists. split; [intros (x & H & E); apply same_vector_eq in E; now subst|]. intros H. exists v. split; [exact H|now apply same_vector_eq].
Qed.
Lemma insert_in known v x : In x (insert known v) <-> In x known \/ x = v.
Proof.
  unfold insert. destruct (existsb (same_vector v) known) eqn:E; [apply existsb_in in E; split; [auto|intros [H| ->]; auto]|]. rewrite in_app_iff. cbn. split; [intros [H|[H|[]]]; auto|intros [H|H]; auto].
Qed.
Lemma insert_nodup known v : NoDup known -> NoDup (insert known v).
Proof.
  intros N. unfold insert. destruct (existsb (same_vector v) known) eqn:E; [exact N|]. assert (X : ~ In v known) by (rewrite <- existsb_in; congruence). clear E. induction known as [|a l IH]; [constructor; [intros []|constructor]|].
  apply NoDup_cons_iff in N as (N1 & N2). cbn [app]. constructor; [|apply IH; [exact N2|intros Y; apply X; now right]]. rewrite in_app_iff. intros [Y|[Y|[]]]; [contradiction|]. apply X. left. now symmetry.
Qed.
Lemma insert_all_in vs : forall known x, In x (fold_left insert vs known) <-> In x known \/ In x vs.
Proof. induction vs as [|v vs IH]; intros known x; cbn [fold_left]; [cbn; tauto|]. rewrite IH, insert_in. cbn. split; [intros [[H|H]|H]; auto|intros [H|[H|H]]; auto]. Qed.
Lemma insert_all_nodup vs : forall known, NoDup known -> NoDup (fold_left insert vs known).
Proof. induction vs as [|v vs IH]; intros known N; [exact N|]. apply IH, insert_nodup, N. Qed.

(* sums *)
Lemma sum_more n G H x : incl G H -> sum_of n G x -> sum_of n H x.
Proof. intros I0 S0. induction S0 as [x L Z0|x g y S0 IH Hg L E]; [now apply no_summand|]. apply one_more with (x := x) (g := g); auto. Qed.
Lemma sum_length n G x : sum_of n G x -> length x = n.
Proof. destruct 1; auto. Qed.
Lemma sum_through n G H x : (forall g, In g G -> sum_of n H g) -> sum_of n G x -> sum_of n H x.
Proof.
  assert (AD : forall a, sum_of n H a -> forall b y, sum_of n H b -> length y = n -> (forall i, (i < n)%nat -> nth i y 0 = nth i a 0 + nth i b 0) -> sum_of n H y).
  { intros a Sa. induction Sa as [a La Za|a g c Sa IH Hg Lc Ec]; intros b y Sb Ly Ey.
    - assert (y = b). { apply nth_ext with (d := 0) (d' := 0); [rewrite Ly; symmetry; now apply (sum_length n H)|]. intros i Hi. rewrite Ly in Hi. rewrite Ey, Za by exact Hi. lia. } subst y. exact Sb.
    - set (z := map (fun i => nth i a 0 + nth i b 0) (seq 0 n)).
      assert (NZ : forall i, (i < n)%nat -> nth i z 0 = nth i a 0 + nth i b 0) by (intros i Hi; unfold z; now rewrite nth_map_seq).
      assert (Lz : length z = n) by (unfold z; now rewrite map_length, seq_length).
      apply one_more with (x := z) (g := g); [apply (IH b z Sb Lz NZ)|exact Hg|exact Ly|]. intros i Hi. rewrite Ey, Ec, NZ by exact Hi. lia. }
  intros HG S0. induction S0 as [x L Z0|x g y S0 IH Hg L E]; [now apply no_summand|]. apply (AD x IH g y (HG g Hg) L E).
Qed.
(* a multiple of one vector on top *)
Lemma sum_multiple n G g : In g G -> forall k x y, 0 <= k -> sum_of n G x -> length y = n -> (forall i, (i < n)%nat -> nth i y 0 = nth i x 0 + k * nth i g 0) -> sum_of n G y.
Proof.
  intros Hg k x y K0. revert y. pattern k. apply natlike_ind; [| |exact K0].
  - intros y Sx L E. assert (y = x). { apply nth_ext with (d := 0) (d' := 0); [rewrite L; symmetry; now apply (sum_length n G)|]. intros i Hi. rewrite L in Hi. rewrite E by exact Hi. lia. } now subst.
  - intros j Hj IH y Sx L E. set (z := map (fun i => nth i x 0 + j * nth i g 0) (seq 0 n)).
    assert (NZ : forall i, (i < n)%nat -> nth i z 0 = nth i x 0 + j * nth i g 0) by (intros i Hi; unfold z; now rewrite nth_map_seq).
    apply one_more with (x := z) (g := g); [apply IH; [exact Sx|unfold z; now rewrite map_length, seq_length|exact NZ]|exact Hg|exact L|]. intros i Hi. rewrite E, NZ by exact Hi. lia.
Qed.
Lemma sum_combination n G : forall V (f : nat -> Z) x y, incl V G -> (forall k, (k < length V)%nat -> 0 <= f k) -> sum_of n G x -> length y = n ->
  (forall i, (i < n)%nat -> nth i y 0 = nth i x 0 + sumz (length V) (fun k => f k * vat V k i)) -> sum_of n G y.
Proof.
  intros V. induction V as [|r V IH] using rev_ind; intros f x y I0 F0 Sx L E.
  - assert (y = x). { apply nth_ext with (d := 0) (d' := 0); [rewrite L; symmetry; now apply (sum_length n G)|]. intros i Hi. rewrite L in Hi. rewrite E by exact Hi. cbn. lia. } now subst.
  - rewrite app_length in *. cbn [length] in *. rewrite Nat.add_1_r in *. set (z := map (fun i => nth i x 0 + sumz (length V) (fun k => f k * vat V k i)) (seq 0 n)).
    assert (NZ : forall i, (i < n)%nat -> nth i z 0 = nth i x 0 + sumz (length V) (fun k => f k * vat V k i)) by (intros i Hi; unfold z; now rewrite nth_map_seq).
    apply (sum_multiple n G r) with (k := f (length V)) (x := z).
    + apply I0, in_or_app. right. now left.
    + apply F0. lia.
    + apply (IH f x z); [intros v Hv; apply I0, in_or_app; now left|intros k Hk; apply F0; lia|exact Sx|unfold z; now rewrite map_length, seq_length|exact NZ].
    + exact L.
    + intros i Hi. rewrite E, NZ by exact Hi. cbn [sumz]. unfold vat at 2. rewrite app_nth2, Nat.sub_diag by lia. cbn [nth].
      assert (SE : forall m g h, (forall k, (k < m)%nat -> g k = h k) -> sumz m g = sumz m h) by (induction m as [|m IHm]; intros g h GH; [reflexivity|]; cbn [sumz]; rewrite (IHm g h) by (intros; apply GH; lia); now rewrite GH by lia).
      rewrite (SE (length V) (fun k => f k * vat (V ++ [r]) k i) (fun k => f k * vat V k i)) by (intros k Hk; unfold vat; now rewrite app_nth1 by exact Hk). lia.
Qed.
Lemma coord_zero n i : (coord (rv_zero n) i == 0)%Q.
Proof. unfold coord, num_at, rv_zero. cbn [enumerator]. rewrite nth_repeat. unfold Qdiv. change (inject_Z 0) with 0%Q. ring. Qed.
(* a simplicial cone: points of the parallelepiped and rays *)
Lemma split_point n t x : n_vectors n t -> cone_point n t x -> exists p, in_parallelepiped n (rv_zero n) t p /\ forall G, incl t G -> sum_of n G p -> sum_of n G x.
Proof.
  intros (Lt & Ft) (Lx & a & A0 & A). rewrite Lt in *.
  set (fl := fun k => Qfloor (a k)). set (p := map (fun i => nth i x 0 - sumz n (fun k => fl k * vat t k i)) (seq 0 n)).
  assert (NP : forall i, (i < n)%nat -> nth i p 0 = nth i x 0 - sumz n (fun k => fl k * vat t k i)) by (intros i Hi; unfold p; now rewrite nth_map_seq).
  assert (SI : forall m g, (inject_Z (sumz m g) == sumq m (fun k => inject_Z (g k)))%Q) by (induction m as [|m IHm]; intros g; [reflexivity|]; cbn [sumz sumq]; rewrite inject_Z_plus, IHm; reflexivity).
  exists p. split.
  - split; [unfold p; now rewrite map_length, seq_length|]. exists (fun k => a k - inject_Z (fl k))%Q. split.
    + intros k Hk. unfold fl. pose proof (Qfloor_le (a k)). pose proof (Qlt_floor (a k)) as U. rewrite inject_Z_plus in U. change (inject_Z 1) with 1%Q in U. split; lra.
    + intros i Hi. rewrite NP by exact Hi.
      pose proof (coord_zero n i) as CZ.
      rewrite CZ. unfold Z.sub. rewrite inject_Z_plus, inject_Z_opp, SI. specialize (A i Hi). unfold zpoint in A. rewrite A.
      rewrite (sumq_ext n (fun k => (a k - inject_Z (fl k)) * inject_Z (vat t k i))%Q (fun k => a k * inject_Z (vat t k i) + (-1) * inject_Z (fl k * vat t k i))%Q) by (intros k Hk; rewrite inject_Z_mult; ring).
      rewrite sumq_add, sumq_scal. ring.
  - intros G I0 Sp. apply (sum_combination n G t fl p x I0); [intros k Hk; rewrite Lt in Hk; unfold fl; change 0 with (Qfloor 0); now apply Qfloor_resp_le, A0|exact Sp|exact Lx|]. intros i Hi. rewrite Lt, NP by exact Hi. lia.
Qed.
Lemma in_par_cone n t p : n_vectors n t -> in_parallelepiped n (rv_zero n) t p -> cone_point n t p.
Proof.
  intros (Lt & Ft) (Lp & lam & L0 & E). split; [exact Lp|]. exists lam. rewrite Lt. split; [intros k Hk; apply L0; exact Hk|]. intros i Hi. unfold zpoint. rewrite (E i Hi).
  pose proof (coord_zero n i) as CZ.
  rewrite CZ. ring.
Qed.
