(** The contracts of the counting theorems can be met. *)
From Coq Require Import QArith Qfield Lqa.
From Verif Require Import Common ZMat Hermite HermiteProofs Det DetProofs RatVec RatVecSpec Piped PipedSpec PipedProofs ConeSpec ConeProofs Exponential ExpSpec CountSpec Barvinok BarvinokSpec BarvinokProofs BarvinokProofs2 BarvinokProofs3 BarvinokProofs4.
Open Scope Z_scope.

(** short_omega divided by the gcd of its entries. *)
Definition prim_omega (l : nat) (rays : list (list Z)) : list Z :=
  let v := short_omega l rays in map (fun x => if x =? 0 then x else x / row_gcd v) v.
Lemma row_gcd_pos v k : nth k v 0 <> 0 -> 0 < row_gcd v.
Proof.
  intros H. assert (0 <= row_gcd v) by (apply fold_gcd_nonneg; lia). destruct (Z.eq_dec (row_gcd v) 0) as [Z0|]; [|lia]. exfalso. apply H.
  destruct (Nat.lt_ge_cases k (length v)) as [L|L]; [|now apply nth_overflow]. assert (D : (row_gcd v | nth k v 0)) by (apply (proj2 (proj1 (fold_gcd_div v 0 (row_gcd v)) (Z.divide_refl _))); now apply nth_In). rewrite Z0 in D. now apply Z.divide_0_l in D.
Qed.
Lemma prim_omega_row n l rays : (0 < n)%nat -> n_vectors n rays -> lin_indep n rays -> length (prim_omega l rays) = n /\ 0 < row_gcd (short_omega l rays) /\ forall k, nth k (short_omega l rays) 0 = row_gcd (short_omega l rays) * nth k (prim_omega l rays) 0.
Proof.
  intros Hn NV LI. destruct (short_omega_ok n l rays Hn NV LI) as (L & k & Hk & Nk). pose proof (row_gcd_pos _ _ Nk) as G. split; [unfold prim_omega; now rewrite map_length|]. split; [exact G|]. intros j. apply gcd_row. lia.
Qed.
Lemma prim_omega_ok : omega_contract prim_omega.
Proof.
  intros n l rays Hn NV LI. destruct (prim_omega_row n l rays Hn NV LI) as (L & G & E). split; [exact L|]. destruct (short_omega_ok n l rays Hn NV LI) as (_ & k & Hk & Nk). exists k. split; [exact Hk|]. intros Z0. apply Nk. rewrite E, Z0. ring.
Qed.
Lemma prim_omega_primitive : primitive_choice prim_omega.
Proof.
  intros n l rays Hn NV LI m H. destruct (prim_omega_row n l rays Hn NV LI) as (L & G & E). destruct (short_omega_ok n l rays Hn NV LI) as (L0 & _). set (g := row_gcd (short_omega l rays)) in *.
  assert (DV : (g * m | g * 1)); [|apply Z.mul_divide_cancel_l in DV; [exact DV|lia]]. rewrite Z.mul_1_r. unfold g at 2. apply fold_gcd_div. split; [apply Z.divide_0_r|]. intros x Hx. apply (In_nth _ _ 0) in Hx as (k & Hk & <-). rewrite E. apply Z.mul_divide_mono_l. apply H. lia.
Qed.
Lemma prim_omega_lowers n rays : (0 < n)%nat -> n_vectors n rays -> lin_indep n rays -> 1 < Z.abs (det n (vat rays)) -> lowers n rays (prim_omega 2 rays).
Proof.
  intros Hn NV LI D1 i Hi. pose proof (short_omega_lowers n rays NV LI D1 i Hi) as D. destruct (prim_omega_row n 2%nat rays Hn NV LI) as (L & G & E). destruct (short_omega_ok n 2%nat rays Hn NV LI) as (L0 & _). pose proof NV as [LR FR]. set (g := row_gcd (short_omega 2 rays)) in *.
  rewrite <- !ent_vat in *. rewrite <- upd_split in * by lia. rewrite (upd_det n) in * by (try lia; auto).
  assert (E2 : zsum n (fun k => nth k (short_omega 2 rays) 0 * adj n (ent rays) k i) = g * zsum n (fun k => nth k (prim_omega 2 rays) 0 * adj n (ent rays) k i)).
  { rewrite <- zsum_scal. apply zsum_ext. intros k _. rewrite E. ring. }
  rewrite E2, Z.abs_mul in D. nia.
Qed.
Lemma prim_omega_decreasing n : (0 < n)%nat -> decreasing n prim_omega.
Proof. intros Hn rays NV LI D1. right. now apply prim_omega_lowers. Qed.
(** For finitely many non-zero vectors some vector is orthogonal to none of them. *)
Lemma generic_exists n N : (forall r, In r N -> length r = n /\ exists k, (k < n)%nat /\ nth k r 0 <> 0) -> exists g, length g = n /\ forall r, In r N -> zdot g r <> 0.
Proof.
  induction N as [|r N IH]; intros H; [exists (repeat 0 n); split; [apply repeat_length|intros r []]|]. destruct IH as (g & Lg & G); [intros x Hx; apply H; now right|]. destruct (H r (or_introl eq_refl)) as (Lr & k & Hk & Nk).
  set (M := 1 + fold_right (fun x a => Z.abs (zdot g x) + a) 0 (r :: N)).
  assert (MB : forall x, In x (r :: N) -> Z.abs (zdot g x) < M).
  { assert (Q : forall l x, In x l -> 0 <= fold_right (fun x a => Z.abs (zdot g x) + a) 0 l /\ Z.abs (zdot g x) <= fold_right (fun x a => Z.abs (zdot g x) + a) 0 l).
    { assert (P0 : forall l, 0 <= fold_right (fun x a => Z.abs (zdot g x) + a) 0 l) by (induction l as [|y l IHl]; cbn [fold_right]; lia).
      induction l as [|y l IHl]; intros x; [intros []|]. cbn [fold_right In]. intros [->|Hx]; [specialize (P0 l); lia|]. specialize (IHl x Hx). lia. }
    intros x Hx. specialize (Q _ _ Hx). unfold M. lia. }
  set (g' := upd g k (nth k g 0 + M)). assert (Lg' : length g' = n) by (unfold g'; now rewrite length_upd).
  assert (EZ : forall x, zdot g' x = zdot g x + M * nth k x 0).
  { intros x. unfold zdot. rewrite Lg', Lg. replace (M * nth k x 0) with (zsum n (fun j => if Nat.eqb j k then M * nth j x 0 else 0)) by (rewrite (zsum_single n _ k Hk); [now rewrite Nat.eqb_refl|intros j _ NE; apply Nat.eqb_neq in NE; now rewrite NE]).
    rewrite <- zsum_add. apply zsum_ext. intros j Hj. unfold g'. destruct (Nat.eqb_spec j k) as [->|NE]; [rewrite nth_upd_eq by lia; ring|rewrite nth_upd_neq by auto; ring]. }
  exists g'. split; [exact Lg'|]. intros x Hx. specialize (MB x Hx). rewrite EZ. destruct (Z.eq_dec (nth k x 0) 0) as [Z0|NZ]; [|nia]. rewrite Z0, Z.mul_0_r, Z.add_0_r. destruct Hx as [<-|Hx]; [contradiction|now apply G].
Qed.
