(** Merging keeps the product. *)
From Coq Require Import QArith Qfield Permutation.
From Verif Require Import Common IntegSpec IntegProofs IntegProofs4 RationalProofs Series.
From Verif Require Import Perturb PerturbSpec PerturbProofs PerturbProofs4.
Open Scope Q_scope.

Lemma product_at_perm w l l' : Permutation l l' -> product_at w l == product_at w l'.
Proof. unfold product_at. induction 1; cbn [fold_right]; [reflexivity|rewrite IHPermutation; reflexivity|ring|now rewrite IHPermutation1]. Qed.
Lemma product_at_split w fs : product_at w fs == product_at w (regular fs) * (inject_Z (product (vanishing fs)) * w ^ Z.of_nat (length (vanishing fs))).
Proof.
  unfold product_at, regular, vanishing. induction fs as [|f fs IH]; [cbn; ring|]. cbn [filter map fold_right].
  rewrite IH. destruct (Z.eqb_spec (fst f) 0) as [E|E]; cbn [negb fold_right map length product]; [|ring].
  fold (product (map snd (filter (fun f0 : Z * Z => (fst f0 =? 0)%Z) fs))). rewrite inject_Z_mult. unfold factor_at at 1. rewrite E. change (inject_Z 0) with 0.
  rewrite Qpow_S. ring.
Qed.
Definition entry (d : lp) : Z * Z * Z := (lp_const d, lp_eps d, lp_pow d).
Lemma product_at_repeat w f k : product_at w (repeat f k) == factor_at w f ^ Z.of_nat k.
Proof. unfold product_at. induction k as [|k IH]; cbn [repeat fold_right]; [reflexivity|]. rewrite IH, Qpow_S. reflexivity. Qed.
Lemma product_at_app w l r : product_at w (l ++ r) == product_at w l * product_at w r.
Proof. unfold product_at. induction l as [|f l IH]; cbn [app fold_right]; [ring|]. rewrite IH. ring. Qed.
Lemma merged_expand w ds : Forall (fun d => (lp_const d = 0 -> lp_pow d = -1)%Z) ds -> merged_at w (map entry ds) == product_at w (expand ds).
Proof.
  unfold merged_at, expand. induction 1 as [|d ds Hd HF IH]; cbn [map fold_right flat_map]; [reflexivity|]. rewrite IH, product_at_app. apply Qmult_comp; [|reflexivity].
  unfold entry, entry_at. destruct (Z.eqb_spec (lp_const d) 0) as [E|E]; [rewrite (Hd E); reflexivity|].
  destruct (Z.leb_spec (lp_pow d) 0) as [K|K].
  - replace (Z.to_nat (lp_pow d)) with O by lia. reflexivity.
  - rewrite product_at_repeat, Z2Nat.id by lia. reflexivity.
Qed.
Lemma merge_product a : Forall (fun d => lp_pow d = 0%Z) a -> (exists d, In d a /\ lp_const d = 0%Z) ->
  exists z ds, update_powers a = Ok (z :: ds) /\ length (z :: ds) = length a /\ lp_const z = 0%Z /\ (1 <= lp_pow z)%Z /\
    Forall (fun d => lp_const d = 0%Z -> (lp_pow d <= 0)%Z) ds /\
    forall w, merged_at w (map entry (z :: ds)) == product_at w (map (fun d => (lp_const d, lp_eps d)) a).
Proof.
  intros F (d0 & I0 & C0). assert (NZ : zeros a <> []). { assert (In d0 (zeros a)) as H by (apply filter_In; split; auto; now apply Z.eqb_eq). intros E. rewrite E in H. exact H. }
  destruct (update_powers_ok a F NZ) as (z & ds & U1 & U2 & U3 & U4 & U5 & U6 & U7). exists z, ds. split; auto. split; auto. split; auto.
  assert (PZ : (1 <= lp_pow z)%Z) by (rewrite U5; destruct (zeros a); [congruence|cbn [length]; lia]).
  split; auto. split; [eapply Forall_impl; [|exact U6]; cbn; intros x H E; rewrite (H E); lia|].
  intros w. cbn [map merged_at fold_right]. fold (merged_at w (map entry ds)). rewrite merged_expand by auto. rewrite (product_at_perm w _ _ U7), regular_pairs.
  change (map (fun d => (lp_const d, lp_eps d)) a) with (map pair_of a). rewrite (product_at_split w (map pair_of a)). rewrite <- vanishing_pairs, map_length.
  unfold entry, entry_at. rewrite U3. cbn [Z.eqb]. destruct (Z.leb_spec (lp_pow z) 0); [lia|]. rewrite U4, U5, zprod_product. ring.
Qed.
