(** The sum of the contributions of all the cones. *)
From Coq Require Import QArith Qfield Qround Lqa Setoid.
From Verif Require Import Common IntegSpec IntegMath IntegProofs DecompProofs ZMat HermiteProofs Piped Series Exponential ExpSpec ExpProofs ExpProofs2 ExpProofs3 Residue ResidueSpec ResidueProofs ResidueProofs2 ResidueProofs3 ResidueProofs4 ResidueProofs5 ResidueList ResidueListProofs.
From Verif Require BinSearchSpec.
Open Scope Z_scope.

Lemma flip_shift rs : forall ds a e c ds' a' e', fold_left (fun st kk => let '(ds, a, e) := st in if kk <? 0 then (ds ++ [- kk], a - kk, - e) else (ds ++ [kk], a, e)) rs (ds, a, e) = (ds', a', e') ->
  fold_left (fun st kk => let '(ds, a, e) := st in if kk <? 0 then (ds ++ [- kk], a - kk, - e) else (ds ++ [kk], a, e)) rs (ds, a - c, e) = (ds', a' - c, e').
Proof.
  induction rs as [|r rs IH]; intros ds a e c ds' a' e' H; cbn [fold_left] in *; [injection H as <- <- <-; reflexivity|].
  destruct (r <? 0); [|exact (IH _ _ _ _ _ _ _ H)]. replace (a - c - r) with (a - r - c) by lia. exact (IH _ _ _ _ _ _ _ H).
Qed.
Lemma moved_ok m ten e rs a c : rs <> [] -> Forall (fun r => r <> 0) rs ->
  (let '(ds, a', e') := flip rs a e in contribution m ten e' ds (a' - c)) = Ok (Qfloor (inject_Z ten * inject_Z e * qF rs (a - c) m)).
Proof.
  intros NE F. destruct (flip rs a e) as [[ds a'] e'] eqn:E. unfold flip in E. pose proof (flip_shift rs [] a e c _ _ _ E) as E2. pose proof (contribution_ok m ten e rs (a - c) NE F) as C. unfold flip in C. rewrite E2 in C. exact C.
Qed.
Definition mterm (lam : list Z) (tr : Z) (c : Z * list (list Z) * list (list Z)) : Q :=
  (inject_Z (fst (fst c)) * qF (map (zdot lam) (snd (fst c))) (zdot lam (hd [] (snd c)) - tr)%Z (length (snd (fst c))))%Q.
Lemma contributions_ok lam ten tr m cs : Forall (fun c => length (snd (fst c)) = m) cs -> (0 < m)%nat -> fits lam (map (fun c => snd (fst c)) cs) ->
  contributions m ten (map (fun it => (fst (fst it), snd (fst it) - tr, snd it)) (map (fun p => let '(c, ds) := p in flip ds (zdot lam (hd [] (snd c))) (fst (fst c))) (List.combine cs (map (map (zdot lam)) (map (fun c : Z * list (list Z) * list (list Z) => snd (fst c)) cs))))) =
  Ok (zsuml (map (fterm ten) (map (mterm lam tr) cs))).
Proof.
  intros L Hm F. induction cs as [|c cs IH]; [reflexivity|]. unfold fits in *. cbn [map List.combine contributions] in *. pose proof (Forall_inv L) as L1. cbv beta in L1. specialize (IH (Forall_inv_tail L) (Forall_inv_tail F)). pose proof (Forall_inv F) as F1.
  destruct c as [[coef rays] pts]. cbn [fst snd] in *. pose proof (moved_ok m ten coef (map (zdot lam) rays) (zdot lam (hd [] pts)) tr) as M. destruct (flip (map (zdot lam) rays) (zdot lam (hd [] pts)) coef) as [[ds a'] e'] eqn:E. cbn [fst snd].
  rewrite M; [|destruct rays; [cbn in L1; lia|discriminate]|now apply Forall_map]. cbn [bind]. rewrite IH. cbn [bind zsuml fold_right]. f_equal. f_equal. unfold fterm, mterm. cbn [fst snd]. rewrite L1. apply Qfloor_comp. ring.
Qed.
Lemma rounding_all ten l n c : 0 < ten -> ten mod 2 = 0 -> 0 <= c -> 2 * Z.of_nat (length l) <= ten -> (qsum (fun q => q) l == inject_Z (sgn n) * inject_Z c)%Q -> round_total ten (zsuml (map (fterm ten) l)) = c.
Proof.
  intros Ht Te Hc Hl HS. destruct l as [|q l].
  - cbn [qsum map zsuml fold_right] in *. assert (E : inject_Z 0 == inject_Z (sgn n * c)) by (rewrite inject_Z_mult; exact HS). apply (proj1 (inject_Z_injective 0 (sgn n * c))) in E. assert (c = 0) by (destruct (Z.mul_eq_1 _ _ (sgn_sq n)) as [X|X]; rewrite X in E; lia). subst c. unfold round_total. apply Z.div_small. pose proof (Z.div_mod ten 2 ltac:(lia)). cbn [Z.abs]. lia.
  - destruct (floors ten (q :: l) Ht) as (A & _ & B). specialize (B ltac:(discriminate)). rewrite HS in A, B.
    apply (round_ok ten _ c (Z.of_nat (length (q :: l)))); [exact Ht|exact Te|exact Hc|exact Hl|].
    set (s := zsuml (map (fterm ten) (q :: l))) in *. set (m := Z.of_nat (length (q :: l))) in *. rewrite <- !inject_Z_mult in *. rewrite <- Zle_Qle in A.
    assert (B' : ten * (sgn n * c) - m < s). { unfold Qminus in B. rewrite <- inject_Z_opp, <- inject_Z_plus, <- Zlt_Qlt in B. lia. }
    destruct (Z.mul_eq_1 _ _ (sgn_sq n)) as [E|E]; rewrite E in *; [left|right]; lia.
Qed.
Lemma ten_loop_ok fuel : forall i t, 0 <= i -> i < Z.of_nat fuel -> 0 < t -> t mod 2 = 0 -> (i + 1) * t <= ten_loop fuel i t /\ ten_loop fuel i t mod 2 = 0.
Proof.
  induction fuel as [|f IH]; intros i t Hi Hf Ht Te; [lia|]. cbn [ten_loop]. destruct (Z.ltb_spec 0 i) as [L|L].
  - assert (D : 10 * (i / 10) <= i < 10 * (i / 10) + 10) by (pose proof (Z.div_mod i 10 ltac:(lia)); pose proof (Z.mod_pos_bound i 10 ltac:(lia)); lia).
    destruct (IH (i / 10) (t * 10)) as (A & B); [lia|lia|lia|rewrite Z.mul_mod, Te by lia; reflexivity|]. split; [|exact B]. nia.
  - assert (i = 0) by lia. subst i. split; [lia|exact Te].
Qed.
Lemma ten_of_ok k : 0 < ten_of k /\ ten_of k mod 2 = 0 /\ 2 * Z.of_nat k <= ten_of k.
Proof. unfold ten_of. destruct (ten_loop_ok (S k) (Z.of_nat k) 10) as (A & B); [lia|lia|lia|reflexivity|]. split; [lia|]. split; [exact B|lia]. Qed.

(** All terms together, translated. *)
Lemma terms_total n m lam tr cs points : Forall (fun c => length (snd (fst c)) = m /\ Forall (fun r => length r = n) (snd (fst c)) /\ exists p, snd c = [p] /\ length p = n) cs -> (m <= n)%nat ->
  fits lam (map (fun c => snd (fst c)) cs) -> Forall (fun p => length p = n) points -> generates n cs points ->
  (qsum (fun q => q) (map (mterm lam tr) cs) == inject_Z (sgn m) * inject_Z (Z.of_nat (length points)))%Q.
Proof.
  intros F Lm FT FP G.
  assert (NZ : zprodl (map (zdot lam) (all_rays cs)) <> 0%Z).
  { intros Z0. apply exists_zero in Z0. apply existsb_exists in Z0 as (x & Hx & E). apply Z.eqb_eq in E. subst x. apply in_map_iff in Hx as (r & E & Hr). unfold all_rays in Hr. apply in_flat_map in Hr as (c & Hc & Hr). unfold fits in FT. rewrite Forall_map, Forall_forall in FT. specialize (FT c Hc). rewrite Forall_forall in FT. exact (FT r Hr E). }
  assert (GO : Forall (gc_ok n) cs).
  { eapply Forall_impl; [|exact F]. intros c (H1 & H2 & p & Hp & Lp). split; [lia|]. split; [exact H2|]. rewrite Hp. now repeat constructor. }
  pose proof (btotal_points n lam cs points GO NZ FP G) as BP.
  set (S0 := fun k => qsum (fun c : Z * list (list Z) * list (list Z) => (inject_Z (fst (fst c)) * qF (map (zdot lam) (snd (fst c))) (zdot lam (hd [] (snd c))) k)%Q) cs).
  assert (ES : scal (inject_Z (sgn m)) S0 ~= Nat.iter m shift (power_sum (map (zdot lam) points))).
  { apply (iter_shift_inj (n - m)). intros k. rewrite <- iter_add_shift. replace (n - m + m)%nat with n by lia. rewrite <- BP. clear -F Lm. induction cs as [|c cs IH].
    - unfold btotal, S0. cbn [qsum]. rewrite iter_shift_scal. unfold scal. clear. assert (X : forall d j, (Nat.iter d shift (fun _ : nat => 0) j == 0)%Q); [|now rewrite X, Qmult_0_r]. induction d as [|d IH]; intros [|j]; cbn [Nat.iter nat_rect shift]; try reflexivity. apply IH.
    - destruct (Forall_inv F) as (L & _ & p & Hp & _). specialize (IH (Forall_inv_tail F)). destruct c as [[coef rays] pts]. cbn [fst snd] in *. subst pts.
      change (btotal n lam ((coef, rays, [p]) :: cs) k) with (bres n lam (coef, rays, [p]) k + btotal n lam cs k)%Q. rewrite <- IH. unfold bres. rewrite L. rewrite <- (iter_shift_scal (n - m) (inject_Z coef) _ k).
      transitivity (Nat.iter (n - m) shift (sadd (scal (inject_Z coef) (resB (map (zdot lam) rays) (map (zdot lam) [p]))) (scal (inject_Z (sgn m)) (fun k0 => qsum (fun c => (inject_Z (fst (fst c)) * qF (map (zdot lam) (snd (fst c))) (zdot lam (hd [] (snd c))) k0)%Q) cs))) k); [|now rewrite iter_shift_add].
      apply iter_shift_ext. intros k0. unfold S0, sadd, scal, resB, scal. cbn [qsum map fst snd hd]. rewrite map_length, L. ring. }
  assert (ET : forall k, (qsum (fun c => inject_Z (fst (fst c)) * qF (map (zdot lam) (snd (fst c))) (zdot lam (hd [] (snd c)) - tr)%Z k) cs == conv (bser (- tr)) S0 k)%Q).
  { intros k. unfold S0. rewrite (conv_qsum_r (fun (c : Z * list (list Z) * list (list Z)) k => (inject_Z (fst (fst c)) * qF (map (zdot lam) (snd (fst c))) (zdot lam (hd [] (snd c))) k)%Q) cs (bser (- tr)) k). apply qsum_ext. intros c _.
    change (fun k => (inject_Z (fst (fst c)) * qF (map (zdot lam) (snd (fst c))) (zdot lam (hd [] (snd c))) k)%Q) with (scal (inject_Z (fst (fst c))) (qF (map (zdot lam) (snd (fst c))) (zdot lam (hd [] (snd c))))). rewrite conv_scal_r. unfold scal. apply Qmult_comp; [reflexivity|]. unfold qF. rewrite <- (conv_assoc (bser (- tr)) _ _ k). apply conv_ext; [|reflexivity]. intros j. rewrite bser_add. replace (- tr + zdot lam (hd [] (snd c)))%Z with (zdot lam (hd [] (snd c)) - tr)%Z by lia. reflexivity. }
  rewrite qsum_map. transitivity (conv (bser (- tr)) S0 m).
  - rewrite <- ET. apply qsum_ext. intros c Hc. rewrite Forall_forall in F. destruct (F c Hc) as (L & _). unfold mterm. now rewrite L.
  - transitivity (inject_Z (sgn m) * conv (bser (- tr)) (scal (inject_Z (sgn m)) S0) m)%Q; [rewrite conv_scal_r; unfold scal; rewrite Qmult_assoc, sgn_sq'; ring|]. apply Qmult_comp; [reflexivity|].
    rewrite (conv_ext (bser (- tr)) (bser (- tr)) _ _ (fun _ => Qeq_refl _) ES m), conv_iter_r. pose proof (iter_shift_nth m (conv (bser (- tr)) (power_sum (map (zdot lam) points))) 0) as X. rewrite Nat.add_0_r in X. rewrite X, conv_0. unfold power_sum. rewrite qsum_map. rewrite (qsum_ones (fun a => bser (zdot lam a) 0%nat)) by (intros a; cbn; reflexivity). cbn [bser]. unfold qnat. ring.
Qed.
