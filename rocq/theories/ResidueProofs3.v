(** The contribution of one point. *)
From Coq Require Import QArith Qfield Qpower Lqa Qround Setoid Morphisms.
From Verif Require Import Common IntegSpec IntegMath IntegProofs DecompProofs DecompProofs4 Series ZMat HermiteProofs Piped ExpSpec ExpProofs ExpProofs2 Residue ResidueSpec ResidueProofs ResidueProofs2.
Open Scope Q_scope.

(** Series form a ring. *)
Definition sequal (f g : ser) : Prop := f ~= g.
Definition szero : ser := fun _ => 0.
Definition sopp (f : ser) : ser := fun n => - f n.
Definition ssub (f g : ser) : ser := fun n => f n - g n.
#[export] Instance sequal_equiv : Equivalence sequal.
Proof. split; [intros f n; reflexivity|intros f g H n; symmetry; apply H|intros f g h H1 H2 n; etransitivity; [apply H1|apply H2]]. Qed.
#[export] Instance sadd_proper : Proper (sequal ==> sequal ==> sequal) sadd.
Proof. intros f f' H g g' H' n. unfold sadd. now rewrite (H n), (H' n). Qed.
#[export] Instance ssub_proper : Proper (sequal ==> sequal ==> sequal) ssub.
Proof. intros f f' H g g' H' n. unfold ssub. now rewrite (H n), (H' n). Qed.
#[export] Instance conv_proper : Proper (sequal ==> sequal ==> sequal) conv.
Proof. intros f f' H g g' H'. exact (conv_ext f f' g g' H H'). Qed.
#[export] Instance sopp_proper : Proper (sequal ==> sequal) sopp.
Proof. intros f f' H n. unfold sopp. now rewrite (H n). Qed.
#[export] Instance scal_proper : Proper (Qeq ==> sequal ==> sequal) scal.
Proof. intros c c' E f f' H n. unfold scal. now rewrite E, (H n). Qed.
Lemma ser_ring : ring_theory szero sone sadd conv ssub sopp sequal.
Proof.
  constructor.
  - intros f n. unfold sadd, szero. ring.
  - intros f g n. unfold sadd. ring.
  - intros f g h n. unfold sadd. ring.
  - intros f. exact (conv_one_l f).
  - intros f g. exact (conv_comm f g).
  - intros f g h n. symmetry. apply conv_assoc.
  - intros f g h. exact (conv_add_l f g h).
  - intros f g n. unfold ssub, sadd, sopp. ring.
  - intros f n. unfold sadd, sopp, szero. ring.
Qed.
Lemma ser_ext : ring_eq_ext sadd conv sopp sequal.
Proof. constructor; [exact sadd_proper|exact conv_proper|exact sopp_proper]. Qed.
Add Ring series : ser_ring (setoid sequal_equiv ser_ext).
Definition ser_ring2 : @ring_theory (nat -> Q) szero sone sadd conv ssub sopp sequal := ser_ring.
Definition ser_ext2 : @ring_eq_ext (nat -> Q) sadd conv sopp sequal := ser_ext.
Definition ser_equiv2 : @Equivalence (nat -> Q) sequal := sequal_equiv.
Add Ring series2 : ser_ring2 (setoid ser_equiv2 ser_ext2).
Definition cst (c : Q) : ser := scal c sone.
Lemma scal_cst c f : sequal (scal c f) (conv (cst c) f).
Proof. intros n. unfold cst. rewrite conv_scal_l. unfold scal. now rewrite conv_one_l. Qed.
Lemma cst_mul a b : sequal (conv (cst a) (cst b)) (cst (a * b)).
Proof. intros n. rewrite <- (scal_cst a (cst b) n). unfold cst, scal. ring. Qed.

Lemma bser_add' a b : sequal (conv (bser a) (bser b)) (bser (a + b)).
Proof. exact (bser_add a b). Qed.
Lemma bser_shift d : sequal (bser d) (sadd sone (shift (gser d))).
Proof. intros [|k]; unfold sadd; cbn [shift sone gser]; [cbn [bser]; ring|unfold gser; ring]. Qed.
Lemma shift_cancel f g : sequal (shift f) (shift g) -> sequal f g.
Proof. intros H n. exact (H (S n)). Qed.
(** (t^d - 1)/s = - t^d (t^-d - 1)/s *)
Lemma gser_opp d : sequal (gser d) (sopp (conv (bser d) (gser (- d)))).
Proof.
  apply shift_cancel. assert (E : sequal (shift (sopp (conv (bser d) (gser (- d))))) (sopp (conv (bser d) (shift (gser (- d)))))).
  { intros n. unfold sopp. rewrite conv_shift_r. destruct n; cbn [shift]; ring. }
  rewrite E. assert (E1 : sequal (shift (gser d)) (ssub (bser d) sone)) by (rewrite (bser_shift d); ring).
  assert (E2 : sequal (shift (gser (- d))) (ssub (bser (- d)) sone)) by (rewrite (bser_shift (- d)); ring).
  rewrite E1, E2. transitivity (ssub (bser d) (conv (bser d) (bser (- d)))); [|ring]. rewrite bser_add'. rewrite Z.add_opp_diag_r. assert (E0 : sequal (bser 0) sone) by exact bser_0. rewrite E0. reflexivity.
Qed.
Notation gprod ds := (product (map gser ds)).
Lemma gprod_cons d ds : gprod (d :: ds) = conv (gser d) (gprod ds).
Proof. reflexivity. Qed.
Lemma gser_0 d : gser d O == inject_Z d.
Proof. unfold gser. cbn [bser]. rewrite Z.sub_0_r. change (inject_Z (Z.of_nat 1)) with 1. field. Qed.
Lemma gprod_0 ds : gprod ds O == inject_Z (zprodl ds).
Proof. induction ds as [|d ds IH]; [reflexivity|]. rewrite gprod_cons, conv_0, gser_0, IH. cbn [zprodl]. now rewrite inject_Z_mult. Qed.
Lemma gprod_nz ds : zprodl ds <> 0%Z -> ~ gprod ds O == 0.
Proof. intros H. rewrite gprod_0. now apply inj_zprod_nz. Qed.
Lemma flip_ok rs : Forall (fun r => r <> 0%Z) rs -> forall ds0 a0 e0, exists ds a e,
  fold_left (fun st kk => let '(ds, a, e) := st in if (kk <? 0)%Z then (ds ++ [- kk]%Z, a - kk, - e)%Z else (ds ++ [kk], a, e)) rs (ds0, a0, e0) = (ds0 ++ ds, a, e) /\
  Forall (fun d => (0 < d)%Z) ds /\ length ds = length rs /\
  sequal (conv (conv (cst (inject_Z e)) (bser a)) (gprod rs)) (conv (conv (cst (inject_Z e0)) (bser a0)) (gprod ds)).
Proof.
  induction rs as [|r rs IH]; intros F ds0 a0 e0; cbn [fold_left].
  - exists [], a0, e0. rewrite app_nil_r. split; [reflexivity|]. split; [constructor|]. split; reflexivity.
  - pose proof (Forall_inv F) as F1. cbv beta in F1. apply Forall_inv_tail in F. destruct (Z.ltb_spec r 0) as [L|L].
    + destruct (IH F (ds0 ++ [- r]%Z) (a0 - r)%Z (- e0)%Z) as (ds & a & e & E & P & LD & HE). exists ((- r)%Z :: ds), a, e. split; [rewrite E, <- app_assoc; reflexivity|]. split; [constructor; [lia|exact P]|]. split; [cbn [length]; lia|].
      rewrite !gprod_cons. transitivity (conv (gser r) (conv (conv (cst (inject_Z e)) (bser a)) (gprod rs))); [ring|]. rewrite HE, (gser_opp r).
      assert (B : sequal (bser a0) (conv (bser r) (bser (a0 - r)))) by (rewrite bser_add'; replace (r + (a0 - r))%Z with a0 by lia; reflexivity). rewrite B.
      assert (C : sequal (cst (inject_Z (- e0))) (sopp (cst (inject_Z e0)))) by (intros n; unfold sopp, cst, scal; rewrite inject_Z_opp; ring). rewrite C. ring.
    + destruct (IH F (ds0 ++ [r]) a0 e0) as (ds & a & e & E & P & LD & HE). exists (r :: ds), a, e. split; [rewrite E, <- app_assoc; reflexivity|]. split; [constructor; [lia|exact P]|]. split; [cbn [length]; lia|].
      rewrite !gprod_cons. transitivity (conv (gser r) (conv (conv (cst (inject_Z e)) (bser a)) (gprod rs))); [ring|]. rewrite HE. ring.
Qed.
(** t^a / prod ((t^d - 1)/s) *)
Definition qF (ds : list Z) (a : Z) : ser := conv (bser a) (sinv (gprod ds)).
Lemma gprod_inv ds : zprodl ds <> 0%Z -> sequal (conv (sinv (gprod ds)) (gprod ds)) sone.
Proof. intros H. exact (conv_inv _ (gprod_nz ds H)). Qed.
Lemma zprodl_pos ds : Forall (fun d => (0 < d)%Z) ds -> (0 < zprodl ds)%Z.
Proof. induction 1 as [|d ds H F IH]; cbn [zprodl]; nia. Qed.
Lemma floor_div x y q : (0 < y)%Z -> inject_Z x == q * inject_Z y -> (x / y = Qfloor q)%Z.
Proof.
  intros Hy E. assert (E2 : q == x # Z.to_pos y). { rewrite Qmake_Qdiv, Z2Pos.id by exact Hy. rewrite E. field. intros X. change 0 with (inject_Z 0) in X. apply (inject_Z_injective y 0) in X. lia. } rewrite E2. unfold Qfloor. now rewrite Z2Pos.id.
Qed.
Lemma contribution_pos m ten e ds a : ds <> [] -> Forall (fun d => (0 < d)%Z) ds -> contribution m ten e ds a = Ok (Qfloor (inject_Z ten * inject_Z e * qF ds a m)).
Proof.
  intros NE P. pose proof (zprodl_pos ds P) as ZP. assert (NZ : zprodl ds <> 0%Z) by lia. assert (P0 : Forall (fun d => (0 <= d)%Z) ds) by (eapply Forall_impl; [|exact P]; cbv beta; lia).
  unfold contribution. destruct ds as [|d0 ds0]; [contradiction|]. set (ds := d0 :: ds0) in *. pose proof (denominator_ok m ds NE P0) as DO. set (D := denominator_coeffs m ds) in *.
  assert (D0 : nth 0 D 0%Z = zprodl ds). { apply inject_Z_injective. rewrite <- gprod_0. apply (DO 0%nat). lia. }
  assert (FIN : forall N D' , nth 0 D' 0%Z = zprodl ds -> nth 0 N 0%Z = 1%Z -> (forall k, (k <= m)%nat -> conv (qF ds a) (zser D') k == zser N k) ->
    (let '(T, temp) := div_loop m N D' [nth 0 N 0%Z] [nth 0 D' 0%Z] 1 in let temp' := (temp * nth 0 D' 0)%Z in if (temp' =? 0)%Z then Err DivByZero else Ok (nth m T 0 * ten * e / temp')%Z) = Ok (Qfloor (inject_Z ten * inject_Z e * qF ds a m))).
  { intros N D' DZ NZ1 HQ. destruct (division_ok N D' (qF ds a) m HQ) as (T & temp & E & ET & EV). rewrite E. cbv zeta. assert (ET' : (temp * nth 0 D' 0 = zprodl ds ^ Z.of_nat (S m))%Z) by (rewrite ET, DZ; reflexivity). rewrite ET' in EV. rewrite ET'. assert (PP : (0 < zprodl ds ^ Z.of_nat (S m))%Z) by (apply Z.pow_pos_nonneg; lia). destruct (Z.eqb_spec (zprodl ds ^ Z.of_nat (S m)) 0) as [X|_]; [lia|]. f_equal. apply floor_div; [exact PP|]. rewrite !inject_Z_mult, EV. ring. }
  destruct (Z.ltb_spec a 0) as [L|L].
  - apply FIN.
    + apply inject_Z_injective. fold (zser (mul_trunc m D (power_coeffs m (- a))) 0%nat). rewrite mul_trunc_ok, conv_0 by lia. rewrite (DO 0%nat) by lia. rewrite power_coeffs_ok by lia. rewrite gprod_0. cbn [bser]. ring.
    + reflexivity.
    + intros k Hk. rewrite (zero_power m k). rewrite (conv_ext_upto k (qF ds a) (qF ds a) _ (conv (gprod ds) (bser (- a)))); [|reflexivity|].
      * enough (X : sequal (conv (qF ds a) (conv (gprod ds) (bser (- a)))) sone) by apply X. unfold qF. transitivity (conv (conv (bser a) (bser (- a))) (conv (sinv (gprod ds)) (gprod ds))); [ring|]. rewrite gprod_inv by exact NZ. rewrite bser_add', Z.add_opp_diag_r. assert (E0 : sequal (bser 0) sone) by exact bser_0. rewrite E0. ring.
      * intros i Hi. rewrite mul_trunc_ok by lia. apply conv_ext_upto; intros l Hl; [apply DO; lia|apply power_coeffs_ok; lia].
  - apply FIN; [exact D0|reflexivity|]. intros k Hk. rewrite power_coeffs_ok by lia. rewrite (conv_ext_upto k (qF ds a) (qF ds a) _ (gprod ds)); [|reflexivity|intros i Hi; apply DO; lia].
    enough (X : sequal (conv (qF ds a) (gprod ds)) (bser a)) by apply X. unfold qF. transitivity (conv (bser a) (conv (sinv (gprod ds)) (gprod ds))); [ring|]. rewrite gprod_inv by exact NZ. ring.
Qed.
Lemma contribution_ok m ten e rs a : rs <> [] -> Forall (fun r => r <> 0%Z) rs ->
  (let '(ds, a', e') := flip rs a e in contribution m ten e' ds a') = Ok (Qfloor (inject_Z ten * inject_Z e * qF rs a m)).
Proof.
  intros NE F. unfold flip. destruct (flip_ok rs F [] a e) as (ds & a' & e' & E & P & L & HE). cbn [app] in E. rewrite E.
  rewrite contribution_pos; [|destruct ds; [destruct rs; [contradiction|discriminate]|discriminate]|exact P]. f_equal. apply Qfloor_comp. rewrite <- !Qmult_assoc. apply Qmult_comp; [reflexivity|].
  assert (NR : zprodl rs <> 0%Z). { clear -F. induction F as [|r rs H F IH]; cbn [zprodl]; [lia|]. intros X. apply Z.mul_eq_0 in X. tauto. } assert (ND : zprodl ds <> 0%Z) by (pose proof (zprodl_pos ds P); lia).
  enough (X : sequal (conv (cst (inject_Z e')) (qF ds a')) (conv (cst (inject_Z e)) (qF rs a))). { specialize (X m). rewrite <- !(scal_cst _ _ m) in X. exact X. }
  unfold qF. transitivity (conv (conv (conv (cst (inject_Z e')) (bser a')) (conv (sinv (gprod rs)) (gprod rs))) (sinv (gprod ds))); [rewrite gprod_inv by exact NR; ring|].
  transitivity (conv (conv (sinv (gprod rs)) (sinv (gprod ds))) (conv (conv (cst (inject_Z e')) (bser a')) (gprod rs))); [ring|]. rewrite HE.
  transitivity (conv (conv (conv (cst (inject_Z e)) (bser a)) (conv (sinv (gprod ds)) (gprod ds))) (sinv (gprod rs))); [ring|]. rewrite gprod_inv by exact ND. ring.
Qed.
