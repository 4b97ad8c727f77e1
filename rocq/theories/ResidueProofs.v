(** (1+s)^a as a series. *)
From Coq Require Import QArith Qfield Qpower Lqa.
From Verif Require Import Common IntegSpec IntegMath IntegProofs DecompProofs DecompProofs4 Series ZMat ExpSpec ExpProofs ExpProofs2 Residue ResidueSpec.
Open Scope Q_scope.

Lemma inj_nz k : ~ inject_Z (Z.of_nat (S k)) == 0.
Proof. unfold Qeq. cbn. lia. Qed.
Lemma bser_S a k : bser a (S k) == bser a k * inject_Z (a - Z.of_nat k) / inject_Z (Z.of_nat (S k)).
Proof. reflexivity. Qed.
Lemma bser_pascal a : forall k, bser (a + 1) (S k) == bser a (S k) + bser a k.
Proof.
  induction k as [|k IH].
  - cbn [bser]. replace (a + 1 - Z.of_nat 0)%Z with (a + 1)%Z by lia. replace (a - Z.of_nat 0)%Z with a by lia. change (inject_Z (Z.of_nat 1)) with 1. rewrite inject_Z_plus. change (inject_Z 1) with 1. field.
  - rewrite (bser_S (a + 1) (S k)), (bser_S a (S k)), IH, (bser_S a k).
    replace (a + 1 - Z.of_nat (S k))%Z with (a - Z.of_nat k)%Z by lia. replace (a - Z.of_nat (S k))%Z with ((a - Z.of_nat k) + -1)%Z by lia.
    replace (Z.of_nat (S (S k))) with (Z.of_nat (S k) + 1)%Z by lia. pose proof (inj_nz k) as N1. pose proof (inj_nz (S k)) as N2. replace (Z.of_nat (S (S k))) with (Z.of_nat (S k) + 1)%Z in N2 by lia. rewrite !inject_Z_plus in *. change (inject_Z 1) with 1 in *. change (inject_Z (-1)) with (-(1)).
    set (x := inject_Z (a - Z.of_nat k)) in *. set (y := inject_Z (Z.of_nat (S k))) in *. set (b := bser a k). clearbody x y b. field. auto.
Qed.
(** 1 + s *)
Definition one_s : ser := fun k => match k with O => 1 | S O => 1 | _ => 0 end.
Lemma conv_one_s f : conv one_s f ~= sadd f (shift f).
Proof.
  intros n. rewrite (conv_ext one_s (sadd sone (shift sone)) f f); [|intros [|[|k]]; reflexivity|reflexivity]. rewrite conv_add_l. unfold sadd. rewrite conv_one_l, conv_shift_l. apply Qplus_comp; [reflexivity|]. apply shift_ext. apply conv_one_l.
Qed.
Lemma bser_next a : bser (a + 1) ~= conv one_s (bser a).
Proof. intros n. rewrite conv_one_s. unfold sadd. destruct n as [|n]; [cbn; reflexivity|]. cbn [shift]. apply bser_pascal. Qed.
Lemma bser_0 : bser 0 ~= sone.
Proof. intros n. destruct n as [|n]; [reflexivity|]. induction n as [|n IH]; [cbn; reflexivity|]. rewrite bser_S, IH. cbn [sone]. field. apply inj_nz. Qed.
Lemma bser_add a b : conv (bser a) (bser b) ~= bser (a + b).
Proof.
  revert a. apply (Z.bi_induction (fun a => conv (bser a) (bser b) ~= bser (a + b))).
  - intros x y E. rewrite E. reflexivity.
  - intros n. rewrite (conv_ext _ _ _ _ bser_0 (fun _ => Qeq_refl _) n), conv_one_l. reflexivity.
  - intros a. unfold Z.succ. assert (E1 : conv (bser (a + 1)) (bser b) ~= conv one_s (conv (bser a) (bser b))) by (intros n; rewrite (conv_ext _ _ _ _ (bser_next a) (fun _ => Qeq_refl _) n); apply conv_assoc).
    assert (E2 : bser (a + 1 + b) ~= conv one_s (bser (a + b))) by (replace (a + 1 + b)%Z with (a + b + 1)%Z by lia; apply bser_next). split; intros H n.
    + rewrite E1, E2. now apply conv_ext.
    + revert n. apply (conv_cancel one_s); [discriminate|]. intros n. rewrite (conv_comm (conv (bser a) (bser b)) one_s n), (conv_comm (bser (a + b)) one_s n). rewrite <- E1, <- E2. apply H.
Qed.
Lemma bser_binom N : forall k, bser (Z.of_nat N) k == inject_Z (binom N k).
Proof.
  induction k as [|k IH]; [now rewrite binom_0|]. rewrite bser_S, IH. pose proof (binom_absorb N k) as A. apply (f_equal inject_Z) in A. rewrite !inject_Z_mult in A. pose proof (inj_nz k) as N0.
  setoid_replace (inject_Z (binom N (S k))) with (inject_Z (binom N (S k)) * inject_Z (Z.of_nat (S k)) / inject_Z (Z.of_nat (S k))) by (field; exact N0). apply Qmult_comp; [|reflexivity]. rewrite (Qmult_comm (inject_Z (binom N (S k)))), A. ring.
Qed.
