(** The Euler characteristic of polyhedra, by projecting one coordinate at a time, and the
    polarity of cones. *)
From Coq Require Import QArith Qfield Lqa.
From Verif Require Import Common PipedSpec PipedProofs3 CountSpec BrionProofs BrionProofs2.
Open Scope Q_scope.

(** ** One variable: constraints a + t b >= 0 *)
Notation con := (Q * Q)%type.
Definition okc (t : Q) (c : con) : bool := Qle_bool 0 (fst c + t * snd c).
Definition sat1 (l : list con) (t : Q) : bool := forallb (okc t) l.
Definition posb (c : con) : bool := negb (Qle_bool (snd c) 0).
Definition negb' (c : con) : bool := negb (Qle_bool 0 (snd c)).
Definition zerob (c : con) : bool := Qeq_bool (snd c) 0.
Definition pairb (p q : con) : bool := Qle_bool 0 (- snd q * fst p + snd p * fst q).
Definition ne1 (l : list con) : bool :=
  forallb (fun c => Qle_bool 0 (fst c)) (filter zerob l) && forallb (fun p => forallb (pairb p) (filter negb' l)) (filter posb l).
Lemma okc_iff t c : okc t c = true <-> 0 <= fst c + t * snd c.
Proof. apply Qle_bool_iff. Qed.
Lemma posb_iff c : posb c = true <-> 0 < snd c.
Proof. unfold posb. rewrite Bool.negb_true_iff, <- Bool.not_true_iff_false, Qle_bool_iff. split; [apply Qnot_le_lt|intros H H'; lra]. Qed.
Lemma negb_iff c : negb' c = true <-> snd c < 0.
Proof. unfold negb'. rewrite Bool.negb_true_iff, <- Bool.not_true_iff_false, Qle_bool_iff. split; [apply Qnot_le_lt|intros H H'; lra]. Qed.
Lemma zerob_iff c : zerob c = true <-> snd c == 0.
Proof. apply Qeq_bool_iff. Qed.
Lemma sat1_iff l t : sat1 l t = true <-> forall c, In c l -> 0 <= fst c + t * snd c.
Proof. unfold sat1. rewrite forallb_forall. split; intros H c Hc; [apply okc_iff, H, Hc|apply okc_iff, H, Hc]. Qed.
Definition bp (c : con) : Q := Qred (- fst c / snd c).
Lemma bp_eq c : ~ snd c == 0 -> bp c * snd c == - fst c.
Proof. intros H. unfold bp. rewrite Qred_correct. field. exact H. Qed.
Lemma at_pos c t : 0 < snd c -> (0 <= fst c + t * snd c <-> bp c <= t).
Proof. intros H. assert (E : bp c * snd c == - fst c) by (apply bp_eq; lra). split; intros K; [apply Qnot_lt_le; intros L; nra|nra]. Qed.
Lemma at_neg c t : snd c < 0 -> (0 <= fst c + t * snd c <-> t <= bp c).
Proof. intros H. assert (E : bp c * snd c == - fst c) by (apply bp_eq; lra). split; intros K; [apply Qnot_lt_le; intros L; nra|nra]. Qed.
Lemma qmax {A} (f : A -> Q) l : l <> [] -> exists a, In a l /\ forall b, In b l -> f b <= f a.
Proof.
  induction l as [|a l IH]; [contradiction|]. intros _. destruct l as [|b l]; [exists a; split; [left; reflexivity|intros b [<-|[]]; apply Qle_refl]|].
  destruct IH as (m&Im&Hm); [discriminate|]. destruct (Qlt_le_dec (f m) (f a)) as [L|L].
  - exists a. split; [left; reflexivity|]. intros c [<-|Ic]; [apply Qle_refl|]. specialize (Hm c Ic). lra.
  - exists m. split; [right; exact Im|]. intros c [<-|Ic]; [exact L|apply Hm, Ic].
Qed.
Lemma sign3 (q : Q) : {q < 0} + {q == 0} + {0 < q}.
Proof. destruct (Q_dec q 0) as [[H|H]|H]; auto. Qed.
Lemma ne1_ok l : ne1 l = true <-> exists t, sat1 l t = true.
Proof.
  unfold ne1. rewrite Bool.andb_true_iff, !forallb_forall. split.
  - intros (HZ&HP). assert (HP' : forall p q, In p l -> In q l -> 0 < snd p -> snd q < 0 -> 0 <= - snd q * fst p + snd p * fst q).
    { intros p q Ip Iq Sp Sq. specialize (HP p ltac:(apply filter_In; split; [exact Ip|apply posb_iff, Sp])). rewrite forallb_forall in HP. apply Qle_bool_iff, HP, filter_In. split; [exact Iq|apply negb_iff, Sq]. }
    assert (HZ' : forall c, In c l -> snd c == 0 -> 0 <= fst c) by (intros c Ic Sc; apply Qle_bool_iff, HZ, filter_In; split; [exact Ic|apply zerob_iff, Sc]).
    destruct (filter posb l) as [|p0 ps] eqn:FP.
    + assert (NP : forall c, In c l -> snd c <= 0).
      { intros c Ic. apply Qnot_lt_le. intros S0. assert (I : In c (filter posb l)) by (apply filter_In; split; [exact Ic|apply posb_iff, S0]). rewrite FP in I. destruct I. }
      destruct (filter negb' l) as [|q0 qs] eqn:FN.
      * exists 0. apply sat1_iff. intros c Ic. assert (Z0 : snd c == 0).
        { specialize (NP c Ic). destruct (sign3 (snd c)) as [[S0|S0]|S0]; [|exact S0|lra]. assert (I : In c (filter negb' l)) by (apply filter_In; split; [exact Ic|apply negb_iff, S0]). rewrite FN in I. destruct I. }
        specialize (HZ' c Ic Z0). rewrite Z0. lra.
      * destruct (qmax (fun c => - bp c) (q0 :: qs) ltac:(discriminate)) as (m&Im&Hm). rewrite <- FN in Im, Hm. exists (bp m). apply sat1_iff. intros c Ic. destruct (sign3 (snd c)) as [[S0|S0]|S0]; [| |specialize (NP c Ic); lra].
        -- apply at_neg; [exact S0|]. assert (I : In c (filter negb' l)) by (apply filter_In; split; [exact Ic|apply negb_iff, S0]). specialize (Hm c I). lra.
        -- specialize (HZ' c Ic S0). rewrite S0. lra.
    + destruct (qmax bp (p0 :: ps) ltac:(discriminate)) as (m&Im&Hm). rewrite <- FP in Im, Hm. apply filter_In in Im. destruct Im as (Im&Sm). apply posb_iff in Sm. exists (bp m). apply sat1_iff. intros c Ic. destruct (sign3 (snd c)) as [[S0|S0]|S0].
      * specialize (HP' m c Im Ic Sm S0). pose proof (bp_eq m ltac:(lra)) as Em. apply Qnot_lt_le. intros L. nra.
      * specialize (HZ' c Ic S0). rewrite S0. lra.
      * apply at_pos; [exact S0|]. apply Hm, filter_In. split; [exact Ic|apply posb_iff, S0].
  - intros (t&Ht). rewrite sat1_iff in Ht. split.
    + intros c Ic. apply filter_In in Ic. destruct Ic as (Ic&Sc). apply zerob_iff in Sc. specialize (Ht c Ic). rewrite Sc in Ht. apply Qle_bool_iff. lra.
    + intros p Ip. apply filter_In in Ip. destruct Ip as (Ip&Sp). apply posb_iff in Sp. apply forallb_forall. intros q Iq. apply filter_In in Iq. destruct Iq as (Iq&Sq). apply negb_iff in Sq. apply Qle_bool_iff.
      pose proof (Ht p Ip). pose proof (Ht q Iq). nra.
Qed.

(** Break points. *)
Definition bps (l : list con) : list Q := map bp (filter (fun c => negb (zerob c)) l).
Lemma bps_in l c : In c l -> ~ snd c == 0 -> In (bp c) (bps l).
Proof. intros I N. unfold bps. apply in_map, filter_In. split; [exact I|]. apply Bool.negb_true_iff, Bool.not_true_iff_false. rewrite zerob_iff. exact N. Qed.
Lemma gap (E : list Q) : exists e, 0 < e /\ forall a b, In a E -> In b E -> a < b -> a + e < b.
Proof.
  induction E as [|x E (e&E0&E1)]; [exists 1; split; [lra|intros a b []]|].
  assert (exists d, 0 < d /\ forall b, In b E -> (x < b -> x + d < b) /\ (b < x -> b + d < x)) as (d&D0&D1).
  { clear E1 E0. induction E as [|y E (d&D0&D1)]; [exists 1; split; [lra|intros b []]|].
    assert (exists f, 0 < f /\ (x < y -> x + f < y) /\ (y < x -> y + f < x)) as (f&F0&F1&F2).
    { destruct (Q_dec x y) as [[H|H]|H]; [exists ((y - x) / 2)|exists ((x - y) / 2)|exists 1]; (split; [|split; intros]); try lra; try (apply Qlt_shift_div_l; lra).
      - assert (2 * ((y - x) / 2) == y - x) by field. lra.
      - assert (2 * ((x - y) / 2) == x - y) by field. lra. }
    exists (if Qlt_le_dec d f then d else f). destruct (Qlt_le_dec d f).
    - split; [exact D0|]. intros b [<-|Ib]; [split; intros H; [specialize (F1 H)|specialize (F2 H)]; lra|apply D1, Ib].
    - split; [exact F0|]. intros b [<-|Ib]; [split; assumption|]. destruct (D1 b Ib) as (A1&A2). split; intros H; [specialize (A1 H)|specialize (A2 H)]; lra. }
  exists (if Qlt_le_dec d e then d else e). destruct (Qlt_le_dec d e).
  - split; [exact D0|]. intros a b [<-|Ia] [<-|Ib] L; [lra|apply D1; assumption|apply D1; assumption|]. specialize (E1 a b Ia Ib L). lra.
  - split; [exact E0|]. intros a b [<-|Ia] [<-|Ib] L; [lra| | |apply E1; assumption].
    + pose proof (proj1 (D1 b Ib) L). lra.
    + pose proof (proj2 (D1 a Ia) L). lra.
Qed.
Lemma above (E : list Q) : exists T, forall a, In a E -> a < T.
Proof. induction E as [|x E (T&H)]; [exists 0; intros a []|]. exists (if Qlt_le_dec x T then T else x + 1). destruct (Qlt_le_dec x T); intros a [<-|Ia]; try lra; specialize (H a Ia); lra. Qed.
Lemma lsum_indicator (E : list Q) (f : Q -> Z) m : NoDup E -> In m E -> f m = 1%Z -> (forall e, In e E -> e <> m -> f e = 0%Z) -> lsum (map f E) = 1%Z.
Proof.
  induction E as [|x E IH]; intros D I Fm F0; [destruct I|]. inversion D as [|? ? N D']; subst. cbn [map]. rewrite lsum_cons. destruct I as [->|I].
  - rewrite Fm. assert (Z0 : lsum (map f E) = 0%Z); [|lia]. clear IH D D' Fm. induction E as [|y E IH]; [reflexivity|]. cbn [map]. rewrite lsum_cons, IH.
    + rewrite (F0 y); [reflexivity|right; left; reflexivity|]. intros ->. apply N. left. reflexivity.
    + intros H. apply N. right. exact H.
    + intros e [->|Ie] Ne; [contradiction|]. apply F0; [right; right; exact Ie|exact Ne].
  - rewrite (F0 x) by (first [left; reflexivity|intros ->; contradiction]). rewrite IH; auto. intros e Ie. apply F0. right. exact Ie.
Qed.
Lemma lsum_zeros {A} (f : A -> Z) l : (forall a, In a l -> f a = 0%Z) -> lsum (map f l) = 0%Z.
Proof. induction l as [|a l IH]; intros H; [reflexivity|]. cbn [map]. rewrite lsum_cons, (H a (or_introl eq_refl)), IH by (intros b Hb; apply H; right; exact Hb). reflexivity. Qed.
Section OneD.
Variables (E : list Q) (T eps : Q).
Hypothesis DE : NoDup E.
Hypothesis HT : forall a, In a E -> a < T.
Hypothesis He : 0 < eps.
Hypothesis Hg : forall a b, In a E -> In b E -> a < b -> a + eps < b.
Hypothesis Canon : forall a, In a E -> Qred a = a.
Definition chi (l : list con) : Z := (b2z (sat1 l T) + lsum (map (fun e => b2z (sat1 l e) - b2z (sat1 l (e + eps))) E))%Z.
Lemma chi_ok l : incl (bps l) E -> chi l = b2z (ne1 l).
Proof.
  intros HI. assert (BE : forall c, In c l -> ~ snd c == 0 -> In (bp c) E) by (intros c Ic N; apply HI, bps_in; assumption).
  unfold chi. destruct (ne1 l) eqn:NE.
  2:{ assert (F : forall t, sat1 l t = false) by (intros t; apply Bool.not_true_iff_false; intros S0; apply Bool.not_true_iff_false in NE; apply NE, ne1_ok; exists t; exact S0).
      rewrite F, lsum_zeros; [reflexivity|]. intros e _. rewrite !F. reflexivity. }
  apply ne1_ok in NE. destruct NE as (t0&Ht0). rewrite sat1_iff in Ht0.
  assert (Dn : forall e, In e E -> sat1 l (e + eps) = true -> sat1 l e = true).
  { intros e Ie S0. rewrite sat1_iff in *. intros c Ic. specialize (S0 c Ic). destruct (sign3 (snd c)) as [[Sc|Sc]|Sc].
    - apply at_neg in S0; [|exact Sc]. apply at_neg; [exact Sc|]. lra.
    - rewrite Sc in *. lra.
    - apply at_pos in S0; [|exact Sc]. apply at_pos; [exact Sc|]. apply Qnot_lt_le. intros L. specialize (Hg e (bp c) Ie (BE c Ic ltac:(lra)) L). lra. }
  assert (Up : forall e, In e E -> sat1 l e = true -> sat1 l (e + eps) = false -> exists c, In c l /\ snd c < 0 /\ bp c == e).
  { intros e Ie S0 S1. apply Bool.not_true_iff_false in S1. destruct (forallb (fun c => okc (e + eps) c) l) eqn:FB; [exfalso; apply S1; exact FB|]. clear S1.
    assert (X : exists c, In c l /\ okc (e + eps) c = false).
    { clear -FB. induction l as [|c l IH]; [discriminate|]. cbn [forallb] in FB. destruct (okc (e + eps) c) eqn:O; [destruct (IH FB) as (d&Id&Od); exists d; split; [right; exact Id|exact Od]|exists c; split; [left; reflexivity|exact O]]. }
    destruct X as (c&Ic&Oc). exists c. split; [exact Ic|]. rewrite sat1_iff in S0. specialize (S0 c Ic). apply Bool.not_true_iff_false in Oc. rewrite okc_iff in Oc. destruct (sign3 (snd c)) as [[Sc|Sc]|Sc].
    - split; [exact Sc|]. apply at_neg in S0; [|exact Sc]. rewrite at_neg in Oc by exact Sc. apply Qnot_le_lt in Oc. destruct (Q_dec (bp c) e) as [[L|L]|L]; [lra| |exact L]. exfalso. specialize (Hg e (bp c) Ie (BE c Ic ltac:(lra)) L). lra.
    - exfalso. apply Oc. rewrite Sc in *. lra.
    - exfalso. apply Oc. apply at_pos; [exact Sc|]. apply at_pos in S0; [|exact Sc]. lra. }
  destruct (sat1 l T) eqn:ST.
  - rewrite lsum_zeros; [reflexivity|]. intros e Ie. destruct (sat1 l (e + eps)) eqn:S1; [rewrite (Dn e Ie S1); reflexivity|]. destruct (sat1 l e) eqn:S0; [|reflexivity]. exfalso. destruct (Up e Ie S0 S1) as (c&Ic&Sc&Ec).
    rewrite sat1_iff in ST. specialize (ST c Ic). apply at_neg in ST; [|exact Sc]. specialize (HT e Ie). lra.
  - assert (FN : filter negb' l <> []).
    { intros F. apply Bool.not_true_iff_false in ST. apply ST. apply sat1_iff. intros c Ic. specialize (Ht0 c Ic). destruct (sign3 (snd c)) as [[Sc|Sc]|Sc].
      - assert (I : In c (filter negb' l)) by (apply filter_In; split; [exact Ic|apply negb_iff, Sc]). rewrite F in I. destruct I.
      - rewrite Sc in *. lra.
      - apply at_pos; [exact Sc|]. specialize (HT _ (BE c Ic ltac:(lra))). lra. }
    destruct (qmax (fun c => - bp c) _ FN) as (m&Im&Hm). apply filter_In in Im. destruct Im as (Im&Sm). apply negb_iff in Sm.
    assert (Low : forall c, In c l -> snd c < 0 -> bp m <= bp c) by (intros c Ic Sc; specialize (Hm c ltac:(apply filter_In; split; [exact Ic|apply negb_iff, Sc])); lra).
    assert (Sm1 : sat1 l (bp m) = true).
    { apply sat1_iff. intros c Ic. pose proof (Ht0 c Ic) as H0. destruct (sign3 (snd c)) as [[Sc|Sc]|Sc]; [apply at_neg; [exact Sc|apply Low; assumption]|rewrite Sc in *; lra|]. apply at_pos; [exact Sc|]. apply at_pos in H0; [|exact Sc]. pose proof (Ht0 m Im) as H1. apply at_neg in H1; [|exact Sm]. lra. }
    pose proof (BE m Im ltac:(lra)) as Em. cbn [b2z]. rewrite (lsum_indicator E _ (bp m) DE Em); [reflexivity| |].
    + rewrite Sm1. assert (S1 : sat1 l (bp m + eps) = false); [|rewrite S1; reflexivity]. apply Bool.not_true_iff_false. rewrite sat1_iff. intros H. specialize (H m Im). apply at_neg in H; [|exact Sm]. lra.
    + intros e Ie Ne. destruct (sat1 l (e + eps)) eqn:S1; [rewrite (Dn e Ie S1); reflexivity|]. destruct (sat1 l e) eqn:S0; [|reflexivity]. exfalso. destruct (Up e Ie S0 S1) as (c&Ic&Sc&Ec). rewrite sat1_iff in S0. specialize (S0 m Im). apply at_neg in S0; [|exact Sm]. specialize (Low c Ic Sc).
      assert (Q1 : e == bp m) by lra. assert (~ e + eps <= e) by lra. destruct (Q_dec e (bp m)) as [[L|L]|_]; [lra|lra|].
      (* both are members of E and equal as rationals *)
      exact (Ne (eq_trans (eq_sym (Canon e Ie)) (eq_trans (Qred_complete _ _ Q1) (Canon _ Em)))).
Qed.
End OneD.

Definition fsum {A} (f : A -> bool) (L : list (Z * A)) : Z := lsum (map (fun t => fst t * b2z (f (snd t)))%Z L).
Lemma fsum_cons {A} (f : A -> bool) t L : fsum f (t :: L) = (fst t * b2z (f (snd t)) + fsum f L)%Z.
Proof. reflexivity. Qed.
Lemma fsum_app {A} (f : A -> bool) L L' : fsum f (L ++ L') = (fsum f L + fsum f L')%Z.
Proof. unfold fsum. rewrite map_app. apply lsum_app. Qed.
Lemma qred_idem q : Qred (Qred q) = Qred q.
Proof. apply Qred_complete, Qred_correct. Qed.
Lemma euler1 (L : list (Z * list con)) : (forall t, fsum (fun l => sat1 l t) L = 0%Z) -> fsum ne1 L = 0%Z.
Proof.
  intros H. set (E := nodup q_dec (flat_map (fun t => bps (snd t)) L)). destruct (gap E) as (eps&He&Hg). destruct (above E) as (T&HT).
  assert (DE : NoDup E) by apply NoDup_nodup.
  assert (Canon : forall a, In a E -> Qred a = a).
  { intros a Ha. apply nodup_In, in_flat_map in Ha. destruct Ha as (t&_&Ha). unfold bps in Ha. apply in_map_iff in Ha. destruct Ha as (c&<-&_). apply qred_idem. }
  assert (C : forall t, In t L -> chi E T eps (snd t) = b2z (ne1 (snd t))).
  { intros t It. apply chi_ok; auto. intros a Ha. apply nodup_In, in_flat_map. exists t. auto. }
  assert (S1 : forall M, fsum ne1 M = lsum (map (fun t => fst t * b2z (ne1 (snd t)))%Z M)) by reflexivity. rewrite S1.
  rewrite (lsum_ext _ (fun t => (fst t * b2z (sat1 (snd t) T) + lsum (map (fun e => fst t * b2z (sat1 (snd t) e) + - (fst t * b2z (sat1 (snd t) (e + eps)))) E))%Z)).
  - assert (G : forall M, lsum (map (fun t => (fst t * b2z (sat1 (snd t) T) + lsum (map (fun e => fst t * b2z (sat1 (snd t) e) + - (fst t * b2z (sat1 (snd t) (e + eps)))) E))%Z) M) =
      (fsum (fun l => sat1 l T) M + lsum (map (fun e => fsum (fun l => sat1 l e) M - fsum (fun l => sat1 l (e + eps)) M) E))%Z).
    { clear. induction M as [|t M IH]; [cbn; rewrite lsum_zeros; [reflexivity|intros; reflexivity]|]. cbn [map]. rewrite lsum_cons, IH, !fsum_cons.
      assert (A : (lsum (map (fun e => fst t * b2z (sat1 (snd t) e) + - (fst t * b2z (sat1 (snd t) (e + eps)))) E) + lsum (map (fun e => fsum (fun l => sat1 l e) M - fsum (fun l => sat1 l (e + eps)) M) E) =
        lsum (map (fun e => fsum (fun l => sat1 l e) (t :: M) - fsum (fun l => sat1 l (e + eps)) (t :: M)) E))%Z).
      { clear. induction E as [|e E IH]; [reflexivity|]. cbn [map]. rewrite !lsum_cons, !fsum_cons. lia. }
      lia. }
    rewrite G, H, lsum_zeros; [reflexivity|]. intros e _. rewrite !H. reflexivity.
  - intros t It. rewrite <- (C t It). unfold chi. rewrite Z.mul_add_distr_l. f_equal. rewrite <- lsum_scale. apply lsum_ext. intros e _. ring.
Qed.

(** ** Polyhedra in N variables *)
Notation row := (Q * (nat -> Q))%type.
Definition evr (N : nat) (c : row) (x : nat -> Q) : Q := fst c + sumq N (fun k => x k * snd c k).
Definition setc (x : nat -> Q) (k : nat) (t : Q) : nat -> Q := fun i => if Nat.eqb i k then t else x i.
Definition satb (N : nat) (rows : list row) (x : nat -> Q) : bool := forallb (fun c => Qle_bool 0 (evr N c x)) rows.
Lemma satb_iff N rows x : satb N rows x = true <-> forall c, In c rows -> 0 <= evr N c x.
Proof. unfold satb. rewrite forallb_forall. split; intros H c Hc; apply Qle_bool_iff, H, Hc. Qed.
Lemma evr_ext N c x y : (forall k, (k < N)%nat -> x k == y k) -> evr N c x == evr N c y.
Proof. intros H. unfold evr. rewrite (sumq_ext N _ (fun k => y k * snd c k)) by (intros k Hk; rewrite (H k Hk); reflexivity). reflexivity. Qed.
Lemma satb_ext N rows x y : (forall k, (k < N)%nat -> x k == y k) -> satb N rows x = satb N rows y.
Proof. intros H. unfold satb. induction rows as [|c rows IH]; [reflexivity|]. cbn [forallb]. rewrite IH, (evr_ext N c x y H). reflexivity. Qed.
Lemma evr_set N c x k t : (k < N)%nat -> evr N c (setc x k t) == evr N c (setc x k 0) + t * snd c k.
Proof.
  intros Hk. unfold evr. rewrite <- Qplus_assoc. apply Qplus_comp; [reflexivity|].
  pose proof (sumq_single N (fun j => if Nat.eqb j k then t * snd c k else 0) k Hk) as S0. cbv beta in S0. rewrite Nat.eqb_refl in S0.
  rewrite <- S0 by (intros j _ Nj; rewrite (proj2 (Nat.eqb_neq j k) Nj); reflexivity). rewrite <- sumq_add. apply sumq_ext. intros j _. unfold setc. destruct (Nat.eqb_spec j k) as [->|Nj]; ring.
Qed.
(** Fourier-Motzkin elimination of variable k. *)
Definition alpha (N k : nat) (x : nat -> Q) (c : row) : con := (evr N c (setc x k 0), snd c k).
Definition combine (k : nat) (p q : row) : row := (- snd q k * fst p + snd p k * fst q, fun i => if Nat.eqb i k then 0 else - snd q k * snd p i + snd p k * snd q i).
Definition kcon (k : nat) (c : row) : con := (0, snd c k).
Definition fm (k : nat) (rows : list row) : list row :=
  filter (fun c => zerob (kcon k c)) rows ++ flat_map (fun p => map (combine k p) (filter (fun c => negb' (kcon k c)) rows)) (filter (fun c => posb (kcon k c)) rows).
Lemma evr_combine N k p q x : (k < N)%nat -> evr N (combine k p q) x == - snd q k * evr N p (setc x k 0) + snd p k * evr N q (setc x k 0).
Proof.
  intros Hk. unfold evr, combine. cbn [fst snd].
  setoid_replace (sumq N (fun i => x i * (if Nat.eqb i k then 0 else - snd q k * snd p i + snd p k * snd q i))) with (- snd q k * sumq N (fun i => setc x k 0 i * snd p i) + snd p k * sumq N (fun i => setc x k 0 i * snd q i)); [ring|].
  rewrite <- !sumq_scal, <- sumq_add. apply sumq_ext. intros i _. unfold setc. destruct (Nat.eqb_spec i k); ring.
Qed.
Lemma ne1_iff l : ne1 l = true <-> (forall c, In c l -> snd c == 0 -> 0 <= fst c) /\ (forall p q, In p l -> In q l -> 0 < snd p -> snd q < 0 -> 0 <= - snd q * fst p + snd p * fst q).
Proof.
  unfold ne1. rewrite Bool.andb_true_iff, !forallb_forall. split; intros (A&B); split.
  - intros c Ic Sc. apply Qle_bool_iff, A, filter_In. split; [exact Ic|apply zerob_iff, Sc].
  - intros p q Ip Iq Sp Sq. specialize (B p ltac:(apply filter_In; split; [exact Ip|apply posb_iff, Sp])). rewrite forallb_forall in B. apply Qle_bool_iff, B, filter_In. split; [exact Iq|apply negb_iff, Sq].
  - intros c Ic. apply filter_In in Ic. destruct Ic as (Ic&Sc). apply Qle_bool_iff, A; [exact Ic|apply zerob_iff, Sc].
  - intros p Ip. apply filter_In in Ip. destruct Ip as (Ip&Sp). apply forallb_forall. intros q Iq. apply filter_In in Iq. destruct Iq as (Iq&Sq). apply Qle_bool_iff, B; [exact Ip|exact Iq|apply posb_iff, Sp|apply negb_iff, Sq].
Qed.
Lemma fm_ne1 N k rows x : (k < N)%nat -> satb N (fm k rows) x = ne1 (map (alpha N k x) rows).
Proof.
  intros Hk. apply Bool.eq_iff_eq_true. rewrite satb_iff, ne1_iff.
  assert (Z0 : forall c, snd c k == 0 -> evr N c x == evr N c (setc x k 0)).
  { intros c Sc. rewrite (evr_ext N c x (setc x k (x k))) by (intros j _; unfold setc; destruct (Nat.eqb_spec j k) as [->|]; reflexivity). rewrite evr_set by exact Hk. rewrite Sc. ring. }
  split.
  - intros H. split.
    + intros c Ic Sc. apply in_map_iff in Ic. destruct Ic as (r&<-&Ir). cbn [alpha fst snd] in *. rewrite <- Z0 by exact Sc. apply H. apply in_app_iff. left. apply filter_In. split; [exact Ir|apply zerob_iff; exact Sc].
    + intros p q Ip Iq Sp Sq. apply in_map_iff in Ip, Iq. destruct Ip as (r&<-&Ir). destruct Iq as (s&<-&Is). cbn [alpha fst snd] in *. rewrite <- evr_combine by exact Hk. apply H. apply in_app_iff. right. apply in_flat_map. exists r. split; [apply filter_In; split; [exact Ir|apply posb_iff; exact Sp]|]. apply in_map, filter_In. split; [exact Is|apply negb_iff; exact Sq].
  - intros (A&B) c Ic. apply in_app_iff in Ic. destruct Ic as [Ic|Ic].
    + apply filter_In in Ic. destruct Ic as (Ic&Sc). apply zerob_iff in Sc. cbn [kcon snd] in Sc. rewrite Z0 by exact Sc. apply (A (alpha N k x c)); [apply in_map, Ic|exact Sc].
    + apply in_flat_map in Ic. destruct Ic as (p&Ip&Ic). apply in_map_iff in Ic. destruct Ic as (q&<-&Iq). apply filter_In in Ip, Iq. destruct Ip as (Ip&Sp). destruct Iq as (Iq&Sq). apply posb_iff in Sp. apply negb_iff in Sq. cbn [kcon snd] in Sp, Sq.
      rewrite evr_combine by exact Hk. apply (B (alpha N k x p) (alpha N k x q)); [apply in_map, Ip|apply in_map, Iq|exact Sp|exact Sq].
Qed.
Lemma alpha_sat N k rows x t : (k < N)%nat -> sat1 (map (alpha N k x) rows) t = satb N rows (setc x k t).
Proof.
  intros Hk. unfold sat1, satb. induction rows as [|c rows IH]; [reflexivity|]. cbn [map forallb]. rewrite IH. f_equal. unfold okc, alpha. cbn [fst snd]. rewrite (evr_set N c x k t Hk). reflexivity.
Qed.
Lemma fm_ok N k rows x : (k < N)%nat -> (satb N (fm k rows) x = true <-> exists t, satb N rows (setc x k t) = true).
Proof. intros Hk. rewrite fm_ne1, ne1_ok by exact Hk. split; intros (t&H); exists t; [rewrite <- alpha_sat|rewrite alpha_sat]; assumption. Qed.
Lemma fsum_map {A B} (g : A -> B) (f : B -> bool) L : fsum f (map (fun t => (fst t, g (snd t))) L) = fsum (fun a => f (g a)) L.
Proof. unfold fsum. rewrite map_map. reflexivity. Qed.
Lemma fsum_ext {A} (f g : A -> bool) L : (forall t, In t L -> f (snd t) = g (snd t)) -> fsum f L = fsum g L.
Proof. intros H. unfold fsum. apply lsum_ext. intros t It. rewrite (H t It). reflexivity. Qed.
Lemma euler_step N k L : (k < N)%nat -> (forall x, fsum (fun r => satb N r x) L = 0%Z) -> forall x, fsum (fun r => satb N (fm k r) x) L = 0%Z.
Proof.
  intros Hk H x. rewrite (fsum_ext _ (fun r => ne1 (map (alpha N k x) r))) by (intros t _; apply fm_ne1, Hk). rewrite <- (fsum_map (fun r => map (alpha N k x) r)). apply euler1. intros t.
  rewrite fsum_map. rewrite (fsum_ext _ (fun r => satb N r (setc x k t))) by (intros u _; apply alpha_sat, Hk). apply H.
Qed.
Definition fms (ks : list nat) (rows : list row) : list row := fold_right fm rows ks.
Lemma fms_ok N ks : (forall k, In k ks -> (k < N)%nat) -> forall rows x, satb N (fms ks rows) x = true <-> exists z, (forall i, ~ In i ks -> z i == x i) /\ satb N rows z = true.
Proof.
  induction ks as [|k ks IH]; intros HK rows x.
  - cbn [fms fold_right]. split; [intros H; exists x; split; [reflexivity|exact H]|]. intros (z&E&H). rewrite <- H. apply satb_ext. intros i _. symmetry. apply E. intros [].
  - change (fms (k :: ks) rows) with (fm k (fms ks rows)). rewrite fm_ok by (apply HK; left; reflexivity). specialize (IH (fun j Hj => HK j (or_intror Hj))). split.
    + intros (t&H). apply IH in H. destruct H as (z&E&H). exists z. split; [|exact H]. intros i Ni. rewrite E by (intros I; apply Ni; right; exact I). unfold setc. destruct (Nat.eqb_spec i k) as [->|]; [exfalso; apply Ni; left; reflexivity|reflexivity].
    + intros (z&E&H). exists (z k). apply IH. exists z. split; [|exact H]. intros i Ni. unfold setc. destruct (Nat.eqb_spec i k) as [->|Nk]; [reflexivity|]. apply E. intros [->|I]; [apply Nk; reflexivity|apply Ni, I].
Qed.
Lemma euler_steps N ks L : (forall k, In k ks -> (k < N)%nat) -> (forall x, fsum (fun r => satb N r x) L = 0%Z) -> forall x, fsum (fun r => satb N (fms ks r) x) L = 0%Z.
Proof.
  induction ks as [|k ks IH]; intros HK H; [exact H|]. intros x. specialize (IH (fun j Hj => HK j (or_intror Hj)) H).
  pose proof (euler_step N k (map (fun t => (fst t, fms ks (snd t))) L) (HK k (or_introl eq_refl))) as S0. rewrite <- (fsum_map (fms ks) (fun r => satb N (fm k r) x)). apply S0. intros y. rewrite fsum_map. apply IH.
Qed.

(** ** Polarity *)
Definition hom (rows : list row) : Prop := forall c, In c rows -> fst c == 0.
Lemma fm_hom k rows : hom rows -> hom (fm k rows).
Proof.
  intros H c Ic. apply in_app_iff in Ic. destruct Ic as [Ic|Ic]; [apply filter_In in Ic; apply H, Ic|]. apply in_flat_map in Ic. destruct Ic as (p&Ip&Ic). apply in_map_iff in Ic. destruct Ic as (q&<-&Iq). apply filter_In in Ip, Iq.
  cbn [combine fst]. rewrite (H p) by apply Ip. rewrite (H q) by apply Iq. ring.
Qed.
Lemma fms_hom ks rows : hom rows -> hom (fms ks rows).
Proof. intros H. induction ks as [|k ks IH]; [exact H|]. apply fm_hom, IH. Qed.
Definition dotq (N : nat) (x y : nat -> Q) : Q := sumq N (fun k => x k * y k).
Lemma hom_scale N rows x t : hom rows -> 0 <= t -> satb N rows x = true -> satb N rows (fun k => t * x k) = true.
Proof.
  intros H Ht. rewrite !satb_iff. intros S0 c Ic. specialize (S0 c Ic). unfold evr in *. rewrite (H c Ic) in *. rewrite (sumq_ext N _ (fun k => t * (x k * snd c k))) by (intros; ring). rewrite sumq_scal. rewrite Qplus_0_l in *. apply Qmult_le_0_compat; assumption.
Qed.
Lemma hom_zero N rows : hom rows -> satb N rows (fun _ => 0) = true.
Proof. intros H. apply satb_iff. intros c Ic. unfold evr. rewrite (H c Ic), (sumq_ext N _ (fun _ => 0)), sumq_0 by (intros; ring). lra. Qed.
Definition polb (N : nat) (y : nat -> Q) (rows : list row) : bool := negb (satb N (fms (seq 0 N) ((-1, y) :: rows)) (fun _ => 0)).
Lemma polb_iff N y rows : hom rows -> (polb N y rows = true <-> forall x, satb N rows x = true -> dotq N x y <= 0).
Proof.
  intros H. unfold polb. rewrite Bool.negb_true_iff, <- Bool.not_true_iff_false. rewrite fms_ok by (intros k Hk; apply in_seq in Hk; lia). split.
  - intros K x Sx. apply Qnot_lt_le. intros L. apply K. exists (fun k => if (k <? N)%nat then (/ dotq N x y) * x k else 0). split.
    + intros i Ni. destruct (Nat.ltb_spec i N) as [Hi|Hi]; [exfalso; apply Ni, in_seq; lia|reflexivity].
    + rewrite (satb_ext N _ _ (fun k => / dotq N x y * x k)) by (intros k Hk; rewrite (proj2 (Nat.ltb_lt k N) Hk); reflexivity). unfold satb. cbn [forallb]. apply Bool.andb_true_iff. split.
      * apply Qle_bool_iff. unfold evr. cbn [fst snd]. rewrite (sumq_ext N _ (fun k => / dotq N x y * (x k * y k))) by (intros; ring). rewrite sumq_scal. fold (dotq N x y). rewrite (Qmult_comm (/ _)), Qmult_inv_r by lra. lra.
      * apply hom_scale; [exact H| |exact Sx]. apply Qlt_le_weak, Qinv_lt_0_compat, L.
  - intros K (z&_&S0). unfold satb in S0. cbn [forallb] in S0. apply Bool.andb_true_iff in S0. destruct S0 as (S1&S2). apply Qle_bool_iff in S1. unfold evr in S1. cbn [fst snd] in S1. specialize (K z S2). unfold dotq in K. lra.
Qed.
Theorem polarity N L : Forall (fun t => hom (snd t)) L -> (forall x, fsum (fun r => satb N r x) L = 0%Z) -> forall y, fsum (polb N y) L = 0%Z.
Proof.
  intros HH H y.
  assert (E1 : fsum (fun r => satb N (fms (seq 0 N) ((-1, y) :: r)) (fun _ => 0)) L = 0%Z).
  { rewrite <- (fsum_map (fun r => (-1, y) :: r) (fun r => satb N (fms (seq 0 N) r) (fun _ => 0))). apply euler_steps; [intros k Hk; apply in_seq in Hk; lia|]. intros x. rewrite fsum_map. unfold satb. cbn [forallb].
    destruct (Qle_bool 0 (evr N (-1, y) x)); cbn [andb]; [apply H|]. unfold fsum. apply lsum_zeros. intros t _. apply Z.mul_0_r. }
  assert (E2 : fsum (fun r => satb N r (fun _ => 0)) L = 0%Z) by apply H.
  assert (E3 : fsum (fun _ => true) L = 0%Z) by (rewrite <- E2; apply fsum_ext; intros t It; symmetry; rewrite Forall_forall in HH; apply hom_zero, HH, It).
  assert (E4 : fsum (polb N y) L = (fsum (fun _ => true) L - fsum (fun r => satb N (fms (seq 0 N) (((-1)%Q, y) :: r)) (fun _ => 0%Q)) L)%Z).
  { clear. unfold polb. induction L as [|t L IH]; [reflexivity|]. rewrite !fsum_cons, IH. destruct (satb N _ _); cbn [negb b2z]; ring. }
  lia.
Qed.
