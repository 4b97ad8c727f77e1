(** C98: the univariate rational function written by the trivial monomial substitution.
    Specification: TrivialSubstSpec.v, GenFunSpec.v. *)
From Coq Require Import String QArith Qfield Qpower Lqa Ascii.
From Verif Require Import Common ListOps Rational ZMat RatVec Piped Irrational Barvinok Text Count ExpSpec GenFunSpec GenFun GenFunProofs GenFunProofs2 GenFunProofs3 CountProofs5 TrivialSubst TrivialSubstSpec TrivialSubstProofs TrivialSubstProofs2.
Open Scope Z_scope.

(** At least one cone; each has rays and points, vectors of n coordinates. *)
Definition writable (n : nat) (cones : list gcone) : Prop :=
  (0 < n)%nat /\ cones <> [] /\ forall c, In c cones -> snd (fst c) <> [] /\ snd c <> [] /\ Forall (fun r => length r = n) (snd (fst c)) /\ Forall (fun p => length p = n) (snd c).
(** No denominator is zero at t = q. *)
Definition regular_value (n : nat) (cones : list gcone) (q : Q) : Prop :=
  ~ (q == 0)%Q /\ forall c r, In c cones -> In r (snd (fst c)) -> ~ (q ^ height n r == 1)%Q.

Definition flat (n : nat) (c : gcone) : Z * list Z * list Z := (fst (fst c), map (height n) (snd (fst c)), map (height n) (snd c)).
Lemma last_ok n v : (0 < n)%nat -> length v = n -> last_entry n v = Ok (height n v).
Proof.
  destruct n as [|n]; [lia|]. intros _ L. unfold last_entry, height. replace (S n - 1)%nat with n by lia. rewrite (nth_error_nth' v 0) by lia. reflexivity.
Qed.
Lemma rays_cases n rays : (0 < n)%nat -> Forall (fun r => length r = n) rays ->
  mapM (subst_ray n) rays = Ok (map (fun r => lit "(1 - t^(" ++ show_Z (height n r) ++ lit "))")%list rays) /\ (forall r, In r rays -> height n r <> 0) \/
  mapM (subst_ray n) rays = Err Exited /\ exists r, In r rays /\ height n r = 0.
Proof.
  intros N. induction 1 as [|r rays Hr F IH]; [left; split; [reflexivity|intros r []]|]. cbn [mapM map]. unfold subst_ray at 1 3. rewrite (last_ok n r N Hr). cbn [bind]. destruct (Z.eqb_spec (height n r) 0) as [E|E].
  - right. split; [reflexivity|]. exists r. split; [now left|exact E].
  - cbn [bind]. destruct IH as [[IH NZ]|[IH (r' & R1 & R2)]]; rewrite IH; cbn [bind]; [left|right]; (split; [reflexivity|]).
    + intros r' [<-|H]; auto.
    + exists r'. split; [now right|exact R2].
Qed.
Lemma points_written n pts : (0 < n)%nat -> Forall (fun r => length r = n) pts -> mapM (subst_point n) pts = Ok (map (fun r => lit "t^(" ++ show_Z (height n r) ++ lit ")")%list pts).
Proof.
  intros N F. apply mapM_all. intros p Hp. rewrite Forall_forall in F. unfold subst_point. rewrite (last_ok n p N (F p Hp)). reflexivity.
Qed.
Definition ttxt (n : nat) (c : gcone) : text :=
  (lit "(" ++ show_Z (fst (fst c)) ++ lit ")" ++ lit " * (" ++ separated (lit " + ") (map (fun r => lit "t^(" ++ show_Z (height n r) ++ lit ")") (snd c)) ++ lit ") / (" ++ separated (lit " * ") (map (fun r => lit "(1 - t^(" ++ show_Z (height n r) ++ lit "))") (snd (fst c))) ++ lit ")" ++ newline)%list.
Lemma cone_cases n c : (0 < n)%nat -> Forall (fun r => length r = n) (snd (fst c)) -> Forall (fun r => length r = n) (snd c) ->
  subst_cone n c = Ok (ttxt n c) /\ (forall r, In r (snd (fst c)) -> height n r <> 0) \/ subst_cone n c = Err Exited /\ exists r, In r (snd (fst c)) /\ height n r = 0.
Proof.
  destruct c as [[k rays] pts]. cbn [fst snd]. intros N FR FP. unfold subst_cone. rewrite (points_written n pts N FP). cbn [bind]. destruct (rays_cases n rays N FR) as [[E H]|[E H]]; rewrite E; cbn [bind]; [left|right]; auto.
Qed.
Lemma list_cases n cones : writable n cones ->
  mapM (subst_cone n) cones = Ok (map (ttxt n) cones) /\ (forall c r, In c cones -> In r (snd (fst c)) -> height n r <> 0) \/
  mapM (subst_cone n) cones = Err Exited /\ exists c r, In c cones /\ In r (snd (fst c)) /\ height n r = 0.
Proof.
  intros (N & _ & W). induction cones as [|c cones IH]; [left; split; [reflexivity|intros c r []]|]. destruct (W c (or_introl eq_refl)) as (_ & _ & FR & FP). cbn [mapM map].
  destruct (cone_cases n c N FR FP) as [[E H]|[E (r & H1 & H2)]]; rewrite E; cbn [bind].
  - destruct (IH (fun c' H' => W c' (or_intror H'))) as [[E' H']|[E' (c' & r & H1 & H2)]]; rewrite E'; cbn [bind]; [left|right]; (split; [reflexivity|]).
    + intros c' r [<-|Hc] Hr; eauto.
    + exists c', r. split; [now right|exact H2].
  - right. split; [reflexivity|]. exists c, r. split; [now left|]. auto.
Qed.
Lemma named_ttxt n c : named (ttxt n c) = (ctxt (flat n c) ++ newline)%list.
Proof.
  unfold ttxt, ctxt, flat. cbn [fst snd]. rewrite !named_app, !named_separated, named_show, !map_map. rewrite <- !app_assoc.
  replace (map (fun x => named (lit "t^(" ++ show_Z (height n x) ++ lit ")")) (snd c))%list with (map (fun x => ptxt (height n x)) (snd c)) by (apply map_ext; intros x; rewrite !named_app, named_show; reflexivity).
  replace (map (fun x => named (lit "(1 - t^(" ++ show_Z (height n x) ++ lit "))")) (snd (fst c)))%list with (map (fun x => rtxt (height n x)) (snd (fst c))) by (apply map_ext; intros x; rewrite !named_app, named_show; unfold rtxt, ptxt; rewrite <- !app_assoc; reflexivity).
  reflexivity.
Qed.
Lemma psum_points q x n pts : (forall v, length v = n -> (monomial x v == q ^ height n v)%Q) -> Forall (fun p => length p = n) pts -> (psum q (map (height n) pts) == point_sum x pts)%Q.
Proof. intros M. induction 1 as [|p pts H F IH]; [reflexivity|]. cbn [map psum point_sum fold_right]. fold (psum q (map (height n) pts)). fold (point_sum x pts). now rewrite IH, (M p H). Qed.
Lemma rprod_rays q x n rays : (forall v, length v = n -> (monomial x v == q ^ height n v)%Q) -> Forall (fun p => length p = n) rays -> (rprod q (map (height n) rays) == ray_product x rays)%Q.
Proof. intros M. induction 1 as [|p pts H F IH]; [reflexivity|]. cbn [map rprod ray_product fold_right]. fold (rprod q (map (height n) pts)). fold (ray_product x pts). now rewrite IH, (M p H). Qed.
Lemma cval_rational q x n cones : (forall v, length v = n -> (monomial x v == q ^ height n v)%Q) -> (forall c, In c cones -> Forall (fun r => length r = n) (snd (fst c)) /\ Forall (fun p => length p = n) (snd c)) ->
  (fold_right (fun c s => cval q c + s) 0 (map (flat n) cones) == rational_value x cones)%Q.
Proof.
  intros M. induction cones as [|[[k rays] pts] cones IH]; intros W; [reflexivity|]. cbn [map fold_right rational_value]. fold (rational_value x cones). rewrite IH by (intros c Hc; apply W; now right). destruct (W _ (or_introl eq_refl)) as [WR WP]. cbn [fst snd] in *. unfold cval, flat. cbn [fst snd]. fold (ray_product x rays).
  rewrite (psum_points q x n pts M WP), (rprod_rays q x n rays M WR). reflexivity.
Qed.
Lemma good_flat n q cones : writable n cones -> (forall c r, In c cones -> In r (snd (fst c)) -> ~ (q ^ height n r == 1)%Q) -> Forall (good q) (map (flat n) cones).
Proof.
  intros _ R. apply Forall_map, Forall_forall. intros c Hc. unfold good, flat. cbn [fst snd]. specialize (R c). revert R. generalize (snd (fst c)). intros rays R. induction rays as [|r rays IH]; cbn [map rprod fold_right]; [discriminate|]. fold (rprod q (map (height n) rays)). intros E. destruct (Qmult_integral _ _ E) as [E1|E1]; [apply (R r Hc (or_introl eq_refl)); lra|]. apply IH; [|exact E1]. intros r' H H'. apply R; [exact H|now right].
Qed.
Lemma read_back n cones : writable n cones -> (forall c r, In c cones -> In r (snd (fst c)) -> height n r <> 0) ->
  exists t e, func_rat n cones = Ok (lit "HS := " ++ t ++ lit ";")%list /\ reads (named t) = Some e /\ forall x, regular_value n cones (x 0%nat) -> val x e (fold_right (fun c s => cval (x 0%nat) c + s) 0 (map (flat n) cones))%Q.
Proof.
  intros W NZ. destruct (list_cases n cones W) as [[E _]|[_ (c & r & H1 & H2 & H3)]]; [|exfalso; exact (NZ c r H1 H2 H3)]. pose proof W as (N & NE & WF).
  destruct (cones_read (map (flat n) cones)) as (e & R & V).
  - destruct cones; [congruence|discriminate].
  - apply Forall_map, Forall_forall. intros c Hc. destruct (WF c Hc) as (A & B & _). unfold flat. cbn [fst snd]. split; intros X; apply map_eq_nil in X; contradiction.
  - exists (separated (lit " + ") (map (ttxt n) cones)), e. split; [|split].
    + unfold func_rat, subst_cones. rewrite E. reflexivity.
    + rewrite named_separated, map_map. change (named (lit " + ")) with (lit " + "). rewrite <- R. rewrite map_map. f_equal. f_equal. apply map_ext. apply named_ttxt.
    + intros x [NX RX]. apply V; [exact NX|]. now apply good_flat.
Qed.

(** C98.  If no ray has last coordinate 0, the file is written: it assigns to HS an expression
    whose value at t = q is the value of the sum of rational functions at (1, ..., 1, q).
    Otherwise the program stops. *)
Theorem substitution_exact : forall n cones, writable n cones ->
  match func_rat n cones with
  | Ok s => (forall c r, In c cones -> In r (snd (fst c)) -> height n r <> 0) /\
      exists t e, s = (lit "HS := " ++ t ++ lit ";")%list /\ reads (named t) = Some e /\
      forall q, regular_value n cones q -> exists v, mvalue (fun _ => q) e = Some v /\ (v == rational_value (at_last n q) cones)%Q
  | Err x => x = Exited /\ exists c r, In c cones /\ In r (snd (fst c)) /\ height n r = 0
  end.
Proof.
  intros n cones W. destruct (list_cases n cones W) as [[E NZ]|[E H]].
  - destruct (read_back n cones W NZ) as (t & e & -> & R & V). split; [exact NZ|]. exists t, e. split; [reflexivity|]. split; [exact R|]. intros q RQ. specialize (V (fun _ => q) RQ). cbv beta in V. apply (val_ext _ _ _ (rational_value (at_last n q) cones)) in V; [exact V|].
    destruct W as (N & _ & WF). destruct n as [|n]; [lia|]. apply (cval_rational q (at_last (S n) q) (S n)); [intros v L; now apply monomial_last|]. intros c Hc. apply (WF c Hc).
  - unfold func_rat, subst_cones. rewrite E. cbn [bind]. auto.
Qed.
Print Assumptions substitution_exact.
(** If the sum of rational functions is the generating function of a finite set of points, the
    value at t = q is the sum of q^(last coordinate) over the points. *)
Theorem substitution_points : forall n cones points s, writable n cones -> Forall (fun p => length p = n) points ->
  (forall x, regular n cones x -> (rational_value x cones == point_sum x points)%Q) -> func_rat n cones = Ok s ->
  exists t e, s = (lit "HS := " ++ t ++ lit ";")%list /\ reads (named t) = Some e /\
  forall q, regular_value n cones q -> exists v, mvalue (fun _ => q) e = Some v /\ (v == fold_right (fun p z => q ^ height n p + z) 0 points)%Q.
Proof.
  intros n cones points s W FP GP E. pose proof (substitution_exact n cones W) as X. rewrite E in X. destruct X as (NZ & t & e & Es & R & V). exists t, e. split; [exact Es|]. split; [exact R|]. intros q RQ. destruct (V q RQ) as (v & M & Ev). exists v. split; [exact M|]. rewrite Ev. destruct W as (N & _ & WF). destruct n as [|n]; [lia|]. rewrite GP.
  - clear -FP. induction FP as [|p ps H F IH]; [reflexivity|]. cbn [point_sum fold_right]. fold (point_sum (at_last (S n) q) ps). now rewrite IH, (monomial_last n p q H).
  - destruct RQ as [NQ RQ]. split.
    + intros k _. unfold at_last. destruct (k =? S n - 1)%nat; [exact NQ|discriminate].
    + intros c r Hc Hr. destruct (WF c Hc) as (_ & _ & FR & _). rewrite Forall_forall in FR. rewrite (monomial_last n r q (FR r Hr)). now apply (RQ c r).
Qed.
Print Assumptions substitution_points.
(** The series.  If the sum of rational functions, as a power series, is F, and F has finitely
    many points at each height, the expression stands for a univariate rational function whose
    power series has at t^k the sum of F over the points of height k. *)
Theorem substitution_series : forall n cones F level s, writable n cones -> expands n cones F -> levels n F level -> func_rat n cones = Ok s ->
  exists t, s = (lit "HS := " ++ t ++ lit ";")%list /\ stands 1 (named t) (projected n cones) /\ expands 1 (projected n cones) (level_sum F level).
Proof.
  intros n cones F level s W EX HL E. pose proof (substitution_exact n cones W) as X. rewrite E in X. destruct X as (NZ & _). destruct (read_back n cones W NZ) as (t & e & Et & R & V). rewrite E in Et. injection Et as ->. exists t. split; [reflexivity|]. destruct W as (N & NE & WF). split.
  - right. exists e. split; [exact R|]. intros x [RX1 RX2]. assert (RQ : regular_value n cones (x 0%nat)).
    { split; [apply RX1; lia|]. intros c r Hc Hr HE. apply (RX2 (fst (fst c), map (fun r => [height n r]) (snd (fst c)), map (fun p => [height n p]) (snd c)) [height n r]); [apply in_map_iff; exists c; auto|cbn [fst snd]; apply in_map_iff; exists r; auto|]. cbn [monomial]. rewrite HE. reflexivity. }
    destruct (V x RQ) as (v & M & Ev). exists v. split; [exact M|]. rewrite Ev. clear -RX1. induction cones as [|[[k rays] pts] cones IH]; [reflexivity|]. cbn [map fold_right projected rational_value]. fold (projected n cones). fold (rational_value x (projected n cones)). rewrite IH. unfold cval, flat. cbn [fst snd].
    assert (E1 : forall ps, (psum (x 0%nat) (map (height n) ps) == point_sum x (map (fun p => [height n p]) ps))%Q) by (induction ps as [|p ps IHp]; [reflexivity|cbn [map psum point_sum fold_right monomial]; fold (psum (x 0%nat) (map (height n) ps)); fold (point_sum x (map (fun p => [height n p]) ps)); rewrite IHp; ring]).
    assert (E2 : forall ps, (rprod (x 0%nat) (map (height n) ps) == fold_right (fun r d => (1 - monomial x r) * d)%Q 1%Q (map (fun p => [height n p]) ps))%Q) by (induction ps as [|p ps IHp]; [reflexivity|cbn [map rprod fold_right monomial]; fold (rprod (x 0%nat) (map (height n) ps)); rewrite IHp; ring]).
    rewrite E1, E2. reflexivity.
  - apply series_projected; [exact N| |exact HL|exact EX]. apply Forall_forall. intros c Hc. destruct (WF c Hc) as (_ & _ & A & B). split; assumption.
Qed.
Print Assumptions substitution_series.
(** For the indicator function of a set of points, the coefficient of t^k is the number of
    points of height k. *)
Theorem level_counts : forall n F level k, levels n F level -> (forall x, length x = n -> F x = 0 \/ F x = 1) -> level_sum F level [k] = Z.of_nat (length (level k)).
Proof.
  intros n F level k HL H01. unfold level_sum. cbn [nth]. destruct (HL k) as [_ HI]. assert (G : forall x, In x (level k) -> F x = 1) by (intros x Hx; apply HI in Hx as (L & _ & N0); destruct (H01 x L); [contradiction|assumption]).
  revert G. generalize (level k). induction l as [|x l IH]; intros G; [reflexivity|]. cbn [fold_right length]. rewrite (G x (or_introl eq_refl)), IH by (intros y Hy; apply G; now right). lia.
Qed.
Print Assumptions level_counts.
(** It does not work for every decomposition: a ray of height 0 stops the program, and without
    cones or without rays the file is no expression. *)
Theorem substitution_always_refuted :
  func_rat 2 [(1, [[0;1];[1;0]], [[0;0]])] = Err Exited /\
  func_rat 2 [] = Ok (lit "HS := " ++ [] ++ lit ";")%list /\ reads (named []) = None /\
  (exists t, func_rat 2 [(1, [], [[0;0]])] = Ok (lit "HS := " ++ t ++ lit ";")%list /\ reads (named t) = None).
Proof. split; [reflexivity|]. split; [reflexivity|]. split; [reflexivity|]. exists (lit "(1) * (t^(0)) / ()" ++ newline)%list. split; [vm_compute; reflexivity|vm_compute; reflexivity]. Qed.
Print Assumptions substitution_always_refuted.

(** The segment [0, 1] at height 1: the points (x, k) with 0 <= x <= k. *)
Definition segment_cones : list gcone := [(1, [[0;1];[1;1]], [[0;0]])].
Definition segment (v : list Z) : Z := match v with [x; k] => if (0 <=? x) && (x <=? k) then 1 else 0 | _ => 0 end.
Definition segment_level (k : Z) : list (list Z) := map (fun i => [Z.of_nat i; k]) (seq 0 (Z.to_nat (k + 1))).
Example segment_series : writable 2 segment_cones /\ expands 2 segment_cones segment /\ levels 2 segment segment_level /\
  func_rat 2 segment_cones = Ok (lit "HS := " ++ (lit "(1) * (t^(0)) / ((1 - t^(1)) * (1 - t^(1)))" ++ newline) ++ lit ";")%list /\
  (forall k, 0 <= k -> Z.of_nat (length (segment_level k)) = k + 1) /\ regular_value 2 segment_cones (1 # 2).
Proof.
  split; [|split; [|split; [|split; [|split]]]].
  - split; [lia|]. split; [discriminate|]. intros c [<-|[]]. cbn. split; [discriminate|]. split; [discriminate|]. split; repeat constructor.
  - intros v L. destruct v as [|x [|k [|]]]; try discriminate. let g := eval vm_compute in (grational 2 segment_cones) in change (grational 2 segment_cones) with g. cbn [fst snd]. unfold times_series. cbn [fold_right fst snd map vadd Z.opp]. cbn [gcoeff fst snd]. unfold segment.
    match goal with |- context [list_eq_dec Z.eq_dec ?a ?b] => destruct (list_eq_dec Z.eq_dec a b) as [E|E] end.
    + injection E as Ex Ek. subst. reflexivity.
    + assert (NE : x <> 0 \/ k <> 0). { destruct (Z.eq_dec x 0) as [->|]; [|auto]. destruct (Z.eq_dec k 0) as [->|]; [|auto]. exfalso. apply E. reflexivity. }
      clear E. repeat match goal with |- context [?a <=? ?b] => destruct (Z.leb_spec a b) end; cbn [andb]; lia.
  - intros k. unfold segment_level. split.
    + apply FinFun.Injective_map_NoDup; [|apply seq_NoDup]. intros i j E. injection E as E. lia.
    + intros v. rewrite in_map_iff. split.
      * intros (i & <- & H). apply in_seq in H. split; [reflexivity|]. split; [reflexivity|]. cbn [segment]. destruct (Z.leb_spec 0 (Z.of_nat i)); [|lia]. destruct (Z.leb_spec (Z.of_nat i) k); [discriminate|lia].
      * intros (L & HK & NZ). destruct v as [|x [|k' [|]]]; try discriminate. unfold height in HK. cbn in HK. subst k'. cbn [segment] in NZ. exists (Z.to_nat x). destruct (Z.leb_spec 0 x); cbn [andb] in NZ; [|congruence]. destruct (Z.leb_spec x k); [|congruence]. split; [f_equal; lia|]. apply in_seq. lia.
  - vm_compute. reflexivity.
  - intros k Hk. unfold segment_level. rewrite map_length, seq_length. lia.
  - split; [discriminate|]. intros c r [<-|[]] [<-|[<-|[]]]; vm_compute; discriminate.
Qed.
