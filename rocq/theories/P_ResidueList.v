(** C90: the number of integer points from the list of all cones, with a step that finds a substitution by itself.
    Specification: ResidueListSpec.v, ExpSpec.v. *)
From Coq Require Import QArith.
From Verif Require Import Common ZMat Piped ExpSpec ConeSpec BrionProofs4 EulerProofs Residue ResidueProofs ResidueProofs2 ResidueProofs3 ResidueProofs4 ResidueProofs5 Dig DigSpec P_Dig ResidueList ResidueListSpec ResidueListProofs ResidueListProofs2 ResidueListProofs3.
Open Scope Z_scope.

Lemma list_parts n m cones : unimodular_list n m cones ->
  forallb (fun c => (length (snd c) =? 1)%nat) cones = true /\ forallb (fun c => (length (snd (fst c)) =? m)%nat) cones = true /\
  Forall (fun c => length (snd (fst c)) = m /\ Forall (fun r => length r = n) (snd (fst c)) /\ exists p, snd c = [p] /\ length p = n) cones /\ Forall (fun c => length (snd (fst c)) = m) cones.
Proof.
  intros (_ & H). split; [|split; [|split]]; rewrite ?forallb_forall, ?Forall_forall; intros [[e rays] pts] Hc; destruct (H e rays pts Hc) as (H1 & H2 & p & -> & Lp); cbn [fst snd].
  - reflexivity.
  - apply Nat.eqb_eq, H1.
  - split; [exact H1|]. split; [apply Forall_forall, H2|]. exists p. auto.
  - exact H1.
Qed.
Lemma fits_iff lam cones : fits lam (map (fun c : Z * list (list Z) * list (list Z) => snd (fst c)) cones) <-> orthogonal_to_none lam cones.
Proof.
  unfold fits, orthogonal_to_none. rewrite Forall_map, Forall_forall. split.
  - intros H e rays pts r Hc Hr. specialize (H (e, rays, pts) Hc). cbn [fst snd] in H. rewrite Forall_forall in H. exact (H r Hr).
  - intros H [[e rays] pts] Hc. cbn [fst snd]. apply Forall_forall. intros r Hr. exact (H e rays pts r Hc Hr).
Qed.
(** The arithmetic after a substitution has been found. *)
Lemma after_search n m cones points lam : unimodular_list n m cones -> generates n cones points -> Forall (fun p => length p = n) points -> fits lam (map (fun c => snd (fst c)) cones) -> forall tr,
  exists s, contributions m (ten_of (length cones)) (map (fun it => (fst (fst it), snd (fst it) - tr, snd it)) (map (fun p => let '(c, ds) := p in flip ds (zdot lam (hd [] (snd c))) (fst (fst c))) (List.combine cones (map (map (zdot lam)) (map (fun c : Z * list (list Z) * list (list Z) => snd (fst c)) cones))))) = Ok s /\
  round_total (ten_of (length cones)) s = Z.of_nat (length points).
Proof.
  intros U G FP F tr. destruct (list_parts n m cones U) as (_ & _ & FL & LM). destruct U as (Hm & _). eexists. split; [apply contributions_ok; [exact LM|lia|exact F]|].
  destruct (ten_of_ok (length cones)) as (T1 & T2 & T3). apply (rounding_all (ten_of (length cones)) (map (mterm lam tr) cones) m); [exact T1|exact T2|lia|now rewrite map_length|].
  apply (terms_total n m lam tr cones points); auto; lia.
Qed.

(** The number returned is the number of points, for any number of cones and whatever vector is found; the program does
    nothing else but return it or go on trying random vectors. *)
Theorem residue_is_number_of_points : forall n m cones points fuel rnd, unimodular_list n m cones -> cones <> [] -> generates n cones points -> Forall (fun p => length p = n) points ->
  residue fuel rnd n cones = Ok (Z.of_nat (length points)) \/ residue fuel rnd n cones = Err OutOfFuel.
Proof.
  intros n m cones points fuel rnd U NE G FP. destruct (list_parts n m cones U) as (E1 & E2 & _). pose proof U as (Hm & H). destruct cones as [|[[e0 rays0] pts0] cones']; [congruence|]. set (cones := (e0, rays0, pts0) :: cones') in *. unfold residue. change (match cones with [] => _ | (_, r, _) :: _ => _ end) with (let m0 := length rays0 in
      if negb (forallb (fun c => (length (snd c) =? 1)%nat) cones) then Err AssertFail
      else if negb (forallb (fun c => (length (snd (fst c)) =? m0)%nat) cones) then Err NullDeref
      else
        bind (find_lambda fuel n rnd (map (fun c => snd (fst c)) cones)) (fun '(lambda, dots) =>
        let items := map (fun p => let '(c, ds) := p in flip ds (zdot lambda (hd [] (snd c))) (fst (fst c))) (List.combine cones dots) in
        let tr := translation lambda (map (fun it => snd (fst it)) items) in
        bind (contributions m0 (ten_of (length cones)) (map (fun it => (fst (fst it), snd (fst it) - tr, snd it)) items)) (fun s =>
        Ok (round_total (ten_of (length cones)) s)))).
  assert (Em : length rays0 = m) by (apply (H e0 rays0 pts0); now left). cbv zeta. rewrite Em, E1, E2. cbn [negb].
  destruct (find_lambda fuel n rnd (map (fun c => snd (fst c)) cones)) as [[lam l]|e] eqn:E; cbn [bind].
  - left. destruct (find_ok fuel n rnd _ lam l ltac:(lia) E) as (_ & F & ->).
    destruct (after_search n m cones points lam U G FP F (translation lam (map (fun it => snd (fst it)) (map (fun p => let '(c, ds) := p in flip ds (zdot lam (hd [] (snd c))) (fst (fst c))) (List.combine cones (map (map (zdot lam)) (map (fun c : Z * list (list Z) * list (list Z) => snd (fst c)) cones))))))) as (s & Es & R). rewrite Es. cbn [bind]. now rewrite R.
  - right. unfold find_lambda in E. destruct (search _ _ _ _ _ _ _ _); [discriminate E|]. destruct (random_fuel n rnd (map (fun c => snd (fst c)) cones) fuel 0%nat _ (wide_zeros _)) as [X|(a & b & X)]; congruence.
Qed.
Print Assumptions residue_is_number_of_points.


(** Loop 1: the vector found is the first in the lexicographic order, from 0 on, of the vectors with entries -1, 0, 1, 2 that are orthogonal to
    no ray.  If it finds none, there is none or 5000 of these vectors were tried in vain. *)
Theorem first_substitution : forall n m cones, unimodular_list n m cones ->
  let B := map (fun c => snd (fst c)) cones in
  match search lambda_tries n B 0 0 (repeat 0 n) (repeat 0 n) (map (map (fun _ => 0)) B) with
  | Some (lam, dots) => small_vector n lam /\ orthogonal_to_none lam cones /\ dots = map (map (zdot lam)) B /\
      forall c, small_vector n c -> orthogonal_to_none c cones -> ~ before c (repeat 0 n) -> ~ before c lam
  | None => (forall c, small_vector n c -> orthogonal_to_none c cones -> before c (repeat 0 n)) \/
      exists tried, length tried = lambda_tries /\ NoDup tried /\ Forall (fun c => small_vector n c /\ ~ orthogonal_to_none c cones) tried
  end.
Proof.
  intros n m cones U B. pose proof U as (Hm & _).
  assert (S0 : small_vector n (repeat 0 n)) by (split; [apply repeat_length|apply Forall_forall; intros x Hx; apply repeat_spec in Hx; lia]).
  pose proof (search_first n B ltac:(lia) lambda_tries 0%nat 0%nat (repeat 0 n) [] (repeat 0 n) _ S0 (wide_zeros B) (or_introl eq_refl)) as H.
  destruct (search lambda_tries n B 0 0 (repeat 0 n) (repeat 0 n) (map (map (fun _ => 0)) B)) as [[lam dots]|] eqn:E.
  - destruct H as (H1 & H2 & H3). destruct (search_ok n B ltac:(lia) _ 0%nat _ _ [] _ _ ltac:(apply repeat_length) (wide_zeros B) ltac:(now left) _ _ E) as (_ & _ & D). split; [exact H1|]. split; [now apply fits_iff|]. split; [exact D|]. intros c Sc Oc. apply H3; [exact Sc|now apply fits_iff].
  - destruct H as [H|(tried & H1 & H2 & H3)]; [left; intros c Sc Oc; apply H; [exact Sc|now apply fits_iff]|right]. exists tried. split; [exact H1|]. split; [exact H2|]. eapply Forall_impl; [|exact H3]. intros c (A & C & _). split; [exact A|]. intros O. apply C. now apply fits_iff.
Qed.
Print Assumptions first_substitution.

Lemma small_list n : exists l, length l = (4 ^ n)%nat /\ forall c, small_vector n c -> In c l.
Proof.
  induction n as [|n (l & L & H)].
  - exists [[]]. split; [reflexivity|]. intros [|x c] (Lc & _); [now left|discriminate Lc].
  - exists (flat_map (fun c => map (fun x => x :: c) [-1;0;1;2]) l). split.
    + cbn [Nat.pow]. rewrite <- L. clear. induction l as [|c l IH]; [reflexivity|]. cbn [flat_map]. rewrite app_length, IH. cbn [map length]. lia.
    + intros [|x c] (Lc & F); [discriminate Lc|]. apply in_flat_map. exists c. split; [apply H; split; [cbn in Lc; lia|exact (Forall_inv_tail F)]|]. pose proof (Forall_inv F) as X. cbv beta in X. apply in_map_iff. exists x. split; [reflexivity|]. cbn. lia.
Qed.
(** It returns if one of the random vectors is orthogonal to no ray, and, for at most six variables, if one of the small vectors not before 0 is. *)
Theorem residue_returns : forall n m cones points rnd, unimodular_list n m cones -> cones <> [] -> generates n cones points -> Forall (fun p => length p = n) points ->
  (exists j, orthogonal_to_none (rnd j) cones) \/ ((n <= 6)%nat /\ exists c, small_vector n c /\ orthogonal_to_none c cones /\ ~ before c (repeat 0 n)) ->
  exists F, forall fuel, (F <= fuel)%nat -> residue fuel rnd n cones = Ok (Z.of_nat (length points)).
Proof.
  intros n m cones points rnd U NE G FP S. pose proof U as (Hm & _).
  assert (X : exists F, forall fuel, (F <= fuel)%nat -> exists p, find_lambda fuel n rnd (map (fun c => snd (fst c)) cones) = Ok p).
  { destruct S as [(j & Hj)|(H6 & c & Sc & Fc & NB)].
    - destruct (find_total n rnd (map (fun c => snd (fst c)) cones) ltac:(lia)) as (F & lam & _ & _ & H); [exists j; now apply fits_iff|]. exists F. intros fuel Hf. eexists. exact (H fuel Hf).
    - exists 0%nat. intros fuel _. unfold find_lambda. pose proof (first_substitution n m cones U) as H. cbv zeta in H. destruct (search _ _ _ _ _ _ _ _) as [p|]; [now exists p|]. exfalso.
      destruct H as [H|(tried & L & ND & F)]; [exact (NB (H c Sc Fc))|]. destruct (small_list n) as (l & Ll & Hl).
      assert (LE : (length tried <= length l)%nat). { apply NoDup_incl_length; [exact ND|]. intros x Hx. rewrite Forall_forall in F. apply Hl, (F x Hx). }
      assert (P6 : (4 ^ n <= 4 ^ 6)%nat) by (apply Nat.pow_le_mono_r; lia). rewrite L, Ll in LE. unfold lambda_tries in LE. assert (Z.of_nat (4 ^ 6) = 4096) by (rewrite Nat2Z.inj_pow; reflexivity). lia. }
  destruct X as (F & X). exists F. intros fuel Hf. destruct (residue_is_number_of_points n m cones points fuel rnd U NE G FP) as [H|H]; [exact H|]. exfalso. destruct (X fuel Hf) as ([lam l] & E).
  destruct (list_parts n m cones U) as (E1 & E2 & _). destruct cones as [|[[e0 rays0] pts0] cones']; [congruence|]. assert (Em : length rays0 = m) by (apply (proj2 U) with (coef := e0) (pts := pts0); now left).
  unfold residue in H. cbv zeta in H. rewrite Em, E1, E2, E in H. cbn [negb bind] in H. destruct (find_ok fuel n rnd _ lam l ltac:(lia) E) as (_ & Fi & ->).
  match type of H with bind (contributions _ _ (map (fun it => (_, _ - ?tr, _)) _)) _ = _ => destruct (after_search n m _ points lam U G FP Fi tr) as (s & Es & R) end. rewrite Es in H. discriminate H.
Qed.
Print Assumptions residue_returns.

(** The errors: no cones at all, a cone without exactly one point, cones with different numbers of rays. *)
Theorem residue_errors : forall fuel rnd n, residue fuel rnd n [] = Err NullDeref /\
  forall e0 rays0 pts0 cones, let l := (e0, rays0, pts0) :: cones in
  ((exists e rays pts, In (e, rays, pts) l /\ length pts <> 1%nat) -> residue fuel rnd n l = Err AssertFail) /\
  ((forall e rays pts, In (e, rays, pts) l -> length pts = 1%nat) -> (exists e rays pts, In (e, rays, pts) l /\ length rays <> length rays0) -> residue fuel rnd n l = Err NullDeref).
Proof.
  intros fuel rnd n. split; [reflexivity|]. intros e0 rays0 pts0 cones l. unfold residue, l. fold l. split.
  - intros (e & rays & pts & Hc & NL). assert (E : forallb (fun c => (length (snd c) =? 1)%nat) l = false). { apply Bool.not_true_iff_false. intros X. rewrite forallb_forall in X. specialize (X _ Hc). cbn [snd] in X. now apply Nat.eqb_eq in X. } rewrite E. reflexivity.
  - intros A (e & rays & pts & Hc & NL). assert (E1 : forallb (fun c => (length (snd c) =? 1)%nat) l = true). { apply forallb_forall. intros [[a b] c] X. cbn [snd]. apply Nat.eqb_eq. exact (A a b c X). }
    assert (E2 : forallb (fun c => (length (snd (fst c)) =? length rays0)%nat) l = false). { apply Bool.not_true_iff_false. intros X. rewrite forallb_forall in X. specialize (X _ Hc). cbn [fst snd] in X. now apply Nat.eqb_eq in X. } rewrite E1, E2. reflexivity.
Qed.
Print Assumptions residue_errors.

(** The cones at the corners of the triangle x, y >= 0, x + y <= 1. *)
Definition tri_list : list (Z * list (list Z) * list (list Z)) := map (fun c => (dc_coef c, dc_rays c, [dc_point c])) tri_cones.
Example tri_list_ok : unimodular_list 2 2 tri_list /\ generates 2 tri_list tri_points /\ Forall (fun p => length p = 2%nat) tri_points.
Proof.
  split; [|split].
  - split; [lia|]. intros e rays pts [E|[E|[E|[]]]]; injection E as <- <- <-; (split; [reflexivity|]); (split; [intros r [<-|[<-|[]]]; reflexivity|]); eexists; split; reflexivity.
  - exact (proj2 tri_decomposes).
  - repeat constructor.
Qed.
(** (1,-1) is the first vector with -1, 0, 1, 2 from 0 on that is orthogonal to no ray. *)
Example tri_residue : search lambda_tries 2 (map (fun c => snd (fst c)) tri_list) 0 0 [0;0] [0;0] [[0;0];[0;0];[0;0]] = Some ([1;-1], [[1;-1];[-1;-2];[1;2]]) /\ residue 0 (fun _ => []) 2 tri_list = Ok 3.
Proof. vm_compute. auto. Qed.
Example random_residue : random_search 5 2 (fun k => [Z.of_nat k; 2]) 0 (map (fun c => snd (fst c)) tri_list) [[0;0];[0;0];[0;0]] = Ok ([1;2], [[1;2];[-1;1];[-2;-1]]).
Proof. vm_compute. reflexivity. Qed.
