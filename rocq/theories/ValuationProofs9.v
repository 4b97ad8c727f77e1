(** Histories of calls on one object. *)
From Coq Require Import QArith Qabs Qfield Qpower Permutation.
From Verif Require Import Common Rational RationalSpec RationalProofs RatVec RatVecSpec RatVecProofs Trie TrieSpec TrieProofs TrieProofs2 Integ IntegSpec IntegMath IntegProofs2 IntegProofs4 IntegProofs5 DecompProofs DecompProofs3 DecompProofs4 Series ZMat Det DetProofs PerturbSpec PerturbProofs6 Valuation ValuationSpec ValuationSpec2 ValuationProofs ValuationProofs2 ValuationProofs3 ValuationProofs4 ValuationProofs5 ValuationProofs6 ValuationProofs7 ValuationProofs8.
Open Scope Z_scope.

Lemma dilate_one_state n c tri ps : cone_over n ps (vc_rays c) -> exists k c', dilate (one_state n c tri) = Ok (k, one_state n c' tri) /\ 0 < k /\ leveled n k k ps (vc_rays c') /\
  (forall e, leveled n e e ps (vc_rays c) -> ps <> [] -> k = e /\ c' = c).
Proof.
  intros HC. destruct (dilate_cone_ok n ps (vc_rays c) HC) as (k & rays & K1 & K2 & K3 & K4 & K5). unfold dilate, one_state. cbn [pv_vars pv_one pv_cone pv_cones pv_tri]. rewrite Nat.eqb_refl. cbn [negb]. rewrite K1. cbn [bind]. rewrite K3. cbn [bind].
  eexists k, _. split; [reflexivity|]. split; auto. split; [exact K4|]. intros e HE NE. destruct (K5 e HE) as [-> ->]; [|split; auto; now destruct c].
  intros E. apply NE. rewrite E in HC. destruct ps; auto. apply F2cons in HC as (? & ? & ? & _). discriminate.
Qed.
Lemma integral_step n D T ps c tri c' k idx q : n <> O -> (n < 1000)%nat -> is_integral q -> valid n D q ->
  dilate (one_state n c tri) = Ok (k, one_state n c' tri) -> 0 < k -> leveled n k k ps (vc_rays c') -> (tri = [] \/ tri = T (S n) c') -> selected n (vc_rays c') (map vc_rays (T (S n) c')) idx ->
  exists call v, call_of n q = Ok call /\ vstep T call (one_state n c tri) = Ok (v, one_state n c' (T (S n) c')) /\ answer n D (simplices_of ps idx) q v.
Proof.
  intros Hn Hn' HI HV HD Hk HL HT HS. destruct q as [|l|l]; [destruct HI| |]; cbn [valid call_of answer] in *.
  - destruct HV as [V1 V2]. destruct (dilate_forms_ok n k l Hn Hk V1 V2) as (p & m & co & out & F1 & F2 & F3 & F4).
    destruct (integrate_ready n T k k ps (S n) [] c' tri idx 0%nat (fun _ => O) (fun _ => O) m co out Hn Hn' Hk HL HS (or_introl (conj eq_refl eq_refl)) HT F3) as (v & W1 & W2 & W3).
    rewrite F1. cbn [bind]. eexists _, v. split; [reflexivity|]. cbn [vstep]. unfold find_integral_forms. rewrite HD. cbn [bind]. rewrite F2. cbn [bind]. pose proof F3 as (MV & _). rewrite MV. split; [exact W1|]. rewrite W3. apply split_forms. exact F4.
  - destruct HV as [V1 V2]. pose proof V1 as (HD0 & _ & _ & NE). destruct (dilate_polynomial_ok n k l Hn Hk (input_monomials n D l V1) NE) as (p & P1 & P2 & _ & P4). destruct (P4 V2) as (m & co & out & F2 & F3 & F4 & F5).
    destruct (integrate_ready n T k k ps (S n) [] c' tri idx 0%nat (fun _ => O) (fun _ => O) m co out Hn Hn' Hk HL HS (or_introl (conj eq_refl eq_refl)) HT F3) as (v & W1 & W2 & W3).
    rewrite P1. cbn [bind]. eexists _, v. split; [reflexivity|]. cbn [vstep]. unfold find_integral_polynomial. rewrite HD. cbn [bind]. rewrite F2. cbn [bind]. rewrite P2. split; [exact W1|].
    intros J HJ. rewrite W3. destruct F3 as (_ & _ & _ & FO). apply (split_polynomial n k co out D); auto. apply (out_bounds n D l out V1); auto.
Qed.
Lemma volume_step n T ps c tri idx : cone_over n ps (vc_rays c) -> (tri = [] \/ tri = T (S n) c) -> selected n (vc_rays c) (map vc_rays (T (S n) c)) idx ->
  exists v, vstep T CallVolume (one_state n c tri) = Ok (v, one_state n c (T (S n) c)) /\ (value v == total_volume n (simplices_of ps idx))%Q.
Proof.
  intros HC HT HS. destruct (tri_volume n T ps c idx HC HS) as (v & V1 & V2 & V3). exists v. split; [|exact V3]. cbn [vstep]. unfold find_volume. rewrite (convert_ready _ c) by reflexivity. cbn [bind]. rewrite (triangulate_ready T _ c) by (cbn; auto). cbn [bind one_state pv_one pv_tri pv_vars pv_cones]. rewrite V1. reflexivity.
Qed.
Lemma leveled_history n D T ps c k idx qs : n <> O -> (n < 1000)%nat -> ps <> [] -> 0 < k -> leveled n k k ps (vc_rays c) -> selected n (vc_rays c) (map vc_rays (T (S n) c)) idx -> Forall (valid n D) qs ->
  forall tri, (tri = [] \/ tri = T (S n) c) -> exists cs vs, calls_of n qs = Ok cs /\ vrun T cs (one_state n c tri) = Ok vs /\ Forall2 (answer n D (simplices_of ps idx)) qs vs.
Proof.
  intros Hn Hn' NE Hk HL HS. induction 1 as [|q qs Hq HF IH]; intros tri HT; cbn [calls_of]; [exists [], []; repeat split; auto; constructor|].
  assert (X : exists call v, call_of n q = Ok call /\ vstep T call (one_state n c tri) = Ok (v, one_state n c (T (S n) c)) /\ answer n D (simplices_of ps idx) q v).
  { destruct q as [|l|l].
    - destruct (volume_step n T ps c tri idx (leveled_cone n k ps _ Hk HL) HT HS) as (v & V1 & V2). exists CallVolume, v. auto.
    - destruct (dilate_one_state n c tri ps (leveled_cone n k ps _ Hk HL)) as (k' & c' & D1 & D2 & D3 & D4). destruct (D4 k HL NE) as [-> ->]. apply (integral_step n D T ps c tri c k idx); auto. exact Logic.I.
    - destruct (dilate_one_state n c tri ps (leveled_cone n k ps _ Hk HL)) as (k' & c' & D1 & D2 & D3 & D4). destruct (D4 k HL NE) as [-> ->]. apply (integral_step n D T ps c tri c k idx); auto. exact Logic.I. }
  destruct X as (call & v & X1 & X2 & X3). rewrite X1. cbn [bind]. destruct (IH (T (S n) c) (or_intror eq_refl)) as (cs & vs & C1 & C2 & C3). rewrite C1. cbn [bind]. exists (call :: cs), (v :: vs). split; auto. cbn [vrun]. rewrite X2. cbn [bind]. rewrite C2. cbn [bind]. split; auto.
Qed.
Lemma integral_first n D T ps c q qs : n <> O -> (n < 1000)%nat -> ps <> [] -> cone_over n ps (vc_rays c) -> simplex_cones n T -> is_integral q -> Forall (valid n D) (q :: qs) ->
  exists cs vs c' idx, calls_of n (q :: qs) = Ok cs /\ vrun T cs (from_one (S n) c) = Ok vs /\ triangulated n T ps c' idx /\ Forall2 (answer n D (simplices_of ps idx)) (q :: qs) vs.
Proof.
  intros Hn Hn' NE HC HT HI HF. destruct (dilate_one_state n c [] ps HC) as (k & c' & D1 & D2 & D3 & _). destruct (HT c') as (idx & HS).
  destruct (integral_step n D T ps c [] c' k idx q Hn Hn' HI (Forall_inv HF) D1 D2 D3 (or_introl eq_refl) HS) as (call & v & X1 & X2 & X3).
  destruct (leveled_history n D T ps c' k idx qs Hn Hn' NE D2 D3 HS (Forall_inv_tail HF) (T (S n) c') (or_intror eq_refl)) as (cs & vs & C1 & C2 & C3).
  exists (call :: cs), (v :: vs), c', idx. cbn [calls_of]. rewrite X1. cbn [bind]. rewrite C1. cbn [bind]. split; auto. change (from_one (S n) c) with (one_state n c []). cbn [vrun]. rewrite X2. cbn [bind]. rewrite C2. cbn [bind]. split; auto. split; auto.
  apply (ready_triangulated n T ps c' idx k k (S n)); auto.
Qed.
Lemma volumes_only n T ps c : cone_over n ps (vc_rays c) -> simplex_cones n T -> exists idx, triangulated n T ps c idx /\
  forall m, exists vs, vrun T (repeat CallVolume m) (from_one (S n) c) = Ok vs /\ length vs = m /\ Forall (fun v => (value v == total_volume n (simplices_of ps idx))%Q) vs.
Proof.
  intros HC HT. destruct (HT c) as (idx & HS). exists idx. split; [split; auto; exists 1; split; [lia|]; now apply cone_over_1|]. intros m.
  assert (X : forall tri, (tri = [] \/ tri = T (S n) c) -> exists vs, vrun T (repeat CallVolume m) (one_state n c tri) = Ok vs /\ length vs = m /\ Forall (fun v => (value v == total_volume n (simplices_of ps idx))%Q) vs).
  { induction m as [|m IH]; intros tri Htri; cbn [repeat vrun]; [exists []; auto|]. destruct (volume_step n T ps c tri idx HC Htri HS) as (v & V1 & V2). rewrite V1. cbn [bind]. destruct (IH (T (S n) c) (or_intror eq_refl)) as (vs & W1 & W2 & W3). rewrite W1. cbn [bind]. exists (v :: vs). cbn [length]. auto. }
  exact (X [] (or_introl eq_refl)).
Qed.
