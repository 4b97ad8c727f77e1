(** The sort, the constructor and Calculate_Next_Highest_Term. *)
From Coq Require Import Permutation.
From Verif Require Import Common DigHeap DigHeapProofs Dig DigProofs.
Open Scope Z_scope.

(** ** Bubble sort *)
Lemma bubble_perm m : forall l, Permutation (bubble m l) l.
Proof.
  induction m as [|m IH]; intros l; [destruct l; apply Permutation_refl|]. destruct l as [|x [|y t]]; [apply Permutation_refl|apply Permutation_refl|]. cbn [bubble]. destruct (fst x <? fst y).
  - rewrite IH. apply perm_swap.
  - constructor. apply IH.
Qed.
Lemma bubbles_perm m : forall l, Permutation (bubbles m l) l.
Proof. induction m as [|m IH]; intros l; [apply Permutation_refl|]. cbn [bubbles]. rewrite IH. apply bubble_perm. Qed.
Fixpoint desc (l : list (Z * nat)) : Prop := match l with [] => True | x :: l' => Forall (fun y => fst y <= fst x) l' /\ desc l' end.
Lemma desc_app l1 l2 : desc (l1 ++ l2) <-> desc l1 /\ desc l2 /\ forall x y, In x l1 -> In y l2 -> fst y <= fst x.
Proof.
  induction l1 as [|a l1 IH]; cbn [app desc].
  - split; [intros H; split; [exact I|split; [exact H|intros x y []]]|tauto].
  - rewrite Forall_app, IH. split.
    + intros ((F1&F2)&D1&D2&H). split; [auto|]. split; [exact D2|]. intros x y [<-|Hx] Hy; [rewrite Forall_forall in F2; apply F2, Hy|apply H; assumption].
    + intros ((F1&D1)&D2&H). split; [split; [exact F1|apply Forall_forall; intros y Hy; apply H; [left; reflexivity|exact Hy]]|]. split; [exact D1|split; [exact D2|intros x y Hx Hy; apply H; [right; exact Hx|exact Hy]]].
Qed.
(** After m comparisons the value at index m is the smallest of the first m + 1. *)
Lemma bubble_app m : forall l1 l2, length l1 = S m -> exists l1' z, bubble m (l1 ++ l2) = l1' ++ z :: l2 /\ length l1' = m /\ Permutation (l1' ++ [z]) l1 /\ Forall (fun y => fst z <= fst y) l1'.
Proof.
  induction m as [|m IH]; intros l1 l2 L.
  - destruct l1 as [|x [|y l1]]; cbn [length] in L; try lia. exists [], x. split; [reflexivity|]. split; [reflexivity|]. split; [apply Permutation_refl|constructor].
  - destruct l1 as [|x [|y l1]]; cbn [length] in L; try lia. cbn [app bubble]. destruct (Z.ltb_spec (fst x) (fst y)).
    + destruct (IH (x :: l1) l2 ltac:(cbn; lia)) as (l'&z&E&L'&P&F). cbn [app] in E. exists (y :: l'), z. rewrite E. split; [reflexivity|]. split; [cbn; lia|]. split; [cbn [app]; rewrite P; apply perm_swap|]. constructor; [|exact F].
      assert (Ix : In x (l' ++ [z])) by (apply (Permutation_in _ (Permutation_sym P)); left; reflexivity). apply in_app_iff in Ix. destruct Ix as [Ix|[<-|[]]]; [rewrite Forall_forall in F; specialize (F x Ix); lia|lia].
    + destruct (IH (y :: l1) l2 ltac:(cbn; lia)) as (l'&z&E&L'&P&F). cbn [app] in E. exists (x :: l'), z. rewrite E. split; [reflexivity|]. split; [cbn; lia|]. split; [cbn [app]; rewrite P; apply Permutation_refl|]. constructor; [|exact F].
      assert (Iy : In y (l' ++ [z])) by (apply (Permutation_in _ (Permutation_sym P)); left; reflexivity). apply in_app_iff in Iy. destruct Iy as [Iy|[<-|[]]]; [rewrite Forall_forall in F; specialize (F y Iy); lia|lia].
Qed.
Lemma bubbles_sorts m : forall l1 l2, length l1 = S m -> desc l2 -> (forall x y, In x l1 -> In y l2 -> fst y <= fst x) -> desc (bubbles m (l1 ++ l2)).
Proof.
  induction m as [|m IH]; intros l1 l2 L D H.
  - cbn [bubbles]. apply desc_app. destruct l1 as [|x [|y l1]]; cbn [length] in L; try lia. split; [cbn; auto|split; [exact D|exact H]].
  - cbn [bubbles]. destruct (bubble_app (S m) l1 l2 L) as (l'&z&E&L'&P&F). rewrite E. apply IH; [exact L'| |].
    + cbn [desc]. split; [|exact D]. apply Forall_forall. intros y Hy. apply H; [|exact Hy]. apply (Permutation_in _ P). apply in_app_iff. right. left. reflexivity.
    + intros x y Hx [<-|Hy]; [rewrite Forall_forall in F; apply F, Hx|]. apply H; [|exact Hy]. apply (Permutation_in _ P). apply in_app_iff. left. exact Hx.
Qed.
Lemma sort_desc ss : desc (sort_values ss).
Proof.
  unfold sort_values. set (l := combine ss (seq 0 (length ss))). assert (L : length l = length ss) by (unfold l; rewrite combine_length, seq_length; lia). destruct (length ss) as [|m] eqn:E.
  - destruct l; [exact I|cbn in L; lia].
  - replace (S m - 1)%nat with m by lia. rewrite <- (app_nil_r l). apply bubbles_sorts; [exact L|exact I|intros x y _ []].
Qed.
Lemma sort_perm ss : Permutation (sort_values ss) (combine ss (seq 0 (length ss))).
Proof. apply bubbles_perm. Qed.
Lemma combine_fst {A B} (l : list A) : forall (m : list B), length l = length m -> map fst (combine l m) = l /\ map snd (combine l m) = m.
Proof. induction l as [|a l IH]; intros [|b m] L; cbn [length combine map fst snd] in *; try lia; [auto|]. destruct (IH m ltac:(lia)) as (A1&A2). rewrite A1, A2. auto. Qed.
Lemma desc_nth l : desc l -> forall i, (S i < length l)%nat -> nth (S i) (map fst l) 0 <= nth i (map fst l) 0.
Proof.
  induction l as [|x l IH]; intros FD i Hi; cbn [length] in Hi; [lia|]. destruct FD as (F&D). destruct i as [|i].
  - destruct l as [|y l]; [cbn in Hi; lia|]. cbn [map nth]. exact (Forall_inv F).
  - cbn [map]. change (nth (S i) (map fst l) 0 <= nth i (map fst l) 0). apply IH; [exact D|lia].
Qed.
Lemma sort_sd ss : ss <> [] -> Forall (fun s => s < 0) ss -> sd (length ss) (map fst (sort_values ss)).
Proof.
  intros Nn F. pose proof (sort_perm ss) as P. assert (Lc : length (combine ss (seq 0 (length ss))) = length ss) by (rewrite combine_length, seq_length; lia). pose proof (Permutation_length P) as L. rewrite Lc in L.
  pose proof (Permutation_map fst P) as Pf. rewrite (proj1 (combine_fst ss (seq 0 (length ss)) ltac:(rewrite seq_length; reflexivity))) in Pf. apply (Permutation_Forall (Permutation_sym Pf)) in F.
  split; [rewrite map_length; exact L|]. split; [destruct ss; [congruence|cbn; lia]|]. split.
  - intros i Hi. rewrite Forall_forall in F. apply F, nth_In. rewrite map_length, L. exact Hi.
  - intros i Hi. apply desc_nth; [apply sort_desc|lia].
Qed.

(** ** The constructor *)
Definition flip (cost r : list Z) : list Z := if 0 <? idot cost r then map Z.opp r else r.
Definition sign_of (cost r : list Z) : Z := if 0 <? idot cost r then 1 else -1.
Definition flips (cost : list Z) (rays : list (list Z)) : Z := fold_right (fun r s => (if 0 <? idot cost r then -1 else 1) * s) 1 rays.
Definition up_sum (cost : list Z) (rays : list (list Z)) : Z := fold_right (fun r s => (if 0 <? idot cost r then idot cost r else 0) + s) 0 rays.
Definition value_of (cost r : list Z) : Z := if 0 <? idot cost r then - idot cost r else idot cost r.
Ltac tup := repeat match goal with |- (_, _) = (_, _) => apply pair_equal_spec; split end; try reflexivity.
Lemma dots_spec cost rays : forall nu co, dots cost rays nu co = (nu - up_sum cost rays, flips cost rays * co, map (value_of cost) rays, map (sign_of cost) rays, existsb (fun r => idot cost r =? 0) rays).
Proof.
  induction rays as [|r rays IH]; intros nu co; cbn [dots up_sum flips fold_right map existsb]; [tup; lia|]. fold (up_sum cost rays) (flips cost rays). unfold value_of at 1, sign_of at 1. destruct (0 <? idot cost r); rewrite IH; tup; try reflexivity; lia.
Qed.
Definition numer_of (cost : list Z) (c : dcone) : Z := idot (dc_point c) cost - up_sum cost (dc_rays c).
Definition sorted_of (cost : list Z) (c : dcone) : list (Z * nat) := sort_values (map (value_of cost) (dc_rays c)).
Definition ss_of (cost : list Z) (c : dcone) : list Z := map fst (sorted_of cost c).
Definition sgn_of (cost : list Z) (c : dcone) : Z := flips cost (dc_rays c) * dc_coef c.
Definition generic (cost : list Z) (c : dcone) : Prop := dc_rays c <> [] /\ Forall (fun r => idot cost r <> 0) (dc_rays c).
Definition dim_of (c : dcone) : nat := length (dc_rays c).
Lemma generic_sd cost c : generic cost c -> sd (dim_of c) (ss_of cost c).
Proof.
  intros (N&F). unfold ss_of, sorted_of, dim_of. rewrite <- (map_length (value_of cost)). apply sort_sd; [destruct (dc_rays c); [congruence|discriminate]|]. apply Forall_map. revert F. apply Forall_impl. intros r H. unfold value_of. destruct (Z.ltb_spec 0 (idot cost r)); lia.
Qed.
Lemma flips_unit cost rays : flips cost rays = 1 \/ flips cost rays = -1.
Proof. induction rays as [|r rays IH]; [left; reflexivity|]. cbn [flips fold_right]. fold (flips cost rays). destruct (0 <? idot cost r); lia. Qed.

(** ** The state of a cone *)
Definition cstate (cost : list Z) (c : dcone) (e : Z) (ci : cinfo) : Prop :=
  ci_cone ci = c /\ ci_zero ci = false /\ ci_numer ci = numer_of cost c /\ ci_signs ci = map (sign_of cost) (dc_rays c) /\ ci_sorted ci = sorted_of cost c /\
  e <= 0 /\ ci_cur ci = numer_of cost c + e /\ level_ok (dim_of c) (ss_of cost c) e (ci_level ci) /\ ci_level ci <> [] /\ rest (dim_of c) (ss_of cost c) e (ci_heap ci) /\
  ci_coef ci = sgn_of cost c * Z.of_nat (length (ci_level ci)).
Lemma zero_repeat d v : length v = d -> zero v -> v = repeat 0 d.
Proof. intros L Z0. apply (vec_ext d); [exact L|apply repeat_length|]. intros i Hi. rewrite nth_repeat. apply (proj1 (fnz_none v) Z0). lia. Qed.
Lemma repeat_zero d : zero (repeat 0 d).
Proof. apply fnz_none. intros i _. apply nth_repeat. Qed.
Lemma new_info_flag cost c : dc_rays c <> [] -> exists ci, new_info cost c = Ok ci /\ ci_zero ci = existsb (fun r => idot cost r =? 0) (dc_rays c) /\ (generic cost c -> cstate cost c 0 ci).
Proof.
  intros Nn. unfold new_info. rewrite dots_spec. fold (numer_of cost c) (sgn_of cost c) (sorted_of cost c). assert (Ld : length (map (value_of cost) (dc_rays c)) = dim_of c) by apply map_length. rewrite Ld.
  assert (Lp : length (sorted_of cost c) = dim_of c) by (unfold sorted_of; rewrite (Permutation_length (sort_perm _)), combine_length, seq_length, Ld; lia).
  destruct (sorted_of cost c) as [|(s0, i0) srt] eqn:Es; [exfalso; unfold dim_of in Lp; destruct (dc_rays c); [congruence|discriminate Lp]|].
  unfold add_heap. cbn [h_count empty_heap bind]. eexists. split; [reflexivity|]. cbn [ci_zero]. split; [reflexivity|]. intros G. pose proof (generic_sd cost c G) as Sd. destruct G as (_&F).
  assert (D1 : (1 <= dim_of c)%nat) by apply Sd.
  split; [reflexivity|]. cbn [ci_zero ci_numer ci_signs ci_sorted ci_cur ci_level ci_heap ci_coef]. split.
  { apply not_true_is_false. intros E. apply existsb_exists in E. destruct E as (r&Ir&Er). rewrite Forall_forall in F. apply (F r Ir). apply Z.eqb_eq, Er. }
  split; [reflexivity|]. split; [reflexivity|]. split; [symmetry; exact Es|]. split; [lia|]. split; [lia|]. split; [|split; [discriminate|split; [|cbn [length]; lia]]].
  - split; [constructor; [intros []|constructor]|]. intros v. split.
    + intros [<-|[]]. split; [split; [apply repeat_length|intros i; rewrite nth_repeat; lia]|apply zero_idot, repeat_zero].
    + intros (W&E). left. symmetry. apply zero_repeat; [apply W|]. apply (sd_neg _ _ v Sd W), E.
  - assert (H0 : idot (ss_of cost c) (unit_vec (dim_of c) 0) = s0).
    { assert (E0 : unit_vec (dim_of c) 0 = add_at (repeat 0 (dim_of c)) 0 1).
      { apply (vec_ext (dim_of c)); [apply unit_len|rewrite add_at_len; apply repeat_length|]. intros i Hi. rewrite unit_nth by exact D1. rewrite add_at_nth by (rewrite repeat_length; exact D1). rewrite nth_repeat. destruct i; reflexivity. }
      rewrite E0, idot_add; [|rewrite repeat_length; symmetry; apply Sd|rewrite repeat_length; exact D1]. rewrite (zero_idot _ _ (repeat_zero _)). unfold ss_of. rewrite Es. cbn [map fst nth]. lia. }
    destruct Sd as (L1&_&Ng&So). assert (Sd : sd (dim_of c) (ss_of cost c)) by (split; auto).
    assert (S0 : s0 < 0) by (specialize (Ng 0%nat ltac:(lia)); unfold ss_of in Ng; rewrite Es in Ng; exact Ng).
    split; [|split].
    + split; [cbn [h_root ord values app]; split; [intros y []|auto]|]. cbn [h_root h_count]. intros q. destruct (Pos.eq_dec q 1) as [->|N]; [reflexivity|]. destruct (removelast_path q N) as (p&Ep&_). rewrite (proj2 (Pos.leb_gt q 1)) by lia. destruct (path q) as [|b l] eqn:Eq; [destruct (path p); discriminate Ep|]. cbn [has]. destruct b; reflexivity.
    + cbn. constructor; [|constructor]. cbn [fst snd]. split; [|exact S0]. split; [split; [apply unit_len|intros i; cbn [fst]; rewrite unit_nth by exact D1; destruct (Nat.eqb i 0); lia]|]. split; [|symmetry; exact H0]. intros Z0. cbn [fst] in Z0. pose proof (proj1 (fnz_none _) Z0 0%nat ltac:(rewrite unit_len; lia)) as Z1. rewrite unit_nth in Z1 by exact D1. discriminate Z1.
    + intros w W Nz Hw Hp. destruct (pred_ok _ _ w Sd W Nz) as (Wp&_). destruct (sd_neg _ _ _ Sd Wp) as (A1&A2&_). assert (Zp : zero (pred_vec w)) by (apply A2; lia). rewrite (pred_zero _ w D1 W Nz Zp). rewrite H0. left. reflexivity.
Qed.

(** ** The next term *)
Definition none_between (d : nat) (ss : list Z) (e' e : Z) : Prop := forall v, wv d v -> idot ss v < e -> idot ss v <= e'.
Lemma next_prep cost c e ci : generic cost c -> cstate cost c e ci ->
  exists v e' h1 l h2, pop_heap snd (ci_heap ci) = Ok (Some ((v, e'), h1)) /\ successors (ss_of cost c) e' v = Ok l /\ add_entries l h1 = Ok h2 /\
    e' < e /\ none_between (dim_of c) (ss_of cost c) e' e /\ inv (dim_of c) (ss_of cost c) e' [v] h2.
Proof.
  intros G (_&_&_&_&_&He&_&_&_&R&_). pose proof (generic_sd cost c G) as Sd. pose proof Sd as (L1&D1&Ng&_). pose proof R as (V&FH&C).
  set (d := dim_of c) in *. set (ss := ss_of cost c) in *.
  assert (Ex : exists w, wv d w /\ ~ zero w /\ idot ss w < e).
  { exists (add_at (repeat 0 d) 0 (1 - e)). assert (W : wv d (add_at (repeat 0 d) 0 (1 - e))) by (apply wv_add; [split; [apply repeat_length|intros i; rewrite nth_repeat; lia]|exact D1|rewrite nth_repeat; lia]). split; [exact W|].
    assert (Ei : idot ss (add_at (repeat 0 d) 0 (1 - e)) = (1 - e) * nth 0 ss 0) by (rewrite idot_add by (rewrite repeat_length; lia); rewrite (zero_idot _ _ (repeat_zero _)); ring). specialize (Ng 0%nat ltac:(lia)). split; [|rewrite Ei; nia].
    intros Z0. rewrite (zero_idot _ _ Z0) in Ei. nia. }
  destruct Ex as (w0&W0&Nz0&Hw0). destruct (rest_covers d ss e (ci_heap ci) Sd He R w0 W0 Nz0 Hw0) as (a0&Ia0&_).
  destruct (pop_ok snd (ci_heap ci) V) as [(En&_)|(x&h1&Ep&V1&Pm&Mx&_)]; [rewrite En in Ia0; destruct Ia0|]. destruct x as [v e'].
  assert (Ix : In (v, e') (hv (ci_heap ci))) by (apply (Permutation_in _ (Permutation_sym Pm)); left; reflexivity). rewrite Forall_forall in FH. destruct (FH _ Ix) as ((Wv&Nzv&Ev)&Le). cbn [fst snd] in Wv, Nzv, Ev, Le.
  assert (NB : none_between d ss e' e).
  { intros w W Hw. assert (Nz : ~ zero w) by (intros Z0; rewrite (zero_idot _ _ Z0) in Hw; lia). destruct (rest_covers d ss e (ci_heap ci) Sd He R w W Nz Hw) as (a&Ia&Ha). specialize (Mx a Ia). cbn [snd] in Mx. lia. }
  assert (He' : e' < 0) by lia.
  assert (Iv : inv d ss e' [] (ci_heap ci)).
  { split; [exact V|]. split; [constructor|]. split; [constructor|]. split; [apply Forall_forall; intros a Ia; split; [apply FH, Ia|exact (Mx a Ia)]|]. intros w W Nz Hu Hp. destruct Hp as [Hp|[]]. apply C; [exact W|exact Nz|destruct Hu as [Hu|(Hu&_)]; lia|].
    destruct (Z_lt_le_dec (idot ss (pred_vec w)) e) as [Lt|Ge]; [|exact Ge]. specialize (NB (pred_vec w) (proj1 (pred_ok d ss w Sd W Nz)) Lt). lia. }
  destruct (inv_push d ss e' [] (ci_heap ci) v Sd He' Iv Wv Nzv (eq_sym Ev) (fun H => H) h1 V1 Pm) as (l&h2&El&Ea&Iv2&_). exists v, e', h1, l, h2. auto 8.
Qed.
Lemma next_ok cost c e ci fuel ci' : generic cost c -> (sgn_of cost c = 1 \/ sgn_of cost c = -1) -> cstate cost c e ci -> next_term fuel ci = Ok ci' ->
  exists e', e' < e /\ none_between (dim_of c) (ss_of cost c) e' e /\ cstate cost c e' ci'.
Proof.
  intros G Hs St E. destruct (next_prep cost c e ci G St) as (v&e'&h1&l&h2&Ep&El&Ea&Lt&NB&Iv). pose proof St as (S1&S2&S3&S4&S5&He&S7&_&Nl&_&Sc). unfold next_term in E. rewrite S2 in E. rewrite Ep in E. cbn [bind] in E. rewrite S5 in E. fold (ss_of cost c) in E. rewrite El in E. cbn [bind] in E. rewrite Ea in E. cbn [bind] in E.
  destruct (level_loop fuel (ss_of cost c) e' [v] (if ci_coef ci <? 0 then -1 else 1) h2) as [((P&co)&h3)|] eqn:Ll; [|discriminate E]. cbn [bind] in E. injection E as <-. exists e'. split; [exact Lt|]. split; [exact NB|].
  assert (Es : (if ci_coef ci <? 0 then -1 else 1) = sgn_of cost c) by (rewrite Sc; destruct (ci_level ci); [congruence|]; cbn [length]; destruct Hs as [-> | ->]; destruct (Z.ltb_spec (1 * Z.of_nat (S (length l1))) 0); destruct (Z.ltb_spec (-1 * Z.of_nat (S (length l1))) 0); lia || idtac).
  rewrite Es in Ll. destruct (level_loop_ok (dim_of c) (ss_of cost c) e' (sgn_of cost c) (generic_sd cost c G) ltac:(lia) Hs fuel [v] (sgn_of cost c) h2 P co h3 Iv ltac:(discriminate) ltac:(cbn [length]; lia) Ll) as (LO&RS&Ec).
  split; [exact S1|]. cbn [ci_zero ci_numer ci_signs ci_sorted ci_cur ci_level ci_heap ci_coef]. split; [reflexivity|]. split; [exact S3|]. split; [exact S4|]. split; [first [exact S5|reflexivity]|]. split; [lia|]. split; [rewrite S3; reflexivity|]. split; [exact LO|]. split; [|split; [exact RS|exact Ec]].
  destruct Iv as (_&_&FP&_). destruct (Forall_inv FP) as (W&E0). destruct LO as (_&LO). pose proof (proj2 (LO v) (conj W E0)) as I0. intros ->. destruct I0.
Qed.
Lemma next_total cost c e ci : generic cost c -> (sgn_of cost c = 1 \/ sgn_of cost c = -1) -> cstate cost c e ci -> exists f0 ci', forall f, (f0 <= f)%nat -> next_term f ci = Ok ci'.
Proof.
  intros G Hs St. destruct (next_prep cost c e ci G St) as (v&e'&h1&l&h2&Ep&El&Ea&Lt&NB&Iv). pose proof St as (S1&S2&S3&S4&S5&He&_).
  set (f0 := S (3 * (length (vecs (dim_of c) (Z.to_nat (- e'))) - length [v]) + length (hv h2))). destruct (level_loop_total (dim_of c) (ss_of cost c) e' (generic_sd cost c G) ltac:(lia) f0 [v] (if ci_coef ci <? 0 then -1 else 1) h2 Iv ltac:(lia)) as (((P&co)&h3)&Ll).
  exists f0. eexists. intros f Hf. unfold next_term. rewrite S2, Ep. cbn [bind]. rewrite S5. fold (ss_of cost c). rewrite El. cbn [bind]. rewrite Ea. cbn [bind]. rewrite (level_loop_mono _ _ _ _ _ _ _ _ Hf Ll). cbn [bind]. reflexivity.
Qed.
