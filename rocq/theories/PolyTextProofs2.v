(** Every object is in lowest terms whatever the history; stored sums are determined by
    their coefficients; print and parse of polynomials. *)
From Coq Require Import QArith Permutation Sorting.Sorted.
From Verif Require Import Common Rational RationalSpec RationalProofs Trie TrieSpec TrieProofs TrieProofs2 Text TextProofs PolyText PolyTextProofs.
Open Scope Z_scope.

Lemma canonicalize_lowest r : lowest_terms (canonicalize r).
Proof.
  destruct r as [n d]. destruct (Z.eq_dec d 0) as [->|D].
  - unfold canonicalize, lowest_terms. cbn [num den]. cbn [Z.ltb Z.eqb Z.compare]. cbn [num den]. split; [lia|apply Z.gcd_1_r].
  - apply (canonicalize_correct n d D).
Qed.
Definition all_lowest (s : store) : Prop := forall i, lowest_terms (s i).
Lemma set_lowest s i r : (forall j, j <> i -> lowest_terms (s j)) -> lowest_terms r -> all_lowest (set s i r).
Proof. intros H R j. unfold set. destruct (Nat.eqb_spec j i); [exact R|auto]. Qed.
Lemma step_lowest s o s' : all_lowest s -> step s o = Ok s' -> all_lowest s'.
Proof.
  intros H E.
  assert (T : forall t i r, (forall j, j <> i -> lowest_terms (t j)) -> all_lowest (set t i (canonicalize r)))
    by (intros; apply set_lowest; [auto|apply canonicalize_lowest]).
  assert (K : forall i r r' r'', all_lowest (set (set (set s i r) i r') i (canonicalize r''))).
  { intros. apply T. intros j N. unfold set. rewrite (proj2 (Nat.eqb_neq j i) N). apply H. }
  destruct o; cbn [step] in E.
  - inversion E; subst. apply T. auto.
  - inversion E; subst. apply set_lowest; [auto|]. split; [cbn; lia|apply Z.gcd_1_r].
  - inversion E; subst. destruct (Nat.eqb i j); [exact H|apply T; auto].
  - unfold add_ref, assert_then in E. destruct (negb _); [|discriminate]. inversion E; subst. apply K.
  - unfold sub_ref, assert_then in E. destruct (negb _); [|discriminate]. inversion E; subst. apply K.
  - inversion E; subst. unfold mul_ref. apply K.
  - inversion E; subst. unfold div_ref. apply K.
  - destruct (on_copy _ _ _); [|discriminate]. cbn [bind] in E. inversion E; subst. apply T. auto.
  - destruct (on_copy _ _ _); [|discriminate]. cbn [bind] in E. inversion E; subst. apply T. auto.
  - destruct (on_copy _ _ _); [|discriminate]. cbn [bind] in E. inversion E; subst. apply T. auto.
  - destruct (on_copy _ _ _); [|discriminate]. cbn [bind] in E. inversion E; subst. apply T. auto.
  - inversion E; subst. apply T. auto.
  - inversion E; subst. apply T. auto.
  - inversion E; subst. apply set_lowest; [auto|]. destruct (H i) as (D&G). split; [exact D|].
    cbn [num den]. replace (num (s i) * -1) with (- num (s i)) by lia. rewrite Z.gcd_opp_l. exact G.
  - unfold power, assert_then in E. destruct (0 <? e); [inversion E; subst; apply T; auto|].
    destruct (e <? 0); [|inversion E; subst; apply T; auto].
    destruct (negb _); [|discriminate]. inversion E; subst. apply T; auto.
Qed.
Lemma run_lowest : forall p s s', all_lowest s -> run s p = Ok s' -> all_lowest s'.
Proof.
  induction p as [|o p IH]; intros s s' H E; cbn [run] in E; [inversion E; subst; exact H|].
  destruct (step s o) as [s1|] eqn:E1; [|discriminate]. cbn [bind] in E. eapply IH; [|exact E]. eapply step_lowest; eauto.
Qed.
Lemma init_lowest : all_lowest init.
Proof. intros i. split; [cbn; lia|reflexivity]. Qed.

(** ** Coefficients determine the list of terms *)
Definition reduced (out : list (bterm rat)) : Prop :=
  NoDup (keys out) /\ Forall (fun t => lowest_terms (t_coef t) /\ ~ (value (t_coef t) == 0)%Q) out.
Lemma in_keys (out : list (bterm rat)) d x : In (d, x) (keys out) -> exists c, In (mkTerm c x d) out.
Proof.
  unfold keys. intros H. apply in_map_iff in H. destruct H as (t&E&Ht). destruct t as [c x' d']. cbn in E.
  inversion E; subst. eauto.
Qed.
Lemma key_dec (out : list (bterm rat)) d x : {In (d, x) (keys out)} + {~ In (d, x) (keys out)}.
Proof. apply in_dec. decide equality; [apply (list_eq_dec Z.eq_dec)|apply Z.eq_dec]. Qed.
Lemma reduced_incl out1 out2 : reduced out1 -> reduced out2 ->
  (forall d x, (coefficient (map triple out1) d x == coefficient (map triple out2) d x)%Q) -> incl out1 out2.
Proof.
  intros (N1&F1) (N2&F2) E [c x d] Ht.
  destruct (proj1 (Forall_forall _ _) F1 _ Ht) as (L1&Z1). cbn [t_coef] in L1, Z1.
  pose proof (coefficient_nodup out1 d x c N1 Ht) as C1.
  destruct (key_dec out2 d x) as [K|K].
  - destruct (in_keys out2 d x K) as (c'&H'). pose proof (coefficient_nodup out2 d x c' N2 H') as C2.
    destruct (proj1 (Forall_forall _ _) F2 _ H') as (L2&_). cbn [t_coef] in L2.
    rewrite (lowest_terms_unique c c' L1 L2); [exact H'|]. rewrite <- C1, <- C2. apply E.
  - exfalso. apply Z1. rewrite <- C1, E. apply coefficient_absent, K.
Qed.
Lemma reduced_nodup out : reduced out -> NoDup out.
Proof. intros (N&_). unfold keys in N. eapply NoDup_map_inv, N. Qed.
Lemma reduced_permutation out1 out2 : reduced out1 -> reduced out2 ->
  (forall d x, (coefficient (map triple out1) d x == coefficient (map triple out2) d x)%Q) -> Permutation out1 out2.
Proof.
  intros R1 R2 E. apply NoDup_Permutation; [apply reduced_nodup, R1|apply reduced_nodup, R2|].
  intros t. split; [apply (reduced_incl out1 out2 R1 R2 E)|].
  apply (reduced_incl out2 out1 R2 R1). intros d x. symmetry. apply E.
Qed.

Lemma lex_irrefl x : ~ lex_lt x x.
Proof. induction x as [|z x IH]; cbn; [auto|]. intros [H|(_&H)]; [lia|auto]. Qed.
Lemma lex_asym x : forall y, lex_lt x y -> lex_lt y x -> False.
Proof.
  induction x as [|a x IH]; intros [|b y]; cbn; auto. intros [H|(H&H1)] [G|(G&G1)]; try lia. eauto.
Qed.
Lemma sorted_perm_eq {A} (R : A -> A -> Prop) : (forall a b, R a b -> R b a -> False) ->
  forall l1 l2, StronglySorted R l1 -> StronglySorted R l2 -> Permutation l1 l2 -> l1 = l2.
Proof.
  intros As. induction l1 as [|a l1 IH]; intros l2 S1 S2 P.
  - symmetry. apply Permutation_nil, P.
  - destruct l2 as [|b l2]; [apply Permutation_sym in P; apply Permutation_nil in P; discriminate|].
    inversion S1 as [|? ? S1a S1b]; subst. inversion S2 as [|? ? S2a S2b]; subst.
    assert (a = b).
    { pose proof (Permutation_in a P (or_introl eq_refl)) as Ia. pose proof (Permutation_in b (Permutation_sym P) (or_introl eq_refl)) as Ib.
      destruct Ia as [Ia|Ia]; [congruence|]. destruct Ib as [Ib|Ib]; [congruence|].
      exfalso. apply (As a b); [apply (proj1 (Forall_forall _ _) S1b b Ib)|apply (proj1 (Forall_forall _ _) S2b a Ia)]. }
    subst b. f_equal. apply IH; auto. eapply Permutation_cons_inv, P.
Qed.

(** Where a delivered term comes from. *)
Lemma coefficient_from l d x : ~ (coefficient l d x == 0)%Q -> exists p, In p l /\ snd (fst p) = d /\ snd p = x.
Proof.
  induction l as [|p l IH]; cbn [coefficient]; intros H; [exfalso; apply H; reflexivity|].
  destruct ((snd (fst p) =? d) && same_exps (snd p) x) eqn:E.
  - apply andb_true_iff in E. destruct E as (E1&E2). exists p. split; [left; reflexivity|].
    split; [apply Z.eqb_eq, E1|apply same_exps_spec, E2].
  - destruct IH as (q&Hq&K); [intros C; apply H; rewrite C; reflexivity|]. exists q. split; [right|]; auto.
Qed.
Lemma delivered_from l out : reduced out -> (forall d x, (coefficient (map triple out) d x == coefficient l d x)%Q) ->
  Forall (fun t => exists p, In p l /\ snd (fst p) = t_deg t /\ snd p = t_exps t) out.
Proof.
  intros (N&F) E. apply Forall_forall. intros [c x d] Ht. apply coefficient_from. cbn [t_deg t_exps]. rewrite <- E.
  rewrite (coefficient_nodup out d x c N Ht). apply (proj1 (Forall_forall _ _) F _ Ht).
Qed.
Lemma as_input_deg l : Forall (fun p => snd (fst p) = -1) (as_input l).
Proof. unfold as_input. apply Forall_forall. intros p H. apply in_map_iff in H. destruct H as (q&<-&_). reflexivity. Qed.

(** C12: print, then load into any object. *)
Theorem print_load n l : n <> O ->
  Forall (fun p => lowest_terms (fst p) /\ length (snd p) = n /\ Forall (fun z => int_range z = true) (snd p)) l ->
  (exists x, ~ (coef (input_poly l) x == 0)%Q) ->
  exists m s out, insert_all rat_add rat_zero (as_input l) (new_sum n) = Ok m /\ print_monomials m = Ok s /\
    sum_terms rat_zero m = Ok out /\ (forall x, (coef (terms_poly out) x == coef (input_poly l) x)%Q) /\
    forall old, exists m', load_monomials old s = Ok m' /\ ms_vars m' = n /\ sum_terms rat_zero m' = Ok out.
Proof.
  intros N H (x0&X0).
  assert (IC : forall x, (coefficient (as_input l) (-1) x == coef (input_poly l) x)%Q).
  { intros x. clear. induction l as [|p l IH]; [reflexivity|]. cbn [as_input input_poly map coefficient coef fst snd].
    unfold as_input, input_poly in IH. rewrite IH. reflexivity. }
  assert (HL : Forall (fun p => lowest_terms (fst (fst p)) /\ length (snd p) = n) (as_input l)).
  { unfold as_input. apply Forall_map. eapply Forall_impl; [|exact H]. cbn. tauto. }
  destruct (coefficient_from (as_input l) (-1) x0) as (p0&P0&_); [rewrite IC; exact X0|].
  destruct (trie_exact n (as_input l) N HL) as (m&out&E1&E2&ND&NZ&C&So).
  { 
    destruct (in_dec Bool.bool_dec true (map (fun p => negb (rat_zero (fst (fst p)))) (as_input l))) as [I|I].
    - apply in_map_iff in I. destruct I as (p&Ep&Ip). exists p. split; [exact Ip|].
      apply negb_true_iff in Ep. intros V. apply (rat_zero_ok (fst (fst p))) in V; [congruence|].
      apply (proj1 (Forall_forall _ _) HL p Ip).
    - exfalso. apply X0. rewrite <- IC. clear - HL I. revert I. induction HL as [|p l' Hp _ IH]; intros I; [reflexivity|].
      cbn [coefficient]. rewrite IH by (intros J; apply I; right; exact J).
      destruct (rat_zero (fst (fst p))) eqn:Zp; [|exfalso; apply I; left; rewrite Zp; reflexivity].
      apply rat_zero_ok in Zp; [|apply Hp]. destruct (_ && _); rewrite ?Zp; reflexivity. }
  assert (R : reduced out) by (split; assumption).
  pose proof (delivered_from _ _ R C) as Fr.
  assert (G : Forall (good_term n) out).
  { apply Forall_forall. intros t Ht. destruct (proj1 (Forall_forall _ _) Fr t Ht) as (p&Ip&D&X).
    split; [apply (proj1 (Forall_forall _ _) NZ t Ht)|]. unfold as_input in Ip. apply in_map_iff in Ip. destruct Ip as (q&<-&Iq).
    cbn [fst snd] in D, X. rewrite <- X. destruct (proj1 (Forall_forall _ _) H q Iq) as (_&A&B). auto. }
  assert (Dg : Forall (fun t => t_deg t = -1) out) by (eapply Forall_impl; [|exact G]; intros t (_&_&_&D); exact D).
  assert (Cx : forall x, (coef (terms_poly out) x == coef (input_poly l) x)%Q).
  { intros x. rewrite (terms_poly_coef out x Dg), C. apply IC. }
  assert (NE : out <> []) by (intros ->; apply X0; rewrite <- (Cx x0); reflexivity).
  exists m, (ob :: sep_by (map show_monomial out) ++ [cb])%list, out.
  split; [exact E1|]. split. { unfold print_monomials. rewrite E2. cbn [bind]. destruct out; [congruence|reflexivity]. }
  split; [exact E2|]. split; [exact Cx|]. intros old.
  rewrite (load_printed n out old N G NE).
  2:{ eapply Forall_impl; [|exact NZ]. intros t (L&V). destruct (rat_zero (t_coef t)) eqn:Z0; [|reflexivity].
      exfalso. apply V. apply rat_zero_ok; assumption. }
  destruct (trie_exact n (map triple out) N) as (m'&out'&E1'&E2'&ND'&NZ'&C'&So').
  - apply Forall_map. eapply Forall_impl; [|exact G]. intros t (A&B&_). split; [exact A|exact B].
  - destruct out as [|t out]; [congruence|]. exists (triple t). split; [left; reflexivity|]. apply (Forall_inv NZ).
  - exists m'. split; [exact E1'|].
    assert (out' = out).
    { apply (sorted_perm_eq (fun a b => lex_lt (t_exps a) (t_exps b))).
      - intros a b A B. eapply lex_asym; eauto.
      - apply So'. exists (-1). apply Forall_map. eapply Forall_impl; [|exact Dg]. intros t D. exact D.
      - apply So. exists (-1). apply as_input_deg.
      - apply reduced_permutation; [split; assumption|exact R|exact C']. }
    subst out'. split; [|exact E2'].
    clear - E1'. unfold insert_all in E1'. assert (V : forall l m0 m1, fold_out (fun m (x : rat * Z * list Z) => insert_form rat_add rat_zero m (fst (fst x)) (snd (fst x)) (snd x)) l m0 = Ok m1 -> ms_vars m1 = ms_vars m0).
    { induction l as [|p l IH]; intros m0 m1 E; cbn [fold_out] in E; [inversion E; reflexivity|].
      destruct (insert_form rat_add rat_zero m0 (fst (fst p)) (snd (fst p)) (snd p)) as [m2|] eqn:E2; [|discriminate]. cbn [bind] in E.
      rewrite (IH _ _ E). unfold insert_form in E2. destruct (rat_zero _); [inversion E2; reflexivity|].
      destruct (if (ms_terms m0 =? 0)%nat then _ else _); [|discriminate]. destruct (insert_term _ _ _ _ _); [|discriminate].
      cbn [bind] in E2. inversion E2; reflexivity. }
    rewrite (V _ _ _ E1'). reflexivity.
Qed.
