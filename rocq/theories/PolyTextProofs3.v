(** Parsing sums of powers of linear forms and sums of products. *)
From Coq Require Import QArith Permutation Factorial.
From Verif Require Import Common Rational RationalSpec RationalProofs Trie TrieSpec TrieProofs TrieProofs2 IntegMath DecompProofs3 Text TextProofs PolyText PolyTextSpec PolyTextProofs PolyTextProofs2.
Open Scope Z_scope.

Definition good_form (n : nat) (t : bterm rat) : Prop :=
  lowest_terms (t_coef t) /\ length (t_exps t) = n /\ int_range (t_deg t) = true.
Definition scaled (t : bterm rat) : rat * Z * list Z :=
  (rat_mul_fun (t_coef t) (mkRat (int_factorial (Z.to_nat (t_deg t))) 1), t_deg t, t_exps t).

Lemma pf_skip f ch s flag c d arr m : is_char ob ch = false -> s <> [] ->
  parse_forms (S f) (ch :: s) flag c d arr m = parse_forms f s flag c d arr m.
Proof. intros H N. cbn [parse_forms]. destruct s; [congruence|]. rewrite H. reflexivity. Qed.
Lemma pf_coef f w s c d arr m : Forall (fun c => plain c = true) w ->
  parse_forms (S f) (ob :: w ++ comma :: s) 0 c d arr m =
  bind (rat_of_text w) (fun c' => parse_forms f s 1 c' d arr m).
Proof.
  intros H. cbn [parse_forms]. rewrite (scan_plain w s H). cbn [bind tl].
  destruct (w ++ comma :: s)%list as [|h r] eqn:E; [|reflexivity].
  apply app_eq_nil in E. destruct E as (_&E). discriminate.
Qed.
Lemma pf_deg f z s c d arr m : int_range z = true ->
  parse_forms (S f) (ob :: show_Z z ++ comma :: s) 1 c d arr m = parse_forms f s 2 c z arr m.
Proof.
  intros H. cbn [parse_forms]. rewrite (scan_plain (show_Z z) s (show_Z_plain z)). cbn [bind tl]. rewrite (atoi_self z H). cbn [bind].
  destruct (show_Z z ++ comma :: s)%list as [|h r] eqn:E; [|reflexivity].
  apply app_eq_nil in E. destruct E as (_&E). discriminate.
Qed.
Lemma pf_vec f r x c d arr m : x <> [] -> length arr = length x ->
  parse_forms (S f) (ob :: sep_by (map show_Z x) ++ cb :: cb :: r) 2 c d arr m =
  bind (insert_form rat_add rat_zero m (rat_mul_fun c (mkRat (int_factorial (Z.to_nat d)) 1)) d x)
    (fun m' => parse_forms f r 0 (rat_mul_fun c (mkRat (int_factorial (Z.to_nat d)) 1)) d (map Some x) m').
Proof.
  intros N L. cbn [parse_forms].
  rewrite (read_vec_all to_ZZ r x arr N); [|apply Forall_forall; intros z _; apply to_ZZ_self|exact L].
  cbn [bind]. rewrite initialised_some. cbn [bind tl].
  destruct (sep_by (map show_Z x) ++ cb :: cb :: r)%list as [|h t] eqn:E; [|reflexivity].
  apply app_eq_nil in E. destruct E as (_&E). discriminate.
Qed.

Lemma parse_form_one n t f c d arr m tail : n <> O -> good_form n t -> length arr = n -> tail <> [] ->
  (length (show_form t) + length tail <= f)%nat ->
  exists f' c' d' arr', (length tail <= f')%nat /\ length arr' = n /\
  parse_forms f (show_form t ++ tail) 0 c d arr m =
  bind (insert_form rat_add rat_zero m (fst (fst (scaled t))) (snd (fst (scaled t))) (snd (scaled t))) (fun m' => parse_forms f' tail 0 c' d' arr' m').
Proof.
  intros N (G1&G2&G3) L NT F.
  assert (X : t_exps t <> []) by (intros E; rewrite E in G2; cbn in G2; congruence).
  unfold show_form, show_vec in *. cbn [app length] in *. repeat (rewrite app_length in F; cbn [length] in F).
  destruct f as [|[|[|[|[|[|f]]]]]]; try lia.
  do 3 eexists. exists (map Some (t_exps t)).
  split; [|split; [rewrite map_length; exact G2|]].
  2:{ repeat (rewrite <- app_assoc; cbn [app]). rewrite (pf_coef _ _ _ _ _ _ _ (show_rat_plain _)), (show_rat_reads _ G1). cbn [bind].
      rewrite pf_skip by (first [reflexivity|discriminate]). rewrite (pf_deg _ _ _ _ _ _ _ G3).
      rewrite pf_skip by (first [reflexivity|discriminate]).
      rewrite pf_vec; [|exact X|congruence]. cbn [scaled fst snd].
      destruct (insert_form _ _ _ _ _ _) as [m'|]; [|reflexivity]. cbn [bind].
      apply pf_skip; [reflexivity|exact NT]. }
  lia.
Qed.

Lemma parse_forms_rest n : n <> O -> forall l f c d arr m, Forall (good_form n) l -> l <> [] -> length arr = n ->
  (length (sep_by (map show_form l)) + 1 <= f)%nat ->
  parse_forms f (sep_by (map show_form l) ++ [cb]) 0 c d arr m =
  insert_all rat_add rat_zero (map scaled l) m.
Proof.
  intros N. induction l as [|t l IH]; intros f c d arr m H E L F; [congruence|].
  destruct l as [|t' l].
  - cbn [map sep_by] in *.
    destruct (parse_form_one n t f c d arr m [cb] N (Forall_inv H) L) as (f'&c'&d'&arr'&Hf&_&->); [discriminate|cbn [length]; lia|].
    destruct f' as [|f']; [cbn in Hf; lia|]. cbn [parse_forms]. unfold insert_all. cbn [fold_out]. reflexivity.
  - cbn [map] in F |- *. rewrite sep_cons in F |- * by discriminate. rewrite <- app_assoc. cbn [app].
    rewrite app_length in F. cbn [length] in F.
    destruct (parse_form_one n t f c d arr m (comma :: blank :: (sep_by (map show_form (t' :: l)) ++ [cb])) N (Forall_inv H) L) as (f'&c'&d'&arr'&Hf&La&E1).
    { discriminate. }
    { cbn [length]. rewrite app_length. cbn [length map]. cbn [map] in F. lia. }
    cbn [map] in E1. rewrite E1. cbn [length] in Hf. rewrite app_length in Hf. cbn [length] in Hf.
    destruct f' as [|[|f']]; [lia|lia|]. unfold insert_all at 1. cbn [fold_out].
    destruct (insert_form rat_add rat_zero m _ _ _) as [m'|e]; [|reflexivity].
    cbn [bind]. rewrite pf_skip by (first [reflexivity|discriminate]).
    rewrite pf_skip; [|reflexivity|intros Es; apply app_eq_nil in Es; destruct Es as (_&Es); discriminate].
    apply (IH f' c' d' arr' m' (Forall_inv_tail H)); [discriminate|exact La|].
    cbn [map] in *. lia.
Qed.

Lemma count_forms n l : n <> O -> Forall (good_form n) l -> l <> [] ->
  count_commas (ob :: sep_by (map show_form l) ++ [cb]) = Ok (Z.of_nat n + 1).
Proof.
  intros N H E. destruct l as [|t l]; [congruence|]. destruct (Forall_inv H) as (_&G&_).
  assert (X : t_exps t <> []) by (intros E'; rewrite E' in G; cbn in G; congruence).
  assert (exists r, (sep_by (map show_form (t :: l)) ++ [cb] = show_form t ++ r)%list) as (r&Er).
  { destruct l as [|t' l]; [cbn [map sep_by]; eauto|].
    change (map show_form (t :: t' :: l)) with (show_form t :: map show_form (t' :: l)).
    rewrite sep_cons by discriminate. rewrite <- app_assoc. eauto. }
  rewrite count_skip by reflexivity. rewrite Er. unfold show_form, show_vec. cbn [app].
  rewrite count_skip by reflexivity. repeat (rewrite <- app_assoc; cbn [app]). rewrite count_plain by apply show_rat_plain.
  assert (C : count_commas (blank :: ob :: sep_by (map show_Z (t_exps t)) ++ cb :: cb :: cb :: r) = Ok (Z.of_nat n - 1)).
  { rewrite count_skip, count_skip by reflexivity. rewrite count_vec by exact X. rewrite G. reflexivity. }
  apply count_comma in C.
  assert (C2 : count_commas (blank :: ob :: show_Z (t_deg t) ++ comma :: blank :: ob :: sep_by (map show_Z (t_exps t)) ++ cb :: cb :: cb :: r) = Ok (Z.of_nat n - 1 + 1)).
  { rewrite count_skip, count_skip by reflexivity. rewrite count_plain by apply show_Z_plain. exact C. }
  rewrite (count_comma _ _ C2). f_equal. lia.
Qed.
Lemma load_forms_text n l old : n <> O -> Forall (good_form n) l -> l <> [] ->
  load_forms old (ob :: sep_by (map show_form l) ++ [cb]) =
  insert_all rat_add rat_zero (map scaled l) (mkSum 0 n (ms_trie old)).
Proof.
  intros N H E. unfold load_forms. rewrite (count_forms n l N H E). cbn [bind]. cbv zeta.
  replace (Z.of_nat n + 1 - 1) with (Z.of_nat n) by lia.
  rewrite (proj2 (Z.ltb_ge (Z.of_nat n) 1)) by lia. rewrite Nat2Z.id. cbn [tl].
  apply (parse_forms_rest n N l _ _ _ _ _ H E); [unfold zeros; apply repeat_length|cbn [length]; rewrite app_length; cbn [length]; lia].
Qed.

Lemma int_factorial_fact k : int_factorial k = Z.of_nat (fact k).
Proof. induction k as [|k IH]; [reflexivity|]. cbn [int_factorial fact]. rewrite IH. nia. Qed.
Lemma factorial_lowest k : lowest_terms (mkRat (int_factorial k) 1).
Proof. split; [cbn; lia|apply Z.gcd_1_r]. Qed.
Lemma value_int z : (value (mkRat z 1) == inject_Z z)%Q.
Proof. unfold value. cbn. reflexivity. Qed.
Lemma fact_nz k : ~ (inject_Z (Z.of_nat (fact k)) == 0)%Q.
Proof. pose proof (lt_O_fact k). intros E. unfold Qeq, inject_Z in E. cbn in E. lia. Qed.
Lemma scaled_ok t : lowest_terms (t_coef t) ->
  lowest_terms (fst (fst (scaled t))) /\ (value (fst (fst (scaled t))) == value (t_coef t) * inject_Z (Z.of_nat (fact (Z.to_nat (t_deg t)))))%Q.
Proof.
  intros H. destruct (rat_mul_ok _ _ H (factorial_lowest (Z.to_nat (t_deg t)))) as (A&B). split; [exact A|].
  cbn [scaled fst]. rewrite B, value_int, int_factorial_fact. reflexivity.
Qed.
Lemma scaled_zero t : lowest_terms (t_coef t) -> rat_zero (t_coef t) = false -> rat_zero (fst (fst (scaled t))) = false.
Proof.
  intros L Z0. destruct (scaled_ok t L) as (A&B). destruct (rat_zero (fst (fst (scaled t)))) eqn:E; [|reflexivity].
  apply (rat_zero_ok _ A) in E. rewrite B in E. apply Qmult_integral in E. destruct E as [E|E]; [|destruct (fact_nz _ E)].
  apply (rat_zero_ok _ L) in E. congruence.
Qed.

Lemma coefficient_scaled l d x : Forall (fun t => lowest_terms (t_coef t)) l ->
  (coefficient (map scaled l) d x == inject_Z (Z.of_nat (fact (Z.to_nat d))) * coefficient (map triple l) d x)%Q.
Proof.
  intros H. induction H as [|t l Ht _ IH]; cbn [map coefficient]; [ring|].
  rewrite IH. destruct (scaled_ok t Ht) as (_&B).
  change (snd (fst (scaled t))) with (t_deg t). change (snd (scaled t)) with (t_exps t).
  cbn [triple fst snd]. destruct ((t_deg t =? d) && same_exps (t_exps t) x) eqn:E; [|ring].
  apply andb_true_iff in E. destruct E as (E&_). apply Z.eqb_eq in E. rewrite B, E. ring.
Qed.

(** A sum given as a text: the object read stands for it. *)
Theorem load_forms_exact n l old : n <> O -> Forall (good_form n) l -> (exists t, In t l /\ ~ (value (t_coef t) == 0)%Q) ->
  exists m out, load_forms old (ob :: sep_by (map show_form l) ++ [cb]) = Ok m /\ sum_terms rat_zero m = Ok out /\
    (forall d x, (coefficient (map triple out) d x == inject_Z (Z.of_nat (fact (Z.to_nat d))) * coefficient (map triple l) d x)%Q) /\
    reduced out.
Proof.
  intros N H (t0&I0&V0).
  assert (NE : l <> []) by (intros ->; destruct I0).
  assert (LL : Forall (fun t => lowest_terms (t_coef t)) l) by (eapply Forall_impl; [|exact H]; intros t (A&_); exact A).
  pose proof (proj1 (Forall_forall _ _) LL t0 I0) as L0.
  assert (Z0 : rat_zero (fst (fst (scaled t0))) = false).
  { apply scaled_zero; [exact L0|]. destruct (rat_zero (t_coef t0)) eqn:Z0; [|reflexivity].
    exfalso. apply V0. apply rat_zero_ok; assumption. }
  rewrite (load_forms_text n l old N H NE), insert_fresh by (exists (scaled t0); split; [apply in_map, I0|exact Z0]).
  destruct (trie_exact n (map scaled l) N) as (m&out&E1&E2&ND&NZ&C&_).
  - apply Forall_map. eapply Forall_impl; [|exact H]. intros t (A&B&_). split; [apply (scaled_ok t A)|exact B].
  - exists (scaled t0). split; [apply in_map, I0|]. destruct (scaled_ok t0 L0) as (A&_). intros E. apply (rat_zero_ok _ A) in E. congruence.
  - exists m, out. split; [exact E1|]. split; [exact E2|]. split; [|split; assumption].
    intros d x. rewrite C. apply coefficient_scaled, LL.
Qed.

Lemma stored_sum_wsum p l : (stored_sum_at p l == wsum (fun d x => / inject_Z (Z.of_nat (fact (Z.to_nat d))) * form_at x p ^ d) (map triple l))%Q.
Proof.
  unfold stored_sum_at, wsum. induction l as [|t l IH]; [reflexivity|]. cbn [map fold_right qsum triple fst snd].
  rewrite IH. unfold term_at, Qdiv. ring.
Qed.
Definition sum_at (p : list Q) (l : list (bterm rat)) : Q := fold_right (fun t q => (value (t_coef t) * form_at (t_exps t) p ^ t_deg t + q)%Q) 0%Q l.
Theorem load_forms_value n l old p : n <> O -> Forall (good_form n) l -> (exists t, In t l /\ ~ (value (t_coef t) == 0)%Q) ->
  exists m out, load_forms old (ob :: sep_by (map show_form l) ++ [cb]) = Ok m /\ sum_terms rat_zero m = Ok out /\
    (stored_sum_at p out == sum_at p l)%Q.
Proof.
  intros N H E. destruct (load_forms_exact n l old N H E) as (m&out&E1&E2&C&_). exists m, out. split; [exact E1|]. split; [exact E2|].
  assert (LL : Forall (fun t => lowest_terms (t_coef t)) l) by (eapply Forall_impl; [|exact H]; intros t (A&_); exact A).
  rewrite stored_sum_wsum, (wsum_eq _ _ (map triple out) (map scaled l) (le_n _)); [|intros d x; rewrite C, coefficient_scaled by exact LL; reflexivity].
  clear - LL. unfold wsum, sum_at. induction LL as [|t l Ht _ IH]; [reflexivity|]. cbn [map qsum fold_right].
  rewrite IH. destruct (scaled_ok t Ht) as (_&B). rewrite B. cbn [scaled fst snd].
  assert (NZ := fact_nz (Z.to_nat (t_deg t))). field. exact NZ.
Qed.
