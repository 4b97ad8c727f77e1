(** Parsing sums of products of powers of linear forms. *)
From Coq Require Import QArith Permutation Factorial.
From Verif Require Import Common Rational RationalSpec RationalProofs Trie TrieSpec TrieProofs TrieProofs2 IntegMath DecompProofs3 Text TextProofs PolyText PolyTextSpec PolyTextProofs PolyTextProofs2 PolyTextProofs3.
Open Scope Z_scope.

Definition fscaled (c : rat) (f : factor) : rat * Z * list Z :=
  (rat_mul_fun c (mkRat (int_factorial (Z.to_nat (fst f))) 1), fst f, snd f).
Definition one : rat := mkRat 1 1.
Fixpoint fterms (c : rat) (fs : list factor) : list (rat * Z * list Z) :=
  match fs with [] => [] | f :: fs' => fscaled c f :: fterms one fs' end.
Definition good_factor (n : nat) (f : factor) : Prop := length (snd f) = n /\ 0 <= fst f <= 2147483647.

Lemma pp_skip k ch s flag c d v arr ps : is_char ob ch = false -> s <> [] ->
  parse_products (S k) (ch :: s) flag c d v arr ps = parse_products k s flag c d v arr ps.
Proof. intros H N. cbn [parse_products]. destruct s; [congruence|]. rewrite H. reflexivity. Qed.
Lemma pp_coef k w s c d v arr ps : Forall (fun c => plain c = true) w ->
  parse_products (S k) (ob :: w ++ comma :: s) 0 c d v arr ps =
  bind (rat_of_text w) (fun c' => parse_products k s 1 c' d v arr ps).
Proof.
  intros H. cbn [parse_products]. rewrite (scan_plain w s H). cbn [bind tl].
  destruct (w ++ comma :: s)%list as [|h r] eqn:E; [|reflexivity].
  apply app_eq_nil in E. destruct E as (_&E). discriminate.
Qed.
Lemma pp_start k s c d v arr ps : s <> [] ->
  parse_products (S k) (ob :: s) 1 c d v arr ps = parse_products k s 2 c d v arr (ps ++ [new_sum v]).
Proof. intros N. cbn [parse_products]. destruct s; [congruence|reflexivity]. Qed.
Lemma pp_deg k z s c d v arr ps : int_range z = true ->
  parse_products (S k) (ob :: show_Z z ++ comma :: s) 2 c d v arr ps = parse_products k s 3 c z v arr ps.
Proof.
  intros H. cbn [parse_products]. rewrite (scan_plain (show_Z z) s (show_Z_plain z)). cbn [bind tl]. rewrite (atoi_self z H). cbn [bind].
  destruct (show_Z z ++ comma :: s)%list as [|h r] eqn:E; [|reflexivity].
  apply app_eq_nil in E. destruct E as (_&E). discriminate.
Qed.
Lemma pp_vec k e r x c d v arr ps m : x <> [] -> length arr = length x -> is_char comma e || is_char cb e = true ->
  parse_products (S k) (ob :: sep_by (map show_Z x) ++ cb :: cb :: e :: r) 3 c d v arr (ps ++ [m]) =
  bind (insert_form rat_add rat_zero m (fst (fst (fscaled c (d, x)))) d x)
    (fun m' => parse_products k r (if is_char comma e then 2 else 0)%nat one d v (map Some x) (ps ++ [m'])).
Proof.
  intros N L He. cbn [parse_products].
  rewrite (read_vec_all to_ZZ (e :: r) x arr N); [|apply Forall_forall; intros z _; apply to_ZZ_self|exact L].
  cbn [bind]. rewrite initialised_some. cbn [bind].
  unfold consume_form. rewrite app_length. cbn [length]. replace (length ps + 1 - 1)%nat with (length ps) by lia.
  rewrite nth_error_app2, Nat.sub_diag by lia. cbn [nth_error]. cbn [fscaled fst snd].
  assert (U : forall m', upd (ps ++ [m]) (length ps) m' = (ps ++ [m'])%list).
  { intros m'. clear. induction ps as [|q ps IH]; [reflexivity|]. cbn [app length upd]. rewrite IH. reflexivity. }
  destruct (sep_by (map show_Z x) ++ cb :: cb :: e :: r)%list as [|h t] eqn:E.
  { apply app_eq_nil in E. destruct E as (_&E). discriminate. }
  change (is_char ob ob) with true. cbv iota.
  destruct (insert_form rat_add rat_zero m _ d x) as [m'|]; [|reflexivity]. cbn [bind]. rewrite U.
  unfold after_factor. cbn [tl]. unfold scan. cbn [split_at]. rewrite He. cbn [bind snd fst tl]. reflexivity.
Qed.

Lemma parse_factors n : n <> O -> forall fs k c d arr ps m tail, Forall (good_factor n) fs -> fs <> [] -> length arr = n ->
  tail <> [] -> (length (sep_by (map show_factor fs)) + 1 + length tail <= k)%nat ->
  exists k' d' arr', (length tail <= k')%nat /\ length arr' = n /\
  parse_products k (sep_by (map show_factor fs) ++ cb :: tail) 2 c d n arr (ps ++ [m]) =
  bind (insert_all rat_add rat_zero (fterms c fs) m) (fun m' => parse_products k' tail 0 one d' n arr' (ps ++ [m'])).
Proof.
  intros N. induction fs as [|f fs IH]; intros k c d arr ps m tail H E L T F; [congruence|].
  destruct (Forall_inv H) as (G1&G2).
  assert (IR : int_range (fst f) = true) by (unfold int_range; apply andb_true_iff; split; apply Z.leb_le; lia).
  assert (X : snd f <> []) by (intros E'; rewrite E' in G1; cbn in G1; congruence).
  assert (step : forall k e r c d arr m, (3 <= k)%nat -> length arr = n -> is_char comma e || is_char cb e = true ->
    parse_products k (show_factor f ++ e :: r) 2 c d n arr (ps ++ [m]) =
    bind (insert_form rat_add rat_zero m (fst (fst (fscaled c f))) (fst f) (snd f))
      (fun m' => parse_products (k - 3) r (if is_char comma e then 2 else 0)%nat one (fst f) n (map Some (snd f)) (ps ++ [m']))).
  { clear - IR X G1. intros k e r c d arr m K L He. destruct k as [|[|[|k]]]; [lia ..|]. replace (S (S (S k)) - 3)%nat with k by lia.
    unfold show_factor, show_vec. cbn [app]. repeat (rewrite <- app_assoc; cbn [app]). rewrite (pp_deg _ _ _ _ _ _ _ _ IR).
    rewrite pp_skip by (first [reflexivity|discriminate]).
    rewrite pp_vec; [|exact X|congruence|exact He]. destruct f. reflexivity. }
  destruct fs as [|f' fs].
  - cbn [map sep_by] in *. unfold show_factor in F at 1. cbn [length] in F. rewrite app_length in F. cbn [length] in F. rewrite app_length in F. cbn [length] in F.
    rewrite step; [|lia|exact L|reflexivity].
    exists (k - 3)%nat, (fst f), (map Some (snd f)). split; [lia|]. split; [rewrite map_length; exact G1|].
    unfold insert_all. cbn [fterms fold_out]. cbn [fscaled fst snd]. destruct (insert_form _ _ _ _ _ _); reflexivity.
  - change (map show_factor (f :: f' :: fs)) with (show_factor f :: map show_factor (f' :: fs)) in *.
    rewrite sep_cons in F |- * by discriminate. rewrite <- app_assoc. cbn [app].
    rewrite app_length in F. cbn [length] in F.
    assert (3 <= length (show_factor f))%nat.
    { unfold show_factor. cbn [length]. repeat (rewrite app_length; cbn [length]). unfold show_vec. cbn [length]. rewrite app_length. cbn [length]. lia. }
    rewrite step; [|lia|exact L|reflexivity].
    change (is_char comma comma) with true. cbv iota.
    destruct (k - 3)%nat as [|k1] eqn:Ek; [lia|].
    unfold insert_all. cbn [fterms fold_out]. cbn [fscaled fst snd].
    destruct (insert_form rat_add rat_zero m (rat_mul_fun c {| num := int_factorial (Z.to_nat (fst f)); den := 1 |}) (fst f) (snd f)) as [m'|] eqn:Ei.
    + cbn [bind]. rewrite pp_skip; [|reflexivity|intros Es; apply app_eq_nil in Es; destruct Es as (_&Es); discriminate].
      destruct (IH k1 one (fst f) (map Some (snd f)) ps m' tail (Forall_inv_tail H)) as (k'&d'&arr'&A1&A2&A3).
      { discriminate. } { rewrite map_length; exact G1. } { exact T. } { lia. }
      exists k', d', arr'. split; [exact A1|]. split; [exact A2|]. unfold insert_all in A3. exact A3.
    + exists (length tail), 0, arr. split; [lia|]. split; [exact L|]. reflexivity.
Qed.

Definition build (n : nat) (ps : list (msum rat)) (a : lf_product) : outcome (list (msum rat)) :=
  bind (insert_all rat_add rat_zero (fterms (fst a) (snd a)) (new_sum n)) (fun m => Ok (ps ++ [m])%list).
Lemma parse_product_one n a k c d arr ps tail : n <> O -> wf_product n a -> length arr = n -> tail <> [] ->
  (length (show_product a) + length tail <= k)%nat ->
  exists k' d' arr', (length tail <= k')%nat /\ length arr' = n /\
  parse_products k (show_product a ++ tail) 0 c d n arr ps =
  bind (build n ps a) (fun ps' => parse_products k' tail 0 one d' n arr' ps').
Proof.
  intros N (G1&G2&G3) L T F. unfold show_product in *. cbn [app length] in *. repeat (rewrite app_length in F; cbn [length] in F).
  repeat (rewrite <- app_assoc; cbn [app]).
  destruct k as [|[|[|k]]]; try lia.
  rewrite (pp_coef _ _ _ _ _ _ _ _ (show_rat_plain _)), (show_rat_reads _ G1). cbn [bind].
  rewrite pp_skip by (first [reflexivity|discriminate]).
  rewrite pp_start by (intros Es; apply app_eq_nil in Es; destruct Es as (_&Es); discriminate).
  destruct (parse_factors n N (snd a) k (fst a) d arr ps (new_sum n) (cb :: tail) G3 G2 L) as (k'&d'&arr'&A1&A2&A3); [discriminate|cbn [length]; lia|].
  rewrite A3. cbn [length] in A1. destruct k' as [|k']; [lia|]. exists k', d', arr'. split; [lia|]. split; [exact A2|].
  unfold build. destruct (insert_all _ _ _ _); [|reflexivity]. cbn [bind]. apply pp_skip; [reflexivity|exact T].
Qed.

Lemma parse_products_rest n : n <> O -> forall l k c d arr ps, Forall (wf_product n) l -> l <> [] -> length arr = n ->
  (length (sep_by (map show_product l)) + 1 <= k)%nat ->
  parse_products k (sep_by (map show_product l) ++ [cb]) 0 c d n arr ps = fold_out (build n) l ps.
Proof.
  intros N. induction l as [|a l IH]; intros k c d arr ps H E L F; [congruence|].
  destruct l as [|a' l].
  - cbn [map sep_by] in *.
    destruct (parse_product_one n a k c d arr ps [cb] N (Forall_inv H) L) as (k'&d'&arr'&Hf&_&->); [discriminate|cbn [length]; lia|].
    destruct k' as [|k']; [cbn in Hf; lia|]. cbn [parse_products fold_out]. reflexivity.
  - change (map show_product (a :: a' :: l)) with (show_product a :: map show_product (a' :: l)) in *.
    rewrite sep_cons in F |- * by discriminate. rewrite <- app_assoc. cbn [app].
    rewrite app_length in F. cbn [length] in F.
    destruct (parse_product_one n a k c d arr ps (comma :: blank :: (sep_by (map show_product (a' :: l)) ++ [cb])) N (Forall_inv H) L) as (k'&d'&arr'&Hf&La&E1).
    { discriminate. }
    { cbn [length]. rewrite app_length. cbn [length]. lia. }
    rewrite E1. cbn [length] in Hf. rewrite app_length in Hf. cbn [length] in Hf.
    destruct k' as [|[|k']]; [lia|lia|]. change (fold_out (build n) (a :: a' :: l) ps) with (bind (build n ps a) (fold_out (build n) (a' :: l))).
    destruct (build n ps a) as [ps'|e]; [|reflexivity].
    cbn [bind]. rewrite pp_skip by (first [reflexivity|discriminate]).
    rewrite pp_skip; [|reflexivity|intros Es; apply app_eq_nil in Es; destruct Es as (_&Es); discriminate].
    apply (IH k' one d' arr' ps' (Forall_inv_tail H)); [discriminate|exact La|]. lia.
Qed.
Lemma count_products_text n l : n <> O -> Forall (wf_product n) l -> l <> [] -> count_commas (show_products l) = Ok (Z.of_nat n + 1).
Proof.
  intros N H E. destruct l as [|a l]; [congruence|]. destruct (Forall_inv H) as (_&G&G3).
  destruct a as (c&fs). cbn [fst snd] in *. destruct fs as [|f fs]; [congruence|]. destruct (Forall_inv G3) as (G1&_).
  assert (X : snd f <> []) by (intros E'; rewrite E' in G1; cbn in G1; congruence).
  assert (exists r, (sep_by (map show_factor (f :: fs)) = show_factor f ++ r)%list) as (r1&Er1).
  { destruct fs as [|f' fs]; [exists []; cbn [map sep_by]; rewrite app_nil_r; reflexivity|].
    change (map show_factor (f :: f' :: fs)) with (show_factor f :: map show_factor (f' :: fs)). rewrite sep_cons by discriminate. eauto. }
  assert (exists r, (sep_by (map show_product ((c, f :: fs) :: l)) ++ [cb] = show_product (c, f :: fs) ++ r)%list) as (r&Er).
  { destruct l as [|t' l]; [cbn [map sep_by]; eauto|].
    change (map show_product ((c, f :: fs) :: t' :: l)) with (show_product (c, f :: fs) :: map show_product (t' :: l)).
    rewrite sep_cons by discriminate. rewrite <- app_assoc. eauto. }
  unfold show_products. rewrite count_skip by reflexivity. rewrite Er. unfold show_product. cbn [fst snd]. rewrite Er1. cbn [app].
  rewrite count_skip by reflexivity. unfold show_factor, show_vec. repeat (rewrite <- app_assoc; cbn [app]). rewrite count_plain by apply show_rat_plain.
  assert (C : count_commas (blank :: ob :: sep_by (map show_Z (snd f)) ++ cb :: cb :: r1 ++ cb :: cb :: r) = Ok (Z.of_nat n - 1)).
  { rewrite count_skip, count_skip by reflexivity. rewrite count_vec by exact X. rewrite G1. reflexivity. }
  apply count_comma in C.
  assert (C2 : count_commas (blank :: ob :: ob :: show_Z (fst f) ++ comma :: blank :: ob :: sep_by (map show_Z (snd f)) ++ cb :: cb :: r1 ++ cb :: cb :: r) = Ok (Z.of_nat n - 1 + 1)).
  { rewrite !count_skip by reflexivity. rewrite count_plain by apply show_Z_plain. exact C. }
  rewrite (count_comma _ _ C2). f_equal. lia.
Qed.
Lemma load_products_text n l old : n <> O -> Forall (wf_product n) l -> l <> [] ->
  load_products old (show_products l) = bind (fold_out (build n) l old) (fun ps => Ok (n, ps)).
Proof.
  intros N H E. unfold load_products. rewrite (count_products_text n l N H E). cbn [bind]. cbv zeta.
  replace (Z.of_nat n + 1 - 1) with (Z.of_nat n) by lia.
  rewrite (proj2 (Z.ltb_ge (Z.of_nat n) 1)) by lia. rewrite Nat2Z.id. unfold show_products. cbn [tl].
  rewrite (parse_products_rest n N l _ _ _ _ _ H E); [reflexivity|unfold zeros; apply repeat_length|cbn [length]; rewrite app_length; cbn [length]; lia].
Qed.

(** ** The stored product *)
Lemma fscaled_ok c f : lowest_terms c -> lowest_terms (fst (fst (fscaled c f))) /\
  (value (fst (fst (fscaled c f))) == value c * inject_Z (Z.of_nat (fact (Z.to_nat (fst f)))))%Q.
Proof. intros H. exact (scaled_ok (mkTerm c (snd f) (fst f)) H). Qed.
Lemma one_ok : lowest_terms one /\ (value one == 1)%Q.
Proof. split; [split; [cbn; lia|reflexivity]|reflexivity]. Qed.
Lemma fterms_ok n : forall fs c, lowest_terms c -> ~ (value c == 0)%Q -> Forall (good_factor n) fs ->
  Forall (fun p => lowest_terms (fst (fst p)) /\ length (snd p) = n) (fterms c fs) /\
  Forall (fun p => ~ (value (fst (fst p)) == 0)%Q) (fterms c fs) /\
  map (fun p => (snd (fst p), snd p)) (fterms c fs) = fs.
Proof.
  induction fs as [|f fs IH]; intros c L V H; [cbn; repeat split; constructor|]. cbn [fterms map].
  destruct one_ok as (O1&O2). destruct (IH one O1) as (A&B&C); [rewrite O2; discriminate|apply (Forall_inv_tail H)|].
  destruct (fscaled_ok c f L) as (S1&S2). destruct (Forall_inv H) as (G1&_).
  split; [constructor; [split; [exact S1|exact G1]|exact A]|].
  split; [constructor; [|exact B]|rewrite C; destruct f; reflexivity].
  rewrite S2. intros E. apply Qmult_integral in E. destruct E as [E|E]; [auto|apply (fact_nz _ E)].
Qed.
Definition untriple (p : rat * Z * list Z) : bterm rat := mkTerm (fst (fst p)) (snd p) (snd (fst p)).
Lemma triple_untriple l : map triple (map untriple l) = l.
Proof. rewrite map_map. induction l as [|[[c d] x] l IH]; [reflexivity|]. cbn [map]. rewrite IH. reflexivity. Qed.
Lemma stored_perm p l1 l2 : Permutation l1 l2 -> (stored_product_at p l1 == stored_product_at p l2)%Q.
Proof.
  unfold stored_product_at. induction 1; cbn [fold_right]; [reflexivity|rewrite IHPermutation; reflexivity|ring|].
  etransitivity; eassumption.
Qed.
Lemma fterms_value p : forall fs c, lowest_terms c -> fs <> [] ->
  (stored_product_at p (map untriple (fterms c fs)) == product_at p (c, fs))%Q.
Proof.
  assert (S1 : forall c f, lowest_terms c -> (term_at p (untriple (fscaled c f)) == value c * factor_at p f)%Q).
  { intros c f L. destruct (fscaled_ok c f L) as (_&B). unfold term_at, factor_at, untriple. cbn [t_coef t_deg t_exps]. rewrite B.
    cbn [fscaled fst snd]. pose proof (fact_nz (Z.to_nat (fst f))). field. assumption. }
  induction fs as [|f fs IH]; intros c L N; [congruence|]. unfold stored_product_at, product_at in *.
  cbn [fterms map fold_right fst snd]. rewrite (S1 c f L). destruct fs as [|f' fs]; [cbn; ring|].
  destruct one_ok as (O1&O2). rewrite (IH one O1) by discriminate. cbn [fst snd]. rewrite O2. ring.
Qed.

(** All factors are kept if they are pairwise different and the coefficient is not 0. *)
Theorem product_kept n a : n <> O -> wf_product n a -> ~ (value (fst a) == 0)%Q -> NoDup (snd a) ->
  exists m out, insert_all rat_add rat_zero (fterms (fst a) (snd a)) (new_sum n) = Ok m /\ sum_terms rat_zero m = Ok out /\
    Permutation (map (fun t => (t_deg t, t_exps t)) out) (snd a) /\
    forall p, (stored_product_at p out == product_at p a)%Q.
Proof.
  intros N (G1&G2&G3) V ND. destruct a as (c&fs). cbn [fst snd] in *.
  destruct (fterms_ok n fs c G1 V G3) as (A&B&C).
  destruct (trie_exact n (fterms c fs) N A) as (m&out&E1&E2&NDo&NZ&Co&_).
  { destruct fs as [|f fs]; [congruence|]. cbn [fterms] in *. exists (fscaled c f). split; [left; reflexivity|apply (Forall_inv B)]. }
  assert (P : Permutation out (map untriple (fterms c fs))).
  { apply reduced_permutation; [split; assumption| |intros d x; rewrite triple_untriple; apply Co].
    split.
    - unfold keys. rewrite map_map. cbn [untriple t_deg t_exps]. rewrite C. exact ND.
    - apply Forall_map. apply Forall_forall. intros q Hq. cbn [untriple t_coef].
      split; [apply (proj1 (Forall_forall _ _) A q Hq)|apply (proj1 (Forall_forall _ _) B q Hq)]. }
  exists m, out. split; [exact E1|]. split; [exact E2|]. split.
  - rewrite (Permutation_map _ P), map_map. cbn [untriple t_deg t_exps]. rewrite C. reflexivity.
  - intros p. rewrite (stored_perm p _ _ P). apply fterms_value; assumption.
Qed.
Theorem products_loaded n l old : n <> O -> l <> [] -> Forall (wf_product n) l ->
  Forall (fun a => ~ (value (fst a) == 0)%Q /\ NoDup (snd a)) l ->
  exists ms, load_products old (show_products l) = Ok (n, old ++ ms)%list /\
    Forall2 (fun a m => exists out, sum_terms rat_zero m = Ok out /\
      Permutation (map (fun t => (t_deg t, t_exps t)) out) (snd a) /\
      forall p, (stored_product_at p out == product_at p a)%Q) l ms.
Proof.
  intros N E H K. rewrite (load_products_text n l old N H E). clear E.
  revert old. induction l as [|a l IH]; intros old.
  - exists []. rewrite app_nil_r. split; [reflexivity|constructor].
  - destruct (product_kept n a N (Forall_inv H)) as (m&out&E1&E2&P&V); [apply (Forall_inv K)|apply (Forall_inv K)|].
    cbn [fold_out]. unfold build at 1. rewrite E1. cbn [bind].
    destruct (IH (Forall_inv_tail H) (Forall_inv_tail K) (old ++ [m])%list) as (ms&E3&F). exists (m :: ms).
    split; [rewrite E3, <- app_assoc; reflexivity|]. constructor; [|exact F]. eauto.
Qed.
