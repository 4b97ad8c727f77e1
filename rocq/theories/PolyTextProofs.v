(** Printing followed by parsing. *)
From Coq Require Import QArith.
From Verif Require Import Common Rational RationalSpec RationalProofs Trie TrieSpec TrieProofs TrieProofs2 Text TextProofs PolyText.
Open Scope Z_scope.

Lemma scan_plain w s : Forall (fun c => plain c = true) w -> scan (is_char comma) (ob :: w ++ comma :: s) = Ok (ob :: w, comma :: s).
Proof.
  intros H. unfold scan. change (ob :: w ++ comma :: s)%list with ((ob :: w) ++ comma :: s)%list.
  rewrite (split_at_app (is_char comma)); [reflexivity| |reflexivity].
  constructor; [reflexivity|]. eapply Forall_impl; [|exact H]. intros c Hc. apply (plain_not c Hc).
Qed.

(** One entry of a vector. *)
Lemma read_vec_word conv d s arr k : is_char comma d || is_char cb d = true ->
  forall w2 w1, Forall (fun c => plain c = true) w2 ->
  read_vec conv (w2 ++ d :: s) (Some w1) arr k =
  bind (store_entry conv (w1 ++ w2) arr k) (fun arr' => read_vec conv s None arr' (S k)).
Proof.
  intros Hd. induction w2 as [|c w2 IH]; intros w1 H; cbn [app read_vec].
  - rewrite Hd, app_nil_r. reflexivity.
  - destruct (plain_not c (Forall_inv H)) as (_&H1&H2&_).
    change (is_char comma c) with (is_char "," c). change (is_char cb c) with (is_char "]" c). rewrite H1, H2. cbn [orb].
    rewrite (IH _ (Forall_inv_tail H)), <- app_assoc. reflexivity.
Qed.
Lemma read_vec_entry conv d s z arr k : is_char comma d || is_char cb d = true ->
  read_vec conv (show_Z z ++ d :: s) None arr k =
  bind (store_entry conv (show_Z z) arr k) (fun arr' => read_vec conv s None arr' (S k)).
Proof.
  intros Hd. pose proof (show_Z_plain z) as P. destruct (show_Z_cons z) as (c&w&E). rewrite E in *. cbn [app read_vec].
  destruct (plain_not c (Forall_inv P)) as (_&H1&H2&H3&_).
  change (is_char comma c) with (is_char "," c). change (is_char cb c) with (is_char "]" c). change (is_char blank c) with (is_char " " c).
  rewrite H1, H2, H3, (read_vec_word conv d s arr k Hd w [c] (Forall_inv_tail P)). reflexivity.
Qed.

Lemma upd_split {A} (l : list A) k v : (k < length l)%nat -> upd l k v = (firstn k l ++ v :: skipn (S k) l)%list.
Proof. revert k. induction l as [|a l IH]; intros [|k] H; cbn [length] in H; [lia ..|reflexivity|]. cbn [upd firstn skipn app]. rewrite IH by lia. reflexivity. Qed.

(** A vector that ends with the bracket of the enclosing list. *)
Lemma read_vec_list conv r : forall x arr k, x <> [] -> Forall (fun z => conv (show_Z z) = Ok z) x ->
  (k + length x = length arr)%nat ->
  read_vec conv (sep_by (map show_Z x) ++ cb :: cb :: r) None arr k = Ok (firstn k arr ++ map Some x, cb :: r)%list.
Proof.
  induction x as [|z x IH]; intros arr k N H L; [congruence|]. clear N.
  assert (Hk : (k < length arr)%nat) by (cbn [length] in L; lia).
  assert (St : store_entry conv (show_Z z) arr k = Ok (upd arr k (Some z))).
  { unfold store_entry. rewrite (Forall_inv H). cbn [bind]. rewrite (proj2 (Nat.ltb_lt _ _) Hk). reflexivity. }
  destruct x as [|z' x].
  - cbn [map sep_by]. rewrite read_vec_entry by reflexivity. rewrite St. cbn [bind read_vec].
    change (is_char cb cb) with true. cbv iota. rewrite (upd_split arr k (Some z) Hk), skipn_all2 by (cbn [length] in L; lia). reflexivity.
  - change (sep_by (map show_Z (z :: z' :: x))) with (show_Z z ++ comma :: blank :: sep_by (map show_Z (z' :: x)))%list.
    rewrite <- app_assoc. cbn [app]. rewrite read_vec_entry by reflexivity. rewrite St. cbn [bind].
    cbn [read_vec]. change (is_char cb blank) with false. change (is_char blank blank) with true. cbv iota.
    rewrite (IH (upd arr k (Some z)) (S k)).
    + rewrite (upd_split arr k (Some z) Hk). cbn [map app]. f_equal. f_equal.
      replace (S k) with (length (firstn k arr ++ [Some z])) at 1 by (rewrite app_length, firstn_length_le by lia; cbn; lia).
      change (firstn k arr ++ Some z :: skipn (S k) arr)%list with (firstn k arr ++ [Some z] ++ skipn (S k) arr)%list.
      rewrite app_assoc, firstn_app, firstn_all, Nat.sub_diag. cbn [firstn]. rewrite app_nil_r, <- app_assoc. reflexivity.
    + discriminate.
    + apply (Forall_inv_tail H).
    + rewrite length_upd. cbn [length] in *. lia.
Qed.
Lemma read_vec_all conv r x arr : x <> [] -> Forall (fun z => conv (show_Z z) = Ok z) x -> length arr = length x ->
  read_vec conv (sep_by (map show_Z x) ++ cb :: cb :: r) None arr 0 = Ok (map Some x, cb :: r)%list.
Proof. intros N H L. rewrite (read_vec_list conv r x arr 0 N H) by lia. reflexivity. Qed.
Lemma initialised_some x : initialised (map Some x) = Ok x.
Proof. induction x as [|z x IH]; [reflexivity|]. cbn [map initialised]. rewrite IH. reflexivity. Qed.

Lemma atoi_self z : int_range z = true -> atoi (show_Z z) = Ok z.
Proof. intros H. pose proof (atoi_show z [] eq_refl H) as E. rewrite app_nil_r in E. exact E. Qed.
Lemma to_ZZ_self z : to_ZZ (show_Z z) = Ok z.
Proof. pose proof (to_ZZ_show z [] eq_refl) as E. rewrite app_nil_r in E. exact E. Qed.

(** Commas. *)
Lemma count_plain w s : Forall (fun c => plain c = true) w -> count_commas (w ++ s) = count_commas s.
Proof.
  intros H. induction H as [|c w Hc _ IH]; [reflexivity|]. cbn [app count_commas].
  destruct (plain_not c Hc) as (_&H1&H2&_). change (is_char cb c) with (is_char "]" c). change (is_char comma c) with (is_char "," c).
  rewrite H1, H2, IH. destruct (count_commas s); reflexivity.
Qed.
Lemma count_vec r : forall x, x <> [] -> count_commas (sep_by (map show_Z x) ++ cb :: r) = Ok (Z.of_nat (length x) - 1).
Proof.
  induction x as [|z x IH]; intros N; [congruence|]. destruct x as [|z' x].
  - cbn [map sep_by]. rewrite count_plain by apply show_Z_plain. reflexivity.
  - change (sep_by (map show_Z (z :: z' :: x))) with (show_Z z ++ comma :: blank :: sep_by (map show_Z (z' :: x)))%list.
    rewrite <- app_assoc, count_plain by apply show_Z_plain. cbn [app count_commas].
    change (is_char cb comma) with false. change (is_char comma comma) with true.
    change (is_char cb blank) with false. change (is_char comma blank) with false. cbv iota.
    rewrite IH by discriminate. cbn [bind]. f_equal. cbn [length]. lia.
Qed.
Lemma count_skip c s : is_char cb c = false -> is_char comma c = false -> count_commas (c :: s) = count_commas s.
Proof. intros H1 H2. cbn [count_commas]. rewrite H1, H2. destruct (count_commas s); reflexivity. Qed.
Lemma count_comma s k : count_commas s = Ok k -> count_commas (comma :: s) = Ok (k + 1).
Proof. intros H. cbn [count_commas]. rewrite H. reflexivity. Qed.

(** ** Monomials *)
Definition good_term (n : nat) (t : bterm rat) : Prop :=
  lowest_terms (t_coef t) /\ length (t_exps t) = n /\ Forall (fun z => int_range z = true) (t_exps t) /\ t_deg t = -1.

Lemma sep_cons t l : l <> [] -> sep_by (t :: l) = (t ++ comma :: blank :: sep_by l)%list.
Proof. destruct l; [congruence|reflexivity]. Qed.

Lemma pm_skip f ch s flag c arr m : is_char ob ch = false -> s <> [] ->
  parse_monomials (S f) (ch :: s) flag c arr m = parse_monomials f s flag c arr m.
Proof. intros H N. cbn [parse_monomials]. destruct s; [congruence|]. rewrite H. reflexivity. Qed.
Lemma pm_coef f w s c arr m : Forall (fun c => plain c = true) w ->
  parse_monomials (S f) (ob :: w ++ comma :: s) false c arr m =
  bind (rat_of_text w) (fun c' => parse_monomials f s true c' arr m).
Proof.
  intros H. cbn [parse_monomials]. rewrite (scan_plain w s H). cbn [bind tl].
  destruct (w ++ comma :: s)%list as [|h r] eqn:E; [|reflexivity].
  apply app_eq_nil in E. destruct E as (_&E). discriminate.
Qed.
Lemma pm_vec f r x c arr m : x <> [] -> Forall (fun z => int_range z = true) x -> length arr = length x ->
  parse_monomials (S f) (ob :: sep_by (map show_Z x) ++ cb :: cb :: r) true c arr m =
  bind (insert_monomial rat_add rat_zero m c x) (fun m' => parse_monomials f r false c (map Some x) m').
Proof.
  intros N H L. cbn [parse_monomials].
  rewrite (read_vec_all atoi r x arr N); [|eapply Forall_impl; [|exact H]; intros z Hz; apply atoi_self, Hz|exact L].
  cbn [bind]. rewrite initialised_some. cbn [bind tl].
  destruct (sep_by (map show_Z x) ++ cb :: cb :: r)%list as [|h t] eqn:E; [|reflexivity].
  apply app_eq_nil in E. destruct E as (_&E). discriminate.
Qed.

Lemma parse_one n t f c arr m tail : n <> O -> good_term n t -> length arr = n ->
  (length (show_monomial t) + length tail <= f)%nat ->
  exists f' arr', (length tail <= f')%nat /\ length arr' = n /\
  parse_monomials f (show_monomial t ++ tail) false c arr m =
  bind (insert_monomial rat_add rat_zero m (t_coef t) (t_exps t)) (fun m' => parse_monomials f' tail false (t_coef t) arr' m').
Proof.
  intros N (G1&G2&G3&_) L F.
  assert (X : t_exps t <> []) by (intros E; rewrite E in G2; cbn in G2; congruence).
  unfold show_monomial, show_vec in *. cbn [app length] in *. rewrite !app_length in F. cbn [length] in F. rewrite !app_length in F. cbn [length] in F.
  destruct f as [|[|[|f]]]; try lia.
  exists f, (map Some (t_exps t)).
  split; [lia|split; [rewrite map_length; exact G2|]].
  rewrite <- !app_assoc. cbn [app]. rewrite (pm_coef _ _ _ _ _ _ (show_rat_plain _)), (show_rat_reads _ G1). cbn [bind].
  rewrite pm_skip by (first [reflexivity|discriminate]). rewrite <- !app_assoc. cbn [app].
  apply pm_vec; [exact X|exact G3|congruence].
Qed.

Lemma parse_rest n : n <> O -> forall l f c arr m, Forall (good_term n) l -> l <> [] -> length arr = n ->
  (length (sep_by (map show_monomial l)) + 1 <= f)%nat ->
  parse_monomials f (sep_by (map show_monomial l) ++ [cb]) false c arr m =
  insert_all rat_add rat_zero (map triple l) m.
Proof.
  intros N. induction l as [|t l IH]; intros f c arr m H E L F; [congruence|].
  destruct l as [|t' l].
  - cbn [map sep_by] in *.
    destruct (parse_one n t f c arr m [cb] N (Forall_inv H) L) as (f'&arr'&Hf&_&->); [cbn [length]; lia|].
    destruct f' as [|f']; [cbn in Hf; lia|]. cbn [parse_monomials]. unfold insert_all. cbn [fold_out triple fst snd].
    destruct (Forall_inv H) as (_&_&_&D). unfold insert_monomial. rewrite D. reflexivity.
  - cbn [map] in F |- *. rewrite sep_cons in F |- * by discriminate. rewrite <- app_assoc. cbn [app].
    rewrite app_length in F. cbn [length] in F.
    destruct (parse_one n t f c arr m (comma :: blank :: (sep_by (map show_monomial (t' :: l)) ++ [cb])) N (Forall_inv H) L) as (f'&arr'&Hf&La&E1).
    { cbn [length]. rewrite app_length. cbn [length map]. cbn [map] in F. lia. }
    cbn [map] in E1. rewrite E1. cbn [length] in Hf. rewrite app_length in Hf. cbn [length] in Hf.
    destruct f' as [|[|f']]; [lia|lia|]. unfold insert_all at 1. cbn [fold_out triple fst snd].
    destruct (Forall_inv H) as (_&_&_&D). unfold insert_monomial. rewrite D. destruct (insert_form rat_add rat_zero m (t_coef t) (-1) (t_exps t)) as [m'|e]; [|reflexivity].
    cbn [bind]. rewrite pm_skip by (first [reflexivity|discriminate]).
    rewrite pm_skip; [|reflexivity|intros Es; apply app_eq_nil in Es; destruct Es as (_&Es); discriminate].
    apply (IH f' (t_coef t) arr' m' (Forall_inv_tail H)); [discriminate|exact La|].
    cbn [map] in *. lia.
Qed.

Lemma count_monomials n l : n <> O -> Forall (good_term n) l -> l <> [] ->
  count_commas (ob :: sep_by (map show_monomial l) ++ [cb]) = Ok (Z.of_nat n).
Proof.
  intros N H E. destruct l as [|t l]; [congruence|]. destruct (Forall_inv H) as (_&G&_).
  assert (X : t_exps t <> []) by (intros E'; rewrite E' in G; cbn in G; congruence).
  assert (exists r, (sep_by (map show_monomial (t :: l)) ++ [cb] = show_monomial t ++ r)%list) as (r&Er).
  { destruct l as [|t' l]; [cbn [map sep_by]; eauto|].
    change (map show_monomial (t :: t' :: l)) with (show_monomial t :: map show_monomial (t' :: l)).
    rewrite sep_cons by discriminate. rewrite <- app_assoc. eauto. }
  rewrite count_skip by reflexivity. rewrite Er. unfold show_monomial, show_vec. cbn [app].
  rewrite count_skip by reflexivity. repeat (rewrite <- app_assoc; cbn [app]). rewrite count_plain by apply show_rat_plain.
  assert (C : count_commas (blank :: ob :: sep_by (map show_Z (t_exps t)) ++ cb :: cb :: r) = Ok (Z.of_nat n - 1)).
  { rewrite count_skip, count_skip by reflexivity. rewrite count_vec by exact X. rewrite G. reflexivity. }
  rewrite (count_comma _ _ C). f_equal. lia.
Qed.

Lemma insert_fresh (l : list (rat * Z * list Z)) n old : (exists p, In p l /\ rat_zero (fst (fst p)) = false) ->
  insert_all rat_add rat_zero l (mkSum 0 n old) = insert_all rat_add rat_zero l (new_sum n).
Proof.
  unfold insert_all. induction l as [|p l IH]; intros (q&Hq&Zq); [destruct Hq|]. cbn [fold_out]. unfold insert_form at 1 3.
  destruct (rat_zero (fst (fst p))) eqn:Zp.
  - cbn [bind]. apply IH. destruct Hq as [<-|Hq]; [congruence|eauto].
  - reflexivity.
Qed.

(** Printed terms are read back as the same insertions. *)
Lemma load_printed n l old : n <> O -> Forall (good_term n) l -> l <> [] -> Forall (fun t => rat_zero (t_coef t) = false) l ->
  load_monomials old (ob :: sep_by (map show_monomial l) ++ [cb]) = insert_all rat_add rat_zero (map triple l) (new_sum n).
Proof.
  intros N H E Hz. unfold load_monomials. rewrite (count_monomials n l N H E). cbn [bind].
  rewrite (proj2 (Z.ltb_ge (Z.of_nat n) 1)) by lia. rewrite Nat2Z.id. cbn [tl].
  rewrite (parse_rest n N l _ _ _ _ H E); [|apply repeat_length|cbn [length]; rewrite app_length; cbn [length]; lia].
  apply insert_fresh. destruct l as [|t l]; [congruence|]. exists (triple t). split; [left; reflexivity|]. exact (Forall_inv Hz).
Qed.
