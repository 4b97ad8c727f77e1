From Coq Require Import QArith String Decimal.
From Verif Require Import Common Rational RationalSpec Text TextProofs LatteText LatteTextSpec LatteTextProofs LatteTextProofs2 CheckEmpty CheckEmptySpec.
Open Scope Z_scope.

(** ** Reading numbers *)
Lemma read_ZZ_show z s r : same_rest s (show_Z z ++ r) -> nondigit r = true -> read_ZZ s = Some (z, r).
Proof.
  intros E Hr. unfold read_ZZ. rewrite E, skip_show_Z. unfold show_Z.
  destruct (to_int_cases z) as [(u & -> & N & Eu)|(u & -> & N & Eu)].
  - destruct (digit_chars_cons u N) as (c & t & Ec & Dc). rewrite Ec. cbn [app]. destruct (digit_not c Dc) as (_ & S2 & _). rewrite S2.
    change (c :: (t ++ r)%list) with ((c :: t) ++ r)%list. rewrite <- Ec, (take_digits_app u r Hr). destruct u; [congruence|rewrite Eu; reflexivity ..].
  - cbn [app]. change (is_char "-" "-") with true. cbv iota. rewrite (take_digits_app u r Hr). destruct u; [congruence|rewrite Eu; f_equal; f_equal; lia ..].
Qed.
Lemma read_indices_show : forall l s rest, same_rest s (show_entries (map show_Z l) ++ rest) -> exists s', read_indices (length l) s = Ok (l, s') /\ same_rest s' rest.
Proof.
  induction l as [|z l IH]; intros s rest E; [exists s; split; [reflexivity|exact E]|].
  cbn [map show_entries flat_map] in E. rewrite <- !app_assoc in E. cbn [app] in E. cbn [length read_indices]. rewrite (read_ZZ_show z s _ E eq_refl).
  destruct (IH (" "%char :: show_entries (map show_Z l) ++ rest)%list rest) as (s' & E1 & E2); [reflexivity|]. unfold show_entries in E1. rewrite E1. cbn [bind]. eauto.
Qed.
Lemma show_int q : den q = 1 -> show_rat q = show_Z (num q).
Proof. intros E. unfold show_rat. rewrite E. cbn. apply app_nil_r. Qed.
Lemma read_ZZs_show : forall row s rest, Forall (fun q => den q = 1) row -> same_rest s (show_entries (map show_rat row) ++ rest) ->
  exists s', read_ZZs (length row) (Some s) = (map num row, Some s') /\ same_rest s' rest.
Proof.
  induction row as [|q row IH]; intros s rest H E; [exists s; split; [reflexivity|exact E]|].
  cbn [map show_entries flat_map] in E. rewrite <- !app_assoc in E. cbn [app] in E. rewrite (show_int q (Forall_inv H)) in E.
  cbn [length read_ZZs]. rewrite (read_ZZ_show (num q) s _ E eq_refl).
  destruct (IH (" "%char :: show_entries (map show_rat row) ++ rest)%list rest (Forall_inv_tail H)) as (s' & E1 & E2); [reflexivity|]. unfold show_entries in E1. rewrite E1. cbn [map]. eauto.
Qed.
Lemma read_entries_show k : forall rows s rest, Forall (fun row => length row = k) rows -> Forall (Forall (fun q => den q = 1)) rows ->
  same_rest s (flat_map (fun row => show_entries (map show_rat row) ++ [newline]) rows ++ rest)%list -> read_entries (length rows) k (Some s) = map (map num) rows.
Proof.
  induction rows as [|row rows IH]; intros s rest H D E; [reflexivity|]. cbn [flat_map] in E. rewrite <- !app_assoc in E. cbn [app] in E.
  cbn [length read_entries]. destruct (read_ZZs_show row s _ (Forall_inv D) E) as (s1 & E1 & E2). rewrite (Forall_inv H) in E1. rewrite E1. cbn [map]. f_equal.
  apply (IH s1 rest (Forall_inv_tail H) (Forall_inv_tail D)). unfold same_rest in *. rewrite E2. apply skip_nl.
Qed.

(** ** The first pass *)
Lemma scan_same f s s' st : same_rest s s' -> scan_file f s st = scan_file f s' st.
Proof. intros E. destruct f as [|f]; [reflexivity|]. cbn [scan_file]. unfold next_word. rewrite E. reflexivity. Qed.
Lemma take_word_app w c r : Forall (fun x => is_space x = false) w -> is_space c = true -> take_word (w ++ c :: r) = (w, c :: r).
Proof.
  intros F C. induction w as [|x w IH]; cbn [app take_word]; [now rewrite C|]. rewrite (Forall_inv F), IH by exact (Forall_inv_tail F). reflexivity.
Qed.
Lemma next_word_app w c r s : w <> [] -> Forall (fun x => is_space x = false) w -> is_space c = true -> same_rest s (w ++ c :: r) -> next_word s = (w, c :: r).
Proof.
  intros N F C E. unfold next_word. rewrite E. destruct w as [|x w]; [congruence|]. cbn [app]. rewrite skip_space_plain by exact (Forall_inv F). now apply (take_word_app (x :: w)).
Qed.
Lemma plain_spaces w : Forall (fun c => plain c = true) w -> Forall (fun x => is_space x = false) w.
Proof. apply Forall_impl. intros c H. apply (plain_not c H). Qed.
Lemma number_word w t a : Forall (fun c => plain c = true) w -> lit t = a :: tl (lit t) -> plain a = false -> text_eqb w (lit t) = false.
Proof.
  intros F E P. rewrite E. destruct w as [|c w]; [reflexivity|]. cbn [text_eqb]. destruct (is_char c a) eqn:C; [|reflexivity]. apply is_char_eq in C. subst c. pose proof (Forall_inv F) as X. cbv beta in X. congruence.
Qed.
Lemma scan_number f q c r s st : is_space c = true -> same_rest s (show_rat q ++ c :: r) -> scan_file (S f) s st = scan_file f r st.
Proof.
  intros C E. assert (N : show_rat q <> []). { unfold show_rat. destruct (show_Z_cons (num q)) as (x & y & ->). discriminate. }
  cbn [scan_file]. rewrite (next_word_app _ c r s N (plain_spaces _ (show_rat_plain q)) C E).
  rewrite (number_word _ "linearity" "l" (show_rat_plain q) eq_refl eq_refl), (number_word _ "NONNEGATIVE" "N" (show_rat_plain q) eq_refl eq_refl), (number_word _ "nonnegative" "n" (show_rat_plain q) eq_refl eq_refl). cbn [orb].
  destruct (show_rat q); [congruence|]. apply scan_same. unfold same_rest. cbn [skip_space]. now rewrite C.
Qed.
Lemma scan_count f k c r s st : is_space c = true -> same_rest s (show_nat k ++ c :: r) -> scan_file (S f) s st = scan_file f r st.
Proof. intros C E. apply (scan_number f (mkRat (Z.of_nat k) 1) c r s st C). unfold show_rat. cbn [num den]. change (1 =? 1) with true. cbv iota. rewrite app_nil_r. exact E. Qed.
Lemma scan_row f : forall row s rest st, same_rest s (show_entries (map show_rat row) ++ rest) -> scan_file (length row + f) s st = scan_file f rest st.
Proof.
  induction row as [|q row IH]; intros s rest st E; [now apply scan_same|]. cbn [map show_entries flat_map] in E. rewrite <- !app_assoc in E. cbn [app] in E.
  cbn [length Nat.add]. rewrite (scan_number _ q " "%char _ s st eq_refl E). apply IH. reflexivity.
Qed.
Lemma scan_rows f : forall rows s rest st, same_rest s (flat_map (fun row => show_entries (map show_rat row) ++ [newline]) rows ++ rest)%list ->
  scan_file (fold_right (fun row a => length row + a)%nat 0%nat rows + f) s st = scan_file f rest st.
Proof.
  induction rows as [|row rows IH]; intros s rest st E; [now apply scan_same|]. cbn [flat_map] in E. rewrite <- !app_assoc in E. cbn [app] in E.
  cbn [fold_right]. rewrite <- Nat.add_assoc, (scan_row _ row s _ st E). apply IH. apply skip_nl.
Qed.
Definition note (st : scanned) (k : keyword) : scanned :=
  match k with Linearity l => mkScanned (Some l) (sc_nonneg st) 1 | Nonnegative l => mkScanned (sc_equ st) (Some l) 2 end.
Lemma scan_keyword f s k rest st : Z.of_nat (length (indices k)) <= 2147483647 -> same_rest s (show_keyword k ++ rest) -> scan_file (S f) s st = scan_file f rest (note st k).
Proof.
  intros Lc E. unfold show_keyword in E.
  set (w := lit (match k with Linearity _ => "linearity" | Nonnegative _ => "nonnegative" end)).
  assert (E' : same_rest s (w ++ " "%char :: show_nat (length (indices k)) ++ " "%char :: show_entries (map show_Z (indices k)) ++ newline :: rest)%list).
  { unfold same_rest in *. rewrite E. f_equal. unfold w. destruct k; repeat (rewrite <- app_assoc; cbn [app]); reflexivity. }
  assert (RI : forall t, read_int (" "%char :: show_nat (length (indices k)) ++ " "%char :: t) = Ok (Z.of_nat (length (indices k)), " "%char :: t)).
  { intros t. apply read_int_show; [reflexivity|reflexivity|apply int_small; lia]. }
  destruct (read_indices_show (indices k) (" "%char :: show_entries (map show_Z (indices k)) ++ newline :: rest)%list (newline :: rest) eq_refl) as (s2 & A & B).
  assert (B' : same_rest s2 rest) by (unfold same_rest in *; rewrite B; apply skip_nl).
  cbn [scan_file]. rewrite (next_word_app w " "%char (show_nat (length (indices k)) ++ " "%char :: show_entries (map show_Z (indices k)) ++ newline :: rest)%list s); [| | |reflexivity|exact E'].
  2: { unfold w. destruct k; discriminate. }
  2: { unfold w. destruct k; repeat constructor. }
  rewrite RI. cbn [bind]. rewrite (proj2 (Z.ltb_ge (Z.of_nat (length (indices k))) 0)) by lia. rewrite Nat2Z.id, A. cbn [bind].
  unfold w. destruct k as [l|l]; cbn [indices note] in *; cbn [lit list_ascii_of_string String.append text_eqb].
  - change (text_eqb (lit "linearity") (lit "linearity")) with true. cbv iota. now apply scan_same.
  - change (text_eqb (lit "nonnegative") (lit "linearity")) with false. change (text_eqb (lit "nonnegative") (lit "nonnegative")) with true. rewrite orb_true_r. cbv iota. now apply scan_same.
Qed.
Lemma scan_keywords f : forall ks s st, Forall (fun k => Z.of_nat (length (indices k)) <= 2147483647) ks -> same_rest s (flat_map show_keyword ks) ->
  scan_file (length ks + S f) s st = Ok (fold_left note ks st).
Proof.
  induction ks as [|k ks IH]; intros s st F E.
  - cbn [length Nat.add flat_map] in *. rewrite (scan_same _ _ _ _ E). reflexivity.
  - cbn [length Nat.add flat_map] in *. rewrite (scan_keyword _ s k _ st (Forall_inv F) E). cbn [fold_left]. apply IH; [exact (Forall_inv_tail F)|reflexivity].
Qed.
Lemma entries_len row : (length row <= length (show_entries (map show_rat row)))%nat.
Proof. induction row as [|q row IH]; [cbn; lia|]. cbn [map show_entries flat_map length]. rewrite !app_length. cbn [length]. unfold show_entries in IH. lia. Qed.
Lemma rows_len rows : (fold_right (fun row a => length row + a) 0 rows <= length (flat_map (fun row => show_entries (map show_rat row) ++ [newline]) rows))%nat.
Proof. induction rows as [|row rows IH]; [cbn; lia|]. cbn [flat_map fold_right]. rewrite !app_length. cbn [length]. pose proof (entries_len row). lia. Qed.
Lemma keywords_len ks : (length ks <= length (flat_map show_keyword ks))%nat.
Proof. apply show_keyword_len. Qed.
Definition body (m : matrix) : text := show_body m.
Lemma file_body m ks : mx_lin m = repeat false (length (mx_rows m)) -> file m ks = (show_body m ++ flat_map show_keyword ks)%list.
Proof.
  intros L. unfold file. rewrite write_as_keywords. assert (E : members (mx_lin m) 1 = []); [|now rewrite E, app_nil_r]. rewrite L. generalize 1%nat. generalize (length (mx_rows m)). induction n as [|n IH]; intros k; [reflexivity|]. cbn [repeat members app]. apply IH.
Qed.
Lemma file_split m ks : mx_lin m = repeat false (length (mx_rows m)) -> file m ks =
  (show_nat (length (mx_rows m)) ++ " "%char :: show_nat (mx_cols m) ++ newline :: flat_map (fun row => show_entries (map show_rat row) ++ [newline]) (mx_rows m) ++ flat_map show_keyword ks)%list.
Proof. intros L. rewrite file_body by exact L. unfold show_body. repeat (rewrite <- app_assoc; cbn [app]). reflexivity. Qed.
Lemma scan_file_ok m ks : mx_lin m = repeat false (length (mx_rows m)) -> Forall (fun k => Z.of_nat (length (indices k)) <= 2147483647) ks ->
  scan_file (S (length (file m ks))) (file m ks) (mkScanned None None 0) = Ok (fold_left note ks (mkScanned None None 0)).
Proof.
  intros L F. set (T := fold_right (fun row a => length row + a)%nat 0%nat (mx_rows m)).
  assert (X : exists e, S (length (file m ks)) = S (S (T + (length ks + S e)))).
  { exists (length (file m ks) - 2 - T - length ks)%nat. rewrite (file_split m ks L). repeat (rewrite !app_length; cbn [length]). pose proof (rows_len (mx_rows m)) as A. fold T in A. pose proof (show_keyword_len ks). lia. }
  destruct X as (e & ->). rewrite (file_split m ks L).
  erewrite (scan_count _ _ " "%char); [|reflexivity|reflexivity]. erewrite (scan_count _ _ newline); [|reflexivity|reflexivity]. unfold T. rewrite (scan_rows _ (mx_rows m) _ (flat_map show_keyword ks)) by reflexivity. apply scan_keywords; [exact F|reflexivity].
Qed.

(** ** The rows *)
Lemma dot_affine : forall row x, Forall (fun q => den q = 1) row -> (dot (map num row) x == affine row x)%Q.
Proof.
  induction row as [|q row IH]; intros [|a x] H; cbn [map dot affine]; try reflexivity. rewrite (IH x (Forall_inv_tail H)). unfold value. pose proof (Forall_inv H) as D. cbv beta in D. rewrite D. reflexivity.
Qed.
Lemma dot_opp : forall a x, (dot (map Z.opp a) x == - dot a x)%Q.
Proof. induction a as [|c a IH]; intros [|q x]; cbn [map dot]; try reflexivity. rewrite IH, inject_Z_opp. ring. Qed.
Lemma dot_unit l : forall k x i b, length x = k -> (dot (map (fun j => if (i =? j)%nat && existsb (Z.eqb (Z.of_nat i + 1)%Z) l then 1%Z else 0%Z) (seq b k)) x == if existsb (Z.eqb (Z.of_nat i + 1)%Z) l && (b <=? i)%nat then nth (i - b) x 0 else 0)%Q.
Proof.
  induction k as [|k IH]; intros x i b Lx.
  - destruct x; [|discriminate]. cbn [seq map dot]. destruct (_ && _); [|reflexivity]. now destruct (i - b)%nat.
  - destruct x as [|q x]; [discriminate|]. cbn [seq map dot]. rewrite (IH x i (S b)) by (cbn in Lx; lia). destruct (existsb (Z.eqb (Z.of_nat i + 1)) l); [|rewrite andb_false_r; cbn [andb]; ring]. cbn [andb]. rewrite andb_true_r.
    destruct (Nat.eqb_spec i b) as [->|N].
    + rewrite Nat.leb_refl, (proj2 (Nat.leb_gt (S b) b)), Nat.sub_diag by lia. cbn [nth]. ring.
    + destruct (Nat.leb_spec b i) as [A|A].
      * rewrite (proj2 (Nat.leb_le (S b) i)) by lia. replace (i - b)%nat with (S (i - S b)) by lia. cbn [nth]. ring.
      * rewrite (proj2 (Nat.leb_gt (S b) i)) by lia. ring.
Qed.
Lemma dot_line cols l i x h : length x = (cols - 1)%nat -> (dot (unit_line cols l i) (h :: x) == if existsb (Z.eqb (Z.of_nat i + 1)) l then nth i x 0 else 0)%Q.
Proof. intros Lx. unfold unit_line. cbn [dot]. rewrite (dot_unit l (cols - 1) x i 0 Lx). cbn [Nat.leb]. rewrite Nat.sub_0_r, andb_true_r. ring. Qed.
Lemma negated_ok : forall rows l, Forall (fun i => 1 <= i <= Z.of_nat (length rows)) l -> negated_rows rows l = Ok (map (fun i => map Z.opp (nth (Z.to_nat (i - 1)) rows [])) l).
Proof.
  intros rows. induction l as [|i l IH]; intros F; [reflexivity|]. cbn [negated_rows map]. pose proof (Forall_inv F) as B. cbv beta in B. rewrite (proj2 (Z.leb_le 1 i)), (proj2 (Z.leb_le i _)) by lia. cbn [andb]. rewrite (IH (Forall_inv_tail F)). reflexivity.
Qed.
Definition lp_of (m : matrix) (eq : option (list Z)) (nn : option (list Z)) (flag : Z) : lp :=
  let entries := map (map num) (mx_rows m) in
  mkLp (Z.of_nat (length (mx_rows m)) + (if flag =? 2 then Z.of_nat (mx_cols m) - 1 else 0) + Z.of_nat (length (given eq))) (mx_cols m)
    (entries ++ map (fun i => map Z.opp (nth (Z.to_nat (i - 1)) entries [])) (given eq) ++ match nn with Some l => map (unit_line (mx_cols m) l) (seq 0 (mx_cols m - 1)) | None => [] end)
    (tl (nth 0 entries [])).
Lemma check_lp_ok m ks st : plain_matrix m -> integral m -> (1 <= mx_cols m)%nat -> mx_rows m <> [] -> Forall (fun k => Z.of_nat (length (indices k)) <= 2147483647) ks ->
  fold_left note ks (mkScanned None None 0) = st -> (length (given (sc_equ st)) <= length (mx_rows m))%nat ->
  Forall (fun i => 1 <= i <= Z.of_nat (length (mx_rows m))) (given (sc_equ st)) -> Forall (fun i => 1 <= i <= Z.of_nat (mx_cols m)) (given (sc_nonneg st)) ->
  check_lp (file m ks) = Ok (lp_of m (sc_equ st) (sc_nonneg st) (sc_flag st)).
Proof.
  intros ((W1 & W2 & W3 & W4) & L & V) D C NR F ES LE FE FN. unfold check_lp. rewrite (scan_file_ok m ks L F), ES. cbn [bind].
  rewrite (read_int_show (Z.of_nat (length (mx_rows m))) (file m ks) (" "%char :: show_nat (mx_cols m) ++ newline :: flat_map (fun row => show_entries (map show_rat row) ++ [newline]) (mx_rows m) ++ flat_map show_keyword ks)%list);
    [|rewrite (file_split m ks L); reflexivity|reflexivity|apply int_small; lia]. cbn [bind].
  rewrite (read_int_show (Z.of_nat (mx_cols m)) _ (newline :: flat_map (fun row => show_entries (map show_rat row) ++ [newline]) (mx_rows m) ++ flat_map show_keyword ks)%list); [|reflexivity|reflexivity|apply int_small; lia]. cbn [bind].
  rewrite (proj2 (Z.ltb_ge (Z.of_nat (length (mx_rows m))) 0)), (proj2 (Z.ltb_ge (Z.of_nat (mx_cols m)) 1)) by lia. cbn [orb]. cbv zeta. rewrite !Nat2Z.id. rewrite (proj2 (Z.ltb_ge (Z.of_nat (length (mx_rows m))) _)) by lia.
  rewrite (read_entries_show (mx_cols m) (mx_rows m) _ (flat_map show_keyword ks)); [|eapply Forall_impl; [|exact W1]; now intros row [X _]|exact D|reflexivity].
  assert (FB : forallb (fun i => (1 <=? i) && (i <=? Z.of_nat (mx_cols m))) (given (sc_nonneg st)) = true).
  { apply forallb_forall. intros i Hi. rewrite Forall_forall in FN. specialize (FN i Hi). apply andb_true_iff. split; apply Z.leb_le; lia. }
  rewrite FB. cbn [negb]. rewrite negated_ok by (rewrite map_length; exact FE). cbn [bind]. assert (NZ : (length (mx_rows m) =? 0)%nat = false) by (apply Nat.eqb_neq; destruct (mx_rows m); [congruence|discriminate]). rewrite NZ. cbn [andb]. reflexivity.
Qed.
(** Which rows there are. *)
Definition keeps (m : matrix) (eq nn : option (list Z)) (h : Q) (x : list Q) : Prop :=
  (forall i, (i < length (mx_rows m))%nat -> (0 <= affine (nth i (mx_rows m) []) (h :: x))%Q) /\
  Forall (fun i => (affine (nth (Z.to_nat (i - 1)) (mx_rows m) []) (h :: x) == 0)%Q) (given eq) /\
  Forall (fun i => (0 <= nth (Z.to_nat (i - 1)) x 0)%Q) (given nn).
Lemma nth_num m i : nth i (map (map num) (mx_rows m)) [] = map num (nth i (mx_rows m) []).
Proof. change (@nil Z) with (map num []) at 1. apply map_nth. Qed.
Lemma row_int m i : integral m -> Forall (fun q => den q = 1) (nth i (mx_rows m) []).
Proof. intros D. destruct (Nat.lt_ge_cases i (length (mx_rows m))) as [A|A]; [|rewrite nth_overflow by lia; constructor]. unfold integral in D. rewrite Forall_forall in D. apply D. now apply nth_In. Qed.
Lemma lp_rows_keep m eq nn flag h x : integral m -> (1 <= mx_cols m)%nat -> length x = (mx_cols m - 1)%nat -> Forall (fun i => 1 <= i <= Z.of_nat (length (mx_rows m))) (given eq) -> Forall (fun i => 1 <= i < Z.of_nat (mx_cols m)) (given nn) ->
  (forall row, In row (lp_rows (lp_of m eq nn flag)) -> (0 <= dot row (h :: x))%Q) <-> keeps m eq nn h x.
Proof.
  intros D C Lx FE FN. unfold lp_of, lp_rows. unfold keeps. split.
  - intros H. assert (A : forall i, (i < length (mx_rows m))%nat -> (0 <= affine (nth i (mx_rows m) []) (h :: x))%Q).
    { intros i Hi. rewrite <- (dot_affine (nth i (mx_rows m) []) (h :: x)) by now apply row_int. apply H. apply in_or_app. left. rewrite <- nth_num. apply nth_In. now rewrite map_length. }
    split; [exact A|]. split.
    + apply Forall_forall. intros i Hi. rewrite Forall_forall in FE. specialize (FE i Hi). assert (B : (0 <= dot (map Z.opp (nth (Z.to_nat (i - 1)) (map (map num) (mx_rows m)) [])) (h :: x))%Q).
      { apply H. apply in_or_app. right. apply in_or_app. left. apply (in_map (fun i => map Z.opp (nth (Z.to_nat (i - 1)) (map (map num) (mx_rows m)) []))). exact Hi. }
      rewrite dot_opp, nth_num, dot_affine in B by now apply row_int. specialize (A (Z.to_nat (i - 1)) ltac:(lia)). apply Qle_antisym; [|exact A]. apply Qopp_le_compat in B. rewrite Qopp_involutive in B. exact B.
    + destruct nn as [l|]; [|constructor]. cbn [given] in *. apply Forall_forall. intros i Hi. rewrite Forall_forall in FN. specialize (FN i Hi).
      assert (B : (0 <= dot (unit_line (mx_cols m) l (Z.to_nat (i - 1))) (h :: x))%Q).
      { apply H. apply in_or_app. right. apply in_or_app. right. apply in_map, in_seq. lia. }
      rewrite dot_line in B by exact Lx. assert (E : existsb (Z.eqb (Z.of_nat (Z.to_nat (i - 1)) + 1)) l = true) by (apply existsb_exists; exists i; split; [exact Hi|]; apply Z.eqb_eq; lia). now rewrite E in B.
  - intros (A & B & N) row Hr. apply in_app_or in Hr as [Hr|Hr].
    + apply (In_nth _ _ []) in Hr as (i & Hi & <-). rewrite map_length in Hi. rewrite nth_num, dot_affine by now apply row_int. now apply A.
    + apply in_app_or in Hr as [Hr|Hr].
      * apply in_map_iff in Hr as (i & <- & Hi). rewrite Forall_forall in B. rewrite dot_opp, nth_num, dot_affine by now apply row_int. rewrite (B i Hi). apply Qle_refl.
      * destruct nn as [l|]; [|destruct Hr]. apply in_map_iff in Hr as (i & <- & Hi). rewrite dot_line by exact Lx. destruct (existsb (Z.eqb (Z.of_nat i + 1)) l) eqn:E; [|apply Qle_refl].
        apply existsb_exists in E as (j & Hj & E). apply Z.eqb_eq in E. cbn [given] in N. rewrite Forall_forall in N. specialize (N j Hj). cbv beta in N. replace (Z.to_nat (j - 1)) with i in N by lia. exact N.
Qed.
Lemma usual_keys m ks : Forall (legal_keyword m) ks -> usual_order ks -> let st := fold_left note ks (mkScanned None None 0) in
  Forall (fun i => 1 <= i <= Z.of_nat (length (mx_rows m))) (given (sc_equ st)) /\ Forall (fun i => 1 <= i < Z.of_nat (mx_cols m)) (given (sc_nonneg st)) /\
  (sc_flag st =? 2 = match sc_nonneg st with Some _ => true | None => false end) /\
  (forall l, In (Linearity l) ks <-> sc_equ st = Some l) /\ (forall l, In (Nonnegative l) ks <-> sc_nonneg st = Some l).
Proof.
  intros F U. destruct U as [|k|l l'].
  - cbn. refine (conj (Forall_nil _) (conj (Forall_nil _) (conj eq_refl (conj _ _)))); intros l; split; intros X; try contradiction; discriminate X.
  - pose proof (Forall_inv F) as (_ & _ & G). destruct k as [l|l]; cbn.
    + refine (conj G (conj (Forall_nil _) (conj eq_refl (conj _ _)))); intros l0; split; intros X; try discriminate X; [destruct X as [X|[]]; congruence|left; congruence|destruct X as [X|[]]; discriminate X].
    + refine (conj (Forall_nil _) (conj G (conj eq_refl (conj _ _)))); intros l0; split; intros X; try discriminate X; [destruct X as [X|[]]; discriminate X|destruct X as [X|[]]; congruence|left; congruence].
  - pose proof (Forall_inv F) as (_ & _ & G). pose proof (Forall_inv (Forall_inv_tail F)) as (_ & _ & G'). cbn.
    refine (conj G (conj G' (conj eq_refl (conj _ _)))); intros l0; split; intros X.
    + destruct X as [X|[X|[]]]; congruence.
    + left; congruence.
    + destruct X as [X|[X|[]]]; congruence.
    + right; left; congruence.
Qed.
