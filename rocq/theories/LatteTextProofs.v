From Coq Require Import Decimal QArith.
From Verif Require Import Common Rational RationalSpec Text TextProofs LatteText LatteTextSpec.
Open Scope Z_scope.

Lemma read_signed_show z r : nondigit r = true -> read_signed (show_Z z ++ r) = Some (z, r).
Proof.
  intros Hr. unfold read_signed, show_Z.
  destruct (to_int_cases z) as [(u&->&N&E)|(u&->&N&E)].
  - destruct (digit_chars_cons u N) as (c&s&Ec&Dc). rewrite Ec; cbn [app].
    destruct (digit_not c Dc) as (S1&S2&S3&_). rewrite S2, S3.
    change (c :: (s ++ r)%list) with ((c :: s) ++ r)%list. rewrite <- Ec, (take_digits_app u r Hr).
    destruct u; [congruence|rewrite E; reflexivity ..].
  - cbn [app]. change (is_char "-" "-") with true. cbv iota. rewrite (take_digits_app u r Hr).
    destruct u; [congruence|rewrite E; f_equal; f_equal; lia ..].
Qed.
Lemma skip_idem s : skip_space (skip_space s) = skip_space s.
Proof. induction s as [|c s IH]; [reflexivity|]. cbn [skip_space]. destruct (is_space c) eqn:E; [exact IH|]. cbn [skip_space]. rewrite E. reflexivity. Qed.
Lemma skip_show_Z z r : skip_space (show_Z z ++ r) = (show_Z z ++ r)%list.
Proof.
  pose proof (show_Z_plain z) as P. destruct (show_Z_cons z) as (c&w&E). rewrite E in *. cbn [app].
  apply skip_space_plain. apply (plain_not c (Forall_inv P)).
Qed.
Lemma skip_show_rat q r : skip_space (show_rat q ++ r) = (show_rat q ++ r)%list.
Proof. unfold show_rat. rewrite <- app_assoc. apply skip_show_Z. Qed.
Lemma skip_sp s : skip_space (" "%char :: s) = skip_space s.
Proof. reflexivity. Qed.
Lemma skip_nl s : skip_space (newline :: s) = skip_space s.
Proof. reflexivity. Qed.

(** Two streams that differ only in leading white space. *)
Definition same_rest (s t : text) : Prop := skip_space s = skip_space t.

Lemma read_int_show z s r : same_rest s (show_Z z ++ r) -> nondigit r = true -> int_range z = true -> read_int s = Ok (z, r).
Proof.
  intros E Hr Hi. unfold read_int. rewrite E, skip_show_Z, (read_signed_show z r Hr), Hi. reflexivity.
Qed.
Lemma read_mpq_show q s r : lowest_terms q -> same_rest s (show_rat q ++ " "%char :: r) -> read_mpq s = Ok (q, " "%char :: r).
Proof.
  intros (D&G) E. unfold read_mpq. rewrite E, skip_show_rat. unfold show_rat. destruct (den q =? 1) eqn:D1.
  - rewrite app_nil_r, read_signed_show by reflexivity. cbn [is_char]. change (is_char "/" " ") with false. cbv iota.
    apply Z.eqb_eq in D1. destruct q as [n d]. cbn [num den] in *. subst. reflexivity.
  - rewrite <- app_assoc, read_signed_show by reflexivity. cbn [app]. change (is_char "/" "/") with true. cbv iota.
    rewrite read_signed_show by reflexivity. destruct q; reflexivity.
Qed.
Lemma read_row_show : forall row s rest, Forall lowest_terms row ->
  same_rest s (show_entries (map show_rat row) ++ rest) -> exists s', read_row (length row) s = Ok (row, s') /\ same_rest s' rest.
Proof.
  induction row as [|q row IH]; intros s rest H E; [exists s; split; [reflexivity|exact E]|].
  cbn [map show_entries flat_map] in E. rewrite <- !app_assoc in E. cbn [app] in E.
  cbn [length read_row]. rewrite (read_mpq_show q s _ (Forall_inv H) E). cbn [bind fst snd].
  destruct (IH (" "%char :: show_entries (map show_rat row) ++ rest)%list rest (Forall_inv_tail H)) as (s'&E1&E2); [reflexivity|].
  unfold show_entries in E1. rewrite E1. cbn [bind fst snd]. eauto.
Qed.
Lemma read_rows_show k : forall rows s rest, Forall (fun row => length row = k /\ Forall lowest_terms row) rows ->
  same_rest s (flat_map (fun row => show_entries (map show_rat row) ++ [newline]) rows ++ rest)%list ->
  exists s', read_rows (length rows) k s = Ok (rows, s') /\ same_rest s' rest.
Proof.
  induction rows as [|row rows IH]; intros s rest H E; [exists s; split; [reflexivity|exact E]|].
  cbn [flat_map] in E. rewrite <- !app_assoc in E. cbn [app] in E.
  destruct (Forall_inv H) as (L&F). cbn [length read_rows].
  destruct (read_row_show row s _ F E) as (s1&E1&E2). rewrite L in E1. rewrite E1. cbn [bind fst snd].
  destruct (IH s1 rest (Forall_inv_tail H)) as (s'&E3&E4); [unfold same_rest in *; rewrite E2; apply skip_nl|].
  rewrite E3. cbn [bind fst snd]. eauto.
Qed.
Lemma read_ints_show : forall l s rest, Forall (fun z => int_range z = true) l ->
  same_rest s (show_entries (map show_Z l) ++ rest) -> exists s', read_ints (length l) s = Ok (l, s') /\ same_rest s' rest.
Proof.
  induction l as [|z l IH]; intros s rest H E; [exists s; split; [reflexivity|exact E]|].
  cbn [map show_entries flat_map] in E. rewrite <- !app_assoc in E. cbn [app] in E.
  cbn [length read_ints]. rewrite (read_int_show z s _ E eq_refl (Forall_inv H)). cbn [bind fst snd].
  destruct (IH (" "%char :: show_entries (map show_Z l) ++ rest)%list rest (Forall_inv_tail H)) as (s'&E1&E2); [reflexivity|].
  unfold show_entries in E1. rewrite E1. cbn [bind fst snd]. eauto.
Qed.

(** ** The linearity set *)
Lemma set_add_all_length : forall l lin lin', set_add_all lin l = Ok lin' -> length lin' = length lin.
Proof.
  induction l as [|i l IH]; intros lin lin' E; cbn [set_add_all] in E; [inversion E; reflexivity|].
  unfold set_add in E. destruct (i =? 0); [discriminate|]. destruct (i <? 0); cbn [bind] in E; rewrite (IH _ _ E); [reflexivity|apply length_upd].
Qed.
Lemma set_add_all_ok : forall l lin, Forall (fun i => 1 <= i) l ->
  exists lin', set_add_all lin l = Ok lin' /\
    forall j, (j < length lin)%nat -> nth j lin' false = nth j lin false || existsb (Z.eqb (Z.of_nat (S j))) l.
Proof.
  induction l as [|i l IH]; intros lin H; cbn [set_add_all]; [exists lin; split; [reflexivity|]; intros j _; rewrite orb_false_r; reflexivity|].
  pose proof (Forall_inv H) as Hi. cbv beta in Hi. unfold set_add.
  rewrite (proj2 (Z.eqb_neq i 0)), (proj2 (Z.ltb_ge i 0)) by lia. cbn [bind].
  destruct (IH (upd lin (Z.to_nat (i - 1)) true) (Forall_inv_tail H)) as (lin'&E&N). exists lin'. split; [exact E|].
  intros j Hj. rewrite N by (rewrite length_upd; exact Hj). cbn [existsb].
  destruct (Z.eqb_spec (Z.of_nat (S j)) i) as [Ei|Ni].
  - replace (Z.to_nat (i - 1)) with j by lia. rewrite nth_upd_eq by exact Hj. rewrite orb_true_l. rewrite orb_true_r. reflexivity.
  - rewrite nth_upd_neq by lia. rewrite orb_false_l. reflexivity.
Qed.
Lemma linearity_flags l lin : Forall (fun i => 1 <= i) l ->
  set_add_all lin l = Ok (map (fun p => snd p || existsb (Z.eqb (Z.of_nat (fst p))) l) (combine (seq 1 (length lin)) lin)).
Proof.
  intros H. destruct (set_add_all_ok l lin H) as (lin'&E&N). rewrite E. f_equal.
  pose proof (set_add_all_length _ _ _ E) as L.
  apply (nth_ext _ _ false false).
  - rewrite map_length, combine_length, seq_length, L. lia.
  - intros j Hj. rewrite L in Hj. rewrite N by exact Hj.
    rewrite (nth_indep (map _ _) false ((fun p : nat * bool => snd p || existsb (Z.eqb (Z.of_nat (fst p))) l) (O, false))) by (rewrite map_length, combine_length, seq_length; lia).
    rewrite (map_nth (fun p : nat * bool => snd p || existsb (Z.eqb (Z.of_nat (fst p))) l)).
    rewrite combine_nth by apply seq_length. cbn [fst snd]. rewrite seq_nth by exact Hj. reflexivity.
Qed.
Lemma members_in lin : forall i j, In j (members lin i) <-> (i <= j < i + length lin)%nat /\ nth (j - i) lin false = true.
Proof.
  induction lin as [|b lin IH]; intros i j; cbn [members length].
  - split; [intros []|intros (H&_); lia].
  - rewrite in_app_iff, IH. destruct (Nat.eq_dec j i) as [->|N].
    + rewrite Nat.sub_diag. cbn [nth]. destruct b; cbn [In].
      * split; [intros _; split; [lia|reflexivity]|intros _; left; left; reflexivity].
      * split; [intros [[]|(H&_)]; lia|intros (_&H); discriminate].
    + destruct (le_lt_dec i j) as [Le|Lt].
      * replace (j - i)%nat with (S (j - S i)) by lia. cbn [nth].
        split; [intros [H|(H&H1)]; [destruct b; cbn in H; [destruct H; [congruence|destruct H]|destruct H]|split; [lia|exact H1]]|].
        intros (H&H1). right. split; [lia|exact H1].
      * split; [intros [H|(H&H1)]; [destruct b; cbn in H; [destruct H; [congruence|destruct H]|destruct H]|lia]|intros (H&_); lia].
Qed.
Lemma members_flags lin : set_add_all (repeat false (length lin)) (map Z.of_nat (members lin 1)) = Ok lin.
Proof.
  assert (H : Forall (fun i => 1 <= i) (map Z.of_nat (members lin 1))).
  { apply Forall_map. apply Forall_forall. intros j Hj. apply members_in in Hj. lia. }
  destruct (set_add_all_ok _ (repeat false (length lin)) H) as (lin'&E&N). rewrite E. f_equal.
  pose proof (set_add_all_length _ _ _ E) as L. rewrite repeat_length in L, N.
  apply (nth_ext _ _ false false); [exact L|]. intros j Hj. rewrite L in Hj. rewrite N by exact Hj.
  rewrite nth_repeat. cbn [orb]. destruct (nth j lin false) eqn:Ej.
  - apply existsb_exists. exists (Z.of_nat (S j)). split; [|apply Z.eqb_refl]. apply in_map, members_in. split; [lia|].
    replace (S j - 1)%nat with j by lia. exact Ej.
  - destruct (existsb _ _) eqn:Ex; [|reflexivity]. apply existsb_exists in Ex. destruct Ex as (z&Iz&Ez). apply Z.eqb_eq in Ez. subst z.
    apply in_map_iff in Iz. destruct Iz as (k&Ek&Ik). assert (k = S j) by lia. subst k. apply members_in in Ik.
    destruct Ik as (_&Ik). replace (S j - 1)%nat with j in Ik by lia. congruence.
Qed.

(** ** Unit rows *)
Lemma unit_row_ok cols i : 0 <= i < Z.of_nat cols ->
  unit_row cols i = Ok (map (fun j => if Z.of_nat j =? i then mkRat 1 1 else mkRat 0 1) (seq 0 cols)).
Proof.
  intros H. unfold unit_row. rewrite (proj2 (Z.leb_le 0 i)), (proj2 (Z.ltb_lt i (Z.of_nat cols))) by lia. cbn [andb]. f_equal.
  apply (nth_ext _ _ (mkRat 0 1) (mkRat 0 1)); [rewrite length_upd, repeat_length, map_length, seq_length; reflexivity|].
  intros j Hj. rewrite length_upd, repeat_length in Hj.
  rewrite (nth_indep (map _ _) (mkRat 0 1) ((fun j => if Z.of_nat j =? i then mkRat 1 1 else mkRat 0 1) O)) by (rewrite map_length, seq_length; exact Hj).
  rewrite (map_nth (fun j => if Z.of_nat j =? i then mkRat 1 1 else mkRat 0 1)), seq_nth by exact Hj. cbn [Nat.add].
  destruct (Z.eqb_spec (Z.of_nat j) i) as [E|E].
  - replace (Z.to_nat i) with j by lia. apply nth_upd_eq. rewrite repeat_length. exact Hj.
  - rewrite nth_upd_neq by lia. apply nth_repeat.
Qed.
Lemma unit_rows_ok cols : forall l, Forall (fun i => 1 <= i < Z.of_nat cols) l ->
  unit_rows cols 0 l = Ok (map (fun i => map (fun j => if Z.of_nat j =? i then mkRat 1 1 else mkRat 0 1) (seq 0 cols)) l).
Proof.
  induction l as [|i l IH]; intros H; [reflexivity|]. cbn [unit_rows]. pose proof (Forall_inv H) as Hi. cbv beta in Hi.
  rewrite Z.add_0_r, unit_row_ok by lia. cbn [bind]. rewrite IH by apply (Forall_inv_tail H). reflexivity.
Qed.
