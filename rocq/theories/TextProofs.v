(** Proofs about the decimal conversions and the text operations of RationalNTL. *)
From Coq Require Import Decimal DecimalFacts DecimalPos DecimalN DecimalZ.
From Verif Require Import Common Rational RationalSpec RationalProofs Text.
Open Scope Z_scope.

Definition plain (c : ascii) : bool := is_digit c || is_char "-" c || is_char "/" c.
Definition nondigit (s : text) : bool := match s with c :: _ => negb (is_digit c) | [] => true end.

Lemma is_char_eq a c : is_char a c = true <-> a = c.
Proof. apply Ascii.eqb_eq. Qed.
Lemma digit_chars_digits u : Forall (fun c => is_digit c = true) (digit_chars u).
Proof. induction u; constructor; auto. Qed.
Lemma take_digits_app u r : nondigit r = true -> take_digits (digit_chars u ++ r) = (u, r).
Proof.
  intros H. induction u; cbn [digit_chars app]; [|cbn [take_digits digit_of]; rewrite IHu; reflexivity ..].
  destruct r as [|c r]; [reflexivity|]. cbn [nondigit] in H. cbn [take_digits].
  unfold is_digit in H. destruct (digit_of c); [discriminate|reflexivity].
Qed.
Lemma to_int_cases z :
  (exists u, Z.to_int z = Pos u /\ u <> Nil /\ Z.of_uint u = z) \/
  (exists u, Z.to_int z = Neg u /\ u <> Nil /\ Z.of_uint u = - z).
Proof.
  pose proof (DecimalZ.of_to z) as E. destruct z as [|p|p].
  - left. exists (D0 Nil). repeat split; discriminate.
  - left. exists (Pos.to_uint p). repeat split; [apply DecimalPos.Unsigned.to_uint_nonnil|exact E].
  - right. exists (Pos.to_uint p). repeat split; [apply DecimalPos.Unsigned.to_uint_nonnil|].
    change (Z.of_int (Z.to_int (Zneg p))) with (- Z.of_uint (Pos.to_uint p)) in E. lia.
Qed.

Lemma plain_not c : plain c = true -> is_space c = false /\ is_char "," c = false /\ is_char "]" c = false /\ is_char " " c = false /\ is_char "[" c = false.
Proof.
  destruct c as [b0 b1 b2 b3 b4 b5 b6 b7].
  destruct b0, b1, b2, b3, b4, b5, b6, b7; vm_compute; intros H; try discriminate H; auto.
Qed.
Lemma digit_plain c : is_digit c = true -> plain c = true.
Proof. unfold plain. intros ->. reflexivity. Qed.
Lemma digit_not c : is_digit c = true -> is_space c = false /\ is_char "-" c = false /\ is_char "+" c = false /\ is_char "/" c = false.
Proof.
  destruct c as [b0 b1 b2 b3 b4 b5 b6 b7].
  destruct b0, b1, b2, b3, b4, b5, b6, b7; vm_compute; intros H; try discriminate H; auto.
Qed.
Lemma show_Z_plain z : Forall (fun c => plain c = true) (show_Z z).
Proof.
  unfold show_Z. destruct (Z.to_int z) as [u|u]; [|constructor; [reflexivity|]];
    (eapply Forall_impl; [|apply digit_chars_digits]; apply digit_plain).
Qed.
Lemma show_Z_no_slash z : Forall (fun c => is_char "/" c = false) (show_Z z).
Proof.
  unfold show_Z. destruct (Z.to_int z) as [u|u]; [|constructor; [reflexivity|]];
    (eapply Forall_impl; [|apply digit_chars_digits]; intros c Hc; apply (digit_not c Hc)).
Qed.
Lemma show_Z_cons z : exists c s, show_Z z = c :: s.
Proof.
  unfold show_Z. destruct (to_int_cases z) as [(u&->&N&_)|(u&->&_&_)]; [|eauto].
  destruct u; [congruence|cbn [digit_chars]; eauto ..].
Qed.
Lemma digit_chars_cons u : u <> Nil -> exists c s, digit_chars u = c :: s /\ is_digit c = true.
Proof. destruct u; [congruence|cbn [digit_chars]; eauto ..]. Qed.

Lemma skip_space_plain c s : is_space c = false -> skip_space (c :: s) = c :: s.
Proof. cbn [skip_space]. intros ->. reflexivity. Qed.

(** The number at the front of a text is read back, whatever non-digit follows. *)
Lemma to_ZZ_show z r : nondigit r = true -> to_ZZ (show_Z z ++ r) = Ok z.
Proof.
  intros Hr. unfold to_ZZ, show_Z. cbv zeta.
  destruct (to_int_cases z) as [(u&->&N&E)|(u&->&N&E)].
  - destruct (digit_chars_cons u N) as (c&s&Ec&Dc). rewrite Ec; cbn [app].
    destruct (digit_not c Dc) as (S1&S2&_). rewrite (skip_space_plain c _ S1), S2.
    change (c :: (s ++ r)%list) with ((c :: s) ++ r)%list. rewrite <- Ec, (take_digits_app u r Hr).
    destruct u; [congruence|rewrite E; reflexivity ..].
  - cbn [app]. rewrite (skip_space_plain "-"%char _ eq_refl).
    change (is_char "-" "-") with true. cbv iota. rewrite (take_digits_app u r Hr).
    destruct u; [congruence|rewrite E; f_equal; lia ..].
Qed.
Lemma atoi_show z r : nondigit r = true -> int_range z = true -> atoi (show_Z z ++ r) = Ok z.
Proof.
  intros Hr Hi. unfold atoi, show_Z. cbv zeta.
  destruct (to_int_cases z) as [(u&->&N&E)|(u&->&N&E)].
  - destruct (digit_chars_cons u N) as (c&s&Ec&Dc). rewrite Ec; cbn [app].
    destruct (digit_not c Dc) as (S1&S2&S3&_). rewrite (skip_space_plain c _ S1), S2, S3.
    change (c :: (s ++ r)%list) with ((c :: s) ++ r)%list. rewrite <- Ec, (take_digits_app u r Hr).
    cbn [fst]. rewrite E, Hi. reflexivity.
  - cbn [app]. rewrite (skip_space_plain "-"%char _ eq_refl).
    change (is_char "-" "-") with true. cbv iota. rewrite (take_digits_app u r Hr).
    cbn [fst]. rewrite E. replace (- - z) with z by lia. rewrite Hi. reflexivity.
Qed.

Lemma split_at_app p a c b : Forall (fun x => p x = false) a -> p c = true -> split_at p (a ++ c :: b) = Some (a, c :: b).
Proof.
  intros H Hc. induction H as [|x a Hx _ IH]; cbn [app split_at]; [rewrite Hc; reflexivity|].
  rewrite Hx, IH. reflexivity.
Qed.
Lemma split_at_none p a : Forall (fun x => p x = false) a -> split_at p a = None.
Proof. intros H. induction H as [|x a Hx _ IH]; [reflexivity|]. cbn [split_at]. rewrite Hx, IH. reflexivity. Qed.

Lemma lowest_make r : lowest_terms r -> rat_make (num r) (den r) = r.
Proof.
  intros (D&G). unfold rat_make, canonicalize. cbn [num den].
  rewrite (proj2 (Z.ltb_ge (den r) 0)), (proj2 (Z.eqb_neq (den r) 0)) by lia. rewrite G, Z.eqb_refl.
  destruct r; reflexivity.
Qed.

Theorem show_rat_reads r : lowest_terms r -> rat_of_text (show_rat r) = Ok r.
Proof.
  intros H. unfold rat_of_text, show_rat. destruct (den r =? 1) eqn:D.
  - rewrite app_nil_r, split_at_none by apply show_Z_no_slash.
    pose proof (to_ZZ_show (num r) [] eq_refl) as E. rewrite app_nil_r in E. rewrite E. cbn [bind].
    destruct r as [n d]. cbn [num den] in *. apply Z.eqb_eq in D. subst. reflexivity.
  - rewrite (split_at_app (is_char "/")) by (first [apply show_Z_no_slash|reflexivity]). cbn [tl].
    pose proof (to_ZZ_show (num r) [] eq_refl) as E. rewrite app_nil_r in E. rewrite E. cbn [bind].
    pose proof (to_ZZ_show (den r) [] eq_refl) as E2. rewrite app_nil_r in E2. rewrite E2. cbn [bind].
    rewrite (lowest_make r H). reflexivity.
Qed.

Lemma show_rat_plain r : Forall (fun c => plain c = true) (show_rat r).
Proof.
  unfold show_rat. apply Forall_app. split; [apply show_Z_plain|].
  destruct (den r =? 1); constructor; [reflexivity|apply show_Z_plain].
Qed.

(** readNumber on a printed number. *)
Lemma read_number_show z r : nondigit r = true -> read_number (show_Z z ++ r) = Ok (z, r).
Proof.
  intros Hr. unfold read_number, show_Z.
  destruct (to_int_cases z) as [(u&Eu&N&E)|(u&Eu&N&E)]; rewrite Eu.
  - destruct u as [|u|u|u|u|u|u|u|u|u|u]; [congruence|..];
      (cbn [digit_chars app]; rewrite skip_space_plain by reflexivity; rewrite (take_digits_app _ r Hr);
       cbn [is_char is_digit digit_of orb];
       match goal with |- (if ?b then _ else _) = _ => replace b with true by reflexivity end;
       match goal with |- bind (to_ZZ ?x) _ = _ => replace (to_ZZ x) with (@Ok Z z); [reflexivity|] end;
       pose proof (to_ZZ_show z [] eq_refl) as F; rewrite app_nil_r in F; unfold show_Z in F; rewrite Eu in F;
       cbn [digit_chars] in F; symmetry; exact F).
  - cbn [app]. rewrite skip_space_plain by reflexivity. rewrite (take_digits_app _ r Hr).
    match goal with |- (if ?b then _ else _) = _ => replace b with true by reflexivity end.
    pose proof (to_ZZ_show z [] eq_refl) as F. rewrite app_nil_r in F. unfold show_Z in F. rewrite Eu in F.
    rewrite F. reflexivity.
Qed.

(** What follows the number in the stream: its first non-space character must not be a
    digit glued to the number, nor a slash. *)
Definition follows (r : text) : bool :=
  nondigit r && match skip_space r with c :: _ => negb (is_char "/" c) | [] => true end.
Theorem show_rat_streams r s : lowest_terms r -> follows s = true ->
  read_rat (show_rat r ++ s) = Ok (r, if den r =? 1 then skip_space s else s).
Proof.
  intros H F. unfold follows in F. apply andb_true_iff in F. destruct F as (F1&F2).
  unfold read_rat, show_rat. destruct (den r =? 1) eqn:D.
  - rewrite app_nil_r, (read_number_show _ s F1). cbn [bind].
    assert (R : rat_make (num r) 1 = r).
    { apply Z.eqb_eq in D. rewrite <- D at 1. apply lowest_make, H. }
    destruct (skip_space s) as [|c s'] eqn:Es; [rewrite R; reflexivity|].
    apply negb_true_iff in F2. rewrite F2, R. reflexivity.
  - rewrite <- app_assoc, (read_number_show (num r)) by reflexivity. cbn [bind app].
    rewrite skip_space_plain by reflexivity. change (is_char "/" "/") with true. cbv iota.
    rewrite (read_number_show (den r) s F1). cbn [bind fst snd]. rewrite (lowest_make r H). reflexivity.
Qed.
