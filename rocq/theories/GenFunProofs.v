(** Reading back printed rational functions: the reader. *)
From Coq Require Import String QArith Ascii.
From Coq Require Import Decimal.
From Verif Require Import Common Rational Text TextProofs GenFunSpec.
Open Scope Z_scope.

Definition next (l : list ascii) (r : chars) : Prop := match skip r with [] => True | c :: _ => In c l end.
Definition stop (r : chars) : Prop := match r with [] => True | c :: _ => digit c = None end.
Definition marks : list ascii := [")"; "+"; "-"; "*"; "/"; "^"]%char.
Lemma mark_facts c : In c marks -> digit c = None /\ white c = false.
Proof. intros H. cbn in H. repeat (destruct H as [<-|H]; [split; reflexivity|]). destruct H. Qed.
Lemma white_digit c : white c = true -> digit c = None.
Proof. destruct c as [[] [] [] [] [] [] [] []]; intros H; vm_compute in H; try discriminate; reflexivity. Qed.
Lemma next_stop l r : incl l marks -> next l r -> stop r.
Proof. intros I. unfold next, stop. destruct r as [|c r]; [auto|]. cbn [skip]. destruct (white c) eqn:W; [intros _; now apply white_digit|]. intros H. apply mark_facts, I, H. Qed.
Lemma next_incl l l' r : incl l l' -> next l r -> next l' r.
Proof. unfold next. intros I. destruct (skip r); auto. Qed.
Lemma starts_none l c r : next l r -> ~ In c l -> starts c r = None.
Proof. unfold next, starts. intros H N. destruct (skip r) as [|a s]; [reflexivity|]. destruct (Ascii.eqb_spec a c) as [->|]; [contradiction|reflexivity]. Qed.
Lemma starts_some c s : white c = false -> starts c (c :: s) = Some s.
Proof. intros W. unfold starts. cbn [skip]. now rewrite W, Ascii.eqb_refl. Qed.
Lemma starts_head a c s : white a = false -> a <> c -> starts c (a :: s) = None.
Proof. intros W N. unfold starts. cbn [skip]. rewrite W. destruct (Ascii.eqb_spec a c); [contradiction|reflexivity]. Qed.
Lemma next_head l a s : white a = false -> In a l -> next l (a :: s).
Proof. intros W I. unfold next. cbn [skip]. now rewrite W. Qed.
Lemma next_mark l a s : In a marks -> In a l -> next l (a :: s).
Proof. intros M. apply next_head. now apply mark_facts. Qed.

(** Numbers. *)
Fixpoint uval (acc : Z) (u : uint) : Z :=
  match u with
  | Nil => acc | D0 u => uval (10 * acc) u | D1 u => uval (10 * acc + 1) u | D2 u => uval (10 * acc + 2) u | D3 u => uval (10 * acc + 3) u | D4 u => uval (10 * acc + 4) u
  | D5 u => uval (10 * acc + 5) u | D6 u => uval (10 * acc + 6) u | D7 u => uval (10 * acc + 7) u | D8 u => uval (10 * acc + 8) u | D9 u => uval (10 * acc + 9) u
  end.
Lemma number_digits u r : stop r -> forall acc, number acc (digit_chars u ++ r) = (uval acc u, r).
Proof.
  intros H. induction u as [|u IH|u IH|u IH|u IH|u IH|u IH|u IH|u IH|u IH|u IH]; intros acc; cbn [digit_chars app uval];
    [destruct r as [|c r]; [reflexivity|]; cbn [number]; unfold stop in H; now rewrite H| | | | | | | | | |]; (change (number acc (?c :: ?s)) with (match digit c with Some k => number (10 * acc + k) s | None => (acc, c :: s) end)); cbn [number]; match goal with |- context [digit ?c] => let d := eval vm_compute in (digit c) in change (digit c) with d end; cbv iota; rewrite IH; do 2 f_equal; lia.
Qed.
Lemma uval_pos u : forall p, uval (Zpos p) u = Zpos (Pos.of_uint_acc u p).
Proof. induction u; intros p; cbn [uval Pos.of_uint_acc]; [reflexivity| | | | | | | | | |]; match goal with H : forall p, _ |- uval ?z ?u = Z.pos (Pos.of_uint_acc ?u ?q) => replace z with (Zpos q); [apply H|] end; rewrite ?Pos2Z.inj_add, ?(Pos2Z.inj_mul 10); lia. Qed.
Lemma uval_zero u : uval 0 u = Z.of_uint u.
Proof. unfold Z.of_uint. induction u; cbn [uval Pos.of_uint]; try reflexivity; try exact IHu; rewrite Z.mul_0_r, ?Z.add_0_l; rewrite uval_pos; reflexivity. Qed.
Lemma show_nonneg z : 0 <= z -> exists u, show_Z z = digit_chars u /\ Z.of_uint u = z /\ u <> Nil.
Proof.
  intros H. unfold show_Z. destruct (to_int_cases z) as [(u & E & N & V)|(u & E & N & V)]; rewrite E; [exists u; auto|]. exfalso. destruct z; cbn in E; [discriminate|discriminate|lia].
Qed.
Lemma show_neg z : z < 0 -> show_Z z = ("-"%char :: show_Z (- z))%list.
Proof. destruct z; try lia. intros _. reflexivity. Qed.
Lemma digit_char_digit c : is_digit c = true -> exists k, digit c = Some k.
Proof. intros H. destruct c as [[] [] [] [] [] [] [] []]; vm_compute in H; try discriminate; vm_compute; eauto. Qed.

(** A text is read as an atom, a power, ... *)
Definition atomP (t : chars) (e : mexpr) : Prop := forall f r, (length t <= f)%nat -> stop r -> atom (sum f) (t ++ r) = Some (e, r).
Definition powP (t : chars) (e : mexpr) : Prop := forall f r, (length t <= f)%nat -> next [")"; "+"; "-"; "*"; "/"]%char r -> power (sum f) (t ++ r) = Some (e, r).
Definition factor_start (t : chars) : Prop := match t with [] => True | c :: _ => c = "*"%char \/ c = "/"%char end.
Definition facP (t : chars) (a e : mexpr) : Prop := factor_start t /\ forall f K r res, (length t <= f)%nat -> next [")"; "+"; "-"; "*"; "/"]%char r -> more_factors K (sum f) e r = Some res -> more_factors (length t + K) (sum f) a (t ++ r) = Some res.
Definition prodP (t : chars) (e : mexpr) : Prop := forall f K r, (length t <= f)%nat -> (length t <= K)%nat -> next [")"; "+"; "-"]%char r -> product K (sum f) (t ++ r) = Some (e, r).
Definition term_start (t : chars) : Prop := next ["+"; "-"]%char t /\ (skip t = [] -> t = []).
Definition termsP (t : chars) (a e : mexpr) : Prop := term_start t /\ forall f l K r res, (length t <= f)%nat -> (length t <= l)%nat -> next [")"; "+"; "-"]%char r -> more_terms K l (sum f) e r = Some res -> more_terms (length t + K) l (sum f) a (t ++ r) = Some res.
Definition sumP (t : chars) (e : mexpr) : Prop := forall f r, (length t < f)%nat -> next [")"]%char r -> sum f (t ++ r) = Some (e, r).

Ltac inclt := let a := fresh in let h := fresh in unfold marks, incl; cbn; intros a h; repeat (destruct h as [<-|h]; [auto 10|]); destruct h.
Lemma factors_mono sm : forall K a s res, more_factors K sm a s = Some res -> more_factors (S K) sm a s = Some res.
Proof.
  induction K as [|K IH]; intros a s res H; cbn [more_factors] in H |- *.
  - destruct (starts "*" s); [discriminate|]. destruct (starts "/" s); [discriminate|exact H].
  - destruct (starts "*" s) as [c0|]; [destruct (power sm c0) as [[b r1]|]; [|discriminate]; apply IH; exact H|]. destruct (starts "/" s) as [c0|]; [destruct (power sm c0) as [[b r1]|]; [|discriminate]; apply IH; exact H|exact H].
Qed.
Lemma factors_le sm K K' a s res : (K <= K')%nat -> more_factors K sm a s = Some res -> more_factors K' sm a s = Some res.
Proof. intros L. induction L as [|K' L IH]; auto. intros H. apply factors_mono. auto. Qed.
Lemma terms_mono sm l : forall K a s res, more_terms K l sm a s = Some res -> more_terms (S K) l sm a s = Some res.
Proof.
  induction K as [|K IH]; intros a s res H; cbn [more_terms] in H |- *.
  - destruct (starts "+" s); [discriminate|]. destruct (starts "-" s); [discriminate|exact H].
  - destruct (starts "+" s) as [c0|]; [destruct (product l sm c0) as [[b r1]|]; [|discriminate]; apply IH; exact H|]. destruct (starts "-" s) as [c0|]; [destruct (product l sm c0) as [[b r1]|]; [|discriminate]; apply IH; exact H|exact H].
Qed.
Lemma terms_le sm l K K' a s res : (K <= K')%nat -> more_terms K l sm a s = Some res -> more_terms K' l sm a s = Some res.
Proof. intros L. induction L as [|K' L IH]; auto. intros H. apply terms_mono. auto. Qed.
Lemma factors_end K sm a r : next [")"; "+"; "-"]%char r -> more_factors K sm a r = Some (a, r).
Proof. intros H. destruct K; cbn [more_factors]; rewrite (starts_none _ "*" r H), (starts_none _ "/" r H); auto; cbn; intuition discriminate. Qed.
Lemma terms_end K l sm a r : next [")"]%char r -> more_terms K l sm a r = Some (a, r).
Proof. intros H. destruct K; cbn [more_terms]; rewrite (starts_none _ "+" r H), (starts_none _ "-" r H); auto; cbn; intuition discriminate. Qed.

Lemma atom_num z : 0 <= z -> atomP (show_Z z) (MInt z).
Proof.
  intros H f r _ ST. destruct (show_nonneg z H) as (u & E & V & N). rewrite E. destruct (digit_chars_cons u N) as (c & s & EC & DC). destruct (digit_char_digit c DC) as (k & K). pose proof (number_digits u r ST 0) as X. rewrite uval_zero, V, EC in X. rewrite EC. cbn [app] in *. unfold atom. cbn [skip].
  destruct (white c) eqn:W; [apply white_digit in W; congruence|]. rewrite K. rewrite X. reflexivity.
Qed.
Lemma atom_var i : atomP (lit "x[" ++ show_Z (Z.of_nat i) ++ lit "]") (MVar i).
Proof.
  intros f r _ ST. destruct (show_nonneg (Z.of_nat i) ltac:(lia)) as (u & E & V & N). rewrite E. destruct (digit_chars_cons u N) as (c & s & EC & DC). destruct (digit_char_digit c DC) as (k & K). pose proof (number_digits u ("]" :: r)%char%list eq_refl 0) as X. rewrite uval_zero, V, EC in X. rewrite EC. rewrite <- !app_assoc. cbn [app lit list_ascii_of_string] in *.
  unfold atom. cbn [skip white nat_of_ascii]. change (white "x") with false. cbv iota. change (digit "x") with (@None Z). cbv iota. change ((("x" =? "(")%char)) with false. cbv iota. change ((("x" =? "x")%char)) with true. cbv iota. rewrite (starts_some "[" _ eq_refl), K, X, (starts_some "]" _ eq_refl). now rewrite Nat2Z.id.
Qed.
Lemma atom_paren t e : sumP t e -> atomP (lit "(" ++ t ++ lit ")") e.
Proof.
  intros H f r L ST. unfold lit in *. cbn [list_ascii_of_string app] in *. rewrite <- app_assoc. cbn [length] in L. rewrite app_length in L. cbn [length app] in *. unfold atom. cbn [skip]. change (white "(") with false. cbv iota. change (digit "(") with (@None Z). cbv iota. change ((("(" =? "(")%char)) with true. cbv iota.
  rewrite (H f (")" :: r)%char%list); [|lia|apply next_mark; cbn; auto]. now rewrite (starts_some ")" r eq_refl).
Qed.
Lemma pow_atom t e : atomP t e -> powP t e.
Proof.
  intros H f r L N. unfold power. unfold atomP in H. rewrite H; [|exact L|apply (next_stop [")"; "+"; "-"; "*"; "/"]%char); [inclt|exact N]]. rewrite (starts_none _ "^" r N); [reflexivity|]. cbn. intuition discriminate.
Qed.
Lemma pow_pow t e t' e' : atomP t e -> atomP t' e' -> powP (t ++ lit "^" ++ t') (MPow e e').
Proof.
  intros H H' f r L N. unfold lit in *. cbn [list_ascii_of_string app] in *. rewrite app_length in L. cbn [length] in L. rewrite <- app_assoc. cbn [app]. unfold power. unfold atomP in H, H'. rewrite H; [|lia|reflexivity]. rewrite (starts_some "^" _ eq_refl). rewrite H'; [reflexivity|lia|apply (next_stop [")"; "+"; "-"; "*"; "/"]%char); [inclt|exact N]].
Qed.
Lemma next_factor t r : factor_start t -> next [")"; "+"; "-"; "*"; "/"]%char r -> next [")"; "+"; "-"; "*"; "/"]%char (t ++ r).
Proof. destruct t as [|c t]; [auto|]. intros [->| ->] _; apply next_mark; cbn; auto 10. Qed.
Lemma fac_nil a : facP [] a a.
Proof. split; [exact I|]. intros f K r res _ _ H. exact H. Qed.
Lemma fac_app t1 t2 a b c : facP t1 a b -> facP t2 b c -> facP (t1 ++ t2) a c.
Proof.
  intros [F1 H1] [F2 H2]. split; [destruct t1; [exact F2|exact F1]|]. intros f K r res L N H. rewrite app_length in *. rewrite <- app_assoc, <- Nat.add_assoc. apply H1; [lia|now apply next_factor|]. apply H2; [lia|exact N|exact H].
Qed.
Lemma fac_mul t a b : powP t b -> facP (lit "*" ++ t) a (MMul a b).
Proof.
  intros H. split; [now left|]. intros f K r res L N X. unfold lit in *. cbn [list_ascii_of_string app length] in *. cbn [Nat.add more_factors]. rewrite (starts_some "*" _ eq_refl). unfold powP in H. rewrite H by (auto; lia). apply (factors_le _ K); [lia|exact X].
Qed.
Lemma fac_div t a b : powP t b -> facP (lit "/" ++ t) a (MDiv a b).
Proof.
  intros H. split; [now right|]. intros f K r res L N X. unfold lit in *. cbn [list_ascii_of_string app length] in *. cbn [Nat.add more_factors]. rewrite (starts_head "/" "*" _ eq_refl) by discriminate. rewrite (starts_some "/" _ eq_refl). unfold powP in H. rewrite H by (auto; lia). apply (factors_le _ K); [lia|exact X].
Qed.
Lemma prod_of t1 t2 a e : powP t1 a -> facP t2 a e -> prodP (t1 ++ t2) e.
Proof.
  intros H1 [F2 H2] f K r L LK N. rewrite app_length in *. rewrite <- app_assoc. unfold product. assert (N' : next [")"; "+"; "-"; "*"; "/"]%char r) by (revert N; apply next_incl; inclt). unfold powP in H1. rewrite H1; [|lia|now apply next_factor].
  replace K with (length t2 + (K - length t2))%nat by lia. apply H2; [lia|exact N'|]. now apply factors_end.
Qed.
Lemma prod_pow t e : powP t e -> prodP t e.
Proof. intros H. rewrite <- (app_nil_r t). exact (prod_of t [] e e H (fac_nil e)). Qed.
Lemma skip_app t r : skip t <> [] -> skip (t ++ r) = (skip t ++ r)%list.
Proof. induction t as [|c t IH]; cbn [skip app]; [congruence|]. destruct (white c); auto. Qed.
Lemma next_app l t r : next l t -> skip t <> [] -> next l (t ++ r).
Proof. unfold next. intros H N. rewrite skip_app by exact N. destruct (skip t); [congruence|exact H]. Qed.
Lemma next_term t r : term_start t -> next [")"; "+"; "-"]%char r -> next [")"; "+"; "-"]%char (t ++ r).
Proof.
  intros [A B] N. destruct (skip t) eqn:S0; [rewrite (B eq_refl); exact N|]. apply next_app; [|congruence]. revert A. apply next_incl. inclt.
Qed.
Lemma terms_nil a : termsP [] a a.
Proof. split; [split; [exact I|reflexivity]|]. intros f l K r res _ _ _ H. exact H. Qed.
Lemma terms_app t1 t2 a b c : termsP t1 a b -> termsP t2 b c -> termsP (t1 ++ t2) a c.
Proof.
  intros [[A1 B1] H1] [F2 H2]. split.
  - destruct (skip t1) eqn:S0; [rewrite (B1 eq_refl); exact F2|]. split; [apply next_app; [exact A1|congruence]|]. rewrite skip_app by congruence. rewrite S0. discriminate.
  - intros f l K r res L LL N H. rewrite app_length in *. rewrite <- app_assoc, <- Nat.add_assoc. apply H1; [lia|lia|now apply next_term|]. apply H2; [lia|lia|exact N|exact H].
Qed.
Lemma starts_skip c w s : Forall (fun x => white x = true) w -> starts c (w ++ s) = starts c s.
Proof. intros H. unfold starts. f_equal. induction H as [|x w X H IH]; [reflexivity|]. cbn [app skip]. rewrite X. now rewrite IH. Qed.
Lemma skip_white w s : Forall (fun x => white x = true) w -> skip (w ++ s) = skip s.
Proof. induction 1 as [|x w X H IH]; [reflexivity|]. cbn [app skip]. now rewrite X. Qed.
Lemma product_skip f K w s : Forall (fun x => white x = true) w -> product K (sum f) (w ++ s) = product K (sum f) s.
Proof. intros H. unfold product, power, atom. now rewrite (skip_white w s H). Qed.
Lemma terms_add w w' t a b : Forall (fun x => white x = true) w -> Forall (fun x => white x = true) w' -> prodP t b -> termsP (w ++ lit "+" ++ w' ++ t) a (MAdd a b).
Proof.
  intros W W' H. split.
  - unfold term_start, next. rewrite skip_white by exact W. cbn. change (white "+") with false. cbv iota. split; [left; reflexivity|discriminate].
  - intros f l K r res L LL N X. unfold lit in *. cbn [list_ascii_of_string app] in *. rewrite app_length in *. cbn [length] in *. rewrite app_length in *. replace (length w + S (length w' + length t) + K)%nat with (S (length w + length w' + length t + K)) by lia. cbn [more_terms].
    rewrite <- app_assoc. rewrite (starts_skip "+" w _ W). cbn [app]. rewrite (starts_some "+" _ eq_refl), <- app_assoc, product_skip by exact W'. unfold prodP in H. rewrite H by (auto; lia). apply (terms_le _ _ K); [lia|exact X].
Qed.
Lemma terms_sub t a b : prodP t b -> termsP (lit "-" ++ t) a (MSub a b).
Proof.
  intros H. split; [split; [right; now left|discriminate]|]. intros f l K r res L LL N X. unfold lit in *. cbn [list_ascii_of_string app length] in *. cbn [Nat.add more_terms]. rewrite (starts_head "-" "+" _ eq_refl) by discriminate. rewrite (starts_some "-" _ eq_refl). unfold prodP in H. rewrite H by (auto; lia). apply (terms_le _ _ K); [lia|exact X].
Qed.
Definition no_minus (t : chars) : Prop := match t with [] => False | c :: _ => white c = false /\ c <> "-"%char end.
Lemma sum_of t1 t2 a e : no_minus t1 -> prodP t1 a -> termsP t2 a e -> sumP (t1 ++ t2) e.
Proof.
  intros NM H1 [F2 H2] f r L N. rewrite app_length in *. destruct f as [|f]; [lia|]. cbn [sum]. rewrite <- app_assoc. destruct t1 as [|c t1]; [destruct NM|]. destruct NM as [W NE]. cbn [app]. rewrite (starts_head c "-" _ W NE). change (c :: t1 ++ t2 ++ r)%list with ((c :: t1) ++ t2 ++ r)%list.
  assert (N' : next [")"; "+"; "-"]%char r) by (revert N; apply next_incl; inclt). unfold prodP in H1. rewrite H1; [|lia|lia|now apply next_term].
  replace (more_terms f f (sum f) a (t2 ++ r)) with (more_terms (length t2 + (f - length t2)) f (sum f) a (t2 ++ r)) by (f_equal; lia). apply H2; [lia|lia|exact N'|]. now apply terms_end.
Qed.
Lemma sum_neg t a : prodP t a -> sumP (lit "-" ++ t) (MNeg a).
Proof.
  intros H f r L N. unfold lit in *. cbn [list_ascii_of_string app length] in *. destruct f as [|f]; [lia|]. cbn [sum]. rewrite (starts_some "-" _ eq_refl). unfold prodP in H. rewrite H; [|lia|lia|revert N; apply next_incl; inclt]. now apply terms_end.
Qed.
Lemma sum_prod t a : no_minus t -> prodP t a -> sumP t a.
Proof. intros NM H. rewrite <- (app_nil_r t). exact (sum_of t [] a a NM H (terms_nil a)). Qed.
Lemma reads_sum t e w : sumP t e -> Forall (fun x => white x = true) w -> reads (t ++ w) = Some e.
Proof.
  intros H W. unfold reads. assert (S0 : skip w = []) by (rewrite <- (app_nil_r w), skip_white by exact W; reflexivity). unfold sumP in H. rewrite H; [|rewrite app_length; lia|unfold next; now rewrite S0]. now rewrite S0.
Qed.
