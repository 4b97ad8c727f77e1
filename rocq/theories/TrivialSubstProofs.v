(** Reading back the text of the monomial substitution. *)
From Coq Require Import String QArith Qfield Lqa Ascii.
From Verif Require Import Common Rational Text TextProofs ExpSpec GenFunSpec GenFunProofs Piped PipedProofs GenFun GenFunProofs2 TrivialSubst TrivialSubstSpec.
Open Scope Z_scope.

(** Products with white space before and after the operators. *)
Definition starts_factor (t : chars) : Prop := next ["*"; "/"]%char t /\ (skip t = [] -> t = []).
Definition facW (t : chars) (a e : mexpr) : Prop := starts_factor t /\ forall f K r res, (length t <= f)%nat -> next [")"; "+"; "-"; "*"; "/"]%char r -> more_factors K (sum f) e r = Some res -> more_factors (length t + K) (sum f) a (t ++ r) = Some res.
Lemma next_factorW t r : starts_factor t -> next [")"; "+"; "-"; "*"; "/"]%char r -> next [")"; "+"; "-"; "*"; "/"]%char (t ++ r).
Proof.
  intros [A B] N. destruct (skip t) eqn:S0; [rewrite (B eq_refl); exact N|]. apply next_app; [|congruence]. revert A. apply next_incl. inclt.
Qed.
Lemma facW_nil a : facW [] a a.
Proof. split; [split; [exact I|reflexivity]|]. intros f K r res _ _ H. exact H. Qed.
Lemma facW_app t1 t2 a b c : facW t1 a b -> facW t2 b c -> facW (t1 ++ t2) a c.
Proof.
  intros [[A1 B1] H1] [F2 H2]. split.
  - destruct (skip t1) eqn:S0; [rewrite (B1 eq_refl); exact F2|]. split; [apply next_app; [exact A1|congruence]|]. rewrite skip_app by congruence. rewrite S0. discriminate.
  - intros f K r res L N H. rewrite app_length in *. rewrite <- app_assoc, <- Nat.add_assoc. apply H1; [lia|now apply next_factorW|]. apply H2; [lia|exact N|exact H].
Qed.
Lemma power_skip f w s : Forall (fun x => white x = true) w -> power (sum f) (w ++ s) = power (sum f) s.
Proof. intros H. unfold power, atom. now rewrite (skip_white w s H). Qed.
Lemma facW_mul t a b : powP t b -> facW (lit " * " ++ t) a (MMul a b).
Proof.
  intros H. split; [split; [now left|discriminate]|]. intros f K r res L N X. unfold lit in *. cbn [list_ascii_of_string app length] in *. change (S (S (S (length t))) + K)%nat with (S (S (S (length t + K)))). set (J := S (S (length t + K))). cbn [more_factors].
  change (starts "*" (" " :: "*" :: " " :: t ++ r)%char%list) with (Some (" " :: t ++ r)%char%list). cbv iota. change (" " :: t ++ r)%char%list with ([" "%char] ++ t ++ r)%list. rewrite power_skip by (repeat constructor). unfold powP in H. rewrite H by (auto; lia). apply (factors_le _ K); [subst J; lia|exact X].
Qed.
Lemma facW_div t a b : powP t b -> facW (lit " / " ++ t) a (MDiv a b).
Proof.
  intros H. split; [split; [right; now left|discriminate]|]. intros f K r res L N X. unfold lit in *. cbn [list_ascii_of_string app length] in *. change (S (S (S (length t))) + K)%nat with (S (S (S (length t + K)))). set (J := S (S (length t + K))). cbn [more_factors].
  change (starts "*" (" " :: "/" :: " " :: t ++ r)%char%list) with (@None chars). change (starts "/" (" " :: "/" :: " " :: t ++ r)%char%list) with (Some (" " :: t ++ r)%char%list). cbv iota. change (" " :: t ++ r)%char%list with ([" "%char] ++ t ++ r)%list. rewrite power_skip by (repeat constructor). unfold powP in H. rewrite H by (auto; lia). apply (factors_le _ K); [subst J; lia|exact X].
Qed.
Lemma prod_ofW t1 t2 a e : powP t1 a -> facW t2 a e -> prodP (t1 ++ t2) e.
Proof.
  intros H1 [F2 H2] f K r L LK N. rewrite app_length in *. rewrite <- app_assoc. unfold product. assert (N' : next [")"; "+"; "-"; "*"; "/"]%char r) by (revert N; apply next_incl; inclt). unfold powP in H1. rewrite H1; [|lia|now apply next_factorW].
  replace K with (length t2 + (K - length t2))%nat by lia. apply H2; [lia|exact N'|]. now apply factors_end.
Qed.
Lemma terms_subW t a b : prodP t b -> termsP (lit " - " ++ t) a (MSub a b).
Proof.
  intros H. split; [split; [right; now left|discriminate]|]. intros f l K r res L LL N X. unfold lit in *. cbn [list_ascii_of_string app length] in *. change (S (S (S (length t))) + K)%nat with (S (S (S (length t + K)))). set (J := S (S (length t + K))). cbn [more_terms].
  change (starts "+" (" " :: "-" :: " " :: t ++ r)%char%list) with (@None chars). change (starts "-" (" " :: "-" :: " " :: t ++ r)%char%list) with (Some (" " :: t ++ r)%char%list). cbv iota. change (" " :: t ++ r)%char%list with ([" "%char] ++ t ++ r)%list. rewrite product_skip by (repeat constructor). unfold prodP in H. rewrite H by (auto; lia). apply (terms_le _ _ K); [subst J; lia|exact X].
Qed.

(** The pieces of the text, with the name x[0] for t. *)
Definition ptxt (e : Z) : chars := (lit "x[0]^(" ++ show_Z e ++ lit ")")%list.
Definition rtxt (e : Z) : chars := (lit "(1 - " ++ ptxt e ++ lit ")")%list.
Definition ctxt (c : Z * list Z * list Z) : chars :=
  (lit "(" ++ show_Z (fst (fst c)) ++ lit ")" ++ lit " * (" ++ separated (lit " + ") (map ptxt (snd c)) ++ lit ") / (" ++ separated (lit " * ") (map rtxt (snd (fst c))) ++ lit ")")%list.
Lemma paren_int z : exists a, atomP (lit "(" ++ show_Z z ++ lit ")") a /\ forall x, mvalue x a = Some (inject_Z z).
Proof.
  destruct (Z.lt_ge_cases z 0) as [L|L].
  - exists (MNeg (MInt (- z))). split; [|intros x; cbn [mvalue option_map]; rewrite <- inject_Z_opp, Z.opp_involutive; reflexivity]. apply atom_paren. rewrite (show_neg z L). apply (sum_neg (show_Z (- z))), prod_pow, pow_atom, atom_num. lia.
  - exists (MInt z). split; [|intros x; reflexivity]. apply atom_paren. apply sum_prod; [|apply prod_pow, pow_atom, atom_num; exact L].
    destruct (show_nonneg z L) as (u & E & _ & NU). rewrite E. destruct (digit_chars_cons u NU) as (c & s & -> & DC). split.
    + destruct (white c) eqn:W; [|reflexivity]. apply white_digit in W. destruct (digit_char_digit c DC) as (k & K). congruence.
    + intros ->. discriminate.
Qed.
Lemma ptxt_ok e : exists a, powP (ptxt e) a /\ forall x, ~ (x 0%nat == 0)%Q -> val x a (x 0%nat ^ e)%Q.
Proof.
  destruct (paren_int e) as (b & Hb & Vb). exists (MPow (MVar 0) b). split.
  - exact (pow_pow (lit "x[0]") (MVar 0) (lit "(" ++ show_Z e ++ lit ")")%list b (atom_var 0) Hb).
  - intros x NX. apply val_pow; [apply Vb|exact NX].
Qed.
Lemma rtxt_ok e : exists a, powP (rtxt e) a /\ forall x, ~ (x 0%nat == 0)%Q -> val x a (1 - x 0%nat ^ e)%Q.
Proof.
  destruct (ptxt_ok e) as (b & Hb & Vb). exists (MSub (MInt 1) b). split.
  - apply pow_atom. change (rtxt e) with (lit "(" ++ (lit "1" ++ lit " - " ++ ptxt e) ++ lit ")")%list. apply atom_paren. apply (sum_of (lit "1") (lit " - " ++ ptxt e) (MInt 1)).
    + split; [reflexivity|discriminate].
    + apply prod_pow, pow_atom. exact (atom_num 1 ltac:(lia)).
    + now apply terms_subW, prod_pow.
  - intros x NX. apply val_sub; [exact (val_int x 1)|auto].
Qed.
Definition psum (q : Q) (es : list Z) : Q := fold_right (fun e s => q ^ e + s)%Q 0%Q es.
Definition rprod (q : Q) (es : list Z) : Q := fold_right (fun e d => (1 - q ^ e) * d)%Q 1%Q es.
Lemma points_more es : forall acc, exists e, termsP (concat (map (fun u => lit " + " ++ u) (map ptxt es))) acc e /\ forall x p, ~ (x 0%nat == 0)%Q -> val x acc p -> val x e (p + psum (x 0%nat) es)%Q.
Proof.
  induction es as [|z es IH]; intros acc; cbn [map concat].
  - exists acc. split; [apply terms_nil|]. intros x p _. apply val_ext. cbn. ring.
  - destruct (ptxt_ok z) as (a & Ha & Va). destruct (IH (MAdd acc a)) as (e & T & V). exists e. split.
    + apply terms_app with (b := MAdd acc a); [|exact T]. apply (terms_add [" "%char] [" "%char] (ptxt z) acc a); [repeat constructor|repeat constructor|now apply prod_pow].
    + intros x q NX Hq. cbn [psum fold_right]. fold (psum (x 0%nat) es). apply (val_ext _ _ (q + x 0%nat ^ z + psum (x 0%nat) es)%Q); [ring|]. apply V; [exact NX|]. apply val_add; auto.
Qed.
Lemma points_ok es : es <> [] -> exists e, powP (lit "(" ++ separated (lit " + ") (map ptxt es) ++ lit ")") e /\ forall x, ~ (x 0%nat == 0)%Q -> val x e (psum (x 0%nat) es).
Proof.
  destruct es as [|z es]; [congruence|]. intros _. cbn [map]. rewrite separated_cons. destruct (ptxt_ok z) as (a & Ha & Va). destruct (points_more es a) as (e & T & V). exists e. split.
  - apply pow_atom, atom_paren. apply (sum_of _ _ a); [split; [reflexivity|discriminate]|now apply prod_pow|exact T].
  - intros x NX. cbn [psum fold_right]. apply V; auto.
Qed.
Lemma rays_moreW es : forall acc, exists e, facW (concat (map (fun u => lit " * " ++ u) (map rtxt es))) acc e /\ forall x p, ~ (x 0%nat == 0)%Q -> val x acc p -> val x e (p * rprod (x 0%nat) es)%Q.
Proof.
  induction es as [|z es IH]; intros acc; cbn [map concat].
  - exists acc. split; [apply facW_nil|]. intros x p _. apply val_ext. cbn. ring.
  - destruct (rtxt_ok z) as (a & Ha & Va). destruct (IH (MMul acc a)) as (e & T & V). exists e. split.
    + apply facW_app with (b := MMul acc a); [|exact T]. now apply facW_mul.
    + intros x q NX Hq. cbn [rprod fold_right]. fold (rprod (x 0%nat) es). apply (val_ext _ _ (q * (1 - x 0%nat ^ z) * rprod (x 0%nat) es)%Q); [ring|]. apply V; [exact NX|]. apply val_mul; auto.
Qed.
Lemma rays_ok es : es <> [] -> exists e, powP (lit "(" ++ separated (lit " * ") (map rtxt es) ++ lit ")") e /\ forall x, ~ (x 0%nat == 0)%Q -> val x e (rprod (x 0%nat) es).
Proof.
  destruct es as [|z es]; [congruence|]. intros _. cbn [map]. rewrite separated_cons. destruct (rtxt_ok z) as (a & Ha & Va). destruct (rays_moreW es a) as (e & T & V). exists e. split.
  - apply pow_atom, atom_paren. apply sum_prod; [split; [reflexivity|discriminate]|]. apply (prod_ofW _ _ a); assumption.
  - intros x NX. cbn [rprod fold_right]. apply V; auto.
Qed.
Definition cval (q : Q) (c : Z * list Z * list Z) : Q := (inject_Z (fst (fst c)) * psum q (snd c) / rprod q (snd (fst c)))%Q.
Lemma ctxt_ok c : snd c <> [] -> snd (fst c) <> [] -> no_minus (ctxt c) /\ exists e, prodP (ctxt c) e /\ forall x, ~ (x 0%nat == 0)%Q -> ~ (rprod (x 0%nat) (snd (fst c)) == 0)%Q -> val x e (cval (x 0%nat) c).
Proof.
  destruct c as [[k rs] ps]. cbn [fst snd]. intros NP NR. split; [split; [reflexivity|discriminate]|]. destruct (paren_int k) as (a & Ha & Va). destruct (points_ok ps NP) as (b & Hb & Vb). destruct (rays_ok rs NR) as (d & Hd & Vd). exists (MDiv (MMul a b) d). split.
  - unfold ctxt. cbn [fst snd]. change (lit " * (") with (lit " * " ++ lit "(")%list. change (lit ") / (") with (lit ")" ++ lit " / " ++ lit "(")%list.
    replace (lit "(" ++ show_Z k ++ lit ")" ++ (lit " * " ++ lit "(") ++ separated (lit " + ") (map ptxt ps) ++ (lit ")" ++ lit " / " ++ lit "(") ++ separated (lit " * ") (map rtxt rs) ++ lit ")")%list
      with ((lit "(" ++ show_Z k ++ lit ")") ++ (lit " * " ++ (lit "(" ++ separated (lit " + ") (map ptxt ps) ++ lit ")")) ++ lit " / " ++ (lit "(" ++ separated (lit " * ") (map rtxt rs) ++ lit ")"))%list by (rewrite <- !app_assoc; reflexivity).
    apply (prod_ofW _ _ a); [now apply pow_atom|]. apply facW_app with (b := MMul a b); [now apply facW_mul|now apply facW_div].
  - intros x NX ND. unfold cval. cbn [fst snd]. apply val_div; [exact ND| |auto]. apply val_mul; [|auto]. exists (inject_Z k). split; [apply Va|reflexivity].
Qed.
Definition good (q : Q) (c : Z * list Z * list Z) : Prop := ~ (rprod q (snd (fst c)) == 0)%Q.
Lemma cones_more cs : Forall (fun c : Z * list Z * list Z => snd c <> [] /\ snd (fst c) <> []) cs -> forall acc, exists e, termsP (concat (map (fun u => (newline ++ lit " ") ++ lit "+" ++ lit " " ++ u) (map ctxt cs))) acc e /\ forall x p, ~ (x 0%nat == 0)%Q -> Forall (good (x 0%nat)) cs -> val x acc p -> val x e (p + fold_right (fun c s => cval (x 0%nat) c + s)%Q 0%Q cs)%Q.
Proof.
  induction 1 as [|c cs [NP NR] F IH]; intros acc; cbn [map concat].
  - exists acc. split; [apply terms_nil|]. intros x p _ _. apply val_ext. cbn. ring.
  - destruct (ctxt_ok c NP NR) as (_ & a & Ha & Va). destruct (IH (MAdd acc a)) as (e & T & V). exists e. split.
    + apply terms_app with (b := MAdd acc a); [|exact T]. apply terms_add; [repeat constructor|repeat constructor|exact Ha].
    + intros x q NX G Hq. inversion G as [|? ? G0 G1]; subst. cbn [fold_right]. apply (val_ext _ _ (q + cval (x 0%nat) c + fold_right (fun c s => cval (x 0%nat) c + s)%Q 0%Q cs)%Q); [ring|]. apply V; [exact NX|exact G1|]. apply val_add; auto.
Qed.
Lemma shift_newline ts : forall t, separated (lit " + ") (map (fun u => u ++ newline) (t :: ts)) = (t ++ concat (map (fun u => (newline ++ lit " ") ++ lit "+" ++ lit " " ++ u) ts) ++ newline)%list.
Proof.
  induction ts as [|u ts IH]; intros t; [cbn [map separated concat app]; reflexivity|]. change (separated (lit " + ") (map (fun u => u ++ newline) (t :: u :: ts)))%list with ((t ++ newline) ++ lit " + " ++ separated (lit " + ") (map (fun u => u ++ newline) (u :: ts)))%list. rewrite IH. cbn [map concat]. rewrite <- !app_assoc. reflexivity.
Qed.
Lemma cones_read cs : cs <> [] -> Forall (fun c : Z * list Z * list Z => snd c <> [] /\ snd (fst c) <> []) cs -> exists e, reads (separated (lit " + ") (map (fun c => ctxt c ++ newline) cs)) = Some e /\ forall x, ~ (x 0%nat == 0)%Q -> Forall (good (x 0%nat)) cs -> val x e (fold_right (fun c s => cval (x 0%nat) c + s)%Q 0%Q cs).
Proof.
  destruct cs as [|c cs]; [congruence|]. intros _ F. inversion F as [|? ? [NP NR] F']; subst. destruct (ctxt_ok c NP NR) as (NM & a & Ha & Va). destruct (cones_more cs F' a) as (e & T & V). exists e. split.
  - replace (map (fun c => ctxt c ++ newline) (c :: cs))%list with (map (fun u => u ++ newline) (ctxt c :: map ctxt cs))%list by (cbn [map]; now rewrite map_map). rewrite shift_newline, app_assoc. apply reads_sum; [|repeat constructor]. now apply (sum_of _ _ a).
  - intros x NX G. inversion G as [|? ? G0 G1]; subst. cbn [fold_right]. apply V; auto.
Qed.

(** The names. *)
Lemma named_app a b : named (a ++ b) = (named a ++ named b)%list.
Proof. unfold named. apply flat_map_app. Qed.
Lemma named_same s : Forall (fun c => Ascii.eqb c "t" = false) s -> named s = s.
Proof. induction 1 as [|c s H F IH]; [reflexivity|]. unfold named in *. cbn [flat_map]. rewrite H. cbn [app]. now rewrite IH. Qed.
Lemma named_digits u : named (digit_chars u) = digit_chars u.
Proof. apply named_same. eapply Forall_impl; [|apply digit_chars_digits]. intros c H. cbv beta in *. destruct (Ascii.eqb_spec c "t") as [->|]; [discriminate|reflexivity]. Qed.
Lemma named_show z : named (show_Z z) = show_Z z.
Proof.
  destruct (Z.lt_ge_cases z 0) as [L|L].
  - rewrite (show_neg z L). destruct (show_nonneg (- z) ltac:(lia)) as (u & -> & _). change ("-" :: digit_chars u)%char%list with (lit "-" ++ digit_chars u)%list. rewrite named_app, named_digits. reflexivity.
  - destruct (show_nonneg z L) as (u & -> & _). apply named_digits.
Qed.
Lemma named_separated sep ts : named (separated sep ts) = separated (named sep) (map named ts).
Proof. induction ts as [|t [|u ts] IH]; [reflexivity|reflexivity|]. change (separated sep (t :: u :: ts)) with (t ++ sep ++ separated sep (u :: ts))%list. rewrite !named_app, IH. reflexivity. Qed.
