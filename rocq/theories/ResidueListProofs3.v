(** Loop 1 finds the first vector that fits, in the lexicographic order. *)
From Verif Require Import Common ZMat Piped Residue ResidueList ResidueListSpec ResidueListProofs.
Open Scope Z_scope.

Lemma before_trans a b c : before a b -> before b c -> before a c.
Proof.
  intros (p & P1 & P2) (q & Q1 & Q2). destruct (Nat.lt_trichotomy p q) as [L|[->|L]].
  - exists p. split; [intros j Hj; rewrite P1, Q1 by lia; reflexivity|rewrite <- Q1 by lia; exact P2].
  - exists q. split; [intros j Hj; rewrite P1, Q1 by lia; reflexivity|lia].
  - exists q. split; [intros j Hj; rewrite P1, Q1 by lia; reflexivity|rewrite P1 by lia; exact Q2].
Qed.
Lemma before_irrefl a : ~ before a a.
Proof. intros (p & _ & H). lia. Qed.
Lemma three_ways a : forall b, length a = length b -> a = b \/ before a b \/ before b a.
Proof.
  induction a as [|x a IH]; intros [|y b] L; try discriminate L; [now left|]. destruct (Z.lt_trichotomy x y) as [H|[->|H]].
  - right. left. exists 0%nat. split; [intros j Hj; lia|exact H].
  - destruct (IH b ltac:(cbn in L; lia)) as [->|[(p & P1 & P2)|(p & P1 & P2)]]; [now left|right; left|right; right]; exists (S p); (split; [intros [|j] Hj; [reflexivity|cbn [nth]; apply P1; lia]|exact P2]).
  - right. right. exists 0%nat. split; [intros j Hj; lia|exact H].
Qed.
Lemma down_ok dim r lam n : forall m, (m = true \/ forall j, (n <= j < dim)%nat -> nth j r 0 = 0) ->
  (forall q, (down n m r lam < q <= n)%nat -> nth q lam 0 = 2 \/ forall j, (q <= j < dim)%nat -> nth j r 0 = 0) /\ (down n m r lam = 0%nat \/ nth (down n m r lam) lam 0 <> 2).
Proof.
  induction n as [|n IH]; intros m Hm; cbn [down]; [split; [intros q Hq; lia|now left]|]. destruct ((nth (S n) lam 0 =? 2) || negb m) eqn:E.
  - assert (C : nth (S n) lam 0 = 2 \/ forall j, (S n <= j < dim)%nat -> nth j r 0 = 0).
    { apply Bool.orb_true_iff in E as [E|E]; [left; now apply Z.eqb_eq|right]. destruct Hm as [->|Hm]; [discriminate E|exact Hm]. }
    destruct (IH (m || negb (nth n r 0 =? 0))) as (A & B).
    { destruct m; [now left|]. destruct Hm as [Hm|Hm]; [discriminate Hm|]. destruct (Z.eqb_spec (nth n r 0) 0) as [Z0|NZ]; [right|now left]. intros j Hj. destruct (Nat.eq_dec j n) as [->|NE]; [exact Z0|apply Hm; lia]. }
    split; [|exact B]. intros q Hq. destruct (Nat.eq_dec q (S n)) as [->|NE]; [exact C|apply A; lia].
  - split; [intros q Hq; lia|]. right. apply Bool.orb_false_iff in E as (E & _). now apply Z.eqb_neq.
Qed.
Lemma next_index_ok dim r lam : (0 < dim)%nat -> let n := next_index dim r lam in
  (forall q, (n < q < dim)%nat -> nth q lam 0 = 2 \/ forall j, (q <= j < dim)%nat -> nth j r 0 = 0) /\ (n = 0%nat \/ nth n lam 0 <> 2).
Proof.
  intros Hd. cbv zeta. unfold next_index. destruct (down_ok dim r lam (dim - 1) (negb (nth (dim - 1) r 0 =? 0))) as (A & B).
  - destruct (Z.eqb_spec (nth (dim - 1) r 0) 0) as [Z0|NZ]; [right|now left]. intros j Hj. now replace j with (dim - 1)%nat by lia.
  - split; [|exact B]. intros q Hq. apply A. lia.
Qed.
Lemma next_nth dim n lam j : (j < dim)%nat -> nth j (next_lambda dim n lam) 0 = if (j <? n)%nat then nth j lam 0 else if Nat.eqb j n then nth j lam 0 + 1 else -1.
Proof. intros H. unfold next_lambda. now rewrite nth_map_seq. Qed.
Lemma small_nth dim l j : small_vector dim l -> (j < dim)%nat -> -1 <= nth j l 0 <= 2.
Proof. intros (L & F) H. rewrite Forall_forall in F. apply F, nth_In. lia. Qed.
Lemma next_small dim n lam : small_vector dim lam -> nth n lam 0 <> 2 -> small_vector dim (next_lambda dim n lam).
Proof.
  intros S0 H. split; [apply next_lambda_len|]. apply Forall_forall. intros x Hx. unfold next_lambda in Hx. apply in_map_iff in Hx as (j & <- & Hj). apply in_seq in Hj. pose proof (small_nth dim lam j S0 ltac:(lia)). destruct (j <? n)%nat; [lia|]. destruct (Nat.eqb_spec j n) as [->|NE]; lia.
Qed.
Lemma next_before dim n lam : (n < dim)%nat -> before lam (next_lambda dim n lam).
Proof.
  intros H. exists n. split; [intros j Hj; rewrite next_nth by lia; now destruct (Nat.ltb_spec j n); [|lia]|]. rewrite next_nth by lia. rewrite Nat.ltb_irrefl, Nat.eqb_refl. lia.
Qed.
Lemma skip_ok dim r lam c : (0 < dim)%nat -> small_vector dim lam -> small_vector dim c -> zdot lam r = 0 -> ~ before c lam -> let n := next_index dim r lam in
  zdot c r = 0 \/ nth n lam 0 <> 2 /\ ~ before c (next_lambda dim n lam).
Proof.
  intros Hd Sl Sc Z0 NB. cbv zeta. pose proof (next_index_lt dim r lam Hd) as Hn. destruct (next_index_ok dim r lam Hd) as (A & B). set (n := next_index dim r lam) in *.
  destruct (three_ways c lam) as [->|[X|(q & Q1 & Q2)]]; [rewrite (proj1 Sl); apply Sc|now left|contradiction|].
  assert (Hq : (q < dim)%nat). { destruct (Nat.lt_ge_cases q dim) as [|Ge]; [assumption|]. rewrite !nth_overflow in Q2 by (rewrite ?(proj1 Sl), ?(proj1 Sc); exact Ge). lia. }
  pose proof (small_nth dim c q Sc Hq) as Hc.
  destruct (Nat.lt_trichotomy n q) as [L|[E|L]].
  - left. destruct (A q ltac:(lia)) as [H2|H0]; [lia|]. rewrite <- Z0. unfold zdot. rewrite (proj1 Sl), (proj1 Sc). apply zsum_ext. intros k Hk. destruct (Nat.lt_ge_cases k q) as [Lt|Ge]; [now rewrite (Q1 k Lt)|]. rewrite (H0 k) by lia. ring.
  - right. split; [rewrite E; lia|]. intros (p & P1 & P2).
    assert (Hp : (p < dim)%nat). { destruct (Nat.lt_ge_cases p dim) as [|Ge]; [assumption|]. rewrite !nth_overflow in P2 by (rewrite ?next_lambda_len, ?(proj1 Sc); exact Ge). lia. }
    rewrite next_nth in P2 by exact Hp. pose proof (small_nth dim c p Sc Hp). destruct (Nat.ltb_spec p n); [rewrite Q1 in P2 by lia; lia|]. destruct (Nat.eqb_spec p n); [subst p; rewrite E in P2; lia|lia].
  - right. split; [destruct B as [B|B]; [lia|exact B]|]. intros (p & P1 & P2). destruct (Nat.lt_trichotomy p q) as [Lp|[->|Lp]].
    + rewrite next_nth in P2 by lia. destruct (Nat.ltb_spec p n); [|lia]. rewrite Q1 in P2 by lia. lia.
    + rewrite next_nth in P2 by lia. destruct (Nat.ltb_spec q n); [lia|lia].
    + specialize (P1 q Lp). rewrite next_nth in P1 by lia. destruct (Nat.ltb_spec q n); lia.
Qed.
Lemma fits_in lam B rays r : fits lam B -> In rays B -> In r rays -> zdot lam r <> 0.
Proof. intros F H1 H2. unfold fits in F. rewrite Forall_forall in F. specialize (F rays H1). rewrite Forall_forall in F. exact (F r H2). Qed.
Lemma search_first dim B : (0 < dim)%nat -> forall left hc n dl lam0 lam dots, small_vector dim lam -> wide B dots ->
  (hc = 0%nat \/ (forall rays r, In rays B -> In r rays -> zdot lam0 r + partial_dot dim n dl r = zdot lam r) /\ forall k, (k < length B)%nat -> (k < hc)%nat -> nth k dots [] = map (zdot lam0) (nth k B [])) ->
  match search left dim B hc n dl lam dots with
  | Some (lam', _) => small_vector dim lam' /\ fits lam' B /\ forall c, small_vector dim c -> fits c B -> ~ before c lam -> ~ before c lam'
  | None => (forall c, small_vector dim c -> fits c B -> before c lam) \/ exists tried, length tried = left /\ NoDup tried /\ Forall (fun c => small_vector dim c /\ ~ fits c B /\ ~ before c lam) tried
  end.
Proof.
  intros Hd. induction left as [|left IH]; intros hc n dl lam0 lam dots Sl W H; [right; exists []; split; [reflexivity|]; split; constructor|]. cbn [search]. destruct (check dim hc n dl lam 0 B dots) as [dots' h] eqn:EC.
  assert (C : wide B dots' /\ match h with None => dots' = map (map (zdot lam)) B /\ fits lam B | Some (i', r) => (exists rays, In rays B /\ In r rays) /\ zdot lam r = 0 /\ forall k, (k < length B)%nat -> (k < i')%nat -> nth k dots' [] = map (zdot lam) (nth k B []) end).
  { destruct H as [->|(H1 & H2)].
    - exact (check_fresh0 dim n dl lam B dots W dots' h EC).
    - destruct (check_ok dim hc n dl lam0 lam B H1 0 dots W) with (l := dots') (h := h) as (W' & M); [intros k Hk Hk'; apply H2; [exact Hk|lia]|exact EC|]. split; [exact W'|]. destruct h as [(i', r)|]; [|exact M]. destruct M as (_ & M1 & M2 & M3). split; [exact M1|]. split; [exact M2|]. intros k Hk Hk'. apply M3; [exact Hk|lia]. }
  destruct C as (W' & M). destruct h as [(i', r)|].
  - destruct M as ((rays & I1 & I2) & Z0 & M). set (n' := next_index dim r lam). pose proof (next_index_lt dim r lam Hd : (n' < dim)%nat) as Hn'.
    assert (SK : forall c, small_vector dim c -> fits c B -> ~ before c lam -> nth n' lam 0 <> 2 /\ ~ before c (next_lambda dim n' lam)).
    { intros c Sc Fc NB. destruct (skip_ok dim r lam c Hd Sl Sc Z0 NB) as [X|X]; [exfalso; exact (fits_in c B rays r Fc I1 I2 X)|exact X]. }
    assert (NF : ~ fits lam B) by (intros F; exact (fits_in lam B rays r F I1 I2 Z0)).
    destruct (Z.eqb_spec (nth n' lam 0) 2) as [E2|N2]; cbn [orb].
    + left. intros c Sc Fc. destruct (three_ways c lam) as [->|[X|X]]; [rewrite (proj1 Sl); apply Sc|contradiction|exact X|]. exfalso. refine (proj1 (SK c Sc Fc _) E2). intros Y. exact (before_irrefl c (before_trans _ _ _ Y X)).
    + pose proof (IH i' n' (next_change dim n' lam dl) lam (next_lambda dim n' lam) dots' (next_small dim n' lam Sl N2) W' ltac:(right; split; [intros rs q _ _; apply next_step; [exact Hn'|apply Sl]|exact M])) as IHs. pose proof (next_before dim n' lam Hn') as NB.
      destruct (left =? 0)%nat eqn:E0.
      * apply Nat.eqb_eq in E0. subst left. right. exists [lam]. split; [reflexivity|]. split; [repeat constructor; intros []|]. repeat constructor; [apply Sl|apply Sl|exact NF|apply before_irrefl].
      * destruct (search left dim B i' n' (next_change dim n' lam dl) (next_lambda dim n' lam) dots') as [(lam', l)|].
        -- destruct IHs as (S1 & F1 & A1). split; [exact S1|]. split; [exact F1|]. intros c Sc Fc NB'. apply A1; [exact Sc|exact Fc|]. apply (SK c Sc Fc NB').
        -- destruct IHs as [A1|(tr & L1 & ND & F1)].
           ++ left. intros c Sc Fc. destruct (three_ways c lam) as [->|[X|X]]; [rewrite (proj1 Sl); apply Sc|contradiction|exact X|]. exfalso. refine (proj2 (SK c Sc Fc _) (A1 c Sc Fc)). intros Y. exact (before_irrefl c (before_trans _ _ _ Y X)).
           ++ right. exists (lam :: tr). split; [cbn; now rewrite L1|]. rewrite Forall_forall in F1. split; [constructor; [|exact ND]|].
              ** intros I0. destruct (F1 lam I0) as (_ & _ & X). contradiction.
              ** constructor; [split; [exact Sl|]; split; [exact NF|apply before_irrefl]|]. apply Forall_forall. intros c Hc. destruct (F1 c Hc) as (X & Y & V). split; [exact X|]. split; [exact Y|]. intros U. apply V. exact (before_trans _ _ _ U NB).
  - split; [exact Sl|]. split; [apply M|]. intros c _ _ H0. exact H0.
Qed.
