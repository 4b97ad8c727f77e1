From Coq Require Import Permutation.
From Verif Require Import Common ZMat Hermite HermiteSpec HermiteProofs.
Open Scope Z_scope.

Section Run.
Variables (n m : nat) (S0 : list (list Z)) (rhs0 : list Z).
Hypothesis H0 : is_mat S0 n m.
Hypothesis Hr0 : (m <= length rhs0)%nat.

(** U S0 = S up to the column permutation, rhs permuted alike. *)
Definition rel (S U : list (list Z)) (rhs : list Z) : Prop :=
  is_mat S n m /\ is_mat U n n /\ length rhs = length rhs0 /\ invertible n (ent U) /\
  exists p, Permutation p (seq 0 m) /\ (forall j, (j < m)%nat -> nth j rhs 0 = nth (nth j p 0%nat) rhs0 0) /\
    (forall j, (m <= j)%nat -> nth j rhs 0 = nth j rhs0 0) /\
    meq n m (mmul n (ent U) (fun k j => ent S0 k (nth j p 0%nat))) (ent S).
Definition tri (S : list (list Z)) (c : nat) : Prop :=
  (forall j, (j < c)%nat -> 0 < ent S j j) /\ (forall i j, (j < c)%nat -> (j < i)%nat -> (i < n)%nat -> ent S i j = 0).
Lemma rel_row S U rhs S' U' E : rel S U rhs -> is_mat S' n m -> is_mat U' n n -> invertible n E ->
  meq n m (ent S') (mmul n E (ent S)) -> meq n n (ent U') (mmul n E (ent U)) -> rel S' U' rhs.
Proof.
  intros (A & B & L & I & p & P & R & R' & X) HS HU IE ES EU. refine (conj HS (conj HU (conj L (conj _ _)))).
  - apply (invertible_ext n (mmul n E (ent U))); [intros i j Hi Hj; symmetry; now apply EU|]. now apply invertible_mul.
  - exists p. refine (conj P (conj R (conj R' _))). intros i j Hi Hj. rewrite ES by auto.
    rewrite (mmul_ext n n m _ (mmul n E (ent U)) _ _ EU (fun _ _ _ _ => eq_refl) i j Hi Hj). rewrite mmul_assoc. apply (mmul_ext n n m); auto; intros ? ? ? ?; reflexivity.
Qed.
Lemma rel_col S U rhs i c : rel S U rhs -> (i < m)%nat -> (c < m)%nat -> rel (map (fun r => swap_entries r i c) S) U (swap_entries rhs i c).
Proof.
  intros (A & B & L & I & p & P & R & R' & X) Hi Hc.
  assert (A' : is_mat (map (fun r => swap_entries r i c) S) n m).
  { destruct A as [LA FA]. split; [now rewrite map_length|]. apply Forall_map. revert FA. apply Forall_impl. intros r Hr. now rewrite len_swap_entries. }
  refine (conj A' (conj B (conj _ (conj I _)))); [now rewrite len_swap_entries|].
  exists (map (fun j => nth (tr i c j) p 0%nat) (seq 0 m)). split; [now apply perm_tr|]. split; [|split].
  - intros j Hj. rewrite nth_swap_entries by lia. rewrite nth_map_seq by auto. apply R. now apply tr_lt.
  - intros j Hj. rewrite nth_swap_entries by lia. unfold tr. rewrite (proj2 (Nat.eqb_neq j i)), (proj2 (Nat.eqb_neq j c)) by lia. now apply R'.
  - intros k j Hk Hj. assert (E : ent (map (fun r => swap_entries r i c) S) k j = ent S k (tr i c j)).
    { unfold ent. destruct A as [LA FA]. rewrite (nth_indep _ [] (swap_entries [] i c)) by (rewrite map_length; lia). rewrite (map_nth (fun r => swap_entries r i c)).
      assert (length (nth k S []) = m) by (apply (mat_row S n m); [split; auto|auto]). apply nth_swap_entries; lia. }
    rewrite E, <- X by (auto; now apply tr_lt). unfold mmul. apply zsum_ext. intros q Hq. now rewrite nth_map_seq.
Qed.
Lemma ent_swapcols S i c k j : is_mat S n m -> (i < m)%nat -> (c < m)%nat -> (k < n)%nat -> ent (map (fun r => swap_entries r i c) S) k j = ent S k (tr i c j).
Proof.
  intros [LA FA] Hi Hc Hk. unfold ent. rewrite (nth_indep _ [] (swap_entries [] i c)) by (rewrite map_length; lia). rewrite (map_nth (fun r => swap_entries r i c)).
  assert (length (nth k S []) = m) by (apply (mat_row S n m); [split; auto|auto]). apply nth_swap_entries; lia.
Qed.
Definition colmin (S : list (list Z)) (c : nat) : nat := Z.abs_nat (ent S (pivot_row S c) c).
Definition hinv (st : hstate) : Prop :=
  rel (h_S st) (h_U st) (h_rhs st) /\ (h_c st <= Nat.min m n)%nat /\ tri (h_S st) (h_c st) /\
  (h_crk st = h_c st \/ (h_crk st = (h_c st + 1)%nat /\ (h_c st < Nat.min m n)%nat /\ exists i, (h_c st <= i < n)%nat /\ ent (h_S st) i (h_c st) <> 0)).
Definition hpost (st : hstate) : Prop :=
  rel (h_S st) (h_U st) (h_rhs st) /\ (h_crk st <= Nat.min m n)%nat /\ tri (h_S st) (h_crk st) /\
  forall i j, (h_crk st <= i)%nat -> (i < n)%nat -> (j < m)%nat -> ent (h_S st) i j = 0.

Lemma colmin_pos S c : is_mat S n m -> (c < n)%nat -> (exists i, (c <= i < n)%nat /\ ent S i c <> 0) -> (0 < colmin S c)%nat.
Proof. intros HS Hc (i & Hi & N). destruct (pivot_row_ok S n m c HS Hc) as [A B]. destruct (B i Hi N) as [C _]. unfold colmin. lia. Qed.
Lemma colmin_le S c i : is_mat S n m -> (c < n)%nat -> (c <= i < n)%nat -> ent S i c <> 0 -> (0 < colmin S c <= Z.abs_nat (ent S i c))%nat.
Proof. intros HS Hc Hi N. destruct (pivot_row_ok S n m c HS Hc) as [A B]. destruct (B i Hi N) as [C D]. unfold colmin. lia. Qed.

Lemma hround_ok st : hinv st -> (h_c st < Nat.min m n)%nat ->
  let '(st', more) := hround m st in
  if more then hinv st' /\ (h_c st' = (h_c st + 1)%nat \/ (h_c st' = h_c st /\
     ((colmin (h_S st) (h_c st) = 0 /\ 0 < colmin (h_S st') (h_c st)) \/ 0 < colmin (h_S st') (h_c st) < colmin (h_S st) (h_c st))%nat))
  else hpost st'.
Proof.
  destruct st as [S U rhs c crk]. unfold hinv; cbn [h_S h_U h_rhs h_c h_crk]. intros (R & _ & (T1 & T2) & K) Hc. unfold hround; cbn [h_S h_U h_rhs h_c h_crk].
  pose proof R as (HS & HU & HL & _). assert (Hcn : (c < n)%nat) by lia. assert (Hcm : (c < m)%nat) by lia.
  destruct (pivot_row_ok S n m c HS Hcn) as [Pr Pm]. set (mc := pivot_row S c) in *.
  set (v := ent S mc c). set (sign := if v <? 0 then -1 else 1). set (go := negb (mc =? c)%nat || (v <? 0)).
  set (S1 := if go then exchange S c c mc sign else S). set (U1 := if go then exchange U 0 c mc sign else U).
  assert (SG : sign * sign = 1) by (unfold sign; destruct (v <? 0); reflexivity).
  assert (E1 : forall i j, (i < n)%nat -> ent S1 i j = mmul n (swap_e c mc sign) (ent S) i j).
  { intros i j Hi. rewrite swap_mul by lia. unfold S1. destruct go eqn:G.
    - rewrite (ent_exchange S n m) by (auto; lia). destruct (Nat.ltb_spec j c) as [J|J]; [|reflexivity].
      destruct (Nat.eqb_spec i c) as [->|N1]; [rewrite !T2 by lia; ring|]. destruct (Nat.eqb_spec i mc) as [->|N2]; [rewrite !T2 by lia; ring|reflexivity].
    - unfold go in G. apply orb_false_elim in G as [G1 G2]. apply negb_false_iff, Nat.eqb_eq in G1. unfold sign. rewrite G2, G1.
      destruct (Nat.eqb_spec i c) as [->|N1]; [ring|reflexivity]. }
  assert (E1U : forall i j, (i < n)%nat -> ent U1 i j = mmul n (swap_e c mc sign) (ent U) i j).
  { intros i j Hi. rewrite swap_mul by lia. unfold U1. destruct go eqn:G.
    - rewrite (ent_exchange U n n) by (auto; lia). reflexivity.
    - unfold go in G. apply orb_false_elim in G as [G1 G2]. apply negb_false_iff, Nat.eqb_eq in G1. unfold sign. rewrite G2, G1.
      destruct (Nat.eqb_spec i c) as [->|N1]; [ring|reflexivity]. }
  assert (HS1 : is_mat S1 n m) by (unfold S1; destruct go; auto; apply exchange_mat; auto; lia).
  assert (HU1 : is_mat U1 n n) by (unfold U1; destruct go; auto; apply exchange_mat; auto; lia).
  assert (R1 : rel S1 U1 rhs).
  { apply (rel_row S U rhs S1 U1 (swap_e c mc sign)); auto; [apply swap_inv; auto; lia| |]; intros i j Hi Hj; auto. }
  assert (F1 : forall i j, (i < n)%nat -> ent S1 i j = if (i =? c)%nat then sign * ent S mc j else if (i =? mc)%nat then ent S c j else ent S i j).
  { intros i j Hi. rewrite E1, swap_mul by lia. reflexivity. }
  assert (D1 : ent S1 c c = Z.abs v). { rewrite F1, Nat.eqb_refl by lia. fold v. unfold sign. destruct (Z.ltb_spec v 0); lia. }
  assert (T1' : forall j, (j < c)%nat -> 0 < ent S1 j j). { intros j Hj. rewrite F1 by lia. rewrite (proj2 (Nat.eqb_neq j c)), (proj2 (Nat.eqb_neq j mc)) by lia. auto. }
  assert (T2' : forall i j, (j < c)%nat -> (j < i)%nat -> (i < n)%nat -> ent S1 i j = 0).
  { intros i j Hj Hij Hi. rewrite F1 by lia. destruct (Nat.eqb_spec i c) as [->|N1]; [rewrite T2 by lia; ring|]. destruct (Nat.eqb_spec i mc) as [->|N2]; rewrite T2 by lia; ring. }
  assert (CM : Z.of_nat (colmin S c) = Z.abs v) by (unfold colmin; fold mc; fold v; lia).
  destruct (Z.eqb_spec (ent S1 c c) 0) as [Z0|NZ].
  - (* the column vanishes *)
    assert (V0 : v = 0) by lia.
    assert (K' : crk = c). { destruct K as [K|(_ & _ & i & Hi & Ni)]; auto. exfalso. destruct (Pm i Hi Ni) as [A _]. apply A. exact V0. }
    pose proof (find_col_ok S1 n m c (m - c) c HS1 Hcn ltac:(lia) ltac:(lia)) as FC. destruct (find_col S1 c c (m - c)) as [i|].
    + destruct FC as (Hi & r & Hr & Nr). cbn [h_S h_U h_rhs h_c h_crk]. assert (R2 : rel (map (fun r0 => swap_entries r0 i c) S1) U1 (swap_entries rhs i c)) by (apply rel_col; auto; lia).
      assert (ES : forall a b, (a < n)%nat -> ent (map (fun r0 => swap_entries r0 i c) S1) a b = ent S1 a (tr i c b)) by (intros; apply ent_swapcols; auto; lia).
      assert (TR : forall j, (j < c)%nat -> tr i c j = j) by (intros j Hj; unfold tr; now rewrite (proj2 (Nat.eqb_neq j i)), (proj2 (Nat.eqb_neq j c)) by lia).
      assert (NE : ent (map (fun r0 => swap_entries r0 i c) S1) r c <> 0). { rewrite ES by lia. unfold tr. rewrite Nat.eqb_refl. destruct (Nat.eqb_spec c i) as [<-|]; auto. }
      split; [|right; split; auto; left; split; [lia|apply colmin_pos; [apply R2|auto|now exists r]]].
      refine (conj R2 (conj _ (conj _ _))); [lia| |left; exact K'].
      split; [intros j Hj; rewrite ES, TR by lia; auto|]. intros a b Hb Hab Ha. rewrite ES, TR by lia. now apply T2'.
    + cbn [h_S h_U h_rhs h_c h_crk]. unfold hpost; cbn [h_S h_U h_rhs h_c h_crk]. rewrite K'. refine (conj R1 (conj _ (conj _ _))); [lia|split; auto|].
      intros i j Hi Hin Hj. destruct (Nat.lt_ge_cases j c) as [J|J]; [apply T2'; lia|apply FC; lia].
  - (* reduction *)
    assert (P1 : 0 < ent S1 c c) by lia.
    set (S2 := reduce_S S1 0 c (nth c S1 [])). set (U2 := reduce_U U1 S1 0 c (nth c S1 []) (nth c U1 [])). cbn [h_S h_U h_rhs h_c h_crk].
    assert (Q0 : quo S1 c c = 0) by (unfold quo; now rewrite Nat.ltb_irrefl).
    assert (HS2 : is_mat S2 n m) by (apply reduce_S_mat; auto). assert (HU2 : is_mat U2 n n) by (apply (reduce_U_mat S1 U1 n m); auto).
    assert (F2 : forall i j, (i < n)%nat -> ent S2 i j = ent S1 i j - quo S1 c i * ent S1 c j).
    { intros i j Hi. unfold S2. rewrite (ent_reduce_S S1 n m) by (auto; lia). destruct (Nat.ltb_spec j c) as [J|J]; auto. rewrite (T2' c j) by lia. ring. }
    assert (R2 : rel S2 U2 rhs).
    { apply (rel_row S1 U1 rhs S2 U2 (red_e c (quo S1 c))); auto; [now apply red_inv| |]; intros i j Hi Hj; rewrite red_mul by auto; auto. unfold U2. now rewrite (ent_reduce_U S1 U1 n m). }
    assert (RE : forall i, (c < i < n)%nat -> 0 <= ent S2 i c < ent S1 c c).
    { intros i Hi. rewrite F2 by lia. unfold quo. rewrite (proj2 (Nat.ltb_lt c i)) by lia. rewrite Z.mul_comm, <- Z.mod_eq by lia. apply Z.mod_pos_bound. lia. }
    assert (T1'' : forall j, (j < c + 1)%nat -> 0 < ent S2 j j).
    { intros j Hj. rewrite F2 by lia. replace (quo S1 c j) with 0 by (unfold quo; now rewrite (proj2 (Nat.ltb_ge c j)) by lia). destruct (Nat.eq_dec j c) as [->|N]; [lia|]. specialize (T1' j ltac:(lia)). lia. }
    assert (T2'' : forall i j, (j < c)%nat -> (j < i)%nat -> (i < n)%nat -> ent S2 i j = 0).
    { intros i j Hj Hij Hi. rewrite F2 by lia. rewrite !T2' by lia. ring. }
    pose proof (cleared_ok S2 n m c HS2 Hcn) as CL. destruct (cleared S2 c).
    + split; [|left; reflexivity]. refine (conj R2 (conj _ (conj _ _))); [lia| |left; lia]. split; auto. intros i j Hj Hij Hi. destruct (Nat.eq_dec j c) as [->|N]; [apply CL; auto; lia|apply T2''; lia].
    + assert (exists i, (c < i < n)%nat /\ ent S2 i c <> 0) as (i & Hi & Ni).
      { assert (X : ~ (forall i, (c < i < n)%nat -> ent S2 i c = 0)) by (intros X; apply CL in X; discriminate).
        assert (G : forall k, (k <= n)%nat -> (forall i, (c < i < k)%nat -> ent S2 i c = 0) \/ exists i, (c < i < n)%nat /\ ent S2 i c <> 0).
        { induction k as [|k IH]; intros Hk; [left; lia|]. destruct (IH ltac:(lia)) as [A|A]; auto. destruct (Z.eq_dec (ent S2 k c) 0) as [E|E].
          - left. intros i Hi. destruct (Nat.eq_dec i k) as [->|]; auto. apply A. lia.
          - destruct (Nat.lt_ge_cases c k); [right; exists k; split; auto; lia|left; lia]. }
        destruct (G n ltac:(lia)) as [A|A]; auto. contradiction. }
      split.
      * refine (conj R2 (conj _ (conj _ _))); [lia| |right].
        -- split; [intros j Hj; apply T1''; lia|auto].
        -- split; [lia|]. split; [lia|]. exists i. split; auto; lia.
      * right. split; auto. right. pose proof (colmin_le S2 c i HS2 Hcn ltac:(lia) Ni). specialize (RE i Hi). lia.
Qed.
Definition good (st : hstate) : Prop := exists f R, hpost R /\ forall f', (f <= f')%nat -> hloop f' m n st = Ok R.
Lemma good_step st st' : (h_c st < Nat.min m n)%nat -> hround m st = (st', true) -> good st' -> good st.
Proof.
  intros H E (f & R & P & G). exists (S f), R. split; auto. intros [|f'] Hf; [lia|]. cbn [hloop]. rewrite (proj2 (Nat.ltb_lt _ _) H), E. apply G. lia.
Qed.
Lemma good_all : forall k st, hinv st -> (Nat.min m n - h_c st <= k)%nat -> good st.
Proof.
  induction k as [|k IH]; intros st I Hk.
  - pose proof I as (R & A & B & C). exists 0%nat, st. split.
    + assert (E : h_crk st = h_c st) by (destruct C as [C|(_ & C & _)]; [auto|lia]). unfold hpost. rewrite E. refine (conj R (conj A (conj B _))).
      intros i j Hi Hin Hj. destruct B as [_ B]. apply B; lia.
    + intros f' _. destruct f'; cbn [hloop]; rewrite (proj2 (Nat.ltb_ge _ _)) by lia; reflexivity.
  - destruct (Nat.lt_ge_cases (h_c st) (Nat.min m n)) as [H|H]; [|apply IH; auto; lia].
    (* states with a non-zero column: by the size of the pivot *)
    assert (W : forall q st, hinv st -> (Nat.min m n - h_c st <= S k)%nat -> (h_c st < Nat.min m n)%nat -> (0 < colmin (h_S st) (h_c st) <= q)%nat -> good st).
    { clear st I Hk H. induction q as [|q IQ]; intros st I Hk H Q; [lia|]. pose proof (hround_ok st I H) as X. destruct (hround m st) as [st' more] eqn:E. destruct more.
      - apply (good_step st st' H E). destruct X as [I' [X|[X Y]]]; [apply IH; auto; lia|]. apply IQ; auto; rewrite ?X; try lia.
      - exists 1%nat, st'. split; auto. intros [|f'] Hf; [lia|]. cbn [hloop]. now rewrite (proj2 (Nat.ltb_lt _ _) H), E. }
    destruct (Nat.eq_dec (colmin (h_S st) (h_c st)) 0) as [Z0|NZ]; [|apply (W (colmin (h_S st) (h_c st))); auto; lia].
    pose proof (hround_ok st I H) as X. destruct (hround m st) as [st' more] eqn:E. destruct more.
    + apply (good_step st st' H E). destruct X as [I' [X|[X Y]]]; [apply IH; auto; lia|]. apply (W (colmin (h_S st') (h_c st'))); auto; rewrite ?X; try lia.
    + exists 1%nat, st'. split; auto. intros [|f'] Hf; [lia|]. cbn [hloop]. now rewrite (proj2 (Nat.ltb_lt _ _) H), E.
Qed.
Lemma unit_mat_ok : is_mat (unit_mat n) n n.
Proof. unfold unit_mat, unit_row. split; [now rewrite map_length, seq_length|]. apply Forall_map, Forall_forall. intros i _. now rewrite map_length, seq_length. Qed.
Lemma ent_unit i j : (i < n)%nat -> (j < n)%nat -> ent (unit_mat n) i j = delta i j.
Proof. intros Hi Hj. unfold ent, unit_mat, unit_row. rewrite nth_map_seq by auto. rewrite nth_map_seq by auto. reflexivity. Qed.
Theorem ihermite_ok : exists fuel rank S' U rhs', hermite_result n m S0 rhs0 rank S' U rhs' /\
  forall f, (fuel <= f)%nat -> ihermite f S0 rhs0 m n = Ok (rank, S', U, rhs').
Proof.
  assert (I : hinv (mkH S0 (unit_mat n) rhs0 0 0)).
  { unfold hinv; cbn [h_S h_U h_rhs h_c h_crk]. refine (conj _ (conj (Nat.le_0_l _) (conj _ (or_introl eq_refl)))); [|split; intros; lia].
    refine (conj H0 (conj unit_mat_ok (conj eq_refl (conj _ _)))).
    - apply (invertible_ext n delta); [|apply invertible_id]. intros i j Hi Hj. now rewrite ent_unit.
    - exists (seq 0 m). split; auto. split; [intros j Hj; now rewrite seq_nth|]. split; auto. intros i j Hi Hj.
      rewrite (mmul_ext n n m _ delta _ _ (fun a b Ha Hb => ent_unit a b Ha Hb) (fun _ _ _ _ => eq_refl) i j Hi Hj). rewrite mmul_id_l by auto. try (rewrite seq_nth by auto); reflexivity. }
  destruct (good_all (Nat.min m n) _ I ltac:(cbn; lia)) as (f & R & (A & B & C & D) & G). exists f, (h_crk R), (h_S R), (h_U R), (h_rhs R). split.
  - destruct A as (A1 & A2 & A3 & A4 & p & P1 & P2 & P3 & P4). refine (conj A1 (conj A2 (conj A3 (conj _ (conj A4 (conj _ (conj (proj1 C) (conj (proj2 C) D)))))))); [lia|].
    exists p. refine (conj P1 (conj P2 (conj P3 P4))).
  - intros f' Hf. unfold ihermite. now rewrite G.
Qed.
End Run.
