From Coq Require Import QArith Qfield.
From Verif Require Import Common Interp InterpSpec IntegMath DecompProofs DecompProofs4.
Open Scope Q_scope.

(** ** Polynomials and roots *)
Definition zero_list (p : list Q) := Forall (fun c => c == 0) p.
Fixpoint quot (a : Q) (p : list Q) : list Q :=
  match p with [] => [] | _ :: p' => match p' with [] => [] | _ :: _ => peval p' a :: quot a p' end end.
Lemma quot_length a : forall p, length (quot a p) = (length p - 1)%nat.
Proof. induction p as [|c p IH]; cbn [quot length]; auto. destruct p as [|d p]; auto. cbn [length] in *. rewrite IH. lia. Qed.
Lemma quot_ok a x : forall p, peval p x - peval p a == (x - a) * peval (quot a p) x.
Proof.
  induction p as [|c p IH]; cbn [quot peval]; [ring|]. destruct p as [|d p]; [cbn [peval]; ring|].
  cbn [peval]. cbn [peval] in IH. set (A := peval p x) in *. set (B := peval p a) in *. set (K := peval (quot a (d :: p)) x) in *.
  transitivity (x * (d + x * A - (d + a * B)) + (x - a) * (d + a * B)); [ring|]. rewrite IH. ring.
Qed.
Lemma peval_zero p x : zero_list p -> peval p x == 0.
Proof. induction 1 as [|c p H HP IH]; cbn [peval]; [reflexivity|]. rewrite H, IH. ring. Qed.
Lemma quot_zero a : forall p, peval p a == 0 -> zero_list (quot a p) -> zero_list p.
Proof.
  induction p as [|c p IH]; intros E Z; [constructor|]. destruct p as [|d p].
  - cbn [peval] in E. constructor; [|constructor]. rewrite <- E. ring.
  - cbn [quot] in Z. assert (Z' : zero_list (d :: p)) by (apply IH; [exact (Forall_inv Z)|exact (Forall_inv_tail Z)]).
    constructor; auto. cbn [peval] in E. pose proof (Forall_inv Z') as D. pose proof (peval_zero p a (Forall_inv_tail Z')) as P. rewrite D, P in E. rewrite <- E. ring.
Qed.
Lemma roots_zero : forall xs p, distinct xs -> (length p <= length xs)%nat -> (forall x, In x xs -> peval p x == 0) -> zero_list p.
Proof.
  induction xs as [|a xs IH]; intros p D L R.
  - destruct p; [constructor|cbn in L; lia].
  - destruct D as [D1 D2]. apply (quot_zero a); [apply R; now left|]. apply IH; auto.
    + rewrite quot_length. cbn [length] in L. lia.
    + intros x Hx. pose proof (quot_ok a x p) as QO. rewrite (R x (or_intror Hx)), (R a (or_introl eq_refl)) in QO.
      assert (N : ~ x - a == 0) by (intros E; apply (D1 x Hx); rewrite <- (Qplus_0_r a), <- E; ring).
      assert (Z : (x - a) * peval (quot a p) x == 0) by (rewrite <- QO; ring). apply Qmult_integral in Z as [Z|Z]; [contradiction|exact Z].
Qed.
(** a non-zero polynomial of n+1 coefficients vanishing at n points *)
Fixpoint shift_sub (a carry : Q) (p : list Q) : list Q := match p with [] => [carry] | c :: p' => (carry - a * c) :: shift_sub a c p' end.
Lemma shift_sub_ok a x : forall p carry, peval (shift_sub a carry p) x == carry + (x - a) * peval p x.
Proof. induction p as [|c p IH]; intros carry; cbn [shift_sub peval]; [ring|]. rewrite IH. ring. Qed.
Lemma shift_sub_length a : forall p carry, length (shift_sub a carry p) = S (length p).
Proof. induction p as [|c p IH]; intros carry; cbn [shift_sub length]; auto. Qed.
Lemma shift_sub_last a : forall p carry, p <> [] -> last (shift_sub a carry p) 0 = last p 0.
Proof.
  induction p as [|c p IH]; intros carry H; [congruence|]. cbn [shift_sub]. destruct p as [|d p]; [reflexivity|].
  transitivity (last (shift_sub a c (d :: p)) 0); [destruct p; reflexivity|]. rewrite IH by discriminate. reflexivity.
Qed.
Fixpoint vanish (xs : list Q) : list Q := match xs with [] => [1] | a :: xs' => shift_sub a 0 (vanish xs') end.
Lemma vanish_props : forall xs, length (vanish xs) = S (length xs) /\ vanish xs <> [] /\ last (vanish xs) 0 = 1 /\ forall x, (exists y, In y xs /\ x == y) -> peval (vanish xs) x == 0.
Proof.
  induction xs as [|a xs (I1 & I2 & I3 & I4)]; cbn [vanish length].
  - split; [reflexivity|]. split; [discriminate|]. split; [reflexivity|]. intros x (y & [] & _).
  - split; [rewrite shift_sub_length; lia|]. split; [destruct (vanish xs); discriminate|]. split; [rewrite shift_sub_last; auto|].
    intros x (y & [Hy|Hy] & E); rewrite shift_sub_ok; [subst a|].
    + assert (Z : x - y == 0) by (rewrite E; ring). rewrite Z. ring.
    + rewrite I4; [ring|]. now exists y.
Qed.
Lemma last_nonzero (p : list Q) : p <> [] -> last p 0 = 1 -> ~ zero_list p.
Proof.
  induction p as [|c p IH]; [congruence|]. intros _ L Z. destruct p as [|d p].
  - cbn in L. subst c. apply Forall_inv in Z. discriminate.
  - apply IH; [discriminate|exact L|exact (Forall_inv_tail Z)].
Qed.

(** ** Linear algebra *)
Definition lin (n : nat) (r w : list Q) : Q := qsum (fun j => entry r j * entry w j) (seq 0 n).
Lemma entry_times r v j : entry (times_row r v) j == entry r j * v.
Proof. unfold entry, times_row. revert j. induction r as [|a r IH]; intros [|j]; cbn [map nth]; auto; ring. Qed.
Lemma entry_sub : forall r v p j, length r = length p -> entry (sub_mult r v p) j == entry r j - v * entry p j.
Proof.
  unfold entry. induction r as [|a r IH]; intros v [|b p] j L; cbn [length] in L; try discriminate; destruct j; cbn [sub_mult nth]; try ring. apply IH. lia.
Qed.
Lemma length_sub : forall r v p, length r = length p -> length (sub_mult r v p) = length r.
Proof. induction r as [|a r IH]; intros v [|b p] L; cbn [length] in L; try discriminate; cbn [sub_mult length]; auto. Qed.
Lemma lin_times n r v w : lin n (times_row r v) w == v * lin n r w.
Proof. unfold lin. rewrite <- qsum_scale. apply qsum_ext. intros j _. rewrite entry_times. ring. Qed.
Lemma lin_sub n r v p w : length r = length p -> lin n (sub_mult r v p) w == lin n r w - v * lin n p w.
Proof.
  intros L. unfold lin. rewrite <- qsum_scale, <- qsum_minus. apply qsum_ext. intros j _. rewrite entry_sub by auto. ring.
Qed.
Definition row (rows : list (list Q)) (i : nat) : list Q := nth i rows [].
Definition kills (n : nat) (rows : list (list Q)) (w : list Q) : Prop := forall i, (i < length rows)%nat -> lin (S n) (row rows i) w == 0.
Definition inv (n k : nat) (rows : list (list Q)) : Prop :=
  length rows = n /\ (forall i, (i < n)%nat -> length (row rows i) = S n) /\
  (forall i j, (i < n)%nat -> (j < k)%nat -> entry (row rows i) j == if (i =? j)%nat then 1 else 0).

Lemma find_pivot_spec c : forall rows i,
  let k := find_pivot rows c i in
  (i <= k <= i + length rows)%nat /\ (forall t, (t < k - i)%nat -> entry (row rows t) c == 0) /\ ((k < i + length rows)%nat -> ~ entry (row rows (k - i)) c == 0).
Proof.
  induction rows as [|r rows IH]; intros i; cbn [find_pivot length]; cbv zeta.
  - split; [lia|]. split; intros; lia.
  - destruct (Qeq_bool (entry r c) 0) eqn:E.
    + destruct (IH (S i)) as (A & B & C). cbv zeta in *. set (k := find_pivot rows c (S i)) in *. split; [lia|]. split.
      * intros [|t] Ht; [apply Qeq_bool_eq in E; exact E|]. unfold row. cbn [nth]. apply B. lia.
      * intros H. replace (k - i)%nat with (S (k - S i)) by lia. unfold row. cbn [nth]. apply C. lia.
    + split; [lia|]. split; [intros; lia|]. intros _. rewrite Nat.sub_diag. unfold row. cbn [nth]. intros QE. apply Qeq_bool_neq in E. contradiction.
Qed.
Lemma row_skip rows p t : row (skipn p rows) t = row rows (p + t).
Proof. unfold row. revert rows. induction p as [|p IH]; intros rows; [reflexivity|]. destruct rows as [|r rows]; [destruct t; reflexivity|]. cbn [skipn]. rewrite IH. reflexivity. Qed.
Lemma row_upd rows i r j : row (upd rows i r) j = if (i =? j)%nat then (if (i <? length rows)%nat then r else []) else row rows j.
Proof.
  unfold row. revert i j. induction rows as [|q rows IH]; intros [|i] [|j]; cbn [upd nth length Nat.eqb]; auto.
  - destruct (i =? j)%nat; auto.
  - rewrite IH. reflexivity.
Qed.
Lemma nth_error_row rows i : (i < length rows)%nat -> nth_error rows i = Some (row rows i).
Proof. intros H. unfold row. now apply nth_error_nth'. Qed.

Lemma eliminate_ok n p c pr : (c < S n)%nat -> length pr = S n -> entry pr c == 1 ->
  forall rows i, (forall t, (t < length rows)%nat -> length (row rows t) = S n) ->
  exists rows', eliminate rows i p c pr = Ok rows' /\ length rows' = length rows /\
    forall t, (t < length rows)%nat -> row rows' t = if negb (Qeq_bool (entry (row rows t) c) 0) && negb (i + t =? p)%nat then sub_mult (row rows t) (entry (row rows t) c) pr else row rows t.
Proof.
  intros Hc Lp Ep. induction rows as [|r rows IH]; intros i L; cbn [eliminate].
  - exists []. split; auto. split; auto. cbn. intros; lia.
  - pose proof (L O ltac:(cbn; lia)) as Lr. unfold row in Lr. cbn [nth] in Lr.
    destruct (IH (S i)) as (rest & E & LE & R); [intros t Ht; apply (L (S t)); cbn; lia|].
    assert (S : forall r', (if negb (Qeq_bool (entry r c) 0) && negb (i =? p)%nat then
        let r1 := sub_mult r (entry r c) pr in if Qeq_bool (entry r1 c) 0 then Ok r1 else Err Exited else Ok r) = Ok r' ->
        r' = (if negb (Qeq_bool (entry r c) 0) && negb (i =? p)%nat then sub_mult r (entry r c) pr else r) ->
      exists rows', bind (if negb (Qeq_bool (entry r c) 0) && negb (i =? p)%nat then
        let r1 := sub_mult r (entry r c) pr in if Qeq_bool (entry r1 c) 0 then Ok r1 else Err Exited else Ok r)
        (fun r' => bind (eliminate rows (S i) p c pr) (fun rest => Ok (r' :: rest))) = Ok rows' /\ length rows' = length (r :: rows) /\
      forall t, (t < length (r :: rows))%nat -> row rows' t = if negb (Qeq_bool (entry (row (r :: rows) t) c) 0) && negb (i + t =? p)%nat then sub_mult (row (r :: rows) t) (entry (row (r :: rows) t) c) pr else row (r :: rows) t).
    { intros r' E1 E2. rewrite E1. cbn [bind]. rewrite E. cbn [bind]. exists (r' :: rest). split; auto. split; [cbn; lia|].
      intros [|t] Ht; cbn [length] in Ht.
      - unfold row. cbn [nth]. rewrite Nat.add_0_r. exact E2.
      - change (row (r' :: rest) (S t)) with (row rest t). change (row (r :: rows) (S t)) with (row rows t). rewrite R by lia. replace (S i + t)%nat with (i + S t)%nat by lia. reflexivity. }
    destruct (negb (Qeq_bool (entry r c) 0) && negb (i =? p)%nat) eqn:B; (eapply S; [|reflexivity]); [|reflexivity].
    cbv zeta. assert (Z : entry (sub_mult r (entry r c) pr) c == 0) by (rewrite entry_sub by lia; rewrite Ep; ring).
    apply Qeq_bool_iff in Z. now rewrite Z.
Qed.

Lemma ge_step_ok n k rows : (k < n)%nat -> inv n k rows ->
  (exists rows', find_pivot (skipn k rows) k k <> n /\ ge_step rows k k = Ok rows' /\ inv n (S k) rows' /\ forall w, kills n rows w <-> kills n rows' w) \/
  (find_pivot (skipn k rows) k k = n /\ ge_step rows k k = Err OutOfBounds /\ forall i, (k <= i < n)%nat -> entry (row rows i) k == 0).
Proof.
  intros Hk (L & LR & ID).
  destruct (find_pivot_spec k (skipn k rows) k) as (P1 & P2 & P3). cbv zeta in *. rewrite skipn_length, L in P1, P3.
  unfold ge_step. set (q := find_pivot (skipn k rows) k k) in *. cbv zeta.
  destruct (Nat.eq_dec q n) as [Eq|Nq].
  - right. split; [exact Eq|]. split.
    + unfold swap_rows. replace (nth_error rows q) with (@None (list Q)) by (symmetry; apply nth_error_None; lia). reflexivity.
    + intros i Hi. specialize (P2 (i - k)%nat ltac:(lia)). rewrite row_skip in P2. replace (k + (i - k))%nat with i in P2 by lia. exact P2.
  - left. assert (Hq : (q < n)%nat) by lia. specialize (P3 ltac:(lia)). rewrite row_skip in P3. replace (k + (q - k))%nat with q in P3 by lia.
    unfold swap_rows. rewrite (nth_error_row rows q), (nth_error_row rows k) by lia. cbn [bind].
    set (rows1 := upd (upd rows q (row rows k)) k (row rows q)).
    assert (R1 : forall i, (i < n)%nat -> row rows1 i = if (i =? k)%nat then row rows q else if (i =? q)%nat then row rows k else row rows i).
    { intros i Hi. unfold rows1. rewrite row_upd, length_upd, row_upd, L. rewrite (Nat.eqb_sym i k), (Nat.eqb_sym i q).
      destruct (Nat.ltb_spec k n); [|lia]. destruct (Nat.ltb_spec q n); [|lia]. reflexivity. }
    assert (L1 : length rows1 = n) by (unfold rows1; rewrite !length_upd; exact L).
    fold (row rows1 k). assert (RK : row rows1 k = row rows q) by (rewrite R1 by auto; now rewrite Nat.eqb_refl). rewrite RK.
    set (pv := entry (row rows q) k) in *. destruct (Qeq_bool pv 0) eqn:Q0; [apply Qeq_bool_eq in Q0; contradiction|].
    set (pr := times_row (row rows q) (/ pv)).
    assert (EP : entry pr k == 1) by (unfold pr; rewrite entry_times; fold pv; field; exact P3).
    pose proof EP as EPb. apply Qeq_bool_iff in EPb. rewrite EPb. cbn [negb].
    assert (LPR : length pr = S n) by (unfold pr, times_row; rewrite map_length; apply LR; auto).
    set (rows2 := upd rows1 k pr).
    assert (R2 : forall i, (i < n)%nat -> row rows2 i = if (i =? k)%nat then pr else row rows1 i).
    { intros i Hi. unfold rows2. rewrite row_upd, L1. rewrite (Nat.eqb_sym i k). destruct (Nat.ltb_spec k n); [|lia]. reflexivity. }
    assert (L2 : length rows2 = n) by (unfold rows2; rewrite length_upd; exact L1).
    assert (LL : forall i, (i < n)%nat -> length (row rows2 i) = S n).
    { intros i Hi. rewrite R2 by auto. destruct (i =? k)%nat; [exact LPR|]. rewrite R1 by auto. destruct (i =? k)%nat; [|destruct (i =? q)%nat]; apply LR; auto. }
    destruct (eliminate_ok n k k pr ltac:(lia) LPR EP rows2 0) as (rows3 & E3 & L3 & R3); [intros t Ht; apply LL; lia|].
    rewrite L2 in R3. exists rows3. split; [exact Nq|]. split; [exact E3|].
    (* the columns before k *)
    assert (COL : forall i j, (i < n)%nat -> (j < k)%nat -> entry (row rows2 i) j == if (i =? j)%nat then 1 else 0).
    { intros i j Hi Hj. rewrite R2 by auto. destruct (Nat.eqb_spec i k) as [->|Hik].
      - unfold pr. rewrite entry_times, ID by (auto; lia). destruct (Nat.eqb_spec q j); [lia|]. destruct (Nat.eqb_spec k j); [lia|]. ring.
      - rewrite R1 by auto. destruct (Nat.eqb_spec i k); [lia|]. destruct (Nat.eqb_spec i q) as [->|]; [|apply ID; auto].
        rewrite ID by auto. destruct (Nat.eqb_spec k j); [lia|]. destruct (Nat.eqb_spec q j); [lia|]. reflexivity. }
    split.
    + split; [lia|]. split.
      * intros i Hi. rewrite R3 by auto. destruct (negb (Qeq_bool (entry (row rows2 i) k) 0) && negb (0 + i =? k)%nat); [|now apply LL]. rewrite length_sub; [now apply LL|]. rewrite LL, LPR; auto.
      * intros i j Hi Hj. rewrite R3 by auto. cbn [Nat.add]. set (v := entry (row rows2 i) k).
        assert (LS : length (row rows2 i) = length pr) by (rewrite LL, LPR; auto).
        destruct (Nat.eq_dec j k) as [->|Hjk].
        -- destruct (Nat.eqb_spec i k) as [->|Hik].
           ++ rewrite andb_false_r. rewrite R2 by auto. rewrite Nat.eqb_refl. exact EP.
           ++ rewrite andb_true_r. destruct (Qeq_bool v 0) eqn:V; cbn [negb]; [apply Qeq_bool_eq in V; exact V|]. rewrite entry_sub by auto. fold v. rewrite EP. ring.
        -- assert (Hj' : (j < k)%nat) by lia. destruct (negb (Qeq_bool v 0) && negb (i =? k)%nat) eqn:B; [|now apply COL]. rewrite entry_sub by auto. rewrite COL by auto.
           pose proof (COL k j Hk Hj') as C. rewrite R2 in C by auto. rewrite Nat.eqb_refl in C. rewrite C. destruct (Nat.eqb_spec k j); [lia|]. ring.
    + (* solutions *)
      intros w. unfold kills. rewrite L, L3, L2.
      assert (K2 : (forall i, (i < n)%nat -> lin (S n) (row rows i) w == 0) <-> (forall i, (i < n)%nat -> lin (S n) (row rows2 i) w == 0)).
      { split; intros H i Hi.
        - rewrite R2 by auto. destruct (Nat.eqb_spec i k); [unfold pr; rewrite lin_times, H by auto; ring|]. rewrite R1 by auto. destruct (Nat.eqb_spec i k); [lia|]. destruct (i =? q)%nat; apply H; auto.
        - assert (HP : lin (S n) (row rows q) w == 0).
          { specialize (H k Hk). rewrite R2 in H by auto. rewrite Nat.eqb_refl in H. unfold pr in H. rewrite lin_times in H.
            apply Qmult_integral in H as [H|H]; [|exact H]. exfalso. assert (E : pv * / pv == 1) by (field; exact P3). rewrite H in E. rewrite Qmult_0_r in E. discriminate. }
          destruct (Nat.eq_dec i q) as [->|Niq]; [exact HP|]. destruct (Nat.eq_dec i k) as [->|Nik].
          + assert (Nqk : q <> k) by congruence. specialize (H q Hq). rewrite R2, R1 in H by auto. destruct (Nat.eqb_spec q k); [contradiction|]. rewrite Nat.eqb_refl in H. exact H.
          + specialize (H i Hi). rewrite R2, R1 in H by auto. destruct (Nat.eqb_spec i k); [contradiction|]. destruct (Nat.eqb_spec i q); [contradiction|]. exact H. }
      rewrite K2. assert (PR : forall i, (i < n)%nat -> lin (S n) (row rows3 i) w == lin (S n) (row rows2 i) w - (if negb (Qeq_bool (entry (row rows2 i) k) 0) && negb (i =? k)%nat then entry (row rows2 i) k else 0) * lin (S n) pr w).
      { intros i Hi. rewrite R3 by auto. cbn [Nat.add]. destruct (negb (Qeq_bool (entry (row rows2 i) k) 0) && negb (i =? k)%nat); [|ring]. apply lin_sub. rewrite LL, LPR; auto. }
      assert (RP2 : row rows2 k = pr) by (rewrite R2 by auto; now rewrite Nat.eqb_refl).
      assert (RP3 : lin (S n) (row rows3 k) w == lin (S n) pr w) by (rewrite PR by auto; rewrite Nat.eqb_refl, andb_false_r, RP2; ring).
      split; intros H i Hi.
      * rewrite PR by auto. rewrite (H i Hi). pose proof (H k Hk) as HP. rewrite RP2 in HP. rewrite HP. ring.
      * pose proof (PR i Hi) as P. rewrite (H i Hi) in P. pose proof (H k Hk) as HP. rewrite RP3 in HP. rewrite HP in P. rewrite Qmult_0_r in P. rewrite <- (Qplus_0_r (lin (S n) (row rows2 i) w)). symmetry. rewrite P at 1. ring.
Qed.
