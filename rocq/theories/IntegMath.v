(** Power series over Q and the residue formula for complete symmetric polynomials. *)
From Coq Require Import QArith Qfield Permutation.
From Verif Require Import Common IntegSpec.
Open Scope Q_scope.

Definition series := nat -> Q.
Definition seq_eq (F G : series) : Prop := forall j, F j == G j.
Notation "F ≡ G" := (seq_eq F G) (at level 70).
Lemma seq_refl F : F ≡ F. Proof. intros j; reflexivity. Qed.
Lemma seq_sym F G : F ≡ G -> G ≡ F. Proof. intros H j; symmetry; apply H. Qed.
Lemma seq_trans F G H : F ≡ G -> G ≡ H -> F ≡ H. Proof. unfold seq_eq. intros A B j. rewrite (A j). apply B. Qed.

Definition one : series := fun j => match j with O => 1 | S _ => 0 end.
(** times (c + w), divided by (c + w) *)
Definition mullin (c : Q) (F : series) : series := fun j => match j with O => c * F O | S k => c * F (S k) + F k end.
Fixpoint divlin (c : Q) (F : series) (j : nat) : Q := match j with O => F O / c | S k => (F (S k) - divlin c F k) / c end.

Lemma mullin_ext c F G : F ≡ G -> mullin c F ≡ mullin c G.
Proof. unfold seq_eq. intros H [|k]; cbn [mullin]; [rewrite (H O); reflexivity|]. rewrite (H (S k)), (H k); reflexivity. Qed.
Lemma divlin_ext c F G : F ≡ G -> divlin c F ≡ divlin c G.
Proof. unfold seq_eq. intros H j; induction j as [|k IH]; cbn [divlin]; [rewrite (H O); reflexivity|]. rewrite (H (S k)), IH; reflexivity. Qed.
Lemma div_mul c F : ~ c == 0 -> divlin c (mullin c F) ≡ F.
Proof. intros H j; induction j as [|k IH]; cbn [divlin mullin]; [field; auto|]. rewrite IH. field; auto. Qed.
Lemma mul_div c F : ~ c == 0 -> mullin c (divlin c F) ≡ F.
Proof. intros H [|k]; cbn [divlin mullin]; field; auto. Qed.
Lemma mul_comm c e F : mullin c (mullin e F) ≡ mullin e (mullin c F).
Proof. intros [|[|k]]; cbn [mullin]; ring. Qed.
Lemma mul_inj c F G : ~ c == 0 -> mullin c F ≡ mullin c G -> F ≡ G.
Proof. intros H E. eapply seq_trans; [apply seq_sym, (div_mul c F H)|]. eapply seq_trans; [apply divlin_ext, E|]. now apply div_mul. Qed.
Lemma div_comm c e F : ~ c == 0 -> ~ e == 0 -> divlin c (divlin e F) ≡ divlin e (divlin c F).
Proof.
  intros Hc He. apply (mul_inj c); auto. apply (mul_inj e); auto.
  eapply seq_trans; [apply mullin_ext, mul_div; auto|]. eapply seq_trans; [apply mul_div; auto|].
  eapply seq_trans; [|apply mul_comm]. apply seq_sym. eapply seq_trans; [apply mullin_ext, mul_div; auto|]. now apply mul_div.
Qed.
Lemma div_mul_comm c e F : ~ e == 0 -> divlin e (mullin c F) ≡ mullin c (divlin e F).
Proof.
  intros He. apply (mul_inj e); auto. eapply seq_trans; [apply mul_div; auto|]. eapply seq_trans; [|apply mul_comm].
  apply mullin_ext. apply seq_sym. now apply mul_div.
Qed.

(** product of several 1/(c+w) *)
Definition divs (l : list Z) (F : series) : series := fold_right (fun c G => divlin (inject_Z c) G) F l.
Lemma divs_ext l F G : F ≡ G -> divs l F ≡ divs l G.
Proof. intros H; induction l as [|c l IH]; cbn; auto. now apply divlin_ext. Qed.
Lemma injz_nz c : (c <> 0)%Z -> ~ inject_Z c == 0.
Proof. unfold Qeq; cbn; lia. Qed.
Lemma divs_perm l l' F : Permutation l l' -> Forall (fun c => c <> 0%Z) l -> divs l F ≡ divs l' F.
Proof.
  induction 1 as [|x l l' P IH|x y l|l l' l'' P1 IH1 P2 IH2]; intros H.
  - apply seq_refl.
  - cbn [divs fold_right]. apply divlin_ext, IH. exact (Forall_inv_tail H).
  - cbn [divs fold_right]. apply div_comm; apply injz_nz; [exact (Forall_inv H)|exact (Forall_inv (Forall_inv_tail H))].
  - eapply seq_trans; [apply IH1, H|]. apply IH2. rewrite Forall_forall in *. intros c Hc. apply H. now apply (Permutation_in c (Permutation_sym P1)).
Qed.
Lemma divs_mul_comm c l F : Forall (fun c => c <> 0%Z) l -> divs l (mullin c F) ≡ mullin c (divs l F).
Proof.
  unfold divs. induction 1 as [|x l Hx Hl IH]; cbn [fold_right]; [apply seq_refl|].
  eapply seq_trans; [apply divlin_ext, IH|]. apply div_mul_comm, injz_nz, Hx.
Qed.
Lemma divs_lin l F G a : Forall (fun c => c <> 0%Z) l -> divs l (fun j => F j - a * G j) ≡ (fun j => divs l F j - a * divs l G j).
Proof.
  unfold divs. induction 1 as [|x l Hx Hl IH]; cbn [fold_right]; [apply seq_refl|].
  eapply seq_trans; [apply divlin_ext, IH|]. intros j; induction j as [|k IHk]; cbn [divlin]; [|rewrite IHk]; field; now apply injz_nz.
Qed.

(** iterated operators *)
Fixpoint iter (n : nat) (f : series -> series) (F : series) : series := match n with O => F | S n' => f (iter n' f F) end.
Definition powlin (v : Z) (N : nat) : series := iter N (mullin (inject_Z v)) one.

(** residue at v *)
Definition others (v : Z) (S : list Z) : list Z := filter (fun b => negb (b =? v)%Z) S.
Definition res (v : Z) (S : list Z) (F : series) : Q :=
  divs (map (fun b => (v - b)%Z) (others v S)) F (count_occ Z.eq_dec S v - 1)%nat.
Fixpoint qsum {A} (f : A -> Q) (l : list A) : Q := match l with [] => 0 | a :: l' => f a + qsum f l' end.
Definition D (S : list Z) (N : nat) : Q := qsum (fun v => res v S (powlin v N)) (nodup Z.eq_dec S).

Lemma qsum_ext {A} (f g : A -> Q) l : (forall a, In a l -> f a == g a) -> qsum f l == qsum g l.
Proof. induction l as [|a l IH]; cbn; intros H; [reflexivity|]. rewrite (H a), IH by auto. reflexivity. Qed.
Lemma qsum_perm {A} (f : A -> Q) l l' : Permutation l l' -> qsum f l == qsum f l'.
Proof. induction 1; cbn; [reflexivity| rewrite IHPermutation; reflexivity | ring | now rewrite IHPermutation1]. Qed.
Lemma qsum_lin {A} (f g : A -> Q) a l : qsum (fun v => f v - a * g v) l == qsum f l - a * qsum g l.
Proof. induction l as [|x l IH]; cbn; [ring|]. rewrite IH; ring. Qed.

Lemma others_nz v S : Forall (fun c => c <> 0%Z) (map (fun b => (v - b)%Z) (others v S)).
Proof.
  unfold others. apply Forall_forall. intros c H. apply in_map_iff in H as (b & <- & H). apply filter_In in H as [_ H].
  apply negb_true_iff, Z.eqb_neq in H. lia.
Qed.
Lemma filter_perm {A} (f : A -> bool) l l' : Permutation l l' -> Permutation (filter f l) (filter f l').
Proof.
  induction 1; cbn; auto.
  - destruct (f x); auto.
  - destruct (f x), (f y); auto. constructor.
  - eapply perm_trans; eauto.
Qed.
Lemma res_perm v S S' F : Permutation S S' -> res v S F == res v S' F.
Proof.
  intros P. unfold res. pose proof (proj1 (Permutation_count_occ Z.eq_dec S S') P v) as E. rewrite E.
  apply divs_perm; [|apply others_nz]. apply Permutation_map. now apply filter_perm.
Qed.
Lemma D_perm S S' N : Permutation S S' -> D S N == D S' N.
Proof.
  intros P. unfold D. rewrite (qsum_perm _ (nodup Z.eq_dec S) (nodup Z.eq_dec S')).
  - apply qsum_ext. intros v _. now apply res_perm.
  - apply NoDup_Permutation; try apply NoDup_nodup. intros x. rewrite !nodup_In. split; intros H.
    + now apply (Permutation_in x P).
    + now apply (Permutation_in x (Permutation_sym P)).
Qed.

(** D_{a::T}((z - a) f) = D_T(f), for f = z^N *)
Lemma powlin_shift v a N : (fun j => powlin v (S N) j - inject_Z a * powlin v N j) ≡ mullin (inject_Z (v - a)) (powlin v N).
Proof.
  intros j. unfold powlin. cbn [iter]. unfold Z.sub. rewrite inject_Z_plus, inject_Z_opp.
  destruct j as [|j]; cbn [mullin]; ring.
Qed.
Lemma res_lin v S F G a : res v S F - a * res v S G == res v S (fun j => F j - a * G j).
Proof. unfold res. symmetry. apply (divs_lin _ F G a). apply others_nz. Qed.

Lemma res_cons_other v a T F : v <> a -> res v (a :: T) (mullin (inject_Z (v - a)) F) == res v T F.
Proof.
  intros H. unfold res. cbn [count_occ]. destruct (Z.eq_dec a v) as [E|_]; [congruence|].
  unfold others. cbn [filter]. destruct (Z.eqb_spec a v); [congruence|]. cbn [negb map divs fold_right].
  fold (divs (map (fun b => (v - b)%Z) (filter (fun b => negb (b =? v)%Z) T)) (mullin (inject_Z (v - a)) F)).
  rewrite (divlin_ext _ _ _ (divs_mul_comm (inject_Z (v - a)) _ F (others_nz v T)) _).
  apply div_mul. apply injz_nz. lia.
Qed.
Lemma res_cons_same a T F : res a (a :: T) (mullin (inject_Z (a - a)) F) == if in_dec Z.eq_dec a T then res a T F else 0.
Proof.
  unfold res. cbn [count_occ]. destruct (Z.eq_dec a a) as [_|]; [|congruence].
  unfold others. cbn [filter]. rewrite Z.eqb_refl. cbn [negb].
  rewrite (divs_mul_comm (inject_Z (a - a)) _ F (others_nz a T) _). fold (others a T). rewrite Z.sub_diag.
  destruct (in_dec Z.eq_dec a T) as [H|H].
  - apply (count_occ_In Z.eq_dec) in H. destruct (count_occ Z.eq_dec T a) as [|c] eqn:E; [lia|].
    replace (S (S c) - 1)%nat with (S c) by lia. replace (S c - 1)%nat with c by lia. cbn [mullin]. ring.
  - apply (count_occ_not_In Z.eq_dec) in H. rewrite H. cbn. ring.
Qed.

Lemma D_step a T N : D (a :: T) (S N) == inject_Z a * D (a :: T) N + D T N.
Proof.
  assert (E : D (a :: T) (S N) - inject_Z a * D (a :: T) N == D T N); [|rewrite <- E; ring].
  unfold D. rewrite <- qsum_lin.
  rewrite (qsum_ext _ (fun v => res v (a :: T) (mullin (inject_Z (v - a)) (powlin v N)))).
  2:{ intros v _. rewrite res_lin. unfold res. apply divs_ext. apply powlin_shift. }
  cbn [nodup]. destruct (in_dec Z.eq_dec a T) as [H|H].
  - apply qsum_ext. intros v _. destruct (Z.eq_dec v a) as [->|Hv]; [|now apply res_cons_other].
    rewrite res_cons_same. destruct (in_dec Z.eq_dec a T); [reflexivity|tauto].
  - cbn [qsum]. rewrite res_cons_same. destruct (in_dec Z.eq_dec a T); [tauto|]. rewrite Qplus_0_l.
    apply qsum_ext. intros v Hv. apply res_cons_other. intros ->. apply nodup_In in Hv. tauto.
Qed.

Lemma all_equal_or_not (a : Z) (T : list Z) : Forall (fun b => b = a) T \/ exists b, In b T /\ b <> a.
Proof.
  induction T as [|b T [IH|(c & H1 & H2)]]; [left; constructor| |right; exists c; split; auto; now right].
  destruct (Z.eq_dec b a); [left; constructor; auto|right; exists b; split; auto; now left].
Qed.
Lemma D_zero : forall n S, length S = n -> D S 0 == match n with 1%nat => 1 | _ => 0 end.
Proof.
  induction n as [n IH] using lt_wf_ind. intros [|a T] L; cbn in L; subst n; [reflexivity|].
  destruct (all_equal_or_not a T) as [H|(b & Hb & Hne)].
  - assert (E : nodup Z.eq_dec (a :: T) = [a]).
    { clear IH. induction H as [|b T Hb HT IHT]; [reflexivity|]. subst b. cbn [nodup] in *.
      destruct (in_dec Z.eq_dec a (a :: T)) as [_|N]; [|exfalso; apply N; now left]. exact IHT. }
    unfold D. rewrite E. cbn [qsum]. rewrite Qplus_0_r. unfold res.
    assert (O : others a (a :: T) = []).
    { unfold others. cbn. rewrite Z.eqb_refl. cbn. clear IH E. induction H as [|b T Hb HT IHT]; cbn; auto. subst b. rewrite Z.eqb_refl. exact IHT. }
    rewrite O. cbn [map divs fold_right].
    assert (C : count_occ Z.eq_dec (a :: T) a = S (length T)).
    { clear IH E O. cbn. destruct (Z.eq_dec a a); [|congruence]. f_equal. induction H as [|b T Hb HT IHT]; cbn; auto. subst b. destruct (Z.eq_dec a a); [|congruence]. now f_equal. }
    rewrite C. unfold powlin. cbn [iter]. replace (S (length T) - 1)%nat with (length T) by lia. destruct T; reflexivity.
  - apply in_split in Hb as (T1 & T2 & ->).
    assert (P1 : Permutation (a :: T1 ++ b :: T2) (a :: b :: T1 ++ T2)) by (constructor; apply Permutation_sym, Permutation_middle).
    assert (P2 : Permutation (a :: T1 ++ b :: T2) (b :: a :: T1 ++ T2)) by (eapply perm_trans; [exact P1|constructor]).
    pose proof (D_step a (b :: T1 ++ T2) 0) as S1. pose proof (D_step b (a :: T1 ++ T2) 0) as S2.
    rewrite <- !(D_perm _ _ _ P1) in S1. rewrite <- !(D_perm _ _ _ P2) in S2.
    assert (EQ : D (a :: T1 ++ T2) 0 == D (b :: T1 ++ T2) 0).
    { rewrite (IH (S (length (T1 ++ T2)))); [|cbn; rewrite !app_length; cbn; lia|reflexivity].
      rewrite (IH (S (length (T1 ++ T2)))); [reflexivity|cbn; rewrite !app_length; cbn; lia|reflexivity]. }
    assert (ND : ~ inject_Z (a - b) == 0) by (apply injz_nz; lia).
    assert (Z0 : inject_Z (a - b) * D (a :: T1 ++ b :: T2) 0 == 0).
    { unfold Z.sub. rewrite inject_Z_plus, inject_Z_opp. rewrite S1 in S2. rewrite EQ in S2.
      apply (Qplus_inj_r _ _ (inject_Z b * D (a :: T1 ++ b :: T2) 0 + D (b :: T1 ++ T2) 0)).
      rewrite <- S2 at 2. ring. }
    apply Qmult_integral in Z0 as [Z0|Z0]; [tauto|]. rewrite Z0. rewrite app_length. cbn [length]. destruct (length T1 + S (length T2))%nat eqn:E; [lia|reflexivity].
Qed.

(** complete symmetric polynomials *)
Lemma zsum_ext f g n : (forall i, (i < n)%nat -> f i = g i) -> zsum f n = zsum g n.
Proof. induction n; cbn; intros H; auto. rewrite IHn, (H n) by auto. reflexivity. Qed.
Lemma zsum_scale f c n : zsum (fun i => c * f i)%Z n = (c * zsum f n)%Z.
Proof. induction n; cbn; [lia|]. rewrite IHn. ring. Qed.
Lemma zsum_head f n : zsum f (S n) = (f O + zsum (fun i => f (S i)) n)%Z.
Proof. induction n as [|n IH]; [cbn; lia|]. cbn [zsum] in *. rewrite IH. ring. Qed.
Lemma hsym_step x xs m : hsym (x :: xs) (S m) = (x * hsym (x :: xs) m + hsym xs (S m))%Z.
Proof.
  cbn [hsym]. rewrite zsum_head. rewrite Nat.sub_0_r. change (x ^ Z.of_nat 0)%Z with 1%Z.
  rewrite <- zsum_scale. rewrite Z.mul_1_l, Z.add_comm. f_equal. apply zsum_ext. intros i _.
  rewrite Nat2Z.inj_succ, Z.pow_succ_r by lia. cbn [Nat.sub]. ring.
Qed.
Lemma hsym_0 xs : hsym xs 0 = 1%Z.
Proof. induction xs as [|x xs IH]; cbn; auto. rewrite IH. reflexivity. Qed.
Lemma hsym_empty m : hsym [] (S m) = 0%Z. Proof. reflexivity. Qed.

Theorem residues_are_hsym : forall T a N, D (a :: T) N == if (N <? length T)%nat then 0 else inject_Z (hsym (a :: T) (N - length T)).
Proof.
  induction T as [|b T IHT]; intros a N.
  - cbn [length]. change (N <? 0)%nat with false. cbv iota. rewrite Nat.sub_0_r.
    induction N as [|N IHN]; [rewrite (D_zero 1); reflexivity|].
    rewrite D_step, IHN, hsym_step, hsym_empty, inject_Z_plus, inject_Z_mult. cbn. reflexivity.
  - induction N as [|N IHN].
    + rewrite (D_zero (S (length (b :: T))) (a :: b :: T) eq_refl). reflexivity.
    + rewrite D_step, IHN, IHT. cbn [length].
      destruct (Nat.ltb_spec N (S (length T))) as [H|H]; destruct (Nat.ltb_spec N (length T)) as [H0|H0];
        destruct (Nat.ltb_spec (S N) (S (length T))) as [H1|H1]; try lia.
      * ring.
      * replace (N - length T)%nat with O by lia. replace (S N - S (length T))%nat with O by lia.
        rewrite !hsym_0. ring.
      * replace (S N - S (length T))%nat with (S (N - S (length T))) by lia. rewrite hsym_step, inject_Z_plus, inject_Z_mult.
        replace (N - length T)%nat with (S (N - S (length T))) by lia. ring.
Qed.
