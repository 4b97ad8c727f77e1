From Coq Require Import QArith Qfield.
From Verif Require Import Common Interp InterpSpec IntegMath DecompProofs DecompProofs4 InterpProofs.
Open Scope Q_scope.

Lemma qsum_zero {A} (f : A -> Q) l : (forall a, In a l -> f a == 0) -> qsum f l == 0.
Proof. intros H. rewrite (qsum_ext f (fun _ => 0 * 0)) by (intros a Ha; rewrite (H a Ha); ring). rewrite qsum_scale. ring. Qed.
Lemma qsum_two {A} (f : A -> Q) l a b : NoDup l -> In a l -> In b l -> a <> b -> (forall c, In c l -> c <> a -> c <> b -> f c == 0) -> qsum f l == f a + f b.
Proof.
  induction 1 as [|c l Nc ND IH]; cbn [qsum In]; [tauto|]. intros [->|Ha] [->|Hb] Hab H.
  - congruence.
  - rewrite (qsum_single f l b ND Hb); [reflexivity|]. intros d Hd Hn. apply H; auto. intros ->. contradiction.
  - rewrite (qsum_single f l a ND Ha); [ring|]. intros d Hd Hn. apply H; auto. intros ->. contradiction.
  - rewrite (H c); [rewrite IH; auto; ring|now left| |]; intros ->; contradiction.
Qed.

(** the kernel vector when a column has no pivot *)
Definition kernel_vec (n k : nat) (rows : list (list Q)) : list Q :=
  map (fun j => if (j <? k)%nat then - entry (row rows j) k else if (j =? k)%nat then 1 else 0) (seq 0 (S n)).
Lemma entry_seq (f : nat -> Q) m j : entry (map f (seq 0 m)) j = if (j <? m)%nat then f j else 0.
Proof.
  unfold entry. destruct (Nat.ltb_spec j m).
  - rewrite (nth_indep _ 0 (f O)) by now rewrite map_length, seq_length. rewrite map_nth, seq_nth by auto. reflexivity.
  - apply nth_overflow. rewrite map_length, seq_length. lia.
Qed.
Lemma kernel_vec_kills n k rows : (k < n)%nat -> inv n k rows -> (forall i, (k <= i < n)%nat -> entry (row rows i) k == 0) ->
  kills n rows (kernel_vec n k rows).
Proof.
  intros Hk (L & LR & ID) NP i Hi. rewrite L in Hi. unfold lin.
  assert (W : forall j, (j < S n)%nat -> entry (kernel_vec n k rows) j = if (j <? k)%nat then - entry (row rows j) k else if (j =? k)%nat then 1 else 0).
  { intros j Hj. unfold kernel_vec. rewrite entry_seq. destruct (Nat.ltb_spec j (S n)); [reflexivity|lia]. }
  destruct (le_lt_dec k i) as [Hki|Hik].
  - apply qsum_zero. intros j Hj. apply in_seq in Hj. rewrite W by lia. destruct (Nat.ltb_spec j k).
    + rewrite (ID i j) by auto. destruct (Nat.eqb_spec i j); [lia|]. ring.
    + destruct (Nat.eqb_spec j k) as [->|]; [rewrite NP by lia; ring|ring].
  - rewrite (qsum_two _ _ i k).
    + rewrite !W by lia. destruct (Nat.ltb_spec i k); [|lia]. destruct (Nat.ltb_spec k k); [lia|]. rewrite Nat.eqb_refl. rewrite (ID i i) by auto. rewrite Nat.eqb_refl. ring.
    + apply seq_NoDup.
    + apply in_seq. lia.
    + apply in_seq. lia.
    + lia.
    + intros j Hj N1 N2. apply in_seq in Hj. rewrite W by lia. destruct (Nat.ltb_spec j k).
      * rewrite (ID i j) by auto. destruct (Nat.eqb_spec i j); [lia|]. ring.
      * destruct (Nat.eqb_spec j k); [lia|]. ring.
Qed.

Lemma ge_ok n : forall f k rows, (k + f = n)%nat -> inv n k rows ->
  (exists rows', ge f rows n k k = Ok rows' /\ inv n n rows' /\ forall w, kills n rows w <-> kills n rows' w) \/
  (ge f rows n k k = Err OutOfBounds /\ exists w, kills n rows w /\ length w = S n /\ entry w n == 0 /\ exists j, (j < n)%nat /\ ~ entry w j == 0).
Proof.
  induction f as [|f IH]; intros k rows E I; cbn [ge].
  - left. exists rows. replace k with n in I by lia. split; auto. split; auto. tauto.
  - destruct (Nat.ltb_spec k n); [|lia]. cbn [andb]. pose proof (find_pivot_spec k (skipn k rows) k) as (P & _ & _). cbv zeta in P.
    destruct I as (L & I'). rewrite skipn_length, L in P. pose proof (conj L I' : inv n k rows) as I.
    destruct (Nat.ltb_spec n (find_pivot (skipn k rows) k k)); [lia|].
    destruct (ge_step_ok n k rows ltac:(auto) I) as [(rows1 & _ & S1 & S2 & S3)|(_ & S1 & S2)]; rewrite S1; cbn [bind].
    + destruct (IH (S k) rows1 ltac:(lia) S2) as [(rows' & A & B & C)|(A & w & B & C)].
      * left. exists rows'. split; auto. split; auto. intros w. rewrite S3. apply C.
      * right. split; auto. exists w. rewrite S3. auto.
    + right. split; auto. exists (kernel_vec n k rows). split; [now apply kernel_vec_kills|]. split; [unfold kernel_vec; now rewrite map_length, seq_length|].
      unfold kernel_vec. rewrite !entry_seq. destruct (Nat.ltb_spec n (S n)); [|lia]. destruct (Nat.ltb_spec n k); [lia|]. destruct (Nat.eqb_spec n k); [lia|]. split; [reflexivity|].
      exists k. split; auto. rewrite entry_seq. destruct (Nat.ltb_spec k (S n)); [|lia]. destruct (Nat.ltb_spec k k); [lia|]. rewrite Nat.eqb_refl. discriminate.
Qed.

(** ** The matrix of the points *)
Definition point_row (n : nat) (p : Q * Q) : list Q := powers n 1 (fst p) ++ [snd p].
Lemma powers_length n : forall p x, length (powers n p x) = n.
Proof. induction n; intros; cbn [powers length]; auto. Qed.
Lemma upd_fill {A} (done : list A) z k v : upd (done ++ repeat z (S k)) (length done) v = (done ++ [v]) ++ repeat z k.
Proof. induction done as [|a done IH]; cbn [app length upd repeat]; [reflexivity|]. f_equal. exact IH. Qed.
Lemma add_points_ok d : forall l done, (length done + length l <= d + 1)%nat ->
  add_points (mkInterp d (map (point_row (d + 1)) done ++ repeat (repeat 0 (d + 2)) (d + 1 - length done)) (length done)) l =
  Ok (mkInterp d (map (point_row (d + 1)) (done ++ l) ++ repeat (repeat 0 (d + 2)) (d + 1 - length (done ++ l))) (length (done ++ l))).
Proof.
  induction l as [|[x f] l IH]; intros done H; cbn [add_points]; [now rewrite app_nil_r|]. cbn [length] in H.
  unfold add_point. cbn [pi_deg pi_count pi_rows]. destruct (Nat.leb_spec (d + 1) (length done)); [lia|]. cbn [bind].
  replace (d + 1 - length done)%nat with (S (d + 1 - S (length done))) by lia.
  replace (length done) with (length (map (point_row (d + 1)) done)) at 2 by apply map_length. rewrite upd_fill.
  specialize (IH (done ++ [(x, f)])). rewrite app_length in IH. cbn [length] in IH. rewrite Nat.add_1_r in IH. specialize (IH ltac:(lia)).
  rewrite map_app in IH. cbn [map] in IH. unfold point_row at 2 in IH. cbn [fst snd] in IH. rewrite IH. rewrite <- app_assoc. reflexivity.
Qed.
Lemma add_all d pts : length pts = (d + 1)%nat -> add_points (new_interp d) pts = Ok (mkInterp d (map (point_row (d + 1)) pts) (d + 1)).
Proof.
  intros L. pose proof (add_points_ok d pts [] ltac:(cbn; lia)) as H. cbn [map app length] in H. rewrite Nat.sub_0_r in H. unfold new_interp. rewrite H.
  rewrite L, Nat.sub_diag. cbn [repeat]. now rewrite app_nil_r.
Qed.
Lemma add_too_many d : forall l done, (length done <= d + 1)%nat -> (d + 1 < length done + length l)%nat ->
  add_points (mkInterp d (map (point_row (d + 1)) done ++ repeat (repeat 0 (d + 2)) (d + 1 - length done)) (length done)) l = Err Exited.
Proof.
  induction l as [|[x f] l IH]; intros done H1 H2; cbn [length] in H2; [lia|]. cbn [add_points]. unfold add_point at 1. cbn [pi_deg pi_count pi_rows].
  destruct (Nat.leb_spec (d + 1) (length done)); [reflexivity|]. cbn [bind].
  replace (d + 1 - length done)%nat with (S (d + 1 - S (length done))) by lia.
  replace (length done) with (length (map (point_row (d + 1)) done)) at 2 by apply map_length. rewrite upd_fill.
  specialize (IH (done ++ [(x, f)])). rewrite app_length in IH. cbn [length] in IH. rewrite Nat.add_1_r in IH. specialize (IH ltac:(lia) ltac:(lia)).
  rewrite map_app in IH. cbn [map] in IH. unfold point_row at 2 in IH. cbn [fst snd] in IH. exact IH.
Qed.
Lemma entry_nth_map {A} (g : A -> list Q) l i d : (i < length l)%nat -> row (map g l) i = g (nth i l d).
Proof. intros H. unfold row. rewrite (nth_indep _ [] (g d)) by now rewrite map_length. apply map_nth. Qed.
Lemma inv_0 d pts : length pts = (d + 1)%nat -> inv (d + 1) 0 (map (point_row (d + 1)) pts).
Proof.
  intros L. split; [rewrite map_length; exact L|]. split; [|intros; lia]. intros i Hi. rewrite (entry_nth_map _ _ _ (0, 0)) by lia.
  unfold point_row. rewrite app_length, powers_length. cbn. lia.
Qed.
Fixpoint lin_list (r w : list Q) : Q := match r, w with a :: r', b :: w' => a * b + lin_list r' w' | _, _ => 0 end.
Lemma lin_lists : forall r w, length r = length w -> lin (length r) r w == lin_list r w.
Proof.
  unfold lin. induction r as [|a r IH]; intros [|b w] L; cbn [length] in L; try discriminate; [reflexivity|].
  cbn [length]. rewrite (qsum_seq_head (fun j => entry (a :: r) j * entry (b :: w) j)). cbn [lin_list]. rewrite <- IH by lia. reflexivity.
Qed.
Lemma lin_list_app : forall r w a b, length r = length w -> lin_list (r ++ [a]) (w ++ [b]) == lin_list r w + a * b.
Proof. induction r as [|c r IH]; intros [|e w] a b L; cbn [length] in L; try discriminate; cbn [app lin_list]; [ring|]. rewrite IH by lia. ring. Qed.
Lemma lin_powers x : forall v p, lin_list (powers (length v) p x) v == p * peval v x.
Proof. induction v as [|c v IH]; intros p; cbn [length powers lin_list peval]; [ring|]. rewrite IH. ring. Qed.
Lemma point_lin n p v c : length v = n -> lin (S n) (point_row n p) (v ++ [c]) == peval v (fst p) + snd p * c.
Proof.
  intros L. unfold point_row. replace (S n) with (length (powers n 1 (fst p) ++ [snd p])) by (rewrite app_length, powers_length; cbn; lia).
  rewrite lin_lists by (rewrite !app_length, powers_length; cbn; lia). rewrite lin_list_app by (rewrite powers_length; lia). rewrite <- L, lin_powers. ring.
Qed.
Lemma kills_points n pts v c : length v = n -> (kills n (map (point_row n) pts) (v ++ [c]) <-> forall p, In p pts -> peval v (fst p) + snd p * c == 0).
Proof.
  intros L. unfold kills. rewrite map_length. split.
  - intros H p Hp. apply (In_nth _ _ (0, 0)) in Hp as (i & Hi & <-). specialize (H i Hi). rewrite (entry_nth_map _ _ _ (0, 0)) in H by auto. rewrite point_lin in H by auto. exact H.
  - intros H i Hi. rewrite (entry_nth_map _ _ _ (0, 0)) by auto. rewrite point_lin by auto. apply H. now apply nth_In.
Qed.
Lemma split_last n (w : list Q) : length w = S n -> exists v, w = v ++ [entry w n] /\ length v = n.
Proof.
  intros L. destruct (exists_last (l := w)) as (v & c & ->); [intros ->; discriminate|]. rewrite app_length in L. cbn in L. exists v. split; [|lia].
  f_equal. unfold entry. rewrite app_nth2 by lia. replace (n - length v)%nat with O by lia. reflexivity.
Qed.
Lemma zero_entries v j : zero_list v -> entry v j == 0.
Proof. unfold zero_list, entry. intros H. revert j. induction H as [|c v Hc Hv IH]; intros [|j]; cbn [nth]; auto; reflexivity. Qed.
Lemma entry_app v c j : (j < length v)%nat -> entry (v ++ [c]) j = entry v j.
Proof. intros H. unfold entry. now apply app_nth1. Qed.

(** ** Reduced matrices *)
Lemma inv_n_singular n rows : inv n n rows -> is_singular rows n = false.
Proof.
  intros (L & LR & ID). unfold is_singular. apply not_true_iff_false. intros H. apply existsb_exists in H as (i & Hi & H). apply existsb_exists in H as (k & Hk & H).
  apply in_seq in Hi, Hk. pose proof (ID i k ltac:(lia) ltac:(lia)) as E. fold (row rows i) in H. unfold bad_entry in H.
  destruct (Nat.eqb_spec i k).
  - cbn [negb] in H. rewrite andb_false_r, andb_true_r in H. apply Qeq_bool_iff in E. rewrite E in H. discriminate.
  - cbn [negb] in H. rewrite andb_true_r, andb_false_r in H. apply Qeq_bool_iff in E. rewrite E in H. discriminate.
Qed.
Lemma lin_unit n rows v c i : inv n n rows -> length v = n -> (i < n)%nat -> lin (S n) (row rows i) (v ++ [c]) == entry v i + entry (row rows i) n * c.
Proof.
  intros (L & LR & ID) Lv Hi. unfold lin. rewrite qsum_seq_S. apply Qplus_comp.
  - rewrite (qsum_single _ _ i).
    + rewrite (ID i i) by auto. rewrite Nat.eqb_refl, entry_app by lia. ring.
    + apply seq_NoDup.
    + apply in_seq. lia.
    + intros j Hj N. apply in_seq in Hj. rewrite (ID i j) by (auto; lia). destruct (Nat.eqb_spec i j); [congruence|]. ring.
  - apply Qmult_comp; [reflexivity|]. unfold entry. rewrite app_nth2 by lia. replace (n - length v)%nat with O by lia. reflexivity.
Qed.

Lemma entry_map_col n rows i : (i < length rows)%nat -> entry (map (fun r => entry r n) rows) i = entry (row rows i) n.
Proof. revert i. induction rows as [|r rows IH]; intros i H; cbn [length] in H; [lia|]. destruct i as [|i]; [reflexivity|]. apply (IH i). lia. Qed.
Lemma distinct_in_dec (l : list Q) : distinct l \/ ~ distinct l.
Proof.
  induction l as [|x l [IH|IH]]; [left; exact I| |right; cbn; tauto].
  destruct (Exists_dec (fun y => x == y) l) as [E|E]; [intros y; apply Qeq_dec| |].
  - right. intros [H _]. apply Exists_exists in E as (y & Hy & E). now apply (H y Hy).
  - left. split; auto. intros y Hy Exy. apply E. apply Exists_exists. now exists y.
Qed.
Theorem solve_distinct d pts : length pts = (d + 1)%nat -> distinct (map fst pts) ->
  exists t p, add_points (new_interp d) pts = Ok t /\ solve t = Ok p /\ length p = (d + 1)%nat /\
    (forall x f, In (x, f) pts -> peval p x == f) /\
    forall q, length q = (d + 1)%nat -> (forall x f, In (x, f) pts -> peval q x == f) -> same_poly p q.
Proof.
  intros L D. rewrite (add_all d pts L). set (n := (d + 1)%nat) in *. eexists. set (rows := map (point_row n) pts).
  assert (ROOT : forall v, length v = n -> (forall p, In p pts -> peval v (fst p) == 0) -> zero_list v).
  { intros v Lv H. apply (roots_zero (map fst pts)); auto; [rewrite map_length; lia|]. intros x Hx. apply in_map_iff in Hx as (p & <- & Hp). auto. }
  destruct (ge_ok n n 0 rows ltac:(lia) (inv_0 d pts L)) as [(rows' & G1 & G2 & G3)|(_ & w & K & Lw & W0 & j & Hj & Nj)].
  - exists (map (fun r => entry r n) rows'). split; [reflexivity|]. split.
    { unfold solve. cbn [pi_deg pi_rows]. fold n. fold rows. rewrite G1. cbn [bind]. rewrite (inv_n_singular n rows' G2). reflexivity. }
    destruct G2 as (L' & G2'). pose proof (conj L' G2' : inv n n rows') as G2.
    split; [rewrite map_length; exact L'|].
    assert (SOL : forall x f, In (x, f) pts -> peval (map (fun r => entry r n) rows') x == f).
    { set (b := map (fun r => entry r n) rows'). assert (Lb : length b = n) by (unfold b; now rewrite map_length).
      assert (K : kills n rows' (b ++ [-(1)])).
      { intros i Hi. rewrite L' in Hi. rewrite (lin_unit n rows' b _ i G2 Lb Hi).
        replace (entry b i) with (entry (row rows' i) n); [ring|]. symmetry. apply entry_map_col. lia. }
      apply G3 in K. unfold rows in K. rewrite kills_points in K by auto. intros x f H. specialize (K (x, f) H). cbn [fst snd] in K.
      rewrite <- (Qplus_0_r f). rewrite <- K. ring. }
    split; [exact SOL|]. intros q Lq Hq. set (b := map (fun r => entry r n) rows') in *.
    assert (Z : forall p r : list Q, length p = length r -> (zero_list (map (fun c => fst c - snd c) (combine p r)) -> Forall2 Qeq p r) /\ forall x, peval (map (fun c => fst c - snd c) (combine p r)) x == peval p x - peval r x).
    { clear. induction p as [|a p IH]; intros [|c r] E; cbn [length] in E; try discriminate; cbn [combine map peval].
      - split; [constructor|]. intros; ring.
      - destruct (IH r ltac:(lia)) as [I1 I2]. split.
        + intros H. constructor; [|apply I1; exact (Forall_inv_tail H)]. pose proof (Forall_inv H) as H0. cbn [fst snd] in H0. rewrite <- (Qplus_0_r c), <- H0. ring.
        + intros x. rewrite I2. cbn [fst snd]. ring. }
    assert (Lb : length b = n) by (unfold b; now rewrite map_length).
    destruct (Z b q ltac:(lia)) as [Z1 Z2]. apply Z1. apply ROOT.
    + rewrite map_length, combine_length. lia.
    + intros [x f] Hp. cbn [fst]. rewrite Z2, (SOL x f Hp), (Hq x f Hp). ring.
  - exfalso. destruct (split_last n w Lw) as (v & Ew & Lv). rewrite Ew in K. unfold rows in K. rewrite kills_points in K by auto.
    apply Nj. rewrite Ew, entry_app by lia. apply zero_entries. apply ROOT; auto. intros p Hp. rewrite <- (K p Hp). rewrite W0. ring.
Qed.
Lemma drop_repeat : forall xs : list Q, ~ distinct xs -> exists ys, S (length ys) = length xs /\ forall x, In x xs -> exists y, In y ys /\ x == y.
Proof.
  induction xs as [|a xs IH]; intros H; [exfalso; apply H; exact I|].
  destruct (Exists_dec (fun y => a == y) xs) as [E|E]; [intros y; apply Qeq_dec| |].
  - exists xs. split; auto. intros x [->|Hx]; [apply Exists_exists in E as (y & Hy & E); now exists y|]. exists x. split; auto. reflexivity.
  - destruct (distinct_in_dec xs) as [D|D].
    + exfalso. apply H. split; auto. intros y Hy Exy. apply E. apply Exists_exists. now exists y.
    + destruct (IH D) as (ys & L & F). exists (a :: ys). split; [cbn; lia|]. intros x [->|Hx]; [exists x; split; [now left|reflexivity]|].
      destruct (F x Hx) as (y & Hy & Exy). exists y. split; [now right|auto].
Qed.
Theorem solve_repeated d pts : length pts = (d + 1)%nat -> ~ distinct (map fst pts) ->
  exists t, add_points (new_interp d) pts = Ok t /\ solve t = Err OutOfBounds.
Proof.
  intros L D. rewrite (add_all d pts L). set (n := (d + 1)%nat) in *. eexists. split; [reflexivity|]. unfold solve. cbn [pi_deg pi_rows]. fold n.
  set (rows := map (point_row n) pts).
  destruct (ge_ok n n 0 rows ltac:(lia) (inv_0 d pts L)) as [(rows' & G1 & G2 & G3)|(G & _)]; [|rewrite G; reflexivity].
  exfalso. destruct (drop_repeat _ D) as (ys & Ly & Hy). rewrite map_length, L in Ly.
  destruct (vanish_props ys) as (V1 & V2 & V3 & V4). set (v := vanish ys) in *. assert (Lv : length v = n) by lia.
  assert (K : kills n rows (v ++ [0])).
  { unfold rows. rewrite kills_points by auto. intros p Hp. rewrite V4; [ring|]. apply Hy. now apply in_map. }
  apply G3 in K. apply (last_nonzero v V2 V3). unfold zero_list. apply Forall_forall. intros c Hc. apply (In_nth _ _ 0) in Hc as (i & Hi & <-).
  fold (entry v i). destruct G2 as (L' & G2'). specialize (K i ltac:(lia)). rewrite (lin_unit n rows' v 0 i (conj L' G2') Lv ltac:(lia)) in K. rewrite <- K. ring.
Qed.
Theorem too_many_points d pts : (d + 1 < length pts)%nat -> add_points (new_interp d) pts = Err Exited.
Proof. intros H. pose proof (add_too_many d pts [] ltac:(cbn; lia) ltac:(cbn; lia)) as E. cbn [map app length] in E. rewrite Nat.sub_0_r in E. exact E. Qed.
Lemma horner_ok x : forall l, horner l x == x * peval l x.
Proof. induction l as [|c l IH]; cbn [horner peval]; [ring|]. rewrite IH. ring. Qed.
Theorem evaluate_ok x c l : exists v, evaluate x (c :: l) = Ok v /\ v == peval (c :: l) x.
Proof. eexists. split; [reflexivity|]. rewrite horner_ok. cbn [peval]. ring. Qed.
