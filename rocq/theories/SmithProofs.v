From Verif Require Import Common ZMat Smith SmithSpec.
Open Scope Z_scope.

Lemma tab_meq n f : meq n n (tab n f) f.
Proof.
  intros i j Hi Hj. unfold tab. rewrite (nth_indep _ [] (map (f 0%nat) (seq 0 n))) by (rewrite map_length, seq_length; auto). rewrite (map_nth (fun i => map (f i) (seq 0 n))), seq_nth by auto. cbn [Nat.add].
  rewrite (nth_indep _ 0 (f i 0%nat)) by (rewrite map_length, seq_length; auto). now rewrite map_nth, seq_nth by auto.
Qed.
Lemma meq_refl r c A : meq r c A A. Proof. intros i j _ _. reflexivity. Qed.
Lemma meq_sym r c A B : meq r c A B -> meq r c B A. Proof. intros H i j Hi Hj. symmetry. now apply H. Qed.
Lemma meq_trans r c A B C : meq r c A B -> meq r c B C -> meq r c A C. Proof. intros H K i j Hi Hj. rewrite H by auto. now apply K. Qed.
(** ** Column operations are multiplications from the right *)
Definition clin (n : nat) (op : zmat -> zmat) : Prop :=
  (forall X M, meq n n (op (mmul n X M)) (mmul n X (op M))) /\ (forall M M', meq n n M M' -> meq n n (op M) (op M')).
Definition cinv (n : nat) (op op' : zmat -> zmat) : Prop := forall M, meq n n (op' (op M)) M.
Definition colop (n : nat) (op : zmat -> zmat) : Prop := clin n op /\ invertible n (op delta).
Lemma clin_delta n op M : clin n op -> meq n n (op M) (mmul n M (op delta)).
Proof.
  intros [H1 H2]. apply (meq_trans _ _ _ (op (mmul n M delta))); [|apply H1]. apply H2. intros i j Hi Hj. symmetry. now apply mmul_id_r.
Qed.
Lemma mk_colop n op op' : clin n op -> clin n op' -> cinv n op op' -> cinv n op' op -> colop n op.
Proof.
  intros C C' I I'. split; auto. exists (op' delta). split.
  - apply (meq_trans _ _ _ (op' (op delta))); [apply meq_sym, clin_delta; auto|apply I].
  - apply (meq_trans _ _ _ (op (op' delta))); [apply meq_sym, clin_delta; auto|apply I'].
Qed.
Lemma colop_id n : colop n (fun M => M).
Proof. apply (mk_colop n _ (fun M => M)); try (split; [intros; apply meq_refl|auto]); intros M; apply meq_refl. Qed.
Lemma colop_comp n f g : colop n f -> colop n g -> colop n (fun M => g (f M)).
Proof.
  intros [[F1 F2] F3] [[G1 G2] G3]. split; [split|].
  - intros X M. eapply meq_trans; [apply G2, F1|apply G1].
  - intros M M' H. now apply G2, F2.
  - apply (invertible_ext n (mmul n (f delta) (g delta))); [apply meq_sym, clin_delta; split; auto|]. now apply invertible_mul.
Qed.
Lemma colop_tab n f : colop n f -> colop n (fun M => tab n (f M)).
Proof.
  intros [[F1 F2] F3]. split; [split|].
  - intros X M. eapply meq_trans; [apply tab_meq|]. eapply meq_trans; [apply F1|]. apply mmul_ext; [apply meq_refl|apply meq_sym, tab_meq].
  - intros M M' H. eapply meq_trans; [apply tab_meq|]. eapply meq_trans; [apply (F2 _ _ H)|]. apply meq_sym, tab_meq.
  - eapply invertible_ext; [apply meq_sym, tab_meq|auto].
Qed.
Lemma eqb_f a b : a <> b -> (a =? b)%nat = false. Proof. apply Nat.eqb_neq. Qed.
Lemma col2_clin n o p a b c d : (o < n)%nat -> (p < n)%nat -> clin n (col2 o p a b c d).
Proof.
  intros Ho Hp. split.
  - intros X M i j Hi Hj. unfold col2, mmul. destruct (j =? o)%nat; [|destruct (j =? p)%nat; auto]; rewrite <- !zsum_scal, <- zsum_add; apply zsum_ext; intros; ring.
  - intros M M' H i j Hi Hj. unfold col2. now rewrite !H.
Qed.
Lemma col2_op n o p a b c d e : (o < n)%nat -> (p < n)%nat -> o <> p -> a * d - b * c = e -> e * e = 1 -> colop n (col2 o p a b c d).
Proof.
  intros Ho Hp N D E. apply (mk_colop n _ (col2 o p (d * e) (- b * e) (- c * e) (a * e))); try (now apply col2_clin); intros M i j Hi Hj; unfold col2; rewrite ?Nat.eqb_refl, ?(eqb_f o p), ?(eqb_f p o) by auto;
    (destruct (Nat.eqb_spec j o) as [->|N1]; [|destruct (Nat.eqb_spec j p) as [->|N2]; auto]); subst e;
    match goal with |- ?l = ?r => assert (Z0 : l = (a * d - b * c) * (a * d - b * c) * r) by ring; rewrite Z0, E; ring end.
Qed.
Lemma col2_comp o p a b c d a' b' c' d' M i j : o <> p -> col2 o p a' b' c' d' (col2 o p a b c d M) i j = col2 o p (a' * a + b' * c) (a' * b + b' * d) (c' * a + d' * c) (c' * b + d' * d) M i j.
Proof. intros N. unfold col2. rewrite !Nat.eqb_refl, (eqb_f p o) by auto. destruct (j =? o)%nat; [ring|]. destruct (j =? p)%nat; [ring|auto]. Qed.
Lemma row2_comp o p a b c d a' b' c' d' M i j : o <> p -> row2 o p a' b' c' d' (row2 o p a b c d M) i j = row2 o p (a' * a + b' * c) (a' * b + b' * d) (c' * a + d' * c) (c' * b + d' * d) M i j.
Proof. intros N. unfold row2. rewrite !Nat.eqb_refl, (eqb_f p o) by auto. destruct (i =? o)%nat; [ring|]. destruct (i =? p)%nat; [ring|auto]. Qed.
Lemma row2_ext n o p a b c d M M' : (o < n)%nat -> (p < n)%nat -> meq n n M M' -> meq n n (row2 o p a b c d M) (row2 o p a b c d M').
Proof. intros Ho Hp H i j Hi Hj. unfold row2. now rewrite !H. Qed.
Lemma addcols_clin n o ts : (o < n)%nat -> (o + length ts < n)%nat -> clin n (addcols o ts).
Proof.
  intros Ho Hl. split.
  - intros X M i j Hi Hj. unfold addcols, mmul. destruct (j =? o)%nat; auto.
    rewrite (zsum_ext (length ts) _ (fun k => zsum n (fun l => nth k ts 0 * (X i l * M l (o + 1 + k)%nat)))) by (intros; symmetry; apply zsum_scal). rewrite zsum_swap, <- zsum_add. apply zsum_ext. intros l Hl'.
    rewrite Z.mul_add_distr_l. f_equal. rewrite <- zsum_scal. apply zsum_ext. intros; ring.
  - intros M M' H i j Hi Hj. unfold addcols. destruct (j =? o)%nat; [|now apply H]. rewrite H by auto. f_equal. apply zsum_ext. intros k Hk. now rewrite H by lia.
Qed.
Lemma addcols_op n o ts : (o < n)%nat -> (o + length ts < n)%nat -> colop n (addcols o ts).
Proof.
  intros Ho Hl. assert (I : forall ts ts' M, length ts' = length ts -> (forall k, (k < length ts)%nat -> nth k ts' 0 = - nth k ts 0) -> meq n n (addcols o ts' (addcols o ts M)) M).
  { intros u u' M L E i j Hi Hj. unfold addcols. rewrite Nat.eqb_refl. destruct (Nat.eqb_spec j o) as [->|N]; auto.
    rewrite (zsum_ext (length u') _ (fun k => (-1) * (nth k u 0 * M i (o + 1 + k)%nat))).
    - rewrite zsum_scal, L. ring.
    - intros k Hk. rewrite (eqb_f (o + 1 + k) o), E by lia. ring. }
  assert (LM : length (map Z.opp ts) = length ts) by apply map_length.
  assert (NM : forall k, nth k (map Z.opp ts) 0 = - nth k ts 0) by (intros k; apply (map_nth Z.opp ts 0)).
  apply (mk_colop n _ (addcols o (map Z.opp ts))); [now apply addcols_clin|apply addcols_clin; rewrite ?LM; auto| |]; intros M; apply I; auto. intros k _. rewrite NM. ring.
Qed.
Lemma subcols_clin n o q : (o < n)%nat -> clin n (subcols o q).
Proof.
  intros Ho. split.
  - intros X M i j Hi Hj. unfold subcols, mmul. destruct (o <? j)%nat; auto. rewrite <- zsum_scal. replace (zsum n (fun k => X i k * (M k j - q j * M k o))) with (zsum n (fun k => X i k * M k j + (-1) * (q j * (X i k * M k o)))) by (apply zsum_ext; intros; ring).
    rewrite zsum_add, (zsum_scal n (-1)). ring.
  - intros M M' H i j Hi Hj. unfold subcols. destruct (o <? j)%nat; now rewrite !H.
Qed.
Lemma subcols_op n o q : (o < n)%nat -> colop n (subcols o q).
Proof.
  intros Ho. apply (mk_colop n _ (subcols o (fun j => - q j))); try (now apply subcols_clin); intros M i j Hi Hj; unfold subcols; rewrite Nat.ltb_irrefl; destruct (o <? j)%nat; ring.
Qed.
Lemma negcol_op n o : (o < n)%nat -> colop n (fun M i j => if (j =? o)%nat then - M i j else M i j).
Proof.
  intros Ho. assert (C : clin n (fun M i j => if (j =? o)%nat then - M i j else M i j)).
  { split.
    - intros X M i j Hi Hj. unfold mmul. destruct (j =? o)%nat; auto. rewrite <- (Z.mul_1_l (zsum _ _)), <- Z.mul_opp_l, <- zsum_scal. apply zsum_ext. intros; ring.
    - intros M M' H i j Hi Hj. rewrite H by auto. reflexivity. }
  apply (mk_colop n _ _ C C); intros M i j Hi Hj; cbn beta; destruct (j =? o)%nat; ring.
Qed.
(** ** Rows by transposition *)
Definition tr (M : zmat) : zmat := fun i j => M j i.
Definition rowop (n : nat) (op : zmat -> zmat) : Prop := colop n (fun M => tr (op (tr M))).
Lemma tr_mul n A B i j : mmul n (tr A) (tr B) i j = mmul n B A j i.
Proof. unfold mmul, tr. apply zsum_ext. intros; ring. Qed.
Lemma tr_inv n A : invertible n A -> invertible n (tr A).
Proof.
  intros (V & I1 & I2). exists (tr V). split; intros i j Hi Hj; rewrite tr_mul; [rewrite I2|rewrite I1]; auto; unfold delta; now rewrite Nat.eqb_sym.
Qed.
Lemma rowop_mul n op : rowop n op -> exists F, invertible n F /\ forall M, meq n n (op M) (mmul n F M).
Proof.
  intros [C I]. exists (tr (tr (op (tr delta)))). split; [now apply tr_inv|]. intros X i j Hi Hj. assert (E : op X i j = mmul n (tr X) (tr (op (tr delta))) j i) by exact (clin_delta n _ (tr X) C j i Hj Hi).
  rewrite E. rewrite <- tr_mul. reflexivity.
Qed.
Lemma colop_mul n op : colop n op -> exists E, invertible n E /\ forall M, meq n n (op M) (mmul n M E).
Proof. intros [C I]. exists (op delta). split; auto. intros M. now apply clin_delta. Qed.
Lemma row2_op n o p a b c d e : (o < n)%nat -> (p < n)%nat -> o <> p -> a * d - b * c = e -> e * e = 1 -> rowop n (row2 o p a b c d).
Proof. exact (col2_op n o p a b c d e). Qed.
Lemma addrows_op n o ts : (o < n)%nat -> (o + length ts < n)%nat -> rowop n (addrows o ts).
Proof. exact (addcols_op n o ts). Qed.
Lemma subrows_op n o q : (o < n)%nat -> rowop n (subrows o q).
Proof. exact (subcols_op n o q). Qed.
Lemma negrow_op n o : (o < n)%nat -> rowop n (negrow o).
Proof. exact (negcol_op n o). Qed.
Lemma rowop_id n : rowop n (fun M => M).
Proof. exact (colop_id n). Qed.
Lemma rowop_comp n f g : rowop n f -> rowop n g -> rowop n (fun M => g (f M)).
Proof. exact (colop_comp n (fun M => tr (f (tr M))) (fun M => tr (g (tr M)))). Qed.
Lemma rowop_tab n f : rowop n f -> rowop n (fun M => tab n (f M)).
Proof.
  intros [[F1 F2] F3].
  assert (TT : forall X, meq n n (tr (tab n X)) (tr X)) by (intros X i j Hi Hj; unfold tr; now apply tab_meq).
  split; [split|].
  - intros X M. eapply meq_trans; [apply TT|]. eapply meq_trans; [apply F1|]. apply mmul_ext; [apply meq_refl|apply meq_sym, TT].
  - intros M M' H. eapply meq_trans; [apply TT|]. eapply meq_trans; [apply (F2 _ _ H)|]. apply meq_sym, TT.
  - eapply invertible_ext; [apply meq_sym, TT|auto].
Qed.
(** ** Transformations *)
Definition st3 := (zmat * zmat * zmat)%type.
Definition equiv (n : nat) (s s' : st3) : Prop :=
  let '(A, L, R) := s in let '(A', L', R') := s' in
  exists F E, invertible n F /\ invertible n E /\ meq n n A' (mmul n (mmul n F A) E) /\ meq n n L' (mmul n F L) /\ meq n n R' (mmul n R E).
Lemma mmul_meq n A A' B B' : meq n n A A' -> meq n n B B' -> meq n n (mmul n A B) (mmul n A' B').
Proof. apply mmul_ext. Qed.
Lemma massoc n A B C : meq n n (mmul n (mmul n A B) C) (mmul n A (mmul n B C)).
Proof. intros i j _ _. apply mmul_assoc. Qed.
Lemma mid_l n A : meq n n (mmul n delta A) A. Proof. intros i j Hi _. now apply mmul_id_l. Qed.
Lemma mid_r n A : meq n n (mmul n A delta) A. Proof. intros i j _ Hj. now apply mmul_id_r. Qed.
Lemma equiv_refl n s : equiv n s s.
Proof.
  destruct s as [[A L] R]. exists delta, delta. repeat split; try apply invertible_id; apply meq_sym.
  - eapply meq_trans; [apply mid_r|apply mid_l].
  - apply mid_l.
  - apply mid_r.
Qed.
Lemma equiv_trans n s1 s2 s3 : equiv n s1 s2 -> equiv n s2 s3 -> equiv n s1 s3.
Proof.
  destruct s1 as [[A L] R], s2 as [[A' L'] R'], s3 as [[A'' L''] R'']. intros (F & E & IF & IE & HA & HL & HR) (F' & E' & IF' & IE' & HA' & HL' & HR').
  exists (mmul n F' F), (mmul n E E'). split; [now apply invertible_mul|]. split; [now apply invertible_mul|]. split; [|split].
  - eapply meq_trans; [apply HA'|]. eapply meq_trans; [apply mmul_meq; [apply mmul_meq; [apply meq_refl|apply HA]|apply meq_refl]|].
    eapply meq_trans; [apply mmul_meq; [|apply meq_refl]; apply meq_sym, massoc|]. eapply meq_trans; [apply massoc|].
    apply mmul_meq; [|apply meq_refl]. apply meq_sym, massoc.
  - eapply meq_trans; [apply HL'|]. eapply meq_trans; [apply mmul_meq; [apply meq_refl|apply HL]|]. apply meq_sym, massoc.
  - eapply meq_trans; [apply HR'|]. eapply meq_trans; [apply mmul_meq; [apply HR|apply meq_refl]|]. apply massoc.
Qed.
Lemma equiv_col n op A L R A' R' : colop n op -> meq n n A' (op A) -> meq n n R' (op R) -> equiv n (A, L, R) (A', L, R').
Proof.
  intros C HA HR. destruct (colop_mul n op C) as (E & IE & H). exists delta, E. split; [apply invertible_id|]. split; auto. split; [|split].
  - eapply meq_trans; [exact HA|]. eapply meq_trans; [apply H|]. apply mmul_meq; [apply meq_sym, mid_l|apply meq_refl].
  - apply meq_sym, mid_l.
  - eapply meq_trans; [exact HR|apply H].
Qed.
Lemma equiv_row n op A L R A' L' : rowop n op -> meq n n A' (op A) -> meq n n L' (op L) -> equiv n (A, L, R) (A', L', R).
Proof.
  intros C HA HL. destruct (rowop_mul n op C) as (F & IF & H). exists F, delta. split; auto. split; [apply invertible_id|]. split; [|split].
  - eapply meq_trans; [exact HA|]. eapply meq_trans; [apply H|]. apply meq_sym, mid_r.
  - eapply meq_trans; [exact HL|apply H].
  - apply meq_sym, mid_r.
Qed.
Lemma equiv_transform n A S L R : equiv n (A, delta, delta) (S, L, R) -> smith_transform n A S L R.
Proof.
  intros (F & E & IF & IE & HA & HL & HR). assert (EL : meq n n L F) by (eapply meq_trans; [apply HL|apply mid_r]). assert (ER : meq n n R E) by (eapply meq_trans; [apply HR|apply mid_l]).
  split; [eapply invertible_ext; [apply meq_sym, EL|auto]|]. split; [eapply invertible_ext; [apply meq_sym, ER|auto]|].
  eapply meq_trans; [|apply meq_sym, HA]. apply mmul_meq; auto. apply mmul_meq; auto. apply meq_refl.
Qed.
(** ** Phase 1 *)
Section Phase1.
Context (xg : Z -> Z -> Z * Z * Z) (XG : xgcd_contract xg) (n : nat).
Lemma tail_len l : length (snd (tail_gcd xg l)) = length l.
Proof.
  induction l as [|x l IH]; [reflexivity|]. cbn [tail_gcd]. destruct l as [|y l]; [reflexivity|]. destruct (tail_gcd xg (y :: l)) as [g ts]. destruct (xg x g) as [[g' r] s]. cbn [snd length] in *. now rewrite map_length, IH.
Qed.
Lemma xg_det a b r x1 x2 : a <> 0 -> xg a b = (r, x1, x2) -> b / r * x2 - (- a / r) * x1 = 1.
Proof.
  intros Ha E. pose proof (XG a b) as X. rewrite E in X. destruct X as [Hr Hx]. assert (R0 : r <> 0) by (intros ->; symmetry in Hr; apply Z.gcd_eq_0 in Hr; lia).
  destruct (Z.gcd_divide_l a b) as [u Hu]. destruct (Z.gcd_divide_r a b) as [v Hv]. rewrite <- Hr in Hu, Hv. rewrite Hu, Hv at 1. replace (- (u * r)) with (- u * r) by ring. rewrite !Z.div_mul by auto.
  rewrite Hu, Hv in Hx. nia.
Qed.
Lemma elim_row_equiv o A L R A' R' : (o + 1 < n)%nat -> elim_row xg n o A R = Ok (A', R') -> equiv n (A, L, R) (A', L, R').
Proof.
  intros Ho H. unfold elim_row in H. cbv zeta in H.
  match type of H with context [tab n (?op A)] => set (op1 := op) in H end.
  assert (C1 : colop n op1).
  { unfold op1. destruct (Z.eqb_spec (A o o) 0) as [_|N]; [apply colop_id|]. destruct (A o (o + 1)%nat =? 0); [apply (col2_op n _ _ _ _ _ _ (-1)); try lia; reflexivity|].
    destruct (xg (A o o) (A o (o + 1)%nat)) as [[r x1] x2] eqn:E. apply (col2_op n _ _ _ _ _ _ 1); try lia; try reflexivity. now apply xg_det. }
  match type of H with context [tail_gcd xg ?l] => destruct (tail_gcd xg l) as [g ts] eqn:ET; assert (LT : length ts = (n - o - 1)%nat) by (change ts with (snd (g, ts)); rewrite <- ET, tail_len, map_length, seq_length; reflexivity) end.
  match type of H with (if ?b then _ else _) = _ => destruct b; [discriminate|] end.
  match type of H with context [subcols o ?q] => set (qq := q) in H end. inversion H; subst A' R'; clear H.
  assert (C2 : colop n (fun M => tab n (addcols o ts (tab n (op1 M))))) by (apply (colop_tab n (fun M => addcols o ts (tab n (op1 M)))), (colop_comp n (fun M => tab n (op1 M)) (addcols o ts)); [now apply colop_tab|apply addcols_op; lia]).
  apply (equiv_col n (fun M => tab n (subcols o qq (tab n (addcols o ts (tab n (op1 M))))))).
  - apply (colop_tab n (fun M => subcols o qq (tab n (addcols o ts (tab n (op1 M)))))), (colop_comp n (fun M => tab n (addcols o ts (tab n (op1 M)))) (subcols o qq)); auto. apply subcols_op. lia.
  - apply meq_refl.
  - eapply meq_trans; [apply tab_meq|]. eapply meq_trans; [|apply meq_sym, tab_meq]. apply subcols_clin; [lia|]. apply meq_sym, tab_meq.
Qed.
Lemma elim_col_equiv o A L R A' L' : (o + 1 < n)%nat -> elim_col xg n o A L = Ok (A', L') -> equiv n (A, L, R) (A', L', R).
Proof.
  intros Ho H. unfold elim_col in H. cbv zeta in H.
  match type of H with context [tab n (?op A)] => set (op1 := op) in H end.
  assert (C1 : rowop n op1).
  { unfold op1. destruct (Z.eqb_spec (A o o) 0) as [_|N]; [apply rowop_id|]. destruct (A (o + 1)%nat o =? 0); [apply (row2_op n _ _ _ _ _ _ (-1)); try lia; reflexivity|].
    destruct (xg (A o o) (A (o + 1)%nat o)) as [[r x1] x2] eqn:E. apply (row2_op n _ _ _ _ _ _ 1); try lia; try reflexivity. now apply xg_det. }
  match type of H with context [tail_gcd xg ?l] => destruct (tail_gcd xg l) as [g ts] eqn:ET; assert (LT : length ts = (n - o - 1)%nat) by (change ts with (snd (g, ts)); rewrite <- ET, tail_len, map_length, seq_length; reflexivity) end.
  match type of H with (if ?b then _ else _) = _ => destruct b; [discriminate|] end.
  match type of H with context [subrows o ?q] => set (qq := q) in H end. inversion H; subst A' L'; clear H.
  assert (C2 : rowop n (fun M => tab n (addrows o ts (tab n (op1 M))))) by (apply (rowop_tab n (fun M => addrows o ts (tab n (op1 M)))), (rowop_comp n (fun M => tab n (op1 M)) (addrows o ts)); [now apply rowop_tab|apply addrows_op; lia]).
  apply (equiv_row n (fun M => tab n (subrows o qq (tab n (addrows o ts (tab n (op1 M))))))).
  - apply (rowop_tab n (fun M => subrows o qq (tab n (addrows o ts (tab n (op1 M)))))), (rowop_comp n (fun M => tab n (addrows o ts (tab n (op1 M)))) (subrows o qq)); auto. apply subrows_op. lia.
  - apply meq_refl.
  - eapply meq_trans; [apply tab_meq|]. eapply meq_trans; [|apply meq_sym, tab_meq]. intros i j Hi Hj. unfold subrows. destruct (o <? i)%nat; rewrite !tab_meq by (auto; lia); reflexivity.
Qed.
Lemma sweep_equiv fuel : forall o A L R s, (o + 1 < n)%nat -> sweep fuel xg n o A L R = Ok s -> equiv n (A, L, R) s.
Proof.
  induction fuel as [|f IH]; intros o A L R s Ho H; cbn [sweep] in H; [discriminate|].
  destruct (elim_row xg n o A R) as [[A1 R1]|] eqn:E1; cbn [bind] in H; [|discriminate]. destruct (elim_col xg n o A1 L) as [[A2 L1]|] eqn:E2; cbn [bind] in H; [|discriminate].
  assert (X : equiv n (A, L, R) (A2, L1, R1)) by (apply (equiv_trans n _ (A1, L, R1)); [now apply elim_row_equiv with (o := o)|now apply elim_col_equiv with (o := o)]).
  destruct (check n o A2); [now inversion H; subst|]. eapply equiv_trans; [exact X|]. eapply IH; eauto.
Qed.
Lemma diag_in_equiv fuel k : forall A L R s, (k < n)%nat -> diag_in fuel xg n k A L R = Ok s -> equiv n (A, L, R) s.
Proof.
  induction k as [|k IH]; intros A L R s Hk H; cbn [diag_in] in H; [inversion H; apply equiv_refl|].
  set (o := (n - 1 - S k)%nat) in H. assert (Ho : (o + 1 < n)%nat) by (unfold o; lia).
  destruct (sweep fuel xg n o A L R) as [[[A1 L1] R1]|] eqn:E; cbn [bind] in H; [|discriminate]. apply IH in H; [|lia]. eapply equiv_trans; [eapply sweep_equiv; eauto|]. eapply equiv_trans; [|exact H]. clear H.
  match goal with |- context [subcols o ?q] => set (qq := q) end.
  eapply equiv_trans with (s2 := (tab n (if A1 o o <? 0 then negrow o A1 else A1), tab n (if A1 o o <? 0 then negrow o L1 else L1), R1)).
  - apply (equiv_row n (fun M => tab n (if A1 o o <? 0 then negrow o M else M))); try apply meq_refl. apply (rowop_tab n (fun M => if A1 o o <? 0 then negrow o M else M)). destruct (A1 o o <? 0); [apply negrow_op; lia|apply rowop_id].
  - apply (equiv_col n (fun M => tab n (subcols o qq M))); try apply meq_refl. apply (colop_tab n (subcols o qq)), subcols_op. lia.
Qed.
Lemma diagonalize_equiv fuel A s : diagonalize fuel xg n A = Ok s -> equiv n (A, delta, delta) s.
Proof.
  unfold diagonalize. intros H. destruct (Nat.eqb_spec n 0) as [|N]; [discriminate|]. destruct (diag_in fuel xg n (n - 1) A delta delta) as [[[A1 L1] R1]|] eqn:E; cbn [bind] in H; [|discriminate].
  apply diag_in_equiv in E; [|lia]. eapply equiv_trans; [exact E|]. destruct (A1 (n - 1)%nat (n - 1)%nat <? 0); inversion H; subst; [|apply equiv_refl].
  apply (equiv_row n (fun M => tab n (negrow (n - 1) M))); try apply meq_refl. apply (rowop_tab n (negrow (n - 1))), negrow_op. lia.
Qed.
(** ** Phase 2 *)
Definition dA (s : st3) : zmat := fst (fst s).
Lemma pair_step_ok i j s : (i < j)%nat -> (j < n)%nat -> diagonal n (dA s) -> equiv n s (fst (pair_step xg n i j s)) /\ diagonal n (dA (fst (pair_step xg n i j s))).
Proof.
  destruct s as [[A L] R]. unfold dA. cbn [fst]. intros Hij Hj D. unfold pair_step. destruct (A i i =? 1); [cbn [fst]; split; auto; apply equiv_refl|]. destruct (Z.eqb_spec (A j j) 0) as [_|Nj]; [cbn [fst]; split; auto; apply equiv_refl|].
  assert (Nij : i <> j) by lia.
  assert (Dij : A i j = 0) by (apply D; lia). assert (Dji : A j i = 0) by (apply D; lia).
  destruct (Z.eqb_spec (A i i) 0) as [Zi|Ni].
  - cbn [fst]. split.
    + apply (equiv_trans n _ (tab n (col2 i j 0 1 1 0 A), L, tab n (col2 i j 0 1 1 0 R))).
      * apply (equiv_col n (fun M => tab n (col2 i j 0 1 1 0 M))); try apply meq_refl. apply (colop_tab n (col2 i j 0 1 1 0)), (col2_op n _ _ _ _ _ _ (-1)); try lia; reflexivity.
      * apply (equiv_row n (fun M => tab n (row2 i j 0 1 1 0 M))); [apply (rowop_tab n (row2 i j 0 1 1 0)), (row2_op n _ _ _ _ _ _ (-1)); try lia; reflexivity| |apply meq_refl].
        intros a b Ha Hb. rewrite !tab_meq by auto. unfold row2. rewrite !tab_meq by (auto; lia). unfold col2, set_ent.
        destruct (Nat.eqb_spec a i) as [Ea|Na]; destruct (Nat.eqb_spec a j) as [Ea'|Na']; destruct (Nat.eqb_spec b i) as [Eb|Nb]; destruct (Nat.eqb_spec b j) as [Eb'|Nb']; subst; cbn [andb]; try lia; try (rewrite !D by auto; lia); try (rewrite (D a b) by auto); rewrite ?(D a i), ?(D a j), ?(D i b), ?(D j b) by (auto; lia); lia.
    + intros a b Ha Hb N. rewrite tab_meq by auto. unfold set_ent. destruct (Nat.eqb_spec a j); destruct (Nat.eqb_spec b j); destruct (Nat.eqb_spec a i); destruct (Nat.eqb_spec b i); cbn [andb]; subst; try lia; now apply D.
  - destruct (xg (A j j) (A i i)) as [[g y] x] eqn:EX. pose proof (XG (A j j) (A i i)) as X. rewrite EX in X. destruct X as [Hg Hx].
    assert (G0 : g <> 0) by (intros ->; symmetry in Hg; apply Z.gcd_eq_0 in Hg; lia).
    destruct (Z.gcd_divide_l (A j j) (A i i)) as [v Hv]. destruct (Z.gcd_divide_r (A j j) (A i i)) as [u Hu]. rewrite <- Hg in Hu, Hv.
    assert (Qj : A j j / g = v) by (rewrite Hv, Z.div_mul; auto). assert (Qi : A i i / g = u) by (rewrite Hu, Z.div_mul; auto).
    cbv zeta. cbn [fst]. rewrite Qj, Qi.
    assert (XY : v * y + u * x = 1) by nia. split.
    + apply (equiv_trans n _ (tab n (col2 i j 1 0 (- u) 1 (tab n (col2 i j 0 1 1 0 (tab n (col2 i j 1 0 x 1 A))))), L, tab n (col2 i j 1 0 (- u) 1 (tab n (col2 i j 0 1 1 0 (tab n (col2 i j 1 0 x 1 R))))))).
      * apply (equiv_col n (fun M => tab n (col2 i j 1 0 (- u) 1 (tab n (col2 i j 0 1 1 0 (tab n (col2 i j 1 0 x 1 M))))))); try apply meq_refl.
        apply (colop_tab n (fun M => col2 i j 1 0 (- u) 1 (tab n (col2 i j 0 1 1 0 (tab n (col2 i j 1 0 x 1 M)))))).
        apply (colop_comp n (fun M => tab n (col2 i j 0 1 1 0 (tab n (col2 i j 1 0 x 1 M)))) (col2 i j 1 0 (- u) 1)); [|apply (col2_op n _ _ _ _ _ _ 1); try lia; ring].
        apply (colop_tab n (fun M => col2 i j 0 1 1 0 (tab n (col2 i j 1 0 x 1 M)))). apply (colop_comp n (fun M => tab n (col2 i j 1 0 x 1 M)) (col2 i j 0 1 1 0)); [|apply (col2_op n _ _ _ _ _ _ (-1)); try lia; ring].
        apply (colop_tab n (col2 i j 1 0 x 1)), (col2_op n _ _ _ _ _ _ 1); try lia; ring.
      * apply (equiv_row n (fun M => tab n (row2 i j 1 0 v 1 (tab n (row2 i j 1 0 0 (-1) (tab n (row2 i j 1 y 0 1 M))))))); [| |apply meq_refl].
        -- apply (rowop_tab n (fun M => row2 i j 1 0 v 1 (tab n (row2 i j 1 0 0 (-1) (tab n (row2 i j 1 y 0 1 M)))))).
           apply (rowop_comp n (fun M => tab n (row2 i j 1 0 0 (-1) (tab n (row2 i j 1 y 0 1 M)))) (row2 i j 1 0 v 1)); [|apply (row2_op n _ _ _ _ _ _ 1); try lia; ring].
           apply (rowop_tab n (fun M => row2 i j 1 0 0 (-1) (tab n (row2 i j 1 y 0 1 M)))). apply (rowop_comp n (fun M => tab n (row2 i j 1 y 0 1 M)) (row2 i j 1 0 0 (-1))); [|apply (row2_op n _ _ _ _ _ _ (-1)); try lia; ring].
           apply (rowop_tab n (row2 i j 1 y 0 1)), (row2_op n _ _ _ _ _ _ 1); try lia; ring.
        -- assert (Hi : (i < n)%nat) by lia.
           assert (EC : meq n n (tab n (col2 i j 1 0 (- u) 1 (tab n (col2 i j 0 1 1 0 (tab n (col2 i j 1 0 x 1 A)))))) (col2 i j x 1 (1 - u * x) (- u) A)).
           { eapply meq_trans; [apply tab_meq|]. eapply meq_trans; [apply col2_clin; auto; apply tab_meq|]. eapply meq_trans; [apply col2_clin; auto; apply col2_clin; auto; apply tab_meq|].
             intros a b Ha Hb. rewrite !col2_comp by auto. unfold col2. destruct (b =? i)%nat; [ring|]. destruct (b =? j)%nat; ring. }
           assert (RE : forall M M', meq n n M M' -> meq n n (tab n (row2 i j 1 0 v 1 (tab n (row2 i j 1 0 0 (-1) (tab n (row2 i j 1 y 0 1 M)))))) (row2 i j 1 y v (v * y - 1) M')).
           { intros M M' H. eapply meq_trans; [apply tab_meq|]. eapply meq_trans; [apply row2_ext; auto; apply tab_meq|]. eapply meq_trans; [apply row2_ext; auto; apply row2_ext; auto; apply tab_meq|].
             intros a b Ha Hb. rewrite !row2_comp by auto. unfold row2. rewrite !H by auto. destruct (a =? i)%nat; [ring|]. destruct (a =? j)%nat; ring. }
           eapply meq_trans; [|apply meq_sym, (RE _ _ EC)].
           intros a b Ha Hb. rewrite tab_meq by auto. unfold row2, col2, set_ent.
           destruct (Nat.eqb_spec a i) as [Ea|Na]; destruct (Nat.eqb_spec a j) as [Ea'|Na']; destruct (Nat.eqb_spec b i) as [Eb|Nb]; destruct (Nat.eqb_spec b j) as [Eb'|Nb']; try subst a; try subst b; cbn [andb]; try lia; rewrite ?(D a i), ?(D a j), ?(D i b), ?(D j b), ?Dij, ?Dji by (auto; lia); rewrite ?Hu, ?Hv; try ring; try nia.
    + intros a b Ha Hb N. rewrite tab_meq by auto. unfold set_ent. destruct (Nat.eqb_spec a j); destruct (Nat.eqb_spec b j); destruct (Nat.eqb_spec a i); destruct (Nat.eqb_spec b i); cbn [andb]; subst; try lia; now apply D.
Qed.
Lemma pair_row_ok i js : forall s, (forall j, In j js -> (i < j < n)%nat) -> diagonal n (dA s) -> equiv n s (pair_row xg n i js s) /\ diagonal n (dA (pair_row xg n i js s)).
Proof.
  induction js as [|j js IH]; intros s H D; cbn [pair_row]; [split; auto; apply equiv_refl|].
  destruct (pair_step_ok i j s) as [E D']; [apply H; now left|apply H; now left|auto|]. destruct (pair_step xg n i j s) as [s' stop]. cbn [fst] in *. destruct stop; [split; auto|].
  destruct (IH s') as [E2 D2]; auto; [intros k Hk; apply H; now right|]. split; auto. eapply equiv_trans; eauto.
Qed.
Lemma pairs_ok s : diagonal n (dA s) -> equiv n s (pairs xg n s) /\ diagonal n (dA (pairs xg n s)).
Proof.
  unfold pairs. assert (H : forall i, In i (seq 0 n) -> (i < n)%nat) by (intros i Hi; apply in_seq in Hi; lia). revert s H. induction (seq 0 n) as [|i l IH]; intros s H D; cbn [fold_left]; [split; auto; apply equiv_refl|].
  destruct (pair_row_ok i (seq (i + 1) (n - i - 1)) s) as [E D1]; auto; [intros j Hj; apply in_seq in Hj; lia|].
  destruct (IH (pair_row xg n i (seq (i + 1) (n - i - 1)) s)) as [E2 D2]; auto; [intros k Hk; apply H; now right|]. split; auto. eapply equiv_trans; eauto.
Qed.
Theorem smith_ok fuel A D L0 R0 : diagonalize fuel xg n A = Ok (D, L0, R0) -> smith_transform n A D L0 R0 /\
  (diagonal n D -> exists S L R, smith fuel xg n A = Ok (S, L, R) /\ diagonal n S /\ smith_transform n A S L R).
Proof.
  intros H. pose proof (diagonalize_equiv fuel A _ H) as E. split; [now apply equiv_transform|]. intros DD. destruct (pairs_ok (D, L0, R0) DD) as [E2 D2].
  unfold smith. rewrite H. cbn [bind]. destruct (pairs xg n (D, L0, R0)) as [[S L] R]. exists S, L, R. split; auto. split; auto. apply equiv_transform. eapply equiv_trans; eauto.
Qed.
End Phase1.
