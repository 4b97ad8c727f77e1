(** C85: reading the file, and the vertices. *)
From Coq Require Import QArith Qround Lqa.
From Verif Require Import Common ZMat Hermite HermiteSpec HermiteProofs RatVec RatVecSpec RatVecProofs PipedSpec PipedProofs3 ConeSpec CountSpec BrionLinear BrionProofs4 OmegaProofs4 Piped CountProofs5 CountProofs6 Preproc PreprocSpec PreprocProofs GenFun GenFunProofs7 Rational RationalSpec Text LatteText LatteTextSpec LatteTextProofs2 CheckEmpty CheckEmptySpec CheckEmptyProofs P_CheckEmpty CddText CddTextSpec P_CddText P_Full CountFile CountFileSpec CountFileProofs CountFileProofs2.
Open Scope Z_scope.

Definition int_rows (m : matrix) : Prop := Forall (fun row => length row = mx_cols m /\ Forall (fun q => den q = 1) row) (mx_rows m) /\ length (mx_lin m) = length (mx_rows m).
Lemma int_apply m k : int_rows m -> int_rows (apply_keyword m k) /\ mx_cols (apply_keyword m k) = mx_cols m.
Proof.
  intros [F L]. destruct k as [l|l]; (split; [|reflexivity]); unfold int_rows; cbn [apply_keyword mx_rows mx_cols mx_lin].
  - split; [exact F|]. rewrite map_length, combine_length, seq_length. lia.
  - split; [|rewrite !app_length, !map_length; lia]. apply Forall_app. split; [exact F|]. apply Forall_map, Forall_forall. intros i _. rewrite map_length, seq_length. split; [reflexivity|]. apply Forall_map, Forall_forall. intros j _. destruct (Z.of_nat j =? i); reflexivity.
Qed.
Lemma int_fold ks : forall m, int_rows m -> int_rows (fold_left apply_keyword ks m) /\ mx_cols (fold_left apply_keyword ks m) = mx_cols m.
Proof.
  induction ks as [|k ks IH]; intros m H; cbn [fold_left]; [auto|]. destruct (int_apply m k H) as [H1 E]. destruct (IH _ H1) as [H2 E2]. split; [exact H2|]. now rewrite E2.
Qed.
Lemma at_ints x k : (at_list (map inject_Z x) k == inject_Z (coords x k))%Q.
Proof. unfold at_list, coords. change 0%Q with (inject_Z 0). rewrite map_nth. reflexivity. Qed.
Lemma slack_ints n c x : (slack n c (at_list (map inject_Z x)) == inject_Z (row_value n 1 c (coords x)))%Q.
Proof.
  rewrite row_value_slack, slack_dir. change (inject_Z 1) with 1%Q. rewrite Qmult_1_l. apply Qplus_comp; [reflexivity|]. apply dirval_ext. intros k _. apply at_ints.
Qed.
Lemma dilate_one rows : dilate_list 1 rows = rows.
Proof. unfold dilate_list. rewrite <- (map_id rows) at 2. apply map_ext. intros [|b a]; [reflexivity|]. now rewrite Z.mul_1_l. Qed.

Theorem read_system_ok T m ks points : good_file m ks -> (exists x, described m ks x) -> bounded_set (described m ks) -> points_of_file m ks points ->
  (forall p, check_lp (file m ks) = Ok p -> answers (u_lp T) p) ->
  (forall m1, read_matrix (file m ks) false false false = Ok m1 -> canonical_form m1 (u_canon T m1)) ->
  exists F0 p, (forall f, (F0 <= f)%nat -> read_system T f 1 (file m ks) = Ok p) /\
  match p with
  | Early k => k = Z.of_nat (length points)
  | System d rows => (0 < d)%nat /\ (d <= mx_cols m - 1)%nat /\ (forall c, In c rows -> length c = S d) /\ no_escape d rows /\ exists ys, integer_points d rows ys /\ length ys = length points
  end.
Proof.
  intros (PM & IM & C2 & NR & LK & UO & LN) (x0 & H0) BD (ND & PT) AN CA. set (m1 := fold_left apply_keyword ks m). set (n := (mx_cols m - 1)%nat).
  pose proof PM as (WF & _ & VR).
  assert (RD : read_matrix (file m ks) false false false = Ok m1).
  { pose proof (write_read_keywords m ks WF) as X. rewrite VR in X. apply X; [|apply Forall_forall; intros [l|l] _; exact I || reflexivity].
    destruct H0 as (Lx & _). exact (proj1 (keywords_meaning x0 ks m (proj1 (proj2 WF)) Lx LK)). }
  specialize (CA m1 RD). set (m2 := u_canon T m1) in *. assert (I0 : int_rows m).
  { destruct WF as (W1 & W2 & _). split; [|exact W2]. rewrite Forall_forall in W1. unfold integral in IM. rewrite Forall_forall in IM. apply Forall_forall. intros row Hr. split; [apply (W1 row Hr)|exact (IM row Hr)]. }
  destruct (int_fold ks m I0) as [[I1 I1'] EC]. fold m1 in I1, I1', EC. destruct CA as (CC & CL & CI & CS & CN & CR). rewrite EC in *. fold n in CS, CN, CR.
  assert (F2 : forall row, In row (mx_rows m2) -> length row = S n /\ Forall (fun q => den q = 1) row).
  { intros row Hr. rewrite Forall_forall in I1. destruct (I1 row (CI row Hr)) as [A B]. split; [unfold n; lia|exact B]. }
  assert (D2 : Forall (Forall (fun q => den q = 1)) (mx_rows m2)) by (apply Forall_forall; intros row Hr; apply (F2 row Hr)). assert (W2 : Forall (fun row => length row = S n) (mx_rows m2)) by (apply Forall_forall; intros row Hr; apply (F2 row Hr)).
  assert (DS : forall x, length x = n -> (described m ks x <-> (forall e, In e (equation_rows m2) -> (slack n e (at_list x) == 0)%Q) /\ (forall a, In a (inequality_rows m2) -> (0 <= slack n a (at_list x))%Q))).
  { intros x Lx. rewrite <- (satisfies_split m2 n D2 W2 CL x Lx), (CS x Lx). unfold described, m1. rewrite (proj2 (keywords_meaning x ks m (proj1 (proj2 WF)) Lx LK)). unfold n in Lx. tauto. }
  assert (L0 : length x0 = n) by apply H0.
  pose proof (no_direction_of n (equation_rows m2) (inequality_rows m2) (described m ks) x0 DS BD L0 H0) as NODIR.
  assert (IRR : forall a, In a (inequality_rows m2) -> exists x, (slack n a x < 0)%Q /\ forall e, In e (equation_rows m2) -> (slack n e x == 0)%Q).
  { intros a Ha. apply (in_inequalities m2 CL) in Ha as (i & Hi & Bi & ->). destruct (CR i Hi Bi) as (x & Lx & V & O). exists (at_list x). split; [now rewrite <- (row_slack m2 n D2 W2 i x Hi Lx)|].
    intros e He. apply (in_equations m2 CL) in He as (j & Hj & Bj & ->). rewrite <- (row_slack m2 n D2 W2 j x Hj Lx). specialize (O j Hj). rewrite Bj in O. apply O. congruence. }
  assert (PT2 : forall x, In x points <-> length x = n /\ sat_eqs n 1 (equation_rows m2) (coords x) /\ sat_ineqs n 1 (inequality_rows m2) (coords x)).
  { intros x. rewrite PT. split.
    - intros H. assert (Lx : length x = n) by (destruct H as (L & _); now rewrite map_length in L). split; [exact Lx|]. apply DS in H; [|now rewrite map_length]. destruct H as [A B]. split; intros c Hc; [specialize (A c Hc)|specialize (B c Hc)]; rewrite slack_ints in *; [exact (proj1 (inject_eq _ 0) A)|exact (proj1 (inject_le 0 _) B)].
    - intros (Lx & A & B). apply DS; [now rewrite map_length|]. split; intros c Hc; rewrite slack_ints; [exact (proj2 (inject_eq _ 0) (A c Hc))|apply (inject_le 0), (B c Hc)]. }
  assert (Hn : (0 < n)%nat) by (unfold n; lia).
  assert (CE : check_empty (u_lp T) (file m ks) = Ok tt). { apply (check_empty_partial m ks (u_lp T) PM IM ltac:(lia) NR LK UO LN AN). exists x0. exact H0. }
  assert (PO : forall f, read_system T f 1 (file m ks) = project_out f 1 m2) by (intros f; unfold read_system; rewrite CE; cbn [bind]; rewrite RD; reflexivity).
  assert (EE : forall f, project_out f 1 m2 = match equation_rows m2 with [] => Ok (System n (inequality_rows m2)) | _ => bind (preprocess f (equation_rows m2) (inequality_rows m2) n 1) (fun r =>
     match r with Count0 => Ok (Early 0) | Count1 => Ok (Early 1) | Unbounded => Err Exited | Reduced _ basis rows => Ok (System (length basis) (map (firstn (S (length basis))) rows)) end) end).
  { intros f. unfold project_out. rewrite (split_ok m2 D2). cbn [bind]. rewrite CC. fold n. now rewrite dilate_one. }
  destruct (equation_rows m2) as [|e0 es] eqn:EQ.
  - exists 0%nat, (System n (inequality_rows m2)). split; [intros f _; rewrite PO, EE; reflexivity|]. split; [exact Hn|]. split; [unfold n; lia|]. split; [intros c Hc; apply (widths m2 n W2 CL); now right|].
    destruct (inequalities_ok n [] (inequality_rows m2) NODIR points ND PT2 eq_refl) as [A B]. split; [exact A|]. exists points. auto.
  - destruct (equations_ok n (e0 :: es) (inequality_rows m2) Hn CN NODIR IRR points ND PT2) as (F0 & r & HP & HR).
    destruct r as [| | |p b rows]; [| |destruct HR|].
    + exists F0, (Early 0). split; [intros f Hf; rewrite PO, EE, (HP f Hf); reflexivity|]. rewrite HR. reflexivity.
    + exists F0, (Early 1). split; [intros f Hf; rewrite PO, EE, (HP f Hf); reflexivity|]. rewrite HR. reflexivity.
    + exists F0, (System (length b) (map (firstn (S (length b))) rows)). split; [intros f Hf; rewrite PO, EE, (HP f Hf); reflexivity|]. exact HR.
Qed.

(** ** The vertices that cdd reports *)
Lemma apart n p q : ~ same_point n p q -> exists j, (j < n)%nat /\ ~ (p j == q j)%Q.
Proof.
  induction n as [|n IH]; intros H; [exfalso; apply H; intros k Hk; lia|]. destruct (Qeq_dec (p n) (q n)) as [E|E]; [|exists n; split; [lia|exact E]].
  destruct IH as (j & Hj & Nj); [|exists j; split; [lia|exact Nj]]. intros S. apply H. intros k Hk. destruct (Nat.eq_dec k n) as [->|X]; [exact E|apply S; lia].
Qed.
Lemma same_sym n p q : same_point n p q -> same_point n q p.
Proof. intros H k Hk. symmetry. exact (H k Hk). Qed.
Lemma same_trans n p q r : same_point n p q -> same_point n q r -> same_point n p r.
Proof. intros H K k Hk. rewrite (H k Hk). exact (K k Hk). Qed.
Lemma all_vertices_ext n rows vs ws : length vs = length ws -> (forall i, (i < length vs)%nat -> same_point n (nth i vs origin) (nth i ws origin)) -> all_vertices n rows vs -> all_vertices n rows ws.
Proof.
  intros L E (A & B & C). split; [|split].
  - intros w Hw. apply (In_nth _ _ origin) in Hw as (i & Hi & <-). apply (vertex_ext n rows (nth i vs origin)); [apply E; lia|]. apply A, nth_In. lia.
  - intros v Hv. destruct (B v Hv) as (w & Hw & S). apply (In_nth _ _ origin) in Hw as (i & Hi & <-). exists (nth i ws origin). split; [apply nth_In; lia|]. exact (same_trans n _ _ _ S (E i Hi)).
  - intros i j Hij Hj S. apply (C i j Hij ltac:(lia)). apply (same_trans n _ _ _ (E i ltac:(lia))). apply (same_trans n _ _ _ S). apply same_sym, E. lia.
Qed.
Lemma lowest_integer q z : lowest_terms q -> (value q == inject_Z z)%Q -> den q = 1.
Proof.
  intros [P G] E. unfold value, Qeq in E. cbn [Qnum Qden inject_Z] in E. rewrite Z2Pos.id in E by exact P.
  assert (DV : (den q | num q)) by (exists z; lia). assert (X : (den q | Z.gcd (num q) (den q))) by (apply Z.gcd_greatest; [exact DV|apply Z.divide_refl]). rewrite G in X. apply Z.divide_1_r_nonneg in X; lia.
Qed.
Lemma point_one q x j : q = mkRat 1 1 -> (point_of (q :: x) j == value (nth j x zero_rat))%Q.
Proof. intros ->. unfold point_of. cbn [nth]. unfold value at 2. cbn [num den Z.to_pos]. field. Qed.
Theorem vertices_ok cdd d rows ys : (0 < d)%nat -> (forall c, In c rows -> length c = S d) -> integer_points d rows ys -> cdd_reports d rows (cdd (write_ine rows (S d))) ->
  compute_vertex_cones cdd rows d = Ok (Stopped (Some (Z.of_nat (length ys)))) \/ exists cs, compute_vertex_cones cdd rows d = Ok (Cones cs) /\ polytope d rows (map fst cs).
Proof.
  intros Hd LR (ND & IP) (table & adj & XF & ONE & AV & HU & AD). destruct (at_most_one_vertex cdd rows d) as (O0 & O1 & O2).
  destruct table as [|row table'] eqn:ET; [|destruct table' as [|row2 rest] eqn:ET2].
  - left. rewrite (O0 XF). assert (Y : ys = []); [|now rewrite Y]. destruct ys as [|y l]; [reflexivity|]. exfalso. destruct (proj1 (IP y) (or_introl eq_refl)) as [_ P]. destruct (HU _ P) as (a & _ & S & _). cbn [map length sumq] in S. discriminate.
  - left. clear ET2 ET. pose proof (Forall_inv ONE) as E1. cbv beta in E1. pose proof XF as (WF & _). pose proof (Forall_inv WF) as [Lr LT]. destruct row as [|q x]; [discriminate|]. cbn [nth] in E1. subst q. cbn in Lr. injection Lr as Lx.
    assert (PX : forall z, in_polyhedron d rows z -> forall k, (k < d)%nat -> (z k == value (nth k x zero_rat))%Q).
    { intros z Hz k Hk. destruct (HU z Hz) as (a & _ & S & Z1). rewrite (Z1 k Hk). cbn [map length sumq nth] in *. rewrite (point_one (mkRat 1 1) x k eq_refl). assert (A : (a 0%nat == 1)%Q) by (rewrite <- S; ring). rewrite A. ring. }
    assert (IV : in_polyhedron d rows (point_of (mkRat 1 1 :: x))) by (apply (proj1 AV); left; reflexivity). pose proof (Forall_inv_tail LT) as LTx.
    destruct (Forall_dec (fun q => den q = 1) (fun q => Z.eq_dec (den q) 1) x) as [F|F].
    + rewrite (O1 x XF F). assert (Y : forall y, In y ys <-> y = map num x).
      { assert (NV : forall k, (k < d)%nat -> (value (nth k x zero_rat) == inject_Z (nth k (map num x) 0%Z))%Q).
        { intros k Hk. rewrite Forall_forall in F. pose proof (F (nth k x zero_rat) (nth_In x zero_rat (n := k) ltac:(lia))) as Dk. cbv beta in Dk. unfold value. rewrite Dk. change 0 with (num zero_rat). rewrite map_nth. reflexivity. }
        intros y. rewrite IP. split.
        - intros [Ly Py]. apply (nth_ext _ _ 0 0); [rewrite map_length; congruence|]. intros k Hk. pose proof (PX _ Py k ltac:(lia)) as E. rewrite NV in E by lia. exact (proj1 (inject_eq _ _) E).
        - intros ->. split; [now rewrite map_length|]. intros c Hc. rewrite (slack_ext d c _ (point_of (mkRat 1 1 :: x))); [apply IV, Hc|]. intros k Hk. rewrite (point_one (mkRat 1 1) x k eq_refl), (NV k Hk). reflexivity. }
      assert (L1 : length ys = 1%nat); [|now rewrite L1]. clear -Y ND. destruct ys as [|y [|y' l]]; [destruct (proj2 (Y _) eq_refl)|reflexivity|]. exfalso. inversion ND as [|? ? N _]. apply N. rewrite (proj1 (Y y)) by (now left). rewrite (proj1 (Y y')) by (right; now left). now left.
    + rewrite (O2 x XF F). assert (Y : ys = []); [|now rewrite Y]. destruct ys as [|y l]; [reflexivity|]. exfalso. apply F. destruct (proj1 (IP y) (or_introl eq_refl)) as [Ly P]. apply Forall_forall. intros q Hq. apply (In_nth _ _ zero_rat) in Hq as (k & Hk & <-).
      rewrite Forall_forall in LTx. apply (lowest_integer _ (nth k y 0)); [apply LTx, nth_In; lia|]. symmetry. exact (PX _ P k ltac:(lia)).
  - right. rewrite <- ET2 in *. rewrite <- ET in *. assert (N2 : (2 <= length table)%nat) by (rewrite ET, ET2; cbn; lia). destruct (AD N2) as (EF & LA & NA). clear ET ET2.
    assert (VR : Forall vertex_row table). { revert ONE. apply Forall_impl. intros r E. unfold vertex_row. rewrite E. reflexivity. }
    assert (DF : forall i k, (i < length table)%nat -> In k (nth i adj []) -> different d (nth i table []) (nth (k - 1) table [])).
    { intros i k Hi Hk. destruct EF as (AF & _). rewrite Forall_forall in AF. pose proof (proj1 (AF _ (nth_In adj [] (n := i) ltac:(lia)))) as AK. rewrite Forall_forall in AK. specialize (AK k Hk). cbv beta in AK. assert (NK : k <> S i) by (intros ->; exact (NA i Hk)).
      destruct AV as (_ & _ & PW). assert (NT : forall j, (j < length table)%nat -> nth j (map point_of table) origin = point_of (nth j table [])) by (intros j Hj; rewrite (nth_indep _ origin (point_of [])) by (now rewrite map_length); apply map_nth).
      assert (NS : ~ same_point d (point_of (nth i table [])) (point_of (nth (k - 1) table []))).
      { intros S. destruct (Nat.lt_total i (k - 1)) as [X|[X|X]]; [|lia|].
        - apply (PW i (k - 1)%nat X); [rewrite map_length; lia|]. now rewrite !NT by lia.
        - apply (PW (k - 1)%nat i X); [rewrite map_length; lia|]. rewrite !NT by lia. now apply same_sym. }
      exact (apart d _ _ NS). }
    destruct (vertex_cones_read cdd rows d table adj XF EF LA N2 VR DF) as (cs & EC & LC & HC). exists cs. split; [exact EC|].
    assert (FS : forall i, (i < length table)%nat -> is_point (fst (nth i cs (rv_zero 0, []))) d (nth i table []) /\ reachable positive (CZero d) (fst (nth i cs (rv_zero 0, [])))).
    { intros i Hi. specialize (HC i Hi). destruct (nth i cs (rv_zero 0, [])) as [v r]. cbn [fst]. tauto. }
    split; [exact Hd|]. split; [exact LR|]. split.
    + intros v Hv. apply in_map_iff in Hv as (c & <- & Hc). apply (In_nth _ _ (rv_zero 0, [])) in Hc as (i & Hi & <-). destruct (FS i ltac:(lia)) as [[D1 _] R]. split; [|exact D1]. exists positive, (CZero d). auto.
    + apply (all_vertices_ext d rows (map point_of table)); [rewrite !map_length; lia| |exact AV]. rewrite map_length. intros i Hi k Hk. destruct (FS i Hi) as [[_ P1] _].
      rewrite (nth_indep _ origin (point_of [])) by (now rewrite map_length). rewrite map_nth. rewrite map_map. rewrite (nth_indep _ origin (coord (fst (rv_zero 0, @nil (list Z))))) by (rewrite map_length; lia). rewrite (map_nth (fun c => coord (fst c)) cs (rv_zero 0, []) i). symmetry. exact (P1 k Hk).
Qed.
