(** C83: the test for an empty polytope. *)
From Coq Require Import QArith String.
From Verif Require Import Common Rational RationalSpec Text LatteText LatteTextSpec LatteTextProofs2 CheckEmpty CheckEmptySpec CheckEmptyProofs.
Open Scope Z_scope.

Lemma keeps_described m ks x : plain_matrix m -> usual_order ks -> Forall (legal_keyword m) ks -> length x = (mx_cols m - 1)%nat ->
  let st := fold_left note ks (mkScanned None None 0) in
  keeps m (sc_equ st) (sc_nonneg st) 1 x <-> described m ks x.
Proof.
  intros (W & L & V) U F Lx st. destruct (usual_keys m ks F U) as (_ & _ & _ & KE & KN). fold st in KE, KN. unfold keeps, described, satisfies. rewrite L.
  assert (LF : forall i, nth i (repeat false (length (mx_rows m))) false = false) by (intros i; destruct (Nat.lt_ge_cases i (length (mx_rows m))) as [A|A]; [now rewrite nth_repeat|now rewrite nth_overflow by (rewrite repeat_length; lia)]).
  split.
  - intros (A & B & N). split; [exact Lx|]. split; [intros i Hi; rewrite LF; now apply A|]. apply Forall_forall. intros [l|l] Hk; cbn [stated].
    + apply KE in Hk. rewrite Hk in B. exact B.
    + apply KN in Hk. rewrite Hk in N. exact N.
  - intros (_ & A & B). rewrite Forall_forall in B. split; [|split].
    + intros i Hi. specialize (A i Hi). now rewrite LF in A.
    + destruct (sc_equ st) as [l|] eqn:E; [|constructor]. exact (B (Linearity l) (proj2 (KE l) eq_refl)).
    + destruct (sc_nonneg st) as [l|] eqn:E; [|constructor]. exact (B (Nonnegative l) (proj2 (KN l) eq_refl)).
Qed.
(** C83.  A file of integers with at most one line of each kind, linearity first: the linear
    program written is well formed and its solutions are exactly the points described. *)
Theorem check_program_partial : forall m ks, plain_matrix m -> integral m -> (1 <= mx_cols m)%nat -> mx_rows m <> [] ->
  Forall (legal_keyword m) ks -> usual_order ks -> (forall l, In (Linearity l) ks -> (length l <= length (mx_rows m))%nat) ->
  exists p, check_lp (file m ks) = Ok p /\ lp_count p = Z.of_nat (length (lp_rows p)) /\ lp_cols p = mx_cols m /\
  (forall row, In row (lp_rows p) -> length row = lp_cols p) /\ forall x, feasible p x <-> described m ks x.
Proof.
  intros m ks P D C NR F U LL. destruct (usual_keys m ks F U) as (FE & FN & FL & KE & KN). set (st := fold_left note ks (mkScanned None None 0)) in *.
  exists (lp_of m (sc_equ st) (sc_nonneg st) (sc_flag st)). split; [|split; [|split; [reflexivity|split]]].
  - apply check_lp_ok; auto; [eapply Forall_impl; [|exact F]; now intros k [X _]| |eapply Forall_impl; [|exact FN]; intros i Hi; cbv beta in Hi |- *; lia].
    destruct (sc_equ st) as [l|] eqn:E; [|cbn; lia]. apply (LL l). now apply KE.
  - unfold lp_of, lp_count, lp_rows. rewrite FL, !app_length, !map_length. destruct (sc_nonneg st); [rewrite map_length, seq_length|cbn [length]]; lia.
  - intros row Hr. unfold lp_of, lp_rows, lp_cols in *. destruct P as ((W1 & _) & _). assert (R : forall i, (i < length (mx_rows m))%nat -> length (nth i (map (map num) (mx_rows m)) []) = mx_cols m).
    { intros i Hi. rewrite nth_num, map_length. rewrite Forall_forall in W1. apply (W1 (nth i (mx_rows m) [])). now apply nth_In. }
    apply in_app_or in Hr as [Hr|Hr]; [apply (In_nth _ _ []) in Hr as (i & Hi & <-); apply R; now rewrite map_length in Hi|]. apply in_app_or in Hr as [Hr|Hr].
    + apply in_map_iff in Hr as (i & <- & Hi). rewrite map_length. rewrite Forall_forall in FE. specialize (FE i Hi). cbv beta in FE. apply R. lia.
    + destruct (sc_nonneg st) as [l|]; [|destruct Hr]. apply in_map_iff in Hr as (i & <- & _). unfold unit_line. cbn [length]. rewrite map_length, seq_length. lia.
  - intros x. unfold feasible. change (lp_cols (lp_of m (sc_equ st) (sc_nonneg st) (sc_flag st))) with (mx_cols m). split.
    + intros [Lx H]. apply (keeps_described m ks x P U F Lx). fold st. apply (lp_rows_keep m _ _ (sc_flag st) 1 x D C Lx FE FN). exact H.
    + intros H. pose proof H as (Lx & _). split; [exact Lx|]. apply (lp_rows_keep m _ _ (sc_flag st) 1 x D C Lx FE FN). apply (keeps_described m ks x P U F Lx). exact H.
Qed.
Print Assumptions check_program_partial.
(** C83.  With the right answers from cdd a nonempty set passes; an empty one is rejected if
    no direction satisfies the homogeneous constraints. *)
Theorem check_empty_partial : forall m ks cdd, plain_matrix m -> integral m -> (1 <= mx_cols m)%nat -> mx_rows m <> [] ->
  Forall (legal_keyword m) ks -> usual_order ks -> (forall l, In (Linearity l) ks -> (length l <= length (mx_rows m))%nat) ->
  (forall p, check_lp (file m ks) = Ok p -> answers cdd p) ->
  ((exists x, described m ks x) -> check_empty cdd (file m ks) = Ok tt) /\
  (no_direction m ks -> (forall x, ~ described m ks x) -> check_empty cdd (file m ks) = Err Thrown).
Proof.
  intros m ks cdd P D C NR F U LL AN. destruct (check_program_partial m ks P D C NR F U LL) as (p & E & EC & EL & _ & FE). specialize (AN p E) as [A1 A2].
  unfold check_empty. rewrite E. cbn [bind]. rewrite EC, Z.eqb_refl. cbn [negb]. split.
  - intros [x Hx]. rewrite A1 by (exists x; now apply FE). reflexivity.
  - intros ND NE. destruct (cdd p) eqn:EP; [|reflexivity]. exfalso. destruct (A2 eq_refl) as [[x Hx]|[d (Ld & Hd & Od)]]; [exact (NE x (proj1 (FE x) Hx))|].
    destruct (usual_keys m ks F U) as (FE1 & FN & FL & KE & KN). set (st := fold_left note ks (mkScanned None None 0)) in *.
    assert (Ep : p = lp_of m (sc_equ st) (sc_nonneg st) (sc_flag st)).
    { assert (X : check_lp (file m ks) = Ok (lp_of m (sc_equ st) (sc_nonneg st) (sc_flag st))); [|congruence]. apply check_lp_ok; auto; [eapply Forall_impl; [|exact F]; now intros k [X _]| |eapply Forall_impl; [|exact FN]; intros i Hi; cbv beta in Hi |- *; lia].
      destruct (sc_equ st) as [l|] eqn:E1; [|cbn; lia]. apply (LL l). now apply KE. }
    subst p. change (lp_cols (lp_of m (sc_equ st) (sc_nonneg st) (sc_flag st))) with (mx_cols m) in Ld.
    apply (lp_rows_keep m _ _ (sc_flag st) 0 d D C Ld FE1 FN) in Hd. destruct Hd as (H1 & H2 & H3).
    assert (Z0 : Forall (fun q => (q == 0)%Q) d).
    { apply (ND d Ld); [exact H1|]. apply Forall_forall. intros [l|l] Hk; [apply KE in Hk; rewrite Hk in H2; exact H2|apply KN in Hk; rewrite Hk in H3; exact H3]. }
    assert (Zd : forall a, (dot a d == 0)%Q).
    { clear -Z0. induction d as [|q d IH]; intros [|c a]; cbn [dot]; try reflexivity. rewrite (IH (Forall_inv_tail Z0)). pose proof (Forall_inv Z0) as X. cbv beta in X. rewrite X. ring. }
    rewrite Zd in Od. exact (Qlt_irrefl 0 Od).
Qed.
Print Assumptions check_empty_partial.

(** x + y <= 3, x - y = 1, x, y >= 0. *)
Definition segment : matrix := mkMatrix [[mkRat 3 1; mkRat (-1) 1; mkRat (-1) 1]; [mkRat (-1) 1; mkRat 1 1; mkRat (-1) 1]] 3 [false; false] false.
Definition segment_keys : list keyword := [Linearity [2]; Nonnegative [1; 2]].
Example segment_met : plain_matrix segment /\ integral segment /\ Forall (legal_keyword segment) segment_keys /\ usual_order segment_keys /\
  check_lp (file segment segment_keys) = Ok (mkLp 5 3 [[3;-1;-1];[-1;1;-1];[1;-1;1];[0;1;0];[0;0;1]] [-1;-1]) /\ described segment segment_keys [1%Q; 0%Q] /\ no_direction segment segment_keys.
Proof.
  split; [|split; [|split; [|split; [constructor|split; [vm_compute; reflexivity|split]]]]].
  - split; [|split; reflexivity]. split; [|split; [reflexivity|vm_compute; split; [discriminate|reflexivity]]]. repeat constructor; vm_compute; reflexivity.
  - repeat constructor.
  - repeat constructor; vm_compute; congruence.
  - split; [reflexivity|]. split.
    + intros [|[|i]] Hi; [vm_compute; discriminate|vm_compute; discriminate|cbn in Hi; lia].
    + repeat constructor; vm_compute; congruence.
  - intros [|a [|b [|c d]]] Ld; try discriminate Ld. intros H K. pose proof (H 0%nat ltac:(cbn; lia)) as H0. pose proof (Forall_inv (Forall_inv_tail K)) as N. cbv beta iota in N.
    pose proof (Forall_inv N) as N1. pose proof (Forall_inv (Forall_inv_tail N)) as N2. cbn [Z.to_nat Z.sub nth Z.add Z.opp Z.pos_sub Pos.to_nat Pos.iter_op Pos.pred_double] in N1, N2. change (0 <= nth 0 [a; b] 0)%Q in N1. change (0 <= nth 1 [a; b] 0)%Q in N2. cbn [nth] in N1, N2.
    assert (E : (row_dir segment 0 [a; b] == - a - b)%Q). { unfold row_dir, segment. cbn [mx_rows nth affine]. change (value (mkRat 3 1)) with 3%Q. change (value (mkRat (-1) 1)) with (-1)%Q. ring. }
    rewrite E in H0. assert (Ea : (a == 0)%Q) by (apply Qle_antisym; [|exact N1]; rewrite <- (Qopp_involutive a); apply (Qopp_le_compat 0); apply Qle_trans with (1 := H0); setoid_replace (- a - b)%Q with (- a + - b)%Q by ring; rewrite <- (Qplus_0_r (- a)) at 2; apply Qplus_le_compat; [apply Qle_refl|exact (Qopp_le_compat 0 b N2)]).
    assert (Eb : (b == 0)%Q) by (apply Qle_antisym; [|exact N2]; rewrite Ea in H0; rewrite <- (Qopp_involutive b); apply (Qopp_le_compat 0); setoid_replace (- 0 - b)%Q with (- b)%Q in H0 by ring; exact H0).
    repeat constructor; assumption.
Qed.

(** C83 fails: (a) if the "nonnegative" line stands before the "linearity" line, the number of
    rows announced is wrong and the program ends, whatever the polytope; (b) of two
    "linearity" lines only the last counts: the empty set x = 0, x = 1 passes; (c) rational
    entries end the reading: 1/2 <= x <= 3 is rejected as empty; (d) a "linearity" index of a
    row added by "nonnegative", which the reader accepts, makes the program read outside the
    matrix. *)
Definition two_lines : matrix := mkMatrix [[mkRat 0 1; mkRat 1 1]; [mkRat 1 1; mkRat (-1) 1]] 2 [false; false] false.
Definition half_line : matrix := mkMatrix [[mkRat (-1) 2; mkRat 1 1]; [mkRat 3 1; mkRat (-1) 1]] 2 [false; false] false.
Theorem check_empty_refuted :
  (forall m l l' cdd, plain_matrix m -> integral m -> (2 <= mx_cols m)%nat -> mx_rows m <> [] -> Forall (legal_keyword m) [Nonnegative l'; Linearity l] -> (length l <= length (mx_rows m))%nat ->
     check_empty cdd (file m [Nonnegative l'; Linearity l]) = Err Exited) /\
  ((forall x, ~ described two_lines [Linearity [1]; Linearity [2]] x) /\
   forall cdd, (forall p, check_lp (file two_lines [Linearity [1]; Linearity [2]]) = Ok p -> answers cdd p) -> check_empty cdd (file two_lines [Linearity [1]; Linearity [2]]) = Ok tt) /\
  (plain_matrix half_line /\ described half_line [] [1%Q] /\ forall cdd, (forall p, check_lp (file half_line []) = Ok p -> answers cdd p) -> check_empty cdd (file half_line []) = Err Thrown) /\
  (forall cdd, check_empty cdd (file two_lines [Nonnegative [1]; Linearity [3]]) = Err OutOfBounds).
Proof.
  split; [|split; [|split]].
  - intros m l l' cdd P D C NR F LL. assert (G1 : Forall (fun i => 1 <= i <= Z.of_nat (length (mx_rows m))) l) by exact (proj2 (proj2 (Forall_inv (Forall_inv_tail F)))). assert (G2 : Forall (fun i => 1 <= i < Z.of_nat (mx_cols m)) l') by exact (proj2 (proj2 (Forall_inv F))).
    unfold check_empty. rewrite (check_lp_ok m [Nonnegative l'; Linearity l] (mkScanned (Some l) (Some l') 1)); auto; [|lia|eapply Forall_impl; [|exact F]; now intros k [X _]|eapply Forall_impl; [|exact G2]; intros i Hi; cbv beta in Hi |- *; lia].
    cbn [bind]. unfold lp_of, lp_count, lp_rows. cbn [sc_equ sc_nonneg sc_flag given Z.eqb Pos.eqb]. rewrite !app_length, !map_length, seq_length. rewrite (proj2 (Z.eqb_neq _ _)) by lia. reflexivity.
  - split.
    + intros x (Lx & _ & S). destruct x as [|q [|r x]]; try discriminate Lx. pose proof (Forall_inv S) as S1. pose proof (Forall_inv (Forall_inv_tail S)) as S2. cbn [stated] in S1, S2. pose proof (Forall_inv S1) as A. pose proof (Forall_inv S2) as B. cbv beta in A, B.
      change (value (mkRat 0 1) * 1 + (value (mkRat 1 1) * q + 0) == 0)%Q in A. change (value (mkRat 1 1) * 1 + (value (mkRat (-1) 1) * q + 0) == 0)%Q in B. change (value (mkRat 0 1)) with 0%Q in A. change (value (mkRat 1 1)) with 1%Q in A, B. change (value (mkRat (-1) 1)) with (-1)%Q in B.
      assert (E : (1 == 0)%Q); [|discriminate E]. transitivity ((0 * 1 + (1 * q + 0)) + (1 * 1 + (-1 * q + 0)))%Q; [ring|]. rewrite A, B. ring.
    + intros cdd A. unfold check_empty. change (check_lp (file two_lines [Linearity [1]; Linearity [2]])) with (Ok (mkLp 3 2 [[0;1];[1;-1];[-1;1]] [1])). cbn [bind lp_count lp_rows length Z.of_nat Z.eqb Pos.of_succ_nat Pos.succ Pos.eqb negb].
      destruct (A (mkLp 3 2 [[0;1];[1;-1];[-1;1]] [1]) eq_refl) as [A1 _]. rewrite A1; [reflexivity|]. exists [1%Q]. split; [reflexivity|]. intros row [<-|[<-|[<-|[]]]]; vm_compute; discriminate.
  - split; [|split].
    + split; [|split; reflexivity]. split; [|split; [reflexivity|vm_compute; split; [discriminate|reflexivity]]]. repeat constructor; vm_compute; reflexivity.
    + split; [reflexivity|]. split; [|constructor]. intros [|[|i]] Hi; [vm_compute; discriminate|vm_compute; discriminate|cbn in Hi; lia].
    + intros cdd A. unfold check_empty. change (check_lp (file half_line [])) with (Ok (mkLp 2 2 [[-1;0];[0;0]] [0])). cbn [bind lp_count lp_rows length Z.of_nat Z.eqb Pos.of_succ_nat Pos.succ Pos.eqb negb].
      destruct (A (mkLp 2 2 [[-1;0];[0;0]] [0]) eq_refl) as [_ A2]. destruct (cdd (mkLp 2 2 [[-1;0];[0;0]] [0])); [|reflexivity]. exfalso. destruct (A2 eq_refl) as [[x [Lx H]]|[d (Ld & _ & H)]].
      * specialize (H [-1;0] (or_introl eq_refl)). destruct x as [|q [|r x]]; try discriminate Lx. cbn [dot] in H. change (inject_Z (-1)) with (-1)%Q in H. change (inject_Z 0) with 0%Q in H. assert (X : (-1 * 1 + (0 * q + 0) == -1)%Q) by ring. rewrite X in H. apply H. reflexivity.
      * destruct d as [|q [|r d]]; try discriminate Ld. cbn [lp_objective dot] in H. change (inject_Z 0) with 0%Q in H. assert (X : (0 * q + 0 == 0)%Q) by ring. rewrite X in H. exact (Qlt_irrefl 0 H).
  - intros cdd. reflexivity.
Qed.
Print Assumptions check_empty_refuted.
