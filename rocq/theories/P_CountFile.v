(** C85: "count FILE", from the text of the file to the number printed. *)
From Coq Require Import QArith Qround Lqa String.
From Verif Require Import Common ZMat Hermite RatVec RatVecSpec PipedSpec PipedProofs3 ConeSpec CountSpec Piped Irrational Barvinok BarvinokSpec Count CountProofs CountProofs5 CountProofs6 CountProofs7 Util UtilSpec UtilProofs Residue Triang TriangSpec Omega OmegaSpec OmegaProofs6 OmegaProofs7 BarvinokProofs4 OmegaProofs7 SmithProofs2  P_Count P_Residue P_Triang P_Omega P_Full Preproc PreprocSpec GenFunProofs7 Rational RationalSpec Text LatteText LatteTextSpec CheckEmpty CheckEmptySpec P_CheckEmpty CddText CddTextSpec P_CddText CountFile CountFileSpec CountFileProofs CountFileProofs2 CountFileProofs3.
Open Scope Z_scope.

(** What is relied on for the file: cdd's answer to the linear program, the canonical form, and
    cdd's files for the inequalities it is given. *)
Definition tools_ok (T : tools) (s : text) : Prop :=
  (forall p, check_lp s = Ok p -> answers (u_lp T) p) /\
  (forall m1, read_matrix s false false false = Ok m1 -> canonical_form m1 (u_canon T m1)) /\
  (forall f d rows, read_system T f 1 s = Ok (System d rows) -> no_escape d rows -> cdd_reports d rows (u_cdd T (write_ine rows (S d)))).

Lemma mapM_cases {X Y} (f : X -> outcome Y) l : (exists e x, mapM f l = Err e /\ In x l /\ f x = Err e) \/ ((exists ys, mapM f l = Ok ys) /\ forall x, In x l -> exists y, f x = Ok y).
Proof.
  induction l as [|x l IH]; [right; split; [now exists []|intros x []]|]. cbn [mapM]. destruct (f x) as [y|e] eqn:E; cbn [bind]; [|left; exists e, x; split; [reflexivity|]; split; [now left|exact E]].
  destruct IH as [(e & x' & M & I & F)|[(ys & M) A]]; rewrite M; cbn [bind]; [left; exists e, x'; split; [reflexivity|]; split; [now right|exact F]|]. right. split; [now exists (y :: ys)|]. intros x' [<-|I]; [now exists y|exact (A x' I)].
Qed.
Section Counting.
Context (K : libraries) (mh md : Z) (fuel : nat) (h : heights) (pos : list (list Z) -> nat).
Context (CO : contracts K) (HM : 1 <= mh <= INT_MAX) (HD : 1 <= md <= Piped.int_max).
Lemma dual_ok d rows vs : polytope d rows vs -> dual_cones d rows vs = Ok (map (fun v => (v, outer_normals d rows (coord v), [])) vs).
Proof. intros (_ & LR & UV & _). apply mapM_all. intros v Hv. rewrite (proj1 (tight_ok d rows v (UV v Hv) LR)). reflexivity. Qed.
Lemma triangulations_cases d rows vs : polytope d rows vs ->
  (exists e v, is_vertex d rows v /\ triangulation K mh fuel h pos d (outer_normals d rows v) = Err e /\ forall exponential f1 f2 guesses, count_vertices K mh md fuel h pos exponential f1 f2 guesses d rows vs = Err e) \/
  ((forall v, In v vs -> exists r, triangulation K mh fuel h pos d (outer_normals d rows (coord v)) = Ok r) /\
   forall exponential f1 f2 guesses, count_vertices K mh md fuel h pos exponential f1 f2 guesses d rows vs =
     if exponential : bool then bind (count (latte K mh md fuel h pos d f1 f2) d guesses rows vs) (fun z => Ok (z, 0)) else count_residue (latte K mh md fuel h pos d f1 f2) d guesses rows vs).
Proof.
  intros PO. pose proof (dual_ok d rows vs PO) as DU. destruct (mapM_cases (fun c : vcone => triangulation K mh fuel h pos d (snd (fst c))) (map (fun v => (v, outer_normals d rows (coord v), [])) vs)) as [(e & c & M & I & E)|[(ts & M) A]].
  - left. apply in_map_iff in I as (v & <- & Hv). exists e, (coord v). split; [apply PO; now apply in_map|]. split; [exact E|]. intros. unfold count_vertices. rewrite DU. cbn [bind]. now rewrite M.
  - right. split.
    + intros v Hv. exact (A _ (in_map (fun v => (v, outer_normals d rows (coord v), [])) _ _ Hv)).
    + intros. unfold count_vertices. rewrite DU. cbn [bind]. rewrite M. reflexivity.
Qed.
End Counting.

(** C85.  The file holds integers and describes a nonempty bounded set.  The number printed, if
    any, is the number of integer points; with the polynomial substitution (the default),
    provided that not more than 5 10^9 / max_det cones are used.  There is always a number, except
    that a triangulation was not found, an assertion about short vectors failed, or all random vectors
    tried are orthogonal to one of finitely many vectors. *)
Theorem count_file_partial : forall T K exponential max_height max_det fuel h pos m ks points,
  good_file m ks -> (mx_cols m <= 10)%nat -> (exists x, described m ks x) -> bounded_set (described m ks) -> points_of_file m ks points ->
  contracts K -> 1 <= max_height <= INT_MAX -> 1 <= max_det <= Piped.int_max -> tools_ok T (file m ks) ->
  exists d rows N, (d < mx_cols m)%nat /\ (forall r, In r N -> length r = d /\ exists k, (k < d)%nat /\ nth k r 0 <> 0) /\
  forall guesses, (forall g, In g guesses -> length g = d) -> exists F0, forall f0, (F0 <= f0)%nat -> exists F1, forall f1, (F1 <= f1)%nat -> exists F2, forall f2, (F2 <= f2)%nat ->
  match count_file K max_height max_det fuel h pos T exponential 1 f0 f1 f2 guesses (file m ks) with
  | Ok (Some (k, cones)) => (exponential = false -> cones * max_det <= 5 * 10 ^ 9) -> k = Z.of_nat (length points)
  | Ok None => False
  | Err e => read_system T f0 1 (file m ks) = Ok (System d rows) /\
      ((exists v, is_vertex d rows v /\ triangulation K max_height fuel h pos d (outer_normals d rows v) = Err e) \/
       e = AssertFail /\ ~ decreasing d (short_vector (l_lll K) (l_solve K)) \/
       e = OutOfFuel /\ forall g, In g guesses -> exists r, In r N /\ zdot g r = 0)
  end.
Proof.
  intros T K ex mh md fuel h pos m ks points GF C10 NE BD PF CO HM HD (T1 & T2 & T3).
  destruct (read_system_ok T m ks points GF NE BD PF T1 T2) as (F0 & p & RS & HP). destruct p as [k|d rows].
  - exists 0%nat, [], []. split; [destruct GF as (_ & _ & C & _); lia|]. split; [intros r []|]. intros guesses _. exists F0. intros f0 Hf0. exists 0%nat. intros f1 _. exists 0%nat. intros f2 _.
    unfold count_file. rewrite (RS f0 Hf0). cbn [bind]. intros _. exact HP.
  - destruct HP as (Hd & Dn & LR & NEs & ys & IP & LY). pose proof (T3 F0 d rows (RS F0 (le_n _)) NEs) as CR. assert (DM : (d < mx_cols m)%nat) by (destruct GF as (_ & _ & C & _); lia).
    destruct (vertices_ok (u_cdd T) d rows ys Hd LR IP CR) as [EV|(cs & EV & PO)].
    + exists d, rows, []. split; [exact DM|]. split; [intros r []|]. intros guesses _. exists F0. intros f0 Hf0. exists 0%nat. intros f1 _. exists 0%nat. intros f2 _.
      unfold count_file. rewrite (RS f0 Hf0). cbn [bind]. rewrite EV. cbn [bind]. intros _. now rewrite LY.
    + assert (CF : forall f0 f1 f2 guesses, (F0 <= f0)%nat -> count_file K mh md fuel h pos T ex 1 f0 f1 f2 guesses (file m ks) = bind (count_vertices K mh md fuel h pos ex f1 f2 guesses d rows (map fst cs)) (fun r => Ok (Some r))).
      { intros f0 f1 f2 guesses Hf. unfold count_file. rewrite (RS f0 Hf). cbn [bind]. rewrite EV. reflexivity. }
      destruct (triangulations_cases K mh md fuel h pos d rows (map fst cs) PO) as [(e & v & IV & ET & CV)|[TR CV]].
      * exists d, rows, []. split; [exact DM|]. split; [intros r []|]. intros guesses _. exists F0. intros f0 Hf0. exists 0%nat. intros f1 _. exists 0%nat. intros f2 _.
        rewrite (CF f0 f1 f2 guesses Hf0), CV. cbn [bind]. split; [exact (RS f0 Hf0)|]. left. now exists v.
      * destruct ex.
        -- destruct (latte_count_exact K mh md fuel h pos d rows (map fst cs) ys CO HM HD) as (N & NN & H); [destruct GF as (_ & _ & C & _); lia|exact PO|exact IP|exact TR|].
           exists d, rows, N. split; [exact DM|]. split; [exact NN|]. intros guesses LG. exists F0. intros f0 Hf0. destruct (H guesses LG) as (F1 & H1). exists F1. intros f1 Hf1. destruct (H1 f1 Hf1) as (F2 & H2). exists F2. intros f2 Hf2. specialize (H2 f2 Hf2).
           rewrite (CF f0 f1 f2 guesses Hf0), CV. destruct (count (latte K mh md fuel h pos d f1 f2) d guesses rows (map fst cs)) as [z|e]; cbn [bind].
           ++ intros _. now rewrite <- LY.
           ++ split; [exact (RS f0 Hf0)|]. right. exact H2.
        -- destruct (count_residue_partial (latte K mh md fuel h pos d 0 0) d rows (map fst cs) ys (latte_ok K mh md fuel h pos d 0 0 CO HM ltac:(lia)) (latte_input K mh md fuel h pos d 0 0 rows (map fst cs) CO HM PO TR)) as (N & NN & H); [discriminate|exact IP|cbn [latte q_max_det]; lia|discriminate|].
           exists d, rows, N. split; [exact DM|]. split; [exact NN|]. intros guesses LG. exists F0. intros f0 Hf0. destruct (H guesses LG) as (F1 & H1). exists F1. intros f1 Hf1. destruct (H1 f1 Hf1) as (F2 & H2). exists F2. intros f2 Hf2. specialize (H2 f2 Hf2).
           change (with_fuel (latte K mh md fuel h pos d 0 0) f1 f2) with (latte K mh md fuel h pos d f1 f2) in H2. cbn [latte q_mode q_sv q_max_det q_omega] in H2.
           rewrite (CF f0 f1 f2 guesses Hf0), CV. fold (latte K mh md fuel h pos d f1 f2) in H2. destruct (count_residue (latte K mh md fuel h pos d f1 f2) d guesses rows (map fst cs)) as [[z cones]|e]; cbn [bind].
           ++ intros Hc. rewrite <- LY. apply H2. now apply Hc.
           ++ split; [exact (RS f0 Hf0)|]. right. destruct H2 as [[_ X]|[[_ X]|[(A & _ & X)|X]]]; [congruence|lia|left; auto|right; exact X].
Qed.
Print Assumptions count_file_partial.
(** C85.  Up to five variables, with an LLL that reduces, exponential substitution: the number is always printed, if the
    triangulations are found and one of the vectors tried avoids finitely many hyperplanes. *)
Theorem count_file_total : forall T K max_height max_det fuel h pos m ks points,
  good_file m ks -> (mx_cols m <= 6)%nat -> (exists x, described m ks x) -> bounded_set (described m ks) -> points_of_file m ks points ->
  contracts K -> lll_reduces (l_lll K) -> 1 <= max_height <= INT_MAX -> 1 <= max_det <= Piped.int_max -> tools_ok T (file m ks) ->
  (forall f d rows v, read_system T f 1 (file m ks) = Ok (System d rows) -> is_vertex d rows v -> exists r, triangulation K max_height fuel h pos d (outer_normals d rows v) = Ok r) ->
  exists d N, (d < mx_cols m)%nat /\ (forall r, In r N -> length r = d /\ exists k, (k < d)%nat /\ nth k r 0 <> 0) /\ (exists g, length g = d /\ forall r, In r N -> zdot g r <> 0) /\
  forall guesses, (forall g, In g guesses -> length g = d) -> (exists g, In g guesses /\ forall r, In r N -> zdot g r <> 0) ->
  exists F0, forall f0, (F0 <= f0)%nat -> exists F1, forall f1, (F1 <= f1)%nat -> exists F2, forall f2, (F2 <= f2)%nat ->
  count_file K max_height max_det fuel h pos T true 1 f0 f1 f2 guesses (file m ks) = Ok (Some (Z.of_nat (length points), 0)).
Proof.
  intros T K mh md fuel h pos m ks points GF C6 NE BD PF CO RE HM HD (T1 & T2 & T3) TRI. assert (C2 : (2 <= mx_cols m)%nat) by (destruct GF as (_ & _ & C & _); lia).
  destruct (read_system_ok T m ks points GF NE BD PF T1 T2) as (F0 & p & RS & HP). destruct p as [k|d rows].
  - exists 0%nat, []. split; [lia|]. split; [intros r []|]. split; [exists []; split; [reflexivity|intros r []]|]. intros guesses _ _. exists F0. intros f0 Hf0. exists 0%nat. intros f1 _. exists 0%nat. intros f2 _.
    unfold count_file. rewrite (RS f0 Hf0). cbn [bind]. now rewrite HP.
  - destruct HP as (Hd & Dn & LR & NEs & ys & IP & LY). pose proof (T3 F0 d rows (RS F0 (le_n _)) NEs) as CR. assert (DM : (d < mx_cols m)%nat) by lia.
    destruct (vertices_ok (u_cdd T) d rows ys Hd LR IP CR) as [EV|(cs & EV & PO)].
    + exists d, []. split; [exact DM|]. split; [intros r []|]. split; [exists (repeat 0 d); split; [apply repeat_length|intros r []]|]. intros guesses _ _. exists F0. intros f0 Hf0. exists 0%nat. intros f1 _. exists 0%nat. intros f2 _.
      unfold count_file. rewrite (RS f0 Hf0). cbn [bind]. rewrite EV. cbn [bind]. now rewrite LY.
    + destruct (triangulations_cases K mh md fuel h pos d rows (map fst cs) PO) as [(e & v & IV & ET & _)|[TR CV]].
      { exfalso. destruct (TRI F0 d rows v (RS F0 (le_n _)) IV) as (r & Er). congruence. }
      destruct (latte_count_total K mh md fuel h pos d rows (map fst cs) ys CO RE HM HD ltac:(lia) PO IP TR) as (N & NN & GE & H). exists d, N. split; [exact DM|]. split; [exact NN|]. split; [exact GE|].
      intros guesses LG GG. exists F0. intros f0 Hf0. destruct (H guesses LG GG) as (F1 & H1). exists F1. intros f1 Hf1. destruct (H1 f1 Hf1) as (F2 & H2). exists F2. intros f2 Hf2. specialize (H2 f2 Hf2).
      unfold count_file. rewrite (RS f0 Hf0). cbn [bind]. rewrite EV. cbn [bind]. rewrite CV, H2. cbn [bind]. now rewrite LY.
Qed.
Print Assumptions count_file_total.
(** C85.  A file that describes the empty set, with no direction that satisfies its constraints,
    is rejected. *)
Theorem empty_file_rejected : forall T K exponential max_height max_det fuel h pos m ks f0 f1 f2 guesses, good_file m ks -> no_direction m ks -> (forall x, ~ described m ks x) ->
  (forall p, check_lp (file m ks) = Ok p -> answers (u_lp T) p) ->
  count_file K max_height max_det fuel h pos T exponential 1 f0 f1 f2 guesses (file m ks) = Err Thrown.
Proof.
  intros T K ex mh md fuel h pos m ks f0 f1 f2 guesses (PM & IM & C2 & NR & LK & UO & LN) NDI EM AN. unfold count_file, read_system.
  rewrite (proj2 (check_empty_partial m ks (u_lp T) PM IM ltac:(lia) NR LK UO LN AN) NDI EM). reflexivity.
Qed.
Print Assumptions empty_file_rejected.

(** The hypotheses are met by x + 2y + 3z = 7, x, y, z >= 0: the equation and the signs are
    given by keyword lines. *)
Definition plane : matrix := mkMatrix [map (fun z => mkRat z 1) [7;-1;-2;-3]] 4 [false] false.
Definition plane_lines : list keyword := [Linearity [1]; Nonnegative [1;2;3]].
Definition plane_points : list (list Z) := [[7;0;0];[5;1;0];[3;2;0];[1;3;0];[4;0;1];[2;1;1];[0;2;1];[1;0;2]].
Definition plane_matrix : matrix := mkMatrix (map (map (fun z => mkRat z 1)) [[7;-1;-2;-3];[0;1;0;0];[0;0;1;0];[0;0;0;1]]) 4 [true;false;false;false] false.
Definition plane_ext : text := text_lines ["V-representation"; "begin"; " 3  3  rational"; " 1  0  0"; " 1  7/2  0"; " 1  0  7/3"; "end"]%string.
Definition plane_tools : tools := mkTools (fun _ => true) (fun m => m) (fun _ => (plane_ext, triangle_ead true)).
Definition plane_table : list (list rat) := [[mkRat 1 1; mkRat 0 1; mkRat 0 1]; [mkRat 1 1; mkRat 7 2; mkRat 0 1]; [mkRat 1 1; mkRat 0 1; mkRat 7 3]].
Definition plane_rows : list (list Z) := [[7;-2;-3];[0;1;0];[0;0;1]].

Lemma plane_read : read_matrix (file plane plane_lines) false false false = Ok plane_matrix.
Proof. vm_compute. reflexivity. Qed.
Lemma plane_system f d rows : read_system plane_tools f 1 (file plane plane_lines) = Ok (System d rows) -> d = 2%nat /\ rows = plane_rows.
Proof.
  destruct f as [|[|f]]; unfold read_system; rewrite plane_read; change (check_empty (u_lp plane_tools) (file plane plane_lines)) with (check_empty (fun _ => true) (file plane plane_lines)); (replace (check_empty (fun _ => true) (file plane plane_lines)) with (Ok tt) by (vm_compute; reflexivity)); cbn [bind plane_tools u_canon].
  - replace (project_out 0 1 plane_matrix) with (@Err projected OutOfFuel) by (vm_compute; reflexivity). discriminate.
  - replace (project_out 1 1 plane_matrix) with (Ok (System 2 plane_rows)) by (vm_compute; reflexivity). intros H. now injection H as <- <-.
  - replace (project_out (S (S f)) 1 plane_matrix) with (Ok (System 2 plane_rows)) by (vm_compute; reflexivity). intros H. now injection H as <- <-.
Qed.
Lemma plane_row i a b c : (i < 4)%nat -> (row_at plane_matrix i [a; b; c] == match i with 0%nat => 7 - a - 2 * b - 3 * c | 1%nat => a | 2%nat => b | _ => c end)%Q.
Proof. intros Hi. destruct i as [|[|[|[|i]]]]; [| | | |lia]; unfold row_at, plane_matrix; cbn [mx_rows map nth]; unfold affine; cbn; unfold value; cbn [num den]; change (Z.to_pos 1) with 1%positive; try ring; unfold Qminus; change (7 # 1)%Q with 7%Q; ring. Qed.
Lemma plane_described a b c : described plane plane_lines [a; b; c] <-> (a + 2 * b + 3 * c == 7 /\ 0 <= a /\ 0 <= b /\ 0 <= c)%Q.
Proof.
  assert (R : (row_at plane 0 [a; b; c] == 7 - a - 2 * b - 3 * c)%Q) by exact (plane_row 0 a b c ltac:(lia)). split.
  - intros (_ & _ & H). inversion_clear H as [|? ? H1 H2]. inversion_clear H2 as [|? ? H3 _]. cbn [stated] in H1, H3. apply Forall_inv in H1. change (Z.to_nat (1 - 1)) with 0%nat in H1. cbv beta in H1. rewrite R in H1.
    inversion_clear H3 as [|? ? P1 H4]. inversion_clear H4 as [|? ? P2 H5]. inversion_clear H5 as [|? ? P3 _]. cbn in P1, P2, P3. split; [lra|]. split; [exact P1|]. split; [exact P2|exact P3].
  - intros (E & P1 & P2 & P3). split; [reflexivity|]. split.
    + intros i Hi. cbn in Hi. assert (i = 0%nat) as -> by lia. cbn [mx_lin plane nth]. rewrite R. lra.
    + constructor; [|constructor; [|constructor]]; cbn [stated].
      * constructor; [|constructor]. change (Z.to_nat (1 - 1)) with 0%nat. rewrite R. lra.
      * constructor; [exact P1|]. constructor; [exact P2|]. constructor; [exact P3|constructor].
Qed.
Example plane_met : good_file plane plane_lines /\ (mx_cols plane <= 6)%nat /\ (exists x, described plane plane_lines x) /\ bounded_set (described plane plane_lines) /\ points_of_file plane plane_lines plane_points /\
  tools_ok plane_tools (file plane plane_lines) /\ contracts sample_libraries /\ lll_reduces (l_lll sample_libraries) /\
  forall f d rows v, read_system plane_tools f 1 (file plane plane_lines) = Ok (System d rows) -> is_vertex d rows v -> exists r, triangulation sample_libraries 10000 5 RandomHeights (fun _ => 0%nat) d (outer_normals d rows v) = Ok r.
Proof.
  assert (L3 : forall x, described plane plane_lines x -> exists a b c, x = [a; b; c]).
  { intros x [L _]. destruct x as [|a [|b [|c [|? ?]]]]; try discriminate L. now exists a, b, c. }
  assert (AV : all_vertices 2 plane_rows (map point_of plane_table)).
  { assert (TV : all_vertices 2 (triangle_rows 7) (map point_of plane_table)) by (apply triangle_all_vertices; [lia| | |]; split; vm_compute; reflexivity).
    assert (I : forall c, In c plane_rows <-> In c (triangle_rows 7)) by (intros c; cbn; tauto). assert (V : forall v, is_vertex 2 plane_rows v <-> is_vertex 2 (triangle_rows 7) v).
    { intros v. split; (intros [A B]; split; [intros c Hc; apply A; now apply I|intros y Hy; apply B; intros c Hc; apply Hy; now apply I]). }
    destruct TV as (A & B & C). split; [|split; [|exact C]]; [intros v Hv; apply V; now apply A|intros v Hv; apply B; now apply V]. }
  split; [|split; [cbn; lia|split; [exists [7; 0; 0]%Q; apply plane_described; lra|split; [|split; [|split; [|split]]]]]].
  - split; [split; [|split; reflexivity]|]. { unfold plane, wf_matrix; cbn [mx_rows mx_cols mx_lin]. repeat split; try (cbn; lia); try (repeat constructor; fail). all: try (repeat constructor; try (vm_compute; (reflexivity || discriminate)); lia). }
    split; [repeat constructor|]. split; [cbn; lia|]. split; [discriminate|]. split; [|split; [constructor|]].
    + constructor; [|constructor; [|constructor]]; (split; [cbn; lia|]; split); repeat (apply Forall_cons || apply Forall_nil); cbn; lia.
    + intros l [E|[E|[]]]; [injection E as <-; cbn; lia|discriminate].
  - exists 7%Q. intros x Hx. destruct (L3 x Hx) as (a & b & c & ->). apply plane_described in Hx. constructor; [lra|]. constructor; [lra|]. constructor; [lra|constructor].
  - split; [repeat constructor; cbn; intuition discriminate|]. intros x. split.
    + intros H. cbn in H. repeat (destruct H as [<-|H]; [cbn [map]; apply plane_described; vm_compute; split; [reflexivity|]; split; [discriminate|]; split; discriminate|]). destruct H.
    + intros H. pose proof H as [L _]. destruct x as [|a [|b [|c [|? ?]]]]; try discriminate L. cbn [map] in H. apply plane_described in H. unfold inject_Z, Qeq, Qle, Qplus, Qmult in H. cbn [Qnum Qden] in H.
      assert (B : b = 0 \/ b = 1 \/ b = 2 \/ b = 3) by lia. assert (C : c = 0 \/ c = 1 \/ c = 2) by lia. assert (A : a = 7 - 2 * b - 3 * c) by lia. destruct B as [->|[->|[->| ->]]]; destruct C as [->|[->| ->]]; cbn in A; subst a; cbn; try tauto; lia.
  - split; [|split].
    + intros p Hp. vm_compute in Hp. injection Hp as <-. split; [reflexivity|]. intros _. left. exists [7; 0; 0]%Q. split; [reflexivity|]. intros row H. cbn in H. destruct H as [<-|[<-|[<-|[<-|[<-|[]]]]]]; vm_compute; discriminate.
    + intros m1 H. rewrite plane_read in H. injection H as <-. cbn [plane_tools u_canon]. split; [reflexivity|]. split; [reflexivity|]. split; [intros r Hr; exact Hr|]. split; [intros x _; reflexivity|]. split.
      * intros c Hc i Hi. cbn in Hi. assert (i = 0%nat) as -> by lia. specialize (Hc 0%nat ltac:(cbn; lia)). cbn in Hc. lia.
      * intros i Hi Fi. cbn [mx_rows plane_matrix map length] in Hi. destruct i as [|[|[|[|i]]]]; [discriminate| | | |lia].
        -- exists [-1; 4; 0]%Q. split; [reflexivity|]. split; [rewrite plane_row by lia; reflexivity|]. intros j Hj N. cbn in Hj. destruct j as [|[|[|[|j]]]]; try lia; cbn [plane_matrix mx_lin nth]; rewrite plane_row by lia; vm_compute; (reflexivity || discriminate).
        -- exists [9; -1; 0]%Q. split; [reflexivity|]. split; [rewrite plane_row by lia; reflexivity|]. intros j Hj N. cbn in Hj. destruct j as [|[|[|[|j]]]]; try lia; cbn [plane_matrix mx_lin nth]; rewrite plane_row by lia; vm_compute; (reflexivity || discriminate).
        -- exists [10; 0; -1]%Q. split; [reflexivity|]. split; [rewrite plane_row by lia; reflexivity|]. intros j Hj N. cbn in Hj. destruct j as [|[|[|[|j]]]]; try lia; cbn [plane_matrix mx_lin nth]; rewrite plane_row by lia; vm_compute; (reflexivity || discriminate).
    + intros f d rows E _. destruct (plane_system f d rows E) as [-> ->]. exists plane_table, [[2; 3]; [1; 3]; [1; 2]]%nat. cbn [plane_tools u_cdd fst snd]. split; [|split; [repeat constructor|split; [exact AV|split]]].
      * split; [repeat constructor|]. split; [unfold int_size; cbn; lia|]. split; [unfold int_size; cbn; lia|].
        exists (text_lines ["V-representation"]%string), (lit " 3  3  rational" ++ [newline])%list, (lit "rational"), (text_lines [" 1  0  0"; " 1  7/2  0"; " 1  0  7/3"]%string), (text_lines ["end"]%string).
        split; [|split; [|split; [|split]]].
        -- exists [lit "V-representation"]. split; [|reflexivity]. constructor; [|constructor]; (split; [intros I; vm_compute in I; intuition discriminate|discriminate]).
        -- exists (lit " 3  3  rational"), []. split; [|split; [constructor|reflexivity]]. apply (word1 (lit "3") _ (lit "  3  rational")). apply (word2 (lit "3") _ (lit "  rational")). apply (word2 (lit "rational") _ []). constructor.
        -- right. now left.
        -- apply (more_lines _ _ (text_lines [" 1  0  0"]%string) (text_lines [" 1  7/2  0"; " 1  0  7/3"]%string)); [|apply (more_lines _ _ (text_lines [" 1  7/2  0"]%string) (text_lines [" 1  0  7/3"]%string)); [|apply (more_lines _ _ (text_lines [" 1  0  7/3"]%string) []); [|constructor]]].
           ++ exists (lit " 1  0  0"), []. split; [|split; [constructor|reflexivity]]. apply (word1 (lit "1") _ (lit "  0  0")). apply (word2 (lit "0") _ (lit "  0")). apply (word2 (lit "0") _ []). constructor.
           ++ exists (lit " 1  7/2  0"), []. split; [|split; [constructor|reflexivity]]. apply (word1 (lit "1") _ (lit "  7/2  0")). apply (word2 (lit "7/2") _ (lit "  0")). apply (word2 (lit "0") _ []). constructor.
           ++ exists (lit " 1  0  7/3"), []. split; [|split; [constructor|reflexivity]]. apply (word1 (lit "1") _ (lit "  0  7/3")). apply (word2 (lit "0") _ (lit "  7/3")). apply (word2 (lit "7/3") _ []). constructor.
        -- reflexivity.
      * intros x Hx. pose proof (Hx [7;-2;-3] ltac:(now left)) as P3. pose proof (Hx [0;1;0] ltac:(right; now left)) as P1. pose proof (Hx [0;0;1] ltac:(right; right; now left)) as P2. rewrite slack2 in P1, P2, P3. unfold inject_Z in P1, P2, P3.
        exists (fun i => match i with 0%nat => 1 - (2#7) * x 0%nat - (3#7) * x 1%nat | 1%nat => (2#7) * x 0%nat | _ => (3#7) * x 1%nat end)%Q. split; [|split].
        -- intros i Hi. cbn in Hi. destruct i as [|[|[|i]]]; [| | |lia]; lra.
        -- cbn [plane_table map length sumq]. lra.
        -- intros k Hk. cbn [plane_table map length sumq nth]. unfold point_of, value. cbn [nth num den]. destruct k as [|[|k]]; [| |lia]; cbn [nth num den Z.to_pos]; field.
      * intros _. split; [exact (proj1 (proj2 (proj2 triangle_met)) true)|]. split; [reflexivity|]. intros i I. destruct i as [|[|[|[|i]]]]; cbn in I; intuition lia.
  - exact (proj1 latte_met).
  - split; [exact (proj1 (proj2 latte_met))|]. intros f d rows v E IV. destruct (plane_system f d rows E) as [-> ->]. destruct (proj1 (proj2 AV) v IV) as (w & Hw & S0).
    assert (OE : outer_normals 2 plane_rows v = outer_normals 2 plane_rows w).
    { unfold outer_normals. f_equal. f_equal. apply filter_ext. intros c. apply Bool.eq_true_iff_eq. rewrite !Qeq_bool_iff, (slack_ext 2 c v w); [reflexivity|]. intros k Hk. now apply S0. }
    rewrite OE. cbn [map plane_table] in Hw. destruct Hw as [<-|[<-|[<-|[]]]]; eexists; vm_compute; reflexivity.
Qed.
(** The run: 8 points, with either substitution. *)
Example plane_run : forall exponential, match count_file (mkLib sample_dd (fun p => p) sample_rand no_lll some_solve cramer_ker xgcd_euclid) 10000 1 5 RandomHeights (fun _ => 0%nat) plane_tools exponential 1 5 40 200 [[1;0];[3;5]] (file plane plane_lines) with
  | Ok (Some (k, cones)) => k = Z.of_nat (length plane_points) /\ cones * 1 <= 5 * 10 ^ 9 | _ => False end.
Proof. intros ex; destruct ex; vm_compute; split; (reflexivity || discriminate). Qed.
(** An empty set: 1 <= x <= 0. *)
Definition gap : matrix := mkMatrix (map (map (fun z => mkRat z 1)) [[-1;1];[0;-1]]) 2 [false;false] false.
Example gap_met : good_file gap [] /\ no_direction gap [] /\ (forall x, ~ described gap [] x) /\ forall p, check_lp (file gap []) = Ok p -> answers (fun _ => false) p.
Proof.
  assert (NO : forall q : Q, (0 <= (-1 # 1) * 1 + ((1 # 1) * q + 0))%Q -> (0 <= (0 # 1) * 1 + ((-1 # 1) * q + 0))%Q -> False) by (intros q A B; change (-1 # 1)%Q with (-1)%Q in A, B; change (1 # 1)%Q with 1%Q in A; change (0 # 1)%Q with 0%Q in B; lra).
  split; [|split; [|split]].
  - split; [split; [|split; reflexivity]|]. { split; [|split; [reflexivity|vm_compute; split; [discriminate|reflexivity]]]. repeat constructor; vm_compute; reflexivity. }
    split; [repeat constructor|]. split; [cbn; lia|]. split; [discriminate|]. split; [constructor|]. split; [constructor|]. intros l [].
  - intros d L H _. destruct d as [|q [|? ?]]; try discriminate L. pose proof (H 0%nat ltac:(cbn; lia)) as A. pose proof (H 1%nat ltac:(cbn; lia)) as B. cbn in A, B. unfold value in A, B. cbn [num den Z.to_pos] in A, B. constructor; [|constructor]. change (-1 # 1)%Q with (-1)%Q in A, B. change (1 # 1)%Q with 1%Q in A. lra.
  - intros x (L & H & _). destruct x as [|q [|? ?]]; try discriminate L. pose proof (H 0%nat ltac:(cbn; lia)) as A. pose proof (H 1%nat ltac:(cbn; lia)) as B. cbn in A, B. exact (NO q A B).
  - intros p E. vm_compute in E. injection E as <-. split; [|discriminate]. intros [x [L H]]. exfalso. destruct x as [|q [|? ?]]; try discriminate L. exact (NO q (H [-1;1] ltac:(now left)) (H [0;-1] ltac:(right; now left))).
Qed.
