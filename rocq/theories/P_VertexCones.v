(** C87: vertices and facets with 4ti2 (the default), and "count FILE" with them. *)
From Coq Require Import QArith Lqa String.
From Verif Require Import Common RatVec RatVecSpec PipedSpec PipedProofs3 ConeSpec CountSpec Piped Irrational Barvinok BarvinokSpec Count CountProofs CountProofs5 CountProofs6 CountProofs7 Util UtilSpec UtilProofs Residue Triang TriangSpec TriangProofs TriangProofs4 Omega OmegaSpec OmegaProofs6 OmegaProofs7 BarvinokProofs4 SmithProofs2 P_Count P_Residue P_Triang P_Omega P_Full Preproc PreprocSpec Rational RationalSpec Text LatteText LatteTextSpec CheckEmpty CheckEmptySpec P_CheckEmpty CddText CddTextSpec P_CddText CountFile CountFileSpec CountFileProofs CountFileProofs2 CountFileProofs3 P_CountFile VertexCones VertexConesSpec VertexConesProofs VertexConesProofs2.
Open Scope Z_scope.

(** C87.  4ti2 is asked for the rays of the cone of all (s, t, x) with s = t b + A x, s >= 0, t >= 0.  If its answer is
    right, the vertices returned are the vertices of the polyhedron, each once; the facets of each are the outer normals of
    the inequalities tight there, in the same order and divided by their content; and the flag tells whether the polyhedron is unbounded.  If the polyhedron contains a line,
    the assertion about the subspace fails. *)
Theorem vertex_cones_4ti2 : forall F rows n, (forall c, In c rows -> length c = S n) ->
  ray_contract F (slack_matrix rows) (1 + n + length rows) (sign_restricted (length rows) n) ->
  (no_line n rows -> exists cones unbounded, vertex_cones F rows n = Ok (cones, unbounded) /\ (unbounded = false <-> no_escape n rows) /\
    all_vertices n rows (map (fun c => coord (fst c)) cones) /\
    forall c, In c cones -> dim (fst c) = n /\ (exists k, reachable positive k (fst c)) /\ Forall2 primitive_of (outer_normals n rows (coord (fst c))) (snd c)) /\
  (~ no_line n rows -> vertex_cones F rows n = Err AssertFail).
Proof.
  intros F rows n LR RC. split; [|apply (no_line_err n rows LR F RC)]. intros NL. destruct (cones_main n rows LR F RC NL) as (cones & ub & E & U & AV & H). exists cones, ub. split; [exact E|]. split; [exact U|]. split; [exact AV|]. intros c Hc. destruct (H c Hc) as [(RE & D) ->]. split; [exact D|]. split.
  - exact RE.
  - induction (outer_normals n rows (coord (fst c))) as [|v l IH]; constructor; [apply cancel_primitive|exact IH].
Qed.
Print Assumptions vertex_cones_4ti2.
(** What is asked of 4ti2, in words of linear algebra. *)
Theorem homogenization : forall n rows z, (in_signed_cone (slack_matrix rows) (1 + n + length rows) (sign_restricted (length rows) n) z <->
  (forall i, (i < length rows)%nat -> (z i == inject_Z (nth 0 (nth i rows []) 0%Z) * z (length rows) + sumq n (fun k => z (length rows + 1 + k)%nat * inject_Z (nth (S k) (nth i rows []) 0%Z)) /\ 0 <= z i)%Q) /\ (0 <= z (length rows))%Q).
Proof. intros n rows z. exact (in_C n rows z). Qed.
Print Assumptions homogenization.

(** ** Counting *)
Lemma row_cancel v : exists g, 0 < g /\ forall i, nth i v 0 = g * nth i (cancel_gcd v) 0.
Proof. destruct (cancel_primitive v) as (g & Pg & E & _). exists g. split; [exact Pg|]. intros i. rewrite E at 1. rewrite <- (Z.mul_0_r g) at 1. now rewrite map_nth. Qed.
Lemma gen_cancel n V x : in_gen n V x <-> in_gen n (map cancel_gcd V) x.
Proof.
  rewrite !gen_iff. split.
  - intros (L & H & E). assert (G : exists L', (forall p, In p L' -> (0 <= fst p)%Q /\ In (snd p) (map cancel_gcd V)) /\ forall i, (TriangProofs.mix L' i == TriangProofs.mix L i)%Q).
    { clear E. induction L as [|[a v] L IH]; [exists []; split; [intros p []|reflexivity]|]. destruct (IH ltac:(intros; apply H; now right)) as (L' & H' & E'). destruct (H (a, v) (or_introl eq_refl)) as [A B]. cbn [fst snd] in A, B. destruct (row_cancel v) as (g & Pg & Hg).
      exists ((a * inject_Z g, cancel_gcd v)%Q :: L'). split.
      - intros p [<-|Hp]; [|now apply H']. cbn [fst snd]. split; [apply Qmult_le_0_compat; [exact A|]; change 0%Q with (inject_Z 0); rewrite <- Zle_Qle; lia|now apply in_map].
      - intros i. cbn [TriangProofs.mix fst snd]. rewrite E'. unfold zpoint. rewrite (Hg i), inject_Z_mult. ring. }
    destruct G as (L' & H' & E'). exists L'. split; [exact H'|]. intros i Hi. rewrite E'. now apply E.
  - intros (L & H & E). assert (G : exists L', (forall p, In p L' -> (0 <= fst p)%Q /\ In (snd p) V) /\ forall i, (TriangProofs.mix L' i == TriangProofs.mix L i)%Q).
    { clear E. induction L as [|[a v] L IH]; [exists []; split; [intros p []|reflexivity]|]. destruct (IH ltac:(intros; apply H; now right)) as (L' & H' & E'). destruct (H (a, v) (or_introl eq_refl)) as [A B]. cbn [fst snd] in A, B. apply in_map_iff in B as (v0 & <- & B). destruct (row_cancel v0) as (g & Pg & Hg).
      assert (P0 : (0 < inject_Z g)%Q) by (change 0%Q with (inject_Z 0); rewrite <- Zlt_Qlt; lia).
      exists ((a / inject_Z g, v0)%Q :: L'). split.
      - intros p [<-|Hp]; [|now apply H']. cbn [fst snd]. split; [apply Qle_shift_div_l; lra|exact B].
      - intros i. cbn [TriangProofs.mix fst snd]. rewrite E'. unfold zpoint. rewrite (Hg i), inject_Z_mult. field. lra. }
    destruct G as (L' & H' & E'). exists L'. split; [exact H'|]. intros i Hi. rewrite E'. now apply E.
Qed.
Lemma spans_cancel n V : spans n V -> spans n (map cancel_gcd V).
Proof.
  intros S0 y Hy. apply S0. intros r Hr. specialize (Hy _ (in_map cancel_gcd _ _ Hr)). destruct (row_cancel r) as (g & Pg & Hg). unfold pairing in *. rewrite (sumq_ext n _ (fun k => inject_Z g * (y k * zpoint (cancel_gcd r) k))%Q); [rewrite sumq_scal, Hy; ring|]. intros k Hk. unfold zpoint. rewrite (Hg k), inject_Z_mult. ring.
Qed.
Section Counting.
Context (K : libraries) (mh md : Z) (fuel : nat) (h : heights) (pos : list (list Z) -> nat).
(** The same run with the content cancelled just before the triangulation. *)
Definition late (n f1 f2 : nat) : params := let P := latte K mh md fuel h pos n f1 f2 in
  mkParams f1 f2 0 DualDecomposition LatteLLL md (short_vector (l_lll K) (l_solve K)) (l_ker K) (l_xg K) (fun R => q_tri P (map cancel_gcd R)).
Lemma late_pieces {A} n f1 f2 v st (f : rvec -> bcone -> A -> outcome (option A)) ts : forall acc, pieces_loop (latte K mh md fuel h pos n f1 f2) n v st f ts acc = pieces_loop (late n f1 f2) n v st f ts acc.
Proof.
  induction ts as [|t ts IH]; intros acc; [reflexivity|]. cbn [pieces_loop]. destruct (negb _); [reflexivity|]. change (decompose_piece (late n f1 f2) n v st t) with (decompose_piece (latte K mh md fuel h pos n f1 f2) n v st t).
  destruct (decompose_piece _ n v st t) as [[v' [r s]]|e]; [|reflexivity]. cbn [bind]. destruct (consume_all _ _ _) as [[a|]|e]; [|reflexivity|reflexivity]. cbn [bind]. destruct (r =? -1); [reflexivity|apply IH].
Qed.
Lemma late_cones {A} n f1 f2 st (f : list Z -> rvec -> bcone -> A -> outcome (option A)) cs : forall acc,
  cones_loop (latte K mh md fuel h pos n f1 f2) n st f (map (fun c : vcone => (fst (fst c), map cancel_gcd (snd (fst c)), snd c)) cs) acc = cones_loop (late n f1 f2) n st f cs acc.
Proof.
  induction cs as [|[[v R] w] cs IH]; intros acc; [reflexivity|]. cbn [map cones_loop fst snd]. change (q_tri (late n f1 f2) R) with (q_tri (latte K mh md fuel h pos n f1 f2) (map cancel_gcd R)). rewrite late_pieces. destruct (pieces_loop _ n v st (f w) _ acc) as [[a|]|e]; [apply IH|reflexivity|reflexivity].
Qed.
Lemma late_list {A} n f1 f2 (f : list Z -> list Z -> rvec -> bcone -> A -> outcome (option A)) init cs guesses :
  decomposition_list (latte K mh md fuel h pos n f1 f2) n f init (map (fun c : vcone => (fst (fst c), map cancel_gcd (snd (fst c)), snd c)) cs) guesses = decomposition_list (late n f1 f2) n f init cs guesses.
Proof. induction guesses as [|g gs IH]; [reflexivity|]. cbn [decomposition_list]. rewrite late_cones. destruct (cones_loop _ _ _ _ _ _) as [[a|]|e]; [reflexivity|exact IH|reflexivity]. Qed.
Context (CO : contracts K) (HM : 1 <= mh <= INT_MAX) (HD : 1 <= md <= Piped.int_max).
Definition as_cones (cones : list (rvec * list (list Z))) : list vcone := map (fun c => (fst c, snd c, [])) cones.
(** What [vertex_cones] returns. *)
Definition good_cones n rows (cones : list (rvec * list (list Z))) : Prop :=
  all_vertices n rows (map (fun c => coord (fst c)) cones) /\ forall c, In c cones -> ((exists k, reachable positive k (fst c)) /\ dim (fst c) = n) /\ snd c = map cancel_gcd (outer_normals n rows (coord (fst c))).
Lemma good_polytope n rows cones : (0 < n)%nat -> (forall c, In c rows -> length c = S n) -> good_cones n rows cones -> polytope n rows (map fst cones).
Proof.
  intros Hn LR [AV H]. split; [exact Hn|]. split; [exact LR|]. split; [|now rewrite map_map]. intros v Hv. apply in_map_iff in Hv as (c & <- & Hc). destruct (H c Hc) as [[(k & RE) D] _]. split; [|exact D]. exists positive, k. split; [now right|exact RE].
Qed.
Lemma good_as n rows cones : (0 < n)%nat -> (forall c, In c rows -> length c = S n) -> good_cones n rows cones ->
  exists cs, dual_cones n rows (map fst cones) = Ok cs /\ as_cones cones = map (fun c : vcone => (fst (fst c), map cancel_gcd (snd (fst c)), snd c)) cs.
Proof.
  intros Hn LR GC. eexists. split; [exact (dual_ok n rows (map fst cones) (good_polytope n rows cones Hn LR GC))|]. unfold as_cones. rewrite !map_map. cbn [fst snd]. apply map_ext_in. intros c Hc. destruct GC as [_ H]. destruct (H c Hc) as [_ ->]. reflexivity.
Qed.
Lemma late_input n f1 f2 rows cones : (0 < n)%nat -> (forall c, In c rows -> length c = S n) -> good_cones n rows cones -> (forall c, In c cones -> exists r, triangulation K mh fuel h pos n (snd c) = Ok r) -> polytope_input (late n f1 f2) n rows (map fst cones).
Proof.
  intros Hn LR GC TR. pose proof CO as (DD & DR & RS & _). pose proof (good_polytope n rows cones Hn LR GC) as (_ & _ & UV & AV). split; [exact Hn|]. split; [exact LR|]. split; [exact UV|]. split; [exact AV|].
  intros v Hv. assert (IV : is_vertex n rows (coord v)) by (apply AV; now apply in_map). apply in_map_iff in Hv as (c & <- & Hc). destruct (TR c Hc) as ([Ts k1] & E). destruct GC as [_ H]. destruct (H c Hc) as [_ SC]. cbn [late latte q_tri]. rewrite SC in E. rewrite E.
  destruct (vertex_spans n rows (coord (fst c)) LR IV) as [Sp FV]. set (V := outer_normals n rows (coord (fst c))) in *.
  destruct (triangulation_exact (l_dd K) (l_rnd K) mh true n (l_rand K) fuel h (map cancel_gcd V) (pos (map cancel_gcd V)) Ts k1 DD DR HM RS) as [(T1 & T2 & T3) _]; [apply Forall_map; apply Forall_forall; intros r Hr; rewrite cancel_length; rewrite Forall_forall in FV; now apply FV|now apply spans_cancel|exact E|].
  split; [exact T1|]. split; [|exact T3]. intros x. rewrite gen_cancel. apply T2.
Qed.
Lemma facets_cases n rows cones : (0 < n)%nat -> (forall c, In c rows -> length c = S n) -> good_cones n rows cones ->
  (exists e v V, is_vertex n rows v /\ Forall2 primitive_of (outer_normals n rows v) V /\ triangulation K mh fuel h pos n V = Err e /\ forall exponential f1 f2 guesses, count_facets K mh md fuel h pos exponential f1 f2 guesses n cones = Err e) \/
  ((forall c, In c cones -> exists r, triangulation K mh fuel h pos n (snd c) = Ok r) /\
   forall exponential f1 f2 guesses, count_facets K mh md fuel h pos exponential f1 f2 guesses n cones =
     if exponential : bool then bind (count (late n f1 f2) n guesses rows (map fst cones)) (fun z => Ok (z, 0)) else count_residue (late n f1 f2) n guesses rows (map fst cones)).
Proof.
  intros Hn LR GC. destruct (mapM_cases (fun c : rvec * list (list Z) => triangulation K mh fuel h pos n (snd c)) cones) as [(e & c & M & I & E)|[(ts & M) A]].
  - left. destruct GC as [AV H]. destruct (H c I) as [_ SC]. exists e, (coord (fst c)), (snd c). split; [apply AV; apply in_map_iff; now exists c|]. split; [|split; [exact E|]].
    + rewrite SC. clear. induction (outer_normals n rows (coord (fst c))) as [|v l IH]; constructor; [apply cancel_primitive|exact IH].
    + intros. unfold count_facets. now rewrite M.
  - right. split; [exact A|]. intros. unfold count_facets. rewrite M. cbn [bind]. destruct (good_as n rows cones Hn LR GC) as (cs & DC & EC). unfold as_cones in EC. rewrite EC. unfold count, count_residue, count_cones, count_residue_cones. rewrite DC. cbn [bind]. rewrite !late_list. reflexivity.
Qed.
End Counting.
(** What is relied on for the file: cdd's answer to the linear program, the canonical form, and 4ti2's rays. *)
Definition tools_4ti2_ok (T : tools) (F : ray_algorithm) (s : text) : Prop :=
  (forall p, check_lp s = Ok p -> answers (u_lp T) p) /\
  (forall m1, read_matrix s false false false = Ok m1 -> canonical_form m1 (u_canon T m1)) /\
  (forall f d rows, read_system T f 1 s = Ok (System d rows) -> no_escape d rows -> ray_contract F (slack_matrix rows) (1 + d + length rows) (sign_restricted (length rows) d)).
Lemma file_cones T F m ks points : good_file m ks -> (exists x, described m ks x) -> bounded_set (described m ks) -> points_of_file m ks points -> tools_4ti2_ok T F (file m ks) ->
  exists F0 p, (forall f, (F0 <= f)%nat -> read_system T f 1 (file m ks) = Ok p) /\
  match p with
  | Early k => k = Z.of_nat (length points)
  | System d rows => (0 < d)%nat /\ (d <= mx_cols m - 1)%nat /\ (forall c, In c rows -> length c = S d) /\ (exists ys, integer_points d rows ys /\ length ys = length points) /\
      exists cones, vertex_cones F rows d = Ok (cones, false) /\ good_cones d rows cones
  end.
Proof.
  intros GF NE BD PF (T1 & T2 & T3). destruct (read_system_ok T m ks points GF NE BD PF T1 T2) as (F0 & p & RS & HP). exists F0, p. split; [exact RS|]. destruct p as [k|d rows]; [exact HP|]. destruct HP as (Hd & Dn & LR & NEs & YS). split; [exact Hd|]. split; [exact Dn|]. split; [exact LR|]. split; [exact YS|].
  pose proof (T3 F0 d rows (RS F0 (le_n _)) NEs) as RC. assert (NL : no_line d rows) by (intros y Hy; apply NEs; intros c Hc; rewrite (Hy c Hc); lra).
  destruct (cones_main d rows LR F RC NL) as (cones & ub & E & U & AV & H). rewrite (proj2 U NEs) in E. exists cones. split; [exact E|]. split; [exact AV|exact H].
Qed.
(** C87.  "count FILE" with 4ti2.  The file holds integers and describes a nonempty bounded set: the number printed, if any, is
    the number of integer points, under the conditions of C85. *)
Theorem count_file_4ti2_partial : forall T F K exponential max_height max_det fuel h pos m ks points,
  good_file m ks -> (mx_cols m <= 10)%nat -> (exists x, described m ks x) -> bounded_set (described m ks) -> points_of_file m ks points ->
  contracts K -> 1 <= max_height <= INT_MAX -> 1 <= max_det <= Piped.int_max -> tools_4ti2_ok T F (file m ks) ->
  exists d rows N, (d < mx_cols m)%nat /\ (forall r, In r N -> length r = d /\ exists k, (k < d)%nat /\ nth k r 0 <> 0) /\
  forall guesses, (forall g, In g guesses -> length g = d) -> exists F0, forall f0, (F0 <= f0)%nat -> exists F1, forall f1, (F1 <= f1)%nat -> exists F2, forall f2, (F2 <= f2)%nat ->
  match count_file_4ti2 K max_height max_det fuel h pos T F exponential 1 f0 f1 f2 guesses (file m ks) with
  | Ok (k, cones) => (exponential = false -> cones * max_det <= 5 * 10 ^ 9) -> k = Z.of_nat (length points)
  | Err e => read_system T f0 1 (file m ks) = Ok (System d rows) /\
      ((exists v V, is_vertex d rows v /\ Forall2 primitive_of (outer_normals d rows v) V /\ triangulation K max_height fuel h pos d V = Err e) \/
       e = AssertFail /\ ~ decreasing d (short_vector (l_lll K) (l_solve K)) \/
       e = OutOfFuel /\ forall g, In g guesses -> exists r, In r N /\ zdot g r = 0)
  end.
Proof.
  intros T F K ex mh md fuel h pos m ks points GF C10 NE BD PF CO HM HD TO. destruct (file_cones T F m ks points GF NE BD PF TO) as (F0 & p & RS & HP). destruct p as [k|d rows].
  - exists 0%nat, [], []. split; [destruct GF as (_ & _ & C & _); lia|]. split; [intros r []|]. intros guesses _. exists F0. intros f0 Hf0. exists 0%nat. intros f1 _. exists 0%nat. intros f2 _.
    unfold count_file_4ti2. rewrite (RS f0 Hf0). cbn [bind]. intros _. exact HP.
  - destruct HP as (Hd & Dn & LR & (ys & IP & LY) & cones & EV & GC). assert (DM : (d < mx_cols m)%nat) by (destruct GF as (_ & _ & C & _); lia).
    assert (CF : forall f0 f1 f2 guesses, (F0 <= f0)%nat -> count_file_4ti2 K mh md fuel h pos T F ex 1 f0 f1 f2 guesses (file m ks) = count_facets K mh md fuel h pos ex f1 f2 guesses d cones).
    { intros f0 f1 f2 guesses Hf. unfold count_file_4ti2. rewrite (RS f0 Hf). cbn [bind]. rewrite EV. reflexivity. }
    destruct (facets_cases K mh md fuel h pos HM HD d rows cones Hd LR GC) as [(e & v & V & IV & PV & ET & CV)|[TR CV]].
    + exists d, rows, []. split; [exact DM|]. split; [intros r []|]. intros guesses _. exists F0. intros f0 Hf0. exists 0%nat. intros f1 _. exists 0%nat. intros f2 _.
      rewrite (CF f0 f1 f2 guesses Hf0), CV. split; [exact (RS f0 Hf0)|]. left. now exists v, V.
    + assert (LC : forall f1 f2, library_contracts (late K mh md fuel h pos d f1 f2)) by (intros f1 f2; exact (latte_ok K mh md fuel h pos d f1 f2 CO HM ltac:(lia))).
      pose proof (late_input K mh md fuel h pos CO HM d 0 0 rows cones Hd LR GC TR) as PI. destruct ex.
      * destruct (count_exact (late K mh md fuel h pos d 0 0) d rows (map fst cones) ys (LC _ _) PI) as (N & NN & H); [discriminate|exact IP|].
        exists d, rows, N. split; [exact DM|]. split; [exact NN|]. intros guesses LG. exists F0. intros f0 Hf0. destruct (H guesses LG) as (F1 & H1). exists F1. intros f1 Hf1. destruct (H1 f1 Hf1) as (F2 & H2). exists F2. intros f2 Hf2. specialize (H2 f2 Hf2).
        change (with_fuel (late K mh md fuel h pos d 0 0) f1 f2) with (late K mh md fuel h pos d f1 f2) in H2. rewrite (CF f0 f1 f2 guesses Hf0), CV. destruct (count (late K mh md fuel h pos d f1 f2) d guesses rows (map fst cones)) as [z|e]; cbn [bind].
        -- intros _. now rewrite <- LY.
        -- split; [exact (RS f0 Hf0)|]. right. cbn [late q_mode q_sv q_max_det q_omega] in H2. destruct H2 as [[_ X]|[[_ [X|[X|X]]]|[(A & _ & X)|X]]]; [congruence|discriminate|lia|lia|left; auto|right; exact X].
      * destruct (count_residue_partial (late K mh md fuel h pos d 0 0) d rows (map fst cones) ys (LC _ _) PI) as (N & NN & H); [discriminate|exact IP|cbn [late q_max_det]; lia|discriminate|].
        exists d, rows, N. split; [exact DM|]. split; [exact NN|]. intros guesses LG. exists F0. intros f0 Hf0. destruct (H guesses LG) as (F1 & H1). exists F1. intros f1 Hf1. destruct (H1 f1 Hf1) as (F2 & H2). exists F2. intros f2 Hf2. specialize (H2 f2 Hf2).
        change (with_fuel (late K mh md fuel h pos d 0 0) f1 f2) with (late K mh md fuel h pos d f1 f2) in H2. rewrite (CF f0 f1 f2 guesses Hf0), CV. destruct (count_residue (late K mh md fuel h pos d f1 f2) d guesses rows (map fst cones)) as [[z c]|e].
        -- intros Hc. rewrite <- LY. apply H2. now apply Hc.
        -- split; [exact (RS f0 Hf0)|]. right. cbn [late q_mode q_sv q_max_det q_omega] in H2. destruct H2 as [[_ X]|[[_ X]|[(A & _ & X)|X]]]; [congruence|lia|left; auto|right; exact X].
Qed.
Print Assumptions count_file_4ti2_partial.
(** C87.  Up to five variables, with an LLL that reduces, exponential substitution: the number is always printed, if the
    triangulations are found and one of the vectors tried avoids finitely many hyperplanes. *)
Theorem count_file_4ti2_total : forall T F K max_height max_det fuel h pos m ks points,
  good_file m ks -> (mx_cols m <= 6)%nat -> (exists x, described m ks x) -> bounded_set (described m ks) -> points_of_file m ks points ->
  contracts K -> lll_reduces (l_lll K) -> 1 <= max_height <= INT_MAX -> 1 <= max_det <= Piped.int_max -> tools_4ti2_ok T F (file m ks) ->
  (forall f d rows v V, read_system T f 1 (file m ks) = Ok (System d rows) -> is_vertex d rows v -> Forall2 primitive_of (outer_normals d rows v) V -> exists r, triangulation K max_height fuel h pos d V = Ok r) ->
  exists d N, (d < mx_cols m)%nat /\ (forall r, In r N -> length r = d /\ exists k, (k < d)%nat /\ nth k r 0 <> 0) /\ (exists g, length g = d /\ forall r, In r N -> zdot g r <> 0) /\
  forall guesses, (forall g, In g guesses -> length g = d) -> (exists g, In g guesses /\ forall r, In r N -> zdot g r <> 0) ->
  exists F0, forall f0, (F0 <= f0)%nat -> exists F1, forall f1, (F1 <= f1)%nat -> exists F2, forall f2, (F2 <= f2)%nat ->
  count_file_4ti2 K max_height max_det fuel h pos T F true 1 f0 f1 f2 guesses (file m ks) = Ok (Z.of_nat (length points), 0).
Proof.
  intros T F K mh md fuel h pos m ks points GF C6 NE BD PF CO RE HM HD TO TRI. assert (C2 : (2 <= mx_cols m)%nat) by (destruct GF as (_ & _ & C & _); lia).
  destruct (file_cones T F m ks points GF NE BD PF TO) as (F0 & p & RS & HP). destruct p as [k|d rows].
  - exists 0%nat, []. split; [lia|]. split; [intros r []|]. split; [exists []; split; [reflexivity|intros r []]|]. intros guesses _ _. exists F0. intros f0 Hf0. exists 0%nat. intros f1 _. exists 0%nat. intros f2 _.
    unfold count_file_4ti2. rewrite (RS f0 Hf0). cbn [bind]. now rewrite HP.
  - destruct HP as (Hd & Dn & LR & (ys & IP & LY) & cones & EV & GC). assert (DM : (d < mx_cols m)%nat) by lia.
    destruct (facets_cases K mh md fuel h pos HM HD d rows cones Hd LR GC) as [(e & v & V & IV & PV & ET & _)|[TR CV]].
    + exfalso. destruct (TRI F0 d rows v V (RS F0 (le_n _)) IV PV) as (r & Er). congruence.
    + pose proof CO as (_ & _ & _ & LC & SC & _).
      destruct (count_total (late K mh md fuel h pos d 0 0) d rows (map fst cones) ys (latte_ok K mh md fuel h pos d 0 0 CO HM ltac:(lia)) (late_input K mh md fuel h pos CO HM d 0 0 rows cones Hd LR GC TR) eq_refl IP eq_refl (short_vector_decreasing d (l_lll K) (l_solve K) ltac:(lia) LC RE SC) HD) as (N & NN & GE & H).
      exists d, N. split; [exact DM|]. split; [exact NN|]. split; [exact GE|]. intros guesses LG GG. exists F0. intros f0 Hf0. destruct (H guesses LG GG) as (F1 & H1). exists F1. intros f1 Hf1. destruct (H1 f1 Hf1) as (F2 & H2). exists F2. intros f2 Hf2. specialize (H2 f2 Hf2).
      change (with_fuel (late K mh md fuel h pos d 0 0) f1 f2) with (late K mh md fuel h pos d f1 f2) in H2. unfold count_file_4ti2. rewrite (RS f0 Hf0). cbn [bind]. rewrite EV. cbn [bind]. rewrite CV, H2. cbn [bind]. now rewrite LY.
Qed.
Print Assumptions count_file_4ti2_total.

(** The hypotheses are met by x + 2y + 3z = 7, x, y, z >= 0, with the three rays of the homogenization. *)
Definition plane_rays : ray_algorithm := fun _ _ _ => ([[7;0;0;1;0;0];[0;7;0;2;7;0];[0;0;7;3;0;7]], []).
Ltac six := let k := fresh "k" in let Hk := fresh "Hk" in intros k Hk; destruct k as [|[|[|[|[|[|k]]]]]]; [| | | | | |exfalso; lia].
Lemma plane_ray_contract : ray_contract plane_rays (slack_matrix plane_rows) 6 (sign_restricted 3 2).
Proof.
  assert (H : forall z, in_signed_cone (slack_matrix plane_rows) 6 (sign_restricted 3 2) z <-> (z 0%nat == 7 * z 3%nat - 2 * z 4%nat - 3 * z 5%nat /\ z 1%nat == z 4%nat /\ z 2%nat == z 5%nat /\ 0 <= z 0%nat /\ 0 <= z 1%nat /\ 0 <= z 2%nat /\ 0 <= z 3%nat)%Q).
  { intros z. rewrite (homogenization 2 plane_rows z). cbn [length plane_rows]. split.
    - intros [A B]. pose proof (A 0%nat ltac:(lia)) as [A0 P0]. pose proof (A 1%nat ltac:(lia)) as [A1 P1]. pose proof (A 2%nat ltac:(lia)) as [A2 P2]. unfold plane_rows in A0, A1, A2. cbn [nth sumq Nat.add] in A0, A1, A2. unfold inject_Z in *. change (-2 # 1)%Q with (-2)%Q in *. change (-3 # 1)%Q with (-3)%Q in *. change (7 # 1)%Q with 7%Q in *. change (0 # 1)%Q with 0%Q in *. change (1 # 1)%Q with 1%Q in *. split; [lra|]. split; [lra|]. split; [lra|]. auto.
    - intros (A0 & A1 & A2 & P0 & P1 & P2 & P3). split; [|exact P3]. intros i Hi. destruct i as [|[|[|i]]]; [| | |lia]; unfold plane_rows; cbn [nth sumq Nat.add]; unfold inject_Z; change (-2 # 1)%Q with (-2)%Q; change (-3 # 1)%Q with (-3)%Q; change (7 # 1)%Q with 7%Q; change (0 # 1)%Q with 0%Q; change (1 # 1)%Q with 1%Q; (split; [lra|assumption]). }
  unfold ray_contract, plane_rays. set (CC := in_signed_cone (slack_matrix plane_rows) 6 (sign_restricted 3 2)) in *.
  assert (PT : pointed CC 6). { intros z Cz Cm. apply H in Cz, Cm. six; lra. }
  split; [tauto|]. intros _. split; [|split; [|split]].
  - intros r Hr. split; [cbn in Hr; intuition (subst; reflexivity)|]. cbn in Hr. destruct Hr as [<-|[<-|[<-|[]]]]; (split; [apply H; unfold zpoint; cbn [nth]; unfold inject_Z; vm_compute; intuition discriminate|]; split; [intros Z0|]).
    + specialize (Z0 0%nat ltac:(lia)). discriminate.
    + intros x y Cx Cy E. apply H in Cx, Cy. exists (x 0%nat * (1 # 7))%Q. pose proof (E 1%nat ltac:(lia)) as E1. pose proof (E 2%nat ltac:(lia)) as E2. unfold zpoint in *. cbn [nth] in *. unfold inject_Z in *. change (0 # 1)%Q with 0%Q in *. six; cbn [nth]; lra.
    + specialize (Z0 1%nat ltac:(lia)). discriminate.
    + intros x y Cx Cy E. apply H in Cx, Cy. exists (x 1%nat * (1 # 7))%Q. pose proof (E 0%nat ltac:(lia)) as E1. pose proof (E 2%nat ltac:(lia)) as E2. unfold zpoint in *. cbn [nth] in *. unfold inject_Z in *. change (0 # 1)%Q with 0%Q in *. six; cbn [nth]; lra.
    + specialize (Z0 2%nat ltac:(lia)). discriminate.
    + intros x y Cx Cy E. apply H in Cx, Cy. exists (x 2%nat * (1 # 7))%Q. pose proof (E 0%nat ltac:(lia)) as E1. pose proof (E 1%nat ltac:(lia)) as E2. unfold zpoint in *. cbn [nth] in *. unfold inject_Z in *. change (0 # 1)%Q with 0%Q in *. six; cbn [nth]; lra.
  - intros z (Cz & NZ & EX). pose proof (proj1 (H z) Cz) as Hz.
    assert (G : forall (r1 r2 r3 : list Z) (a b c : Q), (0 < a)%Q -> CC (fun k => a * zpoint r1 k)%Q -> CC (fun k => b * zpoint r2 k + c * zpoint r3 k)%Q -> (forall k, (k < 6)%nat -> (z k == a * zpoint r1 k + (b * zpoint r2 k + c * zpoint r3 k))%Q) -> (exists k, (k < 6)%nat /\ (0 < zpoint r1 k)%Q /\ (0 <= z k)%Q) ->
      exists q, (0 < q)%Q /\ forall k, (k < 6)%nat -> (z k == q * zpoint r1 k)%Q).
    { intros r1 r2 r3 a b c Pa C1 C2 E (k0 & Hk0 & P0 & Z0). destruct (EX _ _ C1 C2 E) as (q & Hq). assert (Pq : (0 < q)%Q) by (pose proof (Hq k0 Hk0); assert (0 < a * zpoint r1 k0)%Q by nra; destruct (Qlt_le_dec 0 q); [assumption|nra]).
      exists (a / q)%Q. split; [apply Qlt_shift_div_l; lra|]. intros k Hk. specialize (Hq k Hk). assert (X : (z k == (q * z k) / q)%Q) by (field; lra). rewrite X, <- Hq. field. lra. }
    assert (SC : forall r1 r2 r3 a b c, In r1 [[7;0;0;1;0;0];[0;7;0;2;7;0];[0;0;7;3;0;7]] -> In r2 [[7;0;0;1;0;0];[0;7;0;2;7;0];[0;0;7;3;0;7]] -> In r3 [[7;0;0;1;0;0];[0;7;0;2;7;0];[0;0;7;3;0;7]] -> (0 <= a)%Q -> (0 <= b)%Q -> (0 <= c)%Q -> CC (fun k => a * zpoint r1 k)%Q /\ CC (fun k => b * zpoint r2 k + c * zpoint r3 k)%Q).
    { intros r1 r2 r3 a b c I1 I2 I3 Pa Pb Pc. split; apply H; unfold zpoint; [clear I2 I3|clear I1]; repeat match goal with X : In _ _ |- _ => cbn in X; destruct X as [<-|[<-|[<-|[]]]] end; cbn [nth]; unfold inject_Z; change (0 # 1)%Q with 0%Q; change (7 # 1)%Q with 7%Q; change (1 # 1)%Q with 1%Q; change (2 # 1)%Q with 2%Q; change (3 # 1)%Q with 3%Q; lra. }
    destruct (Qlt_le_dec 0 (z 0%nat)) as [L0|L0]; [|destruct (Qlt_le_dec 0 (z 1%nat)) as [L1|L1]; [|destruct (Qlt_le_dec 0 (z 2%nat)) as [L2|L2]]].
    + destruct (SC [7;0;0;1;0;0] [0;7;0;2;7;0] [0;0;7;3;0;7] (z 0%nat * (1 # 7))%Q (z 1%nat * (1 # 7))%Q (z 2%nat * (1 # 7))%Q) as [C1 C2]; [cbn; tauto|cbn; tauto|cbn; tauto|lra|lra|lra|].
      assert (PA : (0 < z 0%nat * (1 # 7))%Q) by lra. destruct (G _ _ _ _ _ _ PA C1 C2) as (q & Pq & Hq); [six; unfold zpoint; cbn [nth]; unfold inject_Z; lra|exists 0%nat; split; [lia|split; [reflexivity|lra]]|]. exists [7;0;0;1;0;0], q. split; [now left|auto].
    + destruct (SC [0;7;0;2;7;0] [7;0;0;1;0;0] [0;0;7;3;0;7] (z 1%nat * (1 # 7))%Q (z 0%nat * (1 # 7))%Q (z 2%nat * (1 # 7))%Q) as [C1 C2]; [cbn; tauto|cbn; tauto|cbn; tauto|lra|lra|lra|].
      assert (PA : (0 < z 1%nat * (1 # 7))%Q) by lra. destruct (G _ _ _ _ _ _ PA C1 C2) as (q & Pq & Hq); [six; unfold zpoint; cbn [nth]; unfold inject_Z; lra|exists 1%nat; split; [lia|split; [reflexivity|lra]]|]. exists [0;7;0;2;7;0], q. split; [right; now left|auto].
    + destruct (SC [0;0;7;3;0;7] [7;0;0;1;0;0] [0;7;0;2;7;0] (z 2%nat * (1 # 7))%Q (z 0%nat * (1 # 7))%Q (z 1%nat * (1 # 7))%Q) as [C1 C2]; [cbn; tauto|cbn; tauto|cbn; tauto|lra|lra|lra|].
      assert (PA : (0 < z 2%nat * (1 # 7))%Q) by lra. destruct (G _ _ _ _ _ _ PA C1 C2) as (q & Pq & Hq); [six; unfold zpoint; cbn [nth]; unfold inject_Z; lra|exists 2%nat; split; [lia|split; [reflexivity|lra]]|]. exists [0;0;7;3;0;7], q. split; [right; right; now left|auto].
    + exfalso. apply NZ. six; lra.
  - intros z Cz. apply H in Cz. exists (fun i => z i * (1 # 7))%Q. split.
    + intros i Hi. cbn in Hi. destruct i as [|[|[|i]]]; [| | |lia]; lra.
    + cbn [length sumq nth]. unfold zpoint. six; cbn [nth]; unfold inject_Z; lra.
  - intros i j q Hij Hj Pq E. cbn in Hj. unfold zpoint in E. destruct i as [|[|i]]; destruct j as [|[|[|j]]]; try lia.
    + specialize (E 0%nat ltac:(lia)). cbn [nth] in E. unfold inject_Z in E. change (0 # 1)%Q with 0%Q in E. change (7 # 1)%Q with 7%Q in E. lra.
    + specialize (E 0%nat ltac:(lia)). cbn [nth] in E. unfold inject_Z in E. change (0 # 1)%Q with 0%Q in E. change (7 # 1)%Q with 7%Q in E. lra.
    + specialize (E 1%nat ltac:(lia)). cbn [nth] in E. unfold inject_Z in E. change (0 # 1)%Q with 0%Q in E. change (7 # 1)%Q with 7%Q in E. lra.
Qed.
Example plane_4ti2_met : tools_4ti2_ok plane_tools plane_rays (file plane plane_lines) /\ no_line 2 plane_rows /\
  forall f d rows v V, read_system plane_tools f 1 (file plane plane_lines) = Ok (System d rows) -> is_vertex d rows v -> Forall2 primitive_of (outer_normals d rows v) V -> exists r, triangulation sample_libraries 10000 5 RandomHeights (fun _ => 0%nat) d V = Ok r.
Proof.
  destruct plane_met as (_ & _ & _ & _ & _ & (A & B & _) & _ & _ & TR). split; [split; [exact A|split; [exact B|]]|split].
  - intros f d rows E _. destruct (plane_system f d rows E) as [-> ->]. exact plane_ray_contract.
  - intros y Hy. pose proof (Hy [0;1;0] ltac:(right; now left)) as H1. pose proof (Hy [0;0;1] ltac:(right; right; now left)) as H2. cbn [sumq nth] in H1, H2. unfold inject_Z in H1, H2. change (0 # 1)%Q with 0%Q in *. change (1 # 1)%Q with 1%Q in *. intros k Hk. destruct k as [|[|k]]; [lra|lra|lia].
  - intros f d rows v V E IV PV. destruct (plane_system f d rows E) as [-> ->]. destruct (TR f 2%nat plane_rows v E IV) as (r & Er).
    assert (L2 : length V = 2%nat).
    { assert (LL : forall l l', Forall2 primitive_of l l' -> length l = length l') by (intros l l' X; induction X; cbn; congruence). rewrite <- (LL _ _ PV). assert (AV : In (outer_normals 2 plane_rows v) (map (fun w => outer_normals 2 plane_rows (point_of w)) plane_table)).
      { assert (TV : all_vertices 2 (triangle_rows 7) (map point_of plane_table)) by (apply triangle_all_vertices; [lia| | |]; split; vm_compute; reflexivity).
        assert (I : forall c, In c plane_rows <-> In c (triangle_rows 7)) by (intros c; cbn; tauto).
        assert (TI : is_vertex 2 (triangle_rows 7) v) by (destruct IV as [X Y]; split; [intros c Hc; apply X; now apply I|intros y Hy; apply Y; intros c Hc; apply Hy; now apply I]).
        destruct (proj1 (proj2 TV) v TI) as (w & Hw & S0). apply in_map_iff in Hw as (u & <- & Hu). apply in_map_iff. exists u. split; [|exact Hu].
        unfold outer_normals. f_equal. f_equal. apply filter_ext. intros c. apply Bool.eq_true_iff_eq. rewrite !Qeq_bool_iff, (slack_ext 2 c v (point_of u)); [reflexivity|]. intros k Hk. now apply S0. }
      cbn [map plane_table] in AV. destruct AV as [<-|[<-|[<-|[]]]]; vm_compute; reflexivity. }
    exists ([V], 0%nat). unfold triangulation, triangulate_cone. rewrite L2. reflexivity.
Qed.
(** The run: 8 points, with either substitution. *)
Example plane_4ti2_run : forall exponential, match count_file_4ti2 (mkLib sample_dd (fun p => p) sample_rand no_lll some_solve cramer_ker xgcd_euclid) 10000 1 5 RandomHeights (fun _ => 0%nat) plane_tools plane_rays exponential 1 5 40 200 [[1;0];[3;5]] (file plane plane_lines) with
  | Ok (k, cones) => k = Z.of_nat (length plane_points) /\ cones * 1 <= 5 * 10 ^ 9 | _ => False end.
Proof. intros ex; destruct ex; vm_compute; split; (reflexivity || discriminate). Qed.
