(** C84: the exchange with cdd. *)
From Coq Require Import QArith String Sorted.
From Verif Require Import Common Rational RationalSpec Text TextProofs LatteText LatteTextSpec LatteTextProofs LatteTextProofs2 RatVec RatVecSpec RatVecProofs CheckEmpty CheckEmptyProofs CddText CddTextSpec CddTextProofs CddTextProofs2.
Open Scope Z_scope.

(** The inequalities that are sent: after two lines of text, the numbers of rows and columns,
    the word "integer", the rows and the word "end". *)
Definition int_rat (z : Z) : rat := mkRat z 1.
Lemma row_by_index (row : list Z) : map (fun i => nth i row 0) (seq 0 (length row)) = row.
Proof. apply (nth_ext _ _ 0 0); [now rewrite map_length, seq_length|]. intros i Hi. rewrite map_length, seq_length in Hi. rewrite (nth_indep _ 0 (nth 0 row 0)) by (rewrite map_length, seq_length; lia). rewrite (map_nth (fun i => nth i row 0) (seq 0 (length row)) 0%nat i), seq_nth by lia. reflexivity. Qed.
Theorem inequalities_sent : forall rows width, int_size (length rows) -> int_size width -> Forall (fun row => length row = width) rows ->
  exists s s1 s2 s3 s4, write_ine rows width = (lit "H-representation" ++ newline :: lit "begin " ++ newline :: s)%list /\
  read_int s = Ok (Z.of_nat (length rows), s1) /\ read_int s1 = Ok (Z.of_nat width, s2) /\ next_word s2 = (lit "integer", s3) /\
  read_rows (length rows) width s3 = Ok (map (map int_rat) rows, s4) /\ fst (next_word s4) = lit "end".
Proof.
  intros rows w SR SW F. unfold write_ine. set (tail := (lit "end" ++ newline :: lit "adjacency" ++ newline :: lit "incidence" ++ [newline])%list).
  assert (E : flat_map (fun row => flat_map (fun i => show_Z (nth i row 0) ++ lit " ") (seq 0 w) ++ [newline])%list rows = flat_map (fun row => show_entries (map show_rat row) ++ [newline])%list (map (map int_rat) rows)).
  { clear -F. induction rows as [|row rows IH]; [reflexivity|]. inversion F as [|x y Lr F']; subst. cbn [flat_map map]. rewrite (IH F'). f_equal. f_equal. clear. transitivity (show_entries (map show_rat (map int_rat (map (fun i => nth i row 0) (seq 0 (length row)))))); [|now rewrite row_by_index]. unfold show_entries. rewrite !flat_map_concat_map, !map_map. f_equal. apply map_ext. intros i. unfold show_rat, int_rat. cbn [num den Z.eqb Pos.eqb]. now rewrite app_nil_r. }
  rewrite E. set (body := flat_map _ (map (map int_rat) rows)).
  destruct (read_rows_show w (map (map int_rat) rows) (newline :: body ++ tail)%list tail) as (s4 & E4 & S4).
  { apply Forall_forall. intros row I. apply in_map_iff in I as (r & <- & I). rewrite Forall_forall in F. rewrite map_length. split; [exact (F r I)|]. apply Forall_forall. intros q Iq. apply in_map_iff in Iq as (z & <- & _). split; [cbn; lia|]. cbn. apply Z.gcd_1_r. }
  { reflexivity. }
  exists (show_nat (length rows) ++ lit " " ++ show_nat w ++ lit " integer" ++ newline :: body ++ tail)%list, (lit " " ++ show_nat w ++ lit " integer" ++ newline :: body ++ tail)%list, (lit " integer" ++ newline :: body ++ tail)%list, (newline :: body ++ tail)%list, s4.
  split; [reflexivity|]. split; [apply read_int_show; [reflexivity|reflexivity|now apply int_nat]|]. split; [apply read_int_show; [reflexivity|reflexivity|now apply int_nat]|]. split; [reflexivity|]. rewrite map_length in E4. split; [exact E4|].
  unfold next_word. rewrite S4. reflexivity.
Qed.
Print Assumptions inequalities_sent.

(** C84.  cdd returns the table of two or more vertices of a bounded polyhedron and their
    neighbours, each by listing them or by listing the others: the cones have exactly these vertices, and the rays of the cone at a vertex are
    the primitive integer directions to its neighbours, in order. *)
Theorem vertex_cones_read : forall cdd rows n table adj, let files := cdd (write_ine rows (S n)) in
  ext_file (S n) table (fst files) -> ead_file adj (snd files) -> length adj = length table -> (2 <= length table)%nat -> Forall vertex_row table ->
  (forall i k, (i < length table)%nat -> In k (nth i adj []) -> different n (nth i table []) (nth (k - 1) table [])) ->
  exists cones, compute_vertex_cones cdd rows n = Ok (Cones cones) /\ length cones = length table /\
  forall i, (i < length table)%nat -> let '(v, rays) := nth i cones (rv_zero 0, []) in
    is_point v n (nth i table []) /\ reachable positive (CZero n) v /\ Forall2 (fun k r => edge n (nth i table []) (nth (k - 1) table []) r) (nth i adj []) rays.
Proof.
  intros cdd rows n table adj files H1 H2 LA N V D. unfold compute_vertex_cones. fold files. destruct files as [ext ead]. cbn [fst snd] in *.
  destruct (read_ext_vertices n table ext H1 N V) as (vs & E & F). rewrite E. cbn [bind]. rewrite (proj2 (Z.eqb_eq _ _)) by lia.
  assert (LV : length vs = length table) by (clear -F; induction F; cbn; auto).
  assert (FV : forall i, (i < length table)%nat -> reachable positive (CZero n) (nth i vs (rv_zero 0)) /\ is_point (nth i vs (rv_zero 0)) n (nth i table [])).
  { clear -F. induction F as [|v row vs table H F IH]; intros i Hi; [cbn in Hi; lia|]. destruct i as [|i]; [exact H|]. cbn [nth]. apply IH. cbn in Hi. lia. }
  destruct (read_ead_ok vs n adj (fun i k r => edge n (nth i table []) (nth (k - 1) table []) r) ead H2 ltac:(lia)) as (cones & EC & EF & ER).
  - intros i k Hi Hk. rewrite LV in Hi. destruct H2 as (AF & _). rewrite Forall_forall in AF. pose proof (proj1 (AF _ (nth_In adj [] (n := i) ltac:(lia)))) as AK. rewrite Forall_forall in AK. specialize (AK k Hk). cbv beta in AK. rewrite LA in AK.
    unfold ray_to. rewrite LV. rewrite (proj2 (Z.leb_le _ _)), (proj2 (Z.leb_le _ _)) by lia. cbn [andb]. replace (Z.to_nat (Z.of_nat k - 1)) with (k - 1)%nat by lia.
    destruct (FV i Hi) as [R1 [D1 P1]]. destruct (FV (k - 1)%nat ltac:(lia)) as [R2 [D2 P2]]. destruct (D i k Hi Hk) as (j & Hj & NE).
    destruct (construct_ray_ok (CZero n) (CZero n) _ _ R1 R2 ltac:(congruence)) as (r & Er & Lr & Cr & q & Hq & EQ). { rewrite D1. exists j. split; [exact Hj|]. now rewrite (P1 j Hj), (P2 j Hj). }
    rewrite D1 in *. exists r. split; [exact Er|]. split; [exact Lr|]. split; [exact Cr|]. exists q. split; [exact Hq|]. intros j0 Hj0. rewrite (EQ j0 Hj0), (P1 j0 Hj0), (P2 j0 Hj0). reflexivity.
  - rewrite EC. cbn [bind]. exists cones. split; [reflexivity|]. split; [rewrite <- LV, <- EF; now rewrite map_length|]. intros i Hi. destruct (nth i cones (rv_zero 0, [])) as [v rays] eqn:En.
    assert (Ev : v = nth i vs (rv_zero 0)). { rewrite <- EF. change (rv_zero 0) with (fst (rv_zero 0, @nil (list Z))). rewrite map_nth, En. reflexivity. }
    subst v. destruct (FV i Hi) as [R1 P1]. split; [exact P1|]. split; [exact R1|]. specialize (ER i ltac:(lia)). rewrite En in ER. exact ER.
Qed.
Print Assumptions vertex_cones_read.
(** C84, one point or none: the answer is written and the program ends. *)
Theorem at_most_one_vertex : forall cdd rows n, let ext := fst (cdd (write_ine rows (S n))) in
  (ext_file (S n) [] ext -> compute_vertex_cones cdd rows n = Ok (Stopped (Some 0))) /\
  (forall x, ext_file (S n) [mkRat 1 1 :: x] ext -> Forall (fun q => den q = 1) x -> compute_vertex_cones cdd rows n = Ok (Stopped (Some 1))) /\
  (forall x, ext_file (S n) [mkRat 1 1 :: x] ext -> ~ Forall (fun q => den q = 1) x -> compute_vertex_cones cdd rows n = Ok (Stopped (Some 0))).
Proof.
  intros cdd rows n ext. unfold compute_vertex_cones. destruct (cdd (write_ine rows (S n))) as [e ead] eqn:E. subst ext. cbn [fst]. split; [|split].
  - intros H. now rewrite (read_ext_empty (S n) e H).
  - intros x H F. rewrite (read_ext_one (S n) x e H). replace (forallb (fun q => den q =? 1) x) with true; [reflexivity|]. symmetry. apply forallb_forall. intros q I. rewrite Forall_forall in F. apply Z.eqb_eq. now apply F.
  - intros x H F. rewrite (read_ext_one (S n) x e H). destruct (forallb (fun q => den q =? 1) x) eqn:Ef; [|reflexivity]. exfalso. apply F. apply Forall_forall. intros q I. rewrite forallb_forall in Ef. apply Z.eqb_eq. now apply Ef.
Qed.
Print Assumptions at_most_one_vertex.

(** The triangle 0 <= x, 0 <= y, 2 x + 2 y <= 1 in both forms. *)
Definition text_lines (l : list string) : text := flat_map (fun s => lit s ++ [newline])%list l.
Definition triangle_ext : text := text_lines ["*FINAL RESULT:"; "V-representation"; "begin"; " 3  3  rational"; " 1  0  0"; " 1  1/2  0"; " 1  0  1/2"; "end"]%string.
Definition triangle_ead (inv : bool) : text :=
  text_lines (["begin"; "  3    3"] ++ (if inv then [" 1 -2 : 1"; " 2 -2 : 2"; " 3 -2 : 3"] else [" 1 2 : 2 3"; " 2 2 : 1 3"; " 3 2 : 1 2"]) ++ ["end"])%list%string.
Definition triangle_table : list (list rat) := [[mkRat 1 1; mkRat 0 1; mkRat 0 1]; [mkRat 1 1; mkRat 1 2; mkRat 0 1]; [mkRat 1 1; mkRat 0 1; mkRat 1 2]].
Lemma word1 w l t : words l t -> words (w :: l) (" "%char :: w ++ t).
Proof. intros H. apply (more_words [" "%char]); [discriminate|repeat constructor|exact H]. Qed.
Lemma word2 w l t : words l t -> words (w :: l) (" "%char :: " "%char :: w ++ t).
Proof. intros H. apply (more_words [" "%char; " "%char]); [discriminate|repeat constructor|exact H]. Qed.
Example triangle_met : ext_file 3 triangle_table triangle_ext /\ Forall vertex_row triangle_table /\ (forall inv, ead_file [[2; 3]; [1; 3]; [1; 2]]%nat (triangle_ead inv)) /\
  forall inv, exists cones, compute_vertex_cones (fun _ => (triangle_ext, triangle_ead inv)) [[0; 1; 0]; [0; 0; 1]; [1; -2; -2]] 2 = Ok (Cones cones) /\ map snd cones = [[[1; 0]; [0; 1]]; [[-1; 0]; [-1; 1]]; [[0; -1]; [1; -1]]].
Proof.
  split; [|split; [|split]].
  - split; [repeat constructor|]. split; [unfold int_size; cbn; lia|]. split; [unfold int_size; cbn; lia|].
    exists (text_lines ["*FINAL RESULT:"; "V-representation"]%string), (lit " 3  3  rational" ++ [newline])%list, (lit "rational"), (text_lines [" 1  0  0"; " 1  1/2  0"; " 1  0  1/2"]%string), (text_lines ["end"]%string).
    split; [|split; [|split; [|split]]].
    + exists [lit "*FINAL RESULT:"; lit "V-representation"]. split; [|reflexivity]. constructor; [|constructor; [|constructor]]; (split; [intros I; vm_compute in I; intuition discriminate|discriminate]).
    + exists (lit " 3  3  rational"), []. split; [|split; [constructor|reflexivity]]. apply (word1 (lit "3") _ (lit "  3  rational")). apply (word2 (lit "3") _ (lit "  rational")). apply (word2 (lit "rational") _ []). constructor.
    + right. now left.
    + apply (more_lines _ _ (text_lines [" 1  0  0"]%string) (text_lines [" 1  1/2  0"; " 1  0  1/2"]%string)); [|apply (more_lines _ _ (text_lines [" 1  1/2  0"]%string) (text_lines [" 1  0  1/2"]%string)); [|apply (more_lines _ _ (text_lines [" 1  0  1/2"]%string) []); [|constructor]]].
      * exists (lit " 1  0  0"), []. split; [|split; [constructor|reflexivity]]. apply (word1 (lit "1") _ (lit "  0  0")). apply (word2 (lit "0") _ (lit "  0")). apply (word2 (lit "0") _ []). constructor.
      * exists (lit " 1  1/2  0"), []. split; [|split; [constructor|reflexivity]]. apply (word1 (lit "1") _ (lit "  1/2  0")). apply (word2 (lit "1/2") _ (lit "  0")). apply (word2 (lit "0") _ []). constructor.
      * exists (lit " 1  0  1/2"), []. split; [|split; [constructor|reflexivity]]. apply (word1 (lit "1") _ (lit "  0  1/2")). apply (word2 (lit "0") _ (lit "  1/2")). apply (word2 (lit "1/2") _ []). constructor.
    + reflexivity.
  - repeat constructor; vm_compute; reflexivity.
  - intros inv. split; [apply Forall_forall; intros a I; split; [apply Forall_forall; intros k J; cbn in I; destruct I as [<-|[<-|[<-|[]]]]; cbn in J; destruct J as [<-|[<-|[]]]; cbn; lia|unfold int_size; cbn in I; destruct I as [<-|[<-|[<-|[]]]]; cbn; lia]|]. split; [unfold int_size; cbn; lia|].
    exists [], (lit "  3    3" ++ [newline])%list, (map (map lit) (if inv then [["1"; "-2"; ":"; "1"]; ["2"; "-2"; ":"; "2"]; ["3"; "-2"; ":"; "3"]] else [["1"; "2"; ":"; "2"; "3"]; ["2"; "2"; ":"; "1"; "3"]; ["3"; "2"; ":"; "1"; "2"]])%string),
      (text_lines (if inv then [" 1 -2 : 1"; " 2 -2 : 2"; " 3 -2 : 3"] else [" 1 2 : 2 3"; " 2 2 : 1 3"; " 3 2 : 1 2"])%string), (text_lines ["end"]%string), [lit "3"].
    split; [exists []; split; [constructor|reflexivity]|]. split; [|split; [|split; [|split; [|split]]]].
    + exists (lit "  3    3"), []. split; [|split; [constructor|reflexivity]]. apply (word2 (lit "3") _ (lit "    3")). apply (more_words (lit "    ") (lit "3") [] []); [discriminate|repeat constructor|constructor].
    + constructor; [|constructor]. intros I. vm_compute in I. intuition discriminate.
    + now destruct inv.
    + intros [|[|[|i]]] Hi; [| | |cbn in Hi; lia]; destruct inv; cbn [map nth].
      * apply (inverted 3 1 [2; 3]%nat [1%nat]); [repeat constructor|constructor; [lia|constructor]|reflexivity|discriminate].
      * apply (direct 3 1 [2; 3]%nat).
      * apply (inverted 3 2 [1; 3]%nat [2%nat]); [repeat constructor|constructor; [lia|constructor]|reflexivity|discriminate].
      * apply (direct 3 2 [1; 3]%nat).
      * apply (inverted 3 3 [1; 2]%nat [3%nat]); [repeat constructor|constructor; [lia|constructor]|reflexivity|discriminate].
      * apply (direct 3 3 [1; 2]%nat).
    + assert (W : forall l t, words l t -> line l (t ++ [newline])%list) by (intros l t H; exists t, []; split; [exact H|split; [constructor|reflexivity]]).
      destruct inv; cbn [map].
      * apply (more_lines _ _ (text_lines [" 1 -2 : 1"]%string) (text_lines [" 2 -2 : 2"; " 3 -2 : 3"]%string)); [|apply (more_lines _ _ (text_lines [" 2 -2 : 2"]%string) (text_lines [" 3 -2 : 3"]%string)); [|apply (more_lines _ _ (text_lines [" 3 -2 : 3"]%string) []); [|constructor]]];
        [apply (W _ (lit " 1 -2 : 1")); apply (word1 (lit "1") _ (lit " -2 : 1")); apply (word1 (lit "-2") _ (lit " : 1")); apply (word1 (lit ":") _ (lit " 1")); apply (word1 (lit "1") _ []); constructor
        |apply (W _ (lit " 2 -2 : 2")); apply (word1 (lit "2") _ (lit " -2 : 2")); apply (word1 (lit "-2") _ (lit " : 2")); apply (word1 (lit ":") _ (lit " 2")); apply (word1 (lit "2") _ []); constructor
        |apply (W _ (lit " 3 -2 : 3")); apply (word1 (lit "3") _ (lit " -2 : 3")); apply (word1 (lit "-2") _ (lit " : 3")); apply (word1 (lit ":") _ (lit " 3")); apply (word1 (lit "3") _ []); constructor].
      * apply (more_lines _ _ (text_lines [" 1 2 : 2 3"]%string) (text_lines [" 2 2 : 1 3"; " 3 2 : 1 2"]%string)); [|apply (more_lines _ _ (text_lines [" 2 2 : 1 3"]%string) (text_lines [" 3 2 : 1 2"]%string)); [|apply (more_lines _ _ (text_lines [" 3 2 : 1 2"]%string) []); [|constructor]]];
        [apply (W _ (lit " 1 2 : 2 3")); apply (word1 (lit "1") _ (lit " 2 : 2 3")); apply (word1 (lit "2") _ (lit " : 2 3")); apply (word1 (lit ":") _ (lit " 2 3")); apply (word1 (lit "2") _ (lit " 3")); apply (word1 (lit "3") _ []); constructor
        |apply (W _ (lit " 2 2 : 1 3")); apply (word1 (lit "2") _ (lit " 2 : 1 3")); apply (word1 (lit "2") _ (lit " : 1 3")); apply (word1 (lit ":") _ (lit " 1 3")); apply (word1 (lit "1") _ (lit " 3")); apply (word1 (lit "3") _ []); constructor
        |apply (W _ (lit " 3 2 : 1 2")); apply (word1 (lit "3") _ (lit " 2 : 1 2")); apply (word1 (lit "2") _ (lit " : 1 2")); apply (word1 (lit ":") _ (lit " 1 2")); apply (word1 (lit "1") _ (lit " 2")); apply (word1 (lit "2") _ []); constructor].
    + now destruct inv.
  - intros inv. destruct inv; eexists; (split; [vm_compute; reflexivity|reflexivity]).
Qed.

(** C84 fails for unbounded polyhedra: when cdd reports a direction, 0 is written as the number
    of lattice points and the program ends with success, although 0 <= x has infinitely many
    integer points; a cone with a single direction ends it without any answer. *)
Definition ray_ext : text := text_lines ["V-representation"; "begin"; " 2  2  integer"; " 1  0"; " 0  1"; "end"]%string.
Theorem unbounded_refuted :
  (forall cdd rows n before row after, ext_file (S n) (before ++ row :: after) (fst (cdd (write_ine rows (S n)))) -> (2 <= length (before ++ row :: after))%nat -> Forall vertex_row before -> num (nth 0 row zero_rat) = 0 ->
     compute_vertex_cones cdd rows n = Ok (Stopped (Some 0))) /\
  ext_file 2 [[mkRat 1 1; mkRat 0 1]; [mkRat 0 1; mkRat 1 1]] ray_ext /\ compute_vertex_cones (fun _ => (ray_ext, [])) [[0; 1]] 1 = Ok (Stopped (Some 0)) /\
  (forall cdd rows n x, ext_file (S n) [mkRat 0 1 :: x] (fst (cdd (write_ine rows (S n)))) -> compute_vertex_cones cdd rows n = Ok (Stopped None)).
Proof.
  split; [|split; [|split]].
  - intros cdd rows n before row after H N V Z0. unfold compute_vertex_cones. destruct (cdd (write_ine rows (S n))) as [e ead]. cbn [fst] in H. now rewrite (read_ext_unbounded n _ before row after e H N eq_refl V Z0).
  - split; [repeat constructor|]. split; [unfold int_size; cbn; lia|]. split; [unfold int_size; cbn; lia|].
    exists (text_lines ["V-representation"]%string), (lit " 2  2  integer" ++ [newline])%list, (lit "integer"), (text_lines [" 1  0"; " 0  1"]%string), (text_lines ["end"]%string).
    split; [|split; [|split; [|split]]].
    + exists [lit "V-representation"]. split; [|reflexivity]. constructor; [|constructor]. split; [intros I; vm_compute in I; intuition discriminate|discriminate].
    + exists (lit " 2  2  integer"), []. split; [|split; [constructor|reflexivity]]. apply (word1 (lit "2") _ (lit "  2  integer")). apply (word2 (lit "2") _ (lit "  integer")). apply (word2 (lit "integer") _ []). constructor.
    + now left.
    + apply (more_lines _ _ (text_lines [" 1  0"]%string) (text_lines [" 0  1"]%string)); [|apply (more_lines _ _ (text_lines [" 0  1"]%string) []); [|constructor]].
      * exists (lit " 1  0"), []. split; [|split; [constructor|reflexivity]]. apply (word1 (lit "1") _ (lit "  0")). apply (word2 (lit "0") _ []). constructor.
      * exists (lit " 0  1"), []. split; [|split; [constructor|reflexivity]]. apply (word1 (lit "0") _ (lit "  1")). apply (word2 (lit "1") _ []). constructor.
    + reflexivity.
  - vm_compute. reflexivity.
  - intros cdd rows n x H. unfold compute_vertex_cones. destruct (cdd (write_ine rows (S n))) as [e ead]. cbn [fst] in H. now rewrite (read_ext_ray (S n) x e H).
Qed.
Print Assumptions unbounded_refuted.
