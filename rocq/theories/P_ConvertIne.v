(** C91: conversion of cdd's inequality files to LattE's.  Specification: ConvertIneSpec.v, LatteTextSpec.v. *)
From Coq Require Import QArith String Lqa.
From Verif Require Import Common Rational RationalSpec RationalProofs Text TextProofs LatteText LatteTextSpec LatteTextProofs LatteTextProofs2 P_LatteText CheckEmpty CheckEmptyProofs CddText CddTextSpec CddTextProofs ConvertIne ConvertIneSpec ConvertIneProofs.
Open Scope Z_scope.

Lemma scaled_affine k row out : scaled_row k row out -> forall x, length x = length row -> (affine out x == inject_Z k * row_value row x)%Q.
Proof.
  induction 1 as [|q r row out (D & V) F IH]; intros x L; [destruct x; [cbn; ring|discriminate L]|]. destruct x as [|y x]; [discriminate L|]. cbn [affine row_value]. rewrite IH by (cbn in L; lia).
  assert (E : (value r == inject_Z (num r))%Q) by (rewrite (value_div r) by lia; rewrite D; unfold Qdiv; change (/ inject_Z 1)%Q with 1%Q; ring). rewrite E, V. ring.
Qed.
Lemma scaled_length k row out : scaled_row k row out -> length out = length row.
Proof. induction 1; cbn; congruence. Qed.
(** The file that is written is read by LattE as a matrix of integers without equations: row i is the given row times the smallest
    positive integer that makes it integral; and it describes the same points. *)
Theorem conversion_same_points : forall p width rows t, ine_file p width rows t ->
  exists m, convert_ine t = Ok (write_matrix m) /\ read_matrix (write_matrix m) false false false = Ok m /\
  mx_cols m = width /\ length (mx_rows m) = length rows /\
  (forall i, (i < length rows)%nat -> exists k, least_multiplier k (nth i rows []) /\ scaled_row k (nth i rows []) (nth i (mx_rows m) [])) /\
  forall x, S (length x) = width -> (satisfies m x <-> forall row, In row rows -> (0 <= row_value row (1%Q :: x))%Q).
Proof.
  intros p width rows t H. destruct (file_converted p width rows t H) as (qss & F & E). destruct H as (W & S1 & S2 & _). set (m := mkMatrix (map out_row qss) width (repeat false (length rows)) false) in *.
  assert (EL : length qss = length rows) by (clear -F; induction F; cbn; congruence).
  assert (SC : forall i, (i < length rows)%nat -> exists k, least_multiplier k (nth i rows []) /\ scaled_row k (nth i rows []) (nth i (mx_rows m) [])).
  { intros i Hi. cbn [m mx_rows]. rewrite (nth_indep _ [] (out_row [])) by (rewrite map_length; lia). rewrite map_nth. exists (common_denominator (nth i qss [])).
    assert (Fi : Forall2 read_as (nth i qss []) (nth i rows [])). { clear -F Hi. revert i Hi. induction F as [|a b qss rows H F IH]; intros [|i] Hi; cbn [nth length] in *; [lia|lia|exact H|apply IH; lia]. }
    split; [exact (common_least _ _ Fi)|apply (out_scaled _ _ Fi)]. }
  exists m. split; [exact E|]. split.
  { apply (matrix_write_read m). split; [|split; [|split]]; cbn [m mx_rows mx_cols mx_lin].
    - apply Forall_map. apply Forall_forall. intros qs Hq. apply (In_nth _ _ []) in Hq as (i & Hi & <-).
      assert (Fi : Forall2 read_as (nth i qss []) (nth i rows [])). { clear -F Hi. revert i Hi. induction F as [|a b qss rows H F IH]; intros [|i] Hi; cbn [nth length] in *; [lia|lia|exact H|apply IH; lia]. }
      destruct (out_scaled _ _ Fi) as (A & B). split; [|exact B]. rewrite (scaled_length _ _ _ A). rewrite Forall_forall in W. apply W, nth_In. lia.
    - rewrite repeat_length, map_length. now symmetry.
    - rewrite map_length, EL. exact S1.
    - exact S2. }
  split; [reflexivity|]. split; [cbn [m mx_rows]; now rewrite map_length|]. split; [exact SC|]. intros x Lx. unfold satisfies. cbn [m mx_rows mx_lin]. rewrite map_length, EL.
  assert (NR : forall i, nth i (repeat false (length rows)) false = false). { intros i. generalize (length rows). intros n. revert i. induction n as [|n IH]; intros [|i]; cbn; auto. }
  assert (RV : forall i, (i < length rows)%nat -> (0 <= row_at m i x)%Q <-> (0 <= row_value (nth i rows []) (1%Q :: x))%Q).
  { intros i Hi. destruct (SC i Hi) as (k & (K0 & _) & S0). unfold row_at. rewrite (scaled_affine k _ _ S0 (1%Q :: x)) by (rewrite Forall_forall in W; rewrite (W (nth i rows [])) by (apply nth_In; exact Hi); exact Lx).
    assert (KP : (0 < inject_Z k)%Q) by (change 0%Q with (inject_Z 0); rewrite <- Zlt_Qlt; exact K0). split; intros G.
    - apply Qnot_lt_le. intros N. assert (X : (inject_Z k * row_value (nth i rows []) (1%Q :: x) < 0)%Q) by nra. lra.
    - apply Qmult_le_0_compat; [lra|exact G]. }
  split; intros G.
  - intros row Hr. apply (In_nth _ _ []) in Hr as (i & Hi & <-). apply (RV i Hi). specialize (G i Hi). rewrite NR in G. exact G.
  - intros i Hi. rewrite NR. apply (RV i Hi). apply G, nth_In, Hi.
Qed.
Print Assumptions conversion_same_points.

(** A file with fractions, not all in lowest terms: 1/2 - 2/4 x + 3 y >= 0, x / -3 >= 0. *)
Definition text_of (l : list string) : text := flat_map (fun s => lit s ++ [newline])%list l.
Definition sample_file : text := text_of ["H-representation"; "begin"; " 2 3 rational"; " 1/2 -2/4 3"; " 0 1/-3 0"; "end"]%string.
Example sample_converted : ine_file (text_of ["H-representation"]%string) 3 [[inject_Z 1 / inject_Z 2; inject_Z (-2) / inject_Z 4; inject_Z 3]; [inject_Z 0; inject_Z 1 / inject_Z (-3); inject_Z 0]]%Q sample_file /\
  convert_ine sample_file = Ok (text_of ["2 3"; "1 -1 6 "; "0 -1 0 "]%string).
Proof.
  split; [|vm_compute; reflexivity]. split; [repeat constructor|]. split; [unfold int_size; cbn; lia|]. split; [cbn; lia|].
  exists (text_of [" 2 3 rational"]%string), (lit "rational"), (text_of [" 1/2 -2/4 3"; " 0 1/-3 0"]%string), (text_of ["end"]%string), [[lit "1/2"; lit "-2/4"; lit "3"]; [lit "0"; lit "1/-3"; lit "0"]].
  assert (SP : spaces (lit " ")) by (repeat constructor). assert (NE : lit " " <> []) by discriminate.
  assert (L3 : forall a b c : text, line [a; b; c] (lit " " ++ a ++ lit " " ++ b ++ lit " " ++ c ++ [] ++ [] ++ [newline])%list).
  { intros a b c. exists (lit " " ++ a ++ lit " " ++ b ++ lit " " ++ c ++ [])%list, []. split; [|split; [constructor|repeat rewrite <- app_assoc; reflexivity]]. constructor; [exact NE|exact SP|]. constructor; [exact NE|exact SP|]. constructor; [exact NE|exact SP|constructor]. }
  split; [exists [lit "H-representation"]; split; [repeat constructor; [intros X; cbn in X; repeat (destruct X as [X|X]; [discriminate X|]); exact X|discriminate]|reflexivity]|].
  split; [exact (L3 (lit "2") (lit "3") (lit "rational"))|]. split; [right; now left|]. split; [cbn; lia|].
  split; [exact (more_lines _ _ _ _ (L3 (lit "1/2") (lit "-2/4") (lit "3")) (more_lines _ _ _ _ (L3 (lit "0") (lit "1/-3") (lit "0")) no_lines))|].
  split; [|reflexivity].
  constructor; [constructor; [exact (fraction 1 2 ltac:(lia))|constructor; [exact (fraction (-2) 4 ltac:(lia))|constructor; [exact (whole 3)|constructor]]]|].
  constructor; [constructor; [exact (whole 0)|constructor; [exact (fraction 1 (-3) ltac:(lia))|constructor; [exact (whole 0)|constructor]]]|constructor].
Qed.

(** Files with equations: the line "linearity" is skipped with the preamble.  x = 1, y >= 0 becomes x >= 1, y >= 0. *)
Definition equation_file : text := text_of ["linearity 1 1"; "begin"; " 2 3 integer"; " -1 1 0"; " 0 0 1"; "end"]%string.
Theorem equations_lost_refuted : exists rows m x, ine_file (text_of ["linearity 1 1"]%string) 3 rows equation_file /\ convert_ine equation_file = Ok (write_matrix m) /\ read_matrix (write_matrix m) false false false = Ok m /\
  satisfies m x /\ ~ cdd_solution [1%nat] rows x.
Proof.
  exists [[inject_Z (-1); inject_Z 1; inject_Z 0]; [inject_Z 0; inject_Z 0; inject_Z 1]], (mkMatrix [[mkRat (-1) 1; mkRat 1 1; mkRat 0 1]; [mkRat 0 1; mkRat 0 1; mkRat 1 1]] 3 [false; false] false), [2; 0]%Q.
  split; [|split; [vm_compute; reflexivity|split; [vm_compute; reflexivity|split]]].
  - split; [repeat constructor|]. split; [unfold int_size; cbn; lia|]. split; [cbn; lia|].
    exists (text_of [" 2 3 integer"]%string), (lit "integer"), (text_of [" -1 1 0"; " 0 0 1"]%string), (text_of ["end"]%string), [[lit "-1"; lit "1"; lit "0"]; [lit "0"; lit "0"; lit "1"]].
    assert (SP : spaces (lit " ")) by (repeat constructor). assert (NE : lit " " <> []) by discriminate.
    assert (L3 : forall a b c : text, line [a; b; c] (lit " " ++ a ++ lit " " ++ b ++ lit " " ++ c ++ [] ++ [] ++ [newline])%list).
    { intros a b c. exists (lit " " ++ a ++ lit " " ++ b ++ lit " " ++ c ++ [])%list, []. split; [|split; [constructor|repeat rewrite <- app_assoc; reflexivity]]. constructor; [exact NE|exact SP|]. constructor; [exact NE|exact SP|]. constructor; [exact NE|exact SP|constructor]. }
    split; [exists [lit "linearity 1 1"]; split; [repeat constructor; [intros X; cbn in X; repeat (destruct X as [X|X]; [discriminate X|]); exact X|discriminate]|reflexivity]|].
    split; [exact (L3 (lit "2") (lit "3") (lit "integer"))|]. split; [now left|]. split; [cbn; lia|].
    split; [exact (more_lines _ _ _ _ (L3 (lit "-1") (lit "1") (lit "0")) (more_lines _ _ _ _ (L3 (lit "0") (lit "0") (lit "1")) no_lines))|].
    split; [|reflexivity]. constructor; [constructor; [exact (whole (-1))|constructor; [exact (whole 1)|constructor; [exact (whole 0)|constructor]]]|].
    constructor; [constructor; [exact (whole 0)|constructor; [exact (whole 0)|constructor; [exact (whole 1)|constructor]]]|constructor].
  - intros i Hi. cbn [length mx_rows] in Hi. destruct i as [|[|i]]; [| |lia]; vm_compute; discriminate.
  - intros H. specialize (H 0%nat ltac:(cbn; lia)). vm_compute in H. discriminate H.
Qed.
Print Assumptions equations_lost_refuted.
(** Numbers with a decimal point, which cdd allows, are cut off: 0.5 - x >= 0 becomes - x >= 0. *)
Theorem decimals_cut_off_refuted : convert_ine (text_of ["begin"; "1 2 real"; "0.5 -1"; "end"]%string) = Ok (text_of ["1 2"; "0 -1 "]%string).
Proof. vm_compute. reflexivity. Qed.
Print Assumptions decimals_cut_off_refuted.

(** The .ine files that LattE itself writes have a blank after "begin": that line is never found, and sizes that were never read are used. *)
Lemma own_lines rows width : Forall (fun l => ~ In newline l /\ l <> lit "begin") (lit "H-representation" :: lit "begin " :: (show_nat (length rows) ++ lit " " ++ show_nat width ++ lit " integer")%list :: (map (fun row => flat_map (fun i => show_Z (nth i row 0) ++ lit " ")%list (seq 0 width)) rows ++ [lit "end"; lit "adjacency"; lit "incidence"])%list) /\
  write_ine rows width = flat_map (fun l => l ++ [newline])%list (lit "H-representation" :: lit "begin " :: (show_nat (length rows) ++ lit " " ++ show_nat width ++ lit " integer")%list :: (map (fun row => flat_map (fun i => show_Z (nth i row 0) ++ lit " ")%list (seq 0 width)) rows ++ [lit "end"; lit "adjacency"; lit "incidence"])%list).
Proof.
  assert (NZ : forall z, ~ In newline (show_Z z)). { intros z X. destruct (good_Z z) as (_ & G). rewrite Forall_forall in G. discriminate (G _ X). }
  assert (NB : forall s, forallb (fun c => negb (is_char newline c)) (lit s) = true -> ~ In newline (lit s)). { intros s H X. rewrite forallb_forall in H. specialize (H _ X). discriminate H. }
  assert (NS : forall z s, (show_Z z ++ lit " " ++ s)%list <> lit "begin").
  { intros z s E. assert (X : In " "%char (lit "begin")) by (rewrite <- E; rewrite !in_app_iff; right; left; now left). cbn in X. repeat (destruct X as [X|X]; [discriminate X|]). exact X. }
  split.
  - constructor; [split; [apply NB; reflexivity|discriminate]|]. constructor; [split; [apply NB; reflexivity|discriminate]|]. constructor; [split; [|apply NS]|].
    + unfold show_nat. rewrite !in_app_iff. intros [X|[X|[X|X]]]; [exact (NZ _ X)|revert X; apply NB; reflexivity|exact (NZ _ X)|revert X; apply NB; reflexivity].
    + apply Forall_app. split; [|constructor; [split; [apply NB; reflexivity|discriminate]|]; constructor; [split; [apply NB; reflexivity|discriminate]|]; constructor; [split; [apply NB; reflexivity|discriminate]|constructor]].
      apply Forall_map, Forall_forall. intros row _. split.
      * intros X. apply in_flat_map in X as (i & _ & X). apply in_app_iff in X as [X|X]; [exact (NZ _ X)|revert X; apply NB; reflexivity].
      * destruct (seq 0 width) as [|i l]; [discriminate|]. cbn [flat_map]. rewrite <- app_assoc. apply NS.
  - unfold write_ine. cbn [flat_map]. rewrite flat_map_app. cbn [flat_map].
    assert (FM : forall (g : list Z -> text) l, flat_map (fun l => l ++ [newline])%list (map g l) = flat_map (fun row => g row ++ [newline])%list l) by (intros g l; induction l as [|a l IH]; [reflexivity|cbn [map flat_map]; now rewrite IH]).
    rewrite FM. repeat rewrite <- app_assoc. cbn [app]. reflexivity.
Qed.
Lemma skip_nothing ls : Forall (fun l => ~ In newline l /\ l <> lit "begin") ls -> forall f, skip_begin f (flat_map (fun l => l ++ [newline])%list ls) = Err OutOfFuel.
Proof.
  induction 1 as [|l ls (N1 & N2) F IH]; intros [|f]; try reflexivity. cbn [flat_map skip_begin]. rewrite <- app_assoc. cbn [app]. destruct (l ++ newline :: flat_map _ ls)%list eqn:E0; [reflexivity|]. rewrite <- E0, (get_line_app l _ N1).
  destruct (text_eqb l (lit "begin")) eqn:E; [apply text_eqb_eq in E; contradiction|apply IH].
Qed.
Theorem own_files_not_converted : forall rows width, convert_ine (write_ine rows width) = Err OutOfBounds.
Proof.
  intros rows width. destruct (own_lines rows width) as (F & E). unfold convert_ine. set (f := S (length (write_ine rows width))). rewrite E. now rewrite (skip_nothing _ F).
Qed.
Print Assumptions own_files_not_converted.
(** So for every file without the exact line. *)
Theorem no_begin_no_conversion : forall ls, Forall (fun l => ~ In newline l /\ l <> lit "begin") ls -> convert_ine (flat_map (fun l => l ++ [newline])%list ls) = Err OutOfBounds.
Proof. intros ls F. unfold convert_ine. now rewrite (skip_nothing _ F). Qed.
Print Assumptions no_begin_no_conversion.
