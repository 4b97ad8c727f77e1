(** C86: files of subcones. *)
From Coq Require Import String.
From Verif Require Import Common Text TextProofs LatteText LatteTextProofs Subcones SubconesSpec SubconesProofs SubconesProofs2.
Open Scope Z_scope.

(** C86.  Cones whose rays are rays of the master cone (whatever their index hints), printed to a
    file and read again: the same cones in the same order, with the vertex of the master cone. *)
Theorem subcones_round_trip : forall {V} (master : cone V) (cones : list (cone V)), NoDup (map vector (rays master)) -> Z.of_nat (length (rays master)) <= 2147483647 -> Z.of_nat (length cones) <= 2147483647 ->
  (forall c, In c cones -> incl (map vector (rays c)) (map vector (rays master))) ->
  exists file, print_subcones master cones = Ok file /\ forall u, exists cones', read_subcones u master file = Ok cones' /\ length cones' = length cones /\
  forall i c c', nth_error cones i = Some c -> nth_error cones' i = Some c' -> same_rays c c' /\ NoDup (map vector (rays c')) /\ vertex c' = vertex master /\ cone_hint c' = Z.of_nat i /\
    forall r, In r (rays c') -> 0 <= hint r < Z.of_nat (length (rays master)) /\ vector r = vector (nth (Z.to_nat (hint r)) (rays master) (mkRay [] 0)).
Proof.
  intros V master cones ND L1 L2 I. destruct (consume_all_ok (rays master) cones ND I) as (rows & F & R). set (dim := length (rays master)) in *.
  assert (LR : length rows = length cones) by (clear -F; induction F; cbn; congruence).
  assert (FR : Forall (fun v => length v = dim) rows) by (clear -F; induction F as [|c row l rows H F IH]; constructor; [exact (proj1 H)|exact IH]).
  assert (W : forall rs, written (map WriteVector rs ++ [UpdateNumVectors]) = rs) by (induction rs as [|x rs IH]; cbn [map app written]; congruence).
  assert (C : forall rs n last, counted_from n last (map WriteVector rs ++ [UpdateNumVectors]) = Some (n + length rs)%nat) by (induction rs as [|x rs IH]; intros n last; cbn [map app counted_from length]; [f_equal; lia|rewrite IH; f_equal; lia]).
  destruct (run_ok dim (map WriteVector rows ++ [UpdateNumVectors]) [] None (new_writer dim)) as (w' & RW & CW & _).
  - rewrite W. cbn [length]. lia.
  - rewrite W. exact FR.
  - exact Logic.I.
  - unfold new_writer, file_text, header. cbn [flat_map]. now rewrite app_nil_r.
  - rewrite C, W in CW. cbn [length app Nat.add] in CW. rewrite LR in CW. exists (contents w'). split.
    + unfold print_subcones. fold dim. rewrite (R (new_writer dim) eq_refl). assert (RA : forall a w b, run w (a ++ b) = bind (run w a) (fun w' => run w' b)).
      { induction a as [|[v|] a IH]; intros w b; cbn [app run bind]; [reflexivity| |apply IH]. destruct (write_vector w v); cbn [bind]; [apply IH|reflexivity]. }
      rewrite RA in RW. destruct (run (new_writer dim) (map WriteVector rows)) as [w|]; [|discriminate RW]. cbn [bind run] in RW |- *. injection RW as RW. now rewrite <- RW.
    + intros u. destruct (file_begins (Z.of_nat (length cones)) dim rows [] []) as (r & N). rewrite !app_nil_r in N. unfold header in CW. rewrite <- CW in N.
      destruct (read_file_ok u master (Z.of_nat (length cones)) rows [] (contents w') r) as (cs & RC & LC & PC); [rewrite app_nil_r; exact N|unfold int_range; lia|unfold int_range; fold dim; lia|lia|exact FR|].
      exists cs. split; [exact RC|]. split; [lia|]. intros i c c' Hc Hc'. destruct (PC i c' Hc') as (P1 & P2 & P3 & P4).
      assert (RO : row_of (rays master) (rays c) (nth i rows [])).
      { revert Hc. clear -F. revert i. induction F as [|c0 row l rows H F IH]; intros [|i] Hc; try discriminate Hc; cbn [nth_error nth] in *; [injection Hc as <-; exact H|exact (IH i Hc)]. }
      destruct RO as [_ RO]. split; [|split; [|split; [exact P1|split; [exact P2|]]]].
      * intros v. rewrite RO. split.
        -- intros (j & J & B & E). apply in_map_iff. exists (mkRay v (Z.of_nat j)). split; [reflexivity|]. apply P4. exists j. rewrite E. auto.
        -- intros H. apply in_map_iff in H as (x & <- & Hx). apply P4 in Hx as (j & J & B & ->). exists j. auto.
      * clear -P3 P4 ND. assert (INJ : forall a b, In a (rays c') -> In b (rays c') -> vector a = vector b -> a = b).
        { intros a b Ha Hb E. apply P4 in Ha as (i1 & Hi & _ & ->), Hb as (j1 & Hj & _ & ->). cbn [vector] in E. assert (i1 = j1); [|now subst]. rewrite (NoDup_nth (map vector (rays master)) []) in ND. apply ND; [now rewrite map_length|now rewrite map_length|].
          change ([] : list Z) with (vector (mkRay [] 0)). now rewrite !map_nth. }
        clear P4. revert P3 INJ. induction (rays c') as [|a l IH]; intros N INJ; [constructor|]. inversion_clear N as [|? ? NA N']. cbn [map]. constructor; [|apply IH; [exact N'|intros; apply INJ; auto; now right]]. intros H. apply in_map_iff in H as (b & E & Hb). apply NA. rewrite (INJ a b); [exact Hb|now left|now right|now symmetry].
      * intros x Hx. apply P4 in Hx as (j & J & _ & ->). cbn [hint vector]. fold dim. rewrite Nat2Z.id. split; [lia|reflexivity].
Qed.
Print Assumptions subcones_round_trip.
(** C86.  A file in any layout: the number of cones, the number of rays, then 0 or 1 for every cone
    and ray, with any white space, and anything after it. *)
Theorem subcone_file_read : forall {V} u (master : cone V) N rows file rest, numbers (N :: Z.of_nat (length (rays master)) :: concat (map (map bit) rows)) file rest -> N = Z.of_nat (length rows) -> N <= 2147483647 -> Z.of_nat (length (rays master)) <= 2147483647 ->
  Forall (fun row => length row = length (rays master)) rows -> exists cones, read_subcones u master file = Ok cones /\ listed master rows cones.
Proof.
  intros V u master N rows file rest H -> HN HR F. apply (read_file_ok u master (Z.of_nat (length rows)) rows [] file rest); [now rewrite app_nil_r|unfold int_range; lia|unfold int_range; lia|lia|exact F].
Qed.
Print Assumptions subcone_file_read.
(** C86.  The error exit is taken for a file with another number of rays, an entry that is neither 0 nor 1, too few entries or something that is no number; and
    for a cone with a ray that the master cone does not have. *)
Theorem bad_subcones_rejected :
  (forall V u (master : cone V) N k file rest, numbers [N; k] file rest -> int_range N = true -> int_range k = true -> k <> Z.of_nat (length (rays master)) -> read_subcones u master file = Err Exited) /\
  (forall V u (master : cone V) N bits x file rest, numbers (N :: Z.of_nat (length (rays master)) :: map bit bits ++ [x]) file rest -> int_range N = true -> int_range (Z.of_nat (length (rays master))) = true ->
     int_range x = true -> x <> 0 -> x <> 1 -> Z.of_nat (length bits) < N * Z.of_nat (length (rays master)) -> read_subcones u master file = Err Exited) /\
  (forall V u (master : cone V) N bits file rest, numbers (N :: Z.of_nat (length (rays master)) :: map bit bits) file rest -> no_number rest -> int_range N = true -> int_range (Z.of_nat (length (rays master))) = true ->
     Z.of_nat (length bits) < N * Z.of_nat (length (rays master)) -> read_subcones u master file = Err Exited) /\
  (forall V (master : cone V) before c after, NoDup (map vector (rays master)) -> (forall c', In c' before -> incl (map vector (rays c')) (map vector (rays master))) -> ~ incl (map vector (rays c)) (map vector (rays master)) ->
     print_subcones master (before ++ c :: after) = Err Exited).
Proof.
  assert (H : forall V u (master : cone V) N bits file r, numbers (N :: Z.of_nat (length (rays master)) :: map bit bits) file r -> stuck u r -> int_range N = true -> int_range (Z.of_nat (length (rays master))) = true ->
     Z.of_nat (length bits) < N * Z.of_nat (length (rays master)) -> read_subcones u master file = Err Exited).
  { intros V u master N bits file r H ST R1 R2 L. destruct (get_number u _ _ _ _ H R1) as (t1 & G1 & N1). destruct (get_number u _ _ _ _ N1 R2) as (t2 & G2 & N2). unfold read_subcones. rewrite G1. rewrite G2. cbn [check_stream snd bind]. rewrite Z.eqb_refl. cbn [negb].
    apply (read_cones_stuck u master (Z.to_nat N) 0 bits t2 r N2 ST). nia. }
  split; [|split; [|split]].
  - intros V u master N k file rest HN R1 R2 NK. destruct (get_number u _ _ _ _ HN R1) as (t1 & G1 & N1). destruct (get_number u _ _ _ _ N1 R2) as (t2 & G2 & N2). unfold read_subcones. rewrite G1. rewrite G2. cbn [check_stream snd bind]. apply Z.eqb_neq in NK. now rewrite NK.
  - intros V u master N bits x file rest HN R1 R2 RX X0 X1 L. destruct (numbers_split (N :: Z.of_nat (length (rays master)) :: map bit bits) [x] file rest HN) as (m & A & B). apply (H V u master N bits file m A); auto.
    destruct (get_number u _ _ _ _ B RX) as (t' & G & _). exists x, (t', true). split; [exact G|]. left. auto.
  - intros V u master N bits file rest HN B R1 R2 L. apply (H V u master N bits file rest HN); auto. destruct (get_no_number u rest B) as (x & f & E & F). exists x, f. auto.
  - intros V master before c after ND IB NC. unfold print_subcones. assert (X : forall w, dimension w = length (rays master) -> consume_all (rays master) w (before ++ c :: after) = Err Exited); [|now rewrite X].
    induction before as [|b before IH]; intros w D; cbn [app consume_all].
    + unfold consume_cone. rewrite indicate_foreign; [reflexivity|rewrite repeat_length; now apply map_size_nodup|exact NC].
    + destruct (indicate_ok (rays master) (rays b) (repeat false (map_size (rays master)))) as (v & E & L & _); [rewrite repeat_length; now apply map_size_nodup|apply IB; now left|]. unfold consume_cone at 1. rewrite E. cbn [bind]. unfold write_vector. rewrite L, D, Nat.eqb_refl. cbn [bind]. apply IH; [|reflexivity]. intros c' Hc. apply IB. now right.
Qed.
Print Assumptions bad_subcones_rejected.
(** C86.  Whenever the writing program stops, even within a row, the file gives the rows written before the last
    update of the count, and no cones, without an error, if there was none. *)
Theorem subcone_file_history : forall {V} u (master : cone V) ops tail, Forall (fun v => length v = length (rays master)) (written ops) -> Z.of_nat (length (written ops)) <= 2147483647 -> Z.of_nat (length (rays master)) <= 2147483647 ->
  exists w, run (new_writer (length (rays master))) ops = Ok w /\
  match counted ops with
  | Some n => (n <= length (written ops))%nat /\ exists cones, read_subcones u master (contents w ++ tail) = Ok cones /\ listed master (firstn n (written ops)) cones
  | None => read_subcones u master (contents w ++ tail) = Ok []
  end.
Proof.
  intros V u master ops tail F L1 L2. set (dim := length (rays master)) in *. destruct (run_ok dim ops [] None (new_writer dim)) as (w & R & C & B).
  - cbn [length]. lia.
  - exact F.
  - exact Logic.I.
  - unfold new_writer, file_text, header. cbn [flat_map]. now rewrite app_nil_r.
  - exists w. split; [exact R|]. cbn [length app] in C, B. fold (counted ops) in C, B. destruct (counted ops) as [n|].
    + split; [exact B|]. destruct (file_begins (Z.of_nat n) dim (firstn n (written ops)) (skipn n (written ops)) tail) as (r & N). rewrite firstn_skipn in N. unfold header in C. rewrite <- C in N.
      apply (read_file_ok u master (Z.of_nat n) (firstn n (written ops)) [] _ r); [rewrite app_nil_r; exact N|unfold int_range; lia|unfold int_range; fold dim; lia|rewrite firstn_length_le by exact B; lia|].
      apply Forall_forall. intros v Hv. rewrite Forall_forall in F. apply F. rewrite <- (firstn_skipn n (written ops)). apply in_app_iff. now left.
    + destruct (file_begins (-1) dim [] (written ops) tail) as (r & N). cbn [app] in N. unfold header in C. rewrite <- C in N. destruct (read_file_ok u master (-1) [] [] _ r N) as (cs & E & L & _); [reflexivity|unfold int_range; fold dim; lia|reflexivity|constructor|]. destruct cs; [exact E|discriminate L].
Qed.
Print Assumptions subcone_file_history.
(** C86 fails for a master cone that lists a ray twice (nothing can be printed: an assertion fails or memory outside of
    the vector is written), for files that end with the last digit (rejected), and for a program that
    ends before the count is written (two cones were written, none is read, without an error). *)
Definition square_cone : cone unit := mkCone tt [mkRay [1;0;0] (-1); mkRay [1;1;0] (-1); mkRay [1;0;1] (-1); mkRay [1;1;1] (-1)] (-1).
Definition halves : list (cone unit) := [mkCone tt [mkRay [1;0;0] 0; mkRay [1;1;0] 2; mkRay [1;0;1] (-1)] 5; mkCone tt [mkRay [1;1;1] 3; mkRay [1;1;0] 1; mkRay [1;0;1] 7] 6].
Theorem subcones_refuted :
  (forall V (master : cone V) c cones, ~ NoDup (map vector (rays master)) -> forall file, print_subcones master (c :: cones) <> Ok file) /\
  (let twice := mkCone tt [mkRay [1;0] (-1); mkRay [1;0] (-1)] (-1) in print_subcones twice [twice] = Err AssertFail /\ print_subcones twice [mkCone tt [mkRay [1;0] 1] 0] = Err OutOfBounds) /\
  (read_subcones 0 square_cone (lit "1 4 1 1 1 0 ") = Ok [cone_from_indicator square_cone [true;true;true;false] 0] /\ read_subcones 0 square_cone (lit "1 4 1 1 1 0") = Err Exited) /\
  (exists w, consume_all (rays square_cone) (new_writer 4) halves = Ok w /\ num_vectors w = 2 /\ forall u, read_subcones u square_cone (contents w) = Ok []).
Proof.
  split; [|split; [|split]].
  - intros V master c cones N file H. unfold print_subcones in H. cbn [consume_all] in H. unfold consume_cone in H. destruct (indicate (rays master) (rays c) (repeat false (map_size (rays master)))) as [v|] eqn:E; [|discriminate H]. cbn [bind] in H. apply indicate_length in E. rewrite repeat_length in E. unfold write_vector in H. cbn [new_writer dimension] in H.
    pose proof (map_size_dup (rays master) N). replace (length v =? length (rays master))%nat with false in H by (symmetry; apply Nat.eqb_neq; lia). discriminate H.
  - vm_compute. auto.
  - vm_compute. auto.
  - eexists. split; [vm_compute; reflexivity|]. split; [reflexivity|]. intros u. vm_compute. reflexivity.
Qed.
Print Assumptions subcones_refuted.

(** The hypotheses are met: the cone over a square, cut along a diagonal; hints may be wrong. *)
Example halves_met : NoDup (map vector (rays square_cone)) /\ (forall c, In c halves -> incl (map vector (rays c)) (map vector (rays square_cone))) /\
  match print_subcones square_cone halves with Ok file => file = (lit "2                4" ++ newline :: lit "1 1 1 0 " ++ newline :: lit "0 1 1 1 " ++ [newline])%list /\ read_subcones 0 square_cone file = Ok [cone_from_indicator square_cone [true;true;true;false] 0; cone_from_indicator square_cone [false;true;true;true] 1] | Err _ => False end.
Proof.
  split; [repeat constructor; cbn; intuition discriminate|]. split; [intros c [<-|[<-|[]]] x Hx; cbn in *; intuition|]. vm_compute. auto.
Qed.
Example layout_met : numbers [1; 4; 1; 0; 0; 1] (lit " 1 4" ++ newline :: newline :: lit "1 0  0 1 end")%list (lit " end").
Proof.
  apply (more_numbers [" "%char] 1 _ (lit " 4" ++ newline :: newline :: lit "1 0  0 1 end")%list); [repeat constructor|now eexists _, _|]. apply (more_numbers [" "%char] 4 _ (newline :: newline :: lit "1 0  0 1 end")%list); [repeat constructor|now eexists _, _|].
  apply (more_numbers [newline; newline] 1 _ (lit " 0  0 1 end")); [repeat constructor|now eexists _, _|]. apply (more_numbers [" "%char] 0 _ (lit "  0 1 end")); [repeat constructor|now eexists _, _|].
  apply (more_numbers [" "%char; " "%char] 0 _ (lit " 1 end")); [repeat constructor|now eexists _, _|]. apply (more_numbers [" "%char] 1 _ (lit " end")); [repeat constructor|now eexists _, _|]. constructor.
Qed.
Example history_met : counted [WriteVector [true;false]; UpdateNumVectors; WriteVector [false;true]] = Some 1%nat /\ exists w, run (new_writer 2) [WriteVector [true;false]; UpdateNumVectors; WriteVector [false;true]] = Ok w /\
  contents w = (lit "1                2" ++ newline :: lit "1 0 " ++ newline :: lit "0 1 " ++ [newline])%list.
Proof. split; [reflexivity|]. eexists. split; vm_compute; reflexivity. Qed.
