(** Property theorems about triangulations computed by TOPCOM (C97). *)
From Coq Require Import String QArith.
From Verif Require Import Common Text PipedSpec ConeSpec CountSpec TriangSpec Subcones Topcom TopcomSpec TopcomProofs.
From Verif Require Triang P_Triang.
Open Scope Z_scope.

(** The text given to TOPCOM lists the rays. *)
Theorem configuration_denotes_rays : forall V, denotes_points (write_configuration V) V.
Proof. exact configuration_ok. Qed.
Print Assumptions configuration_denotes_rays.

(** What TOPCOM prints is read: the cones delivered are, in order, those with the rays given
    by the indices of the simplices (last index first), whatever precedes the first brace and
    follows the last; nothing of what follows is consumed. *)
Theorem topcom_output_read : forall u rays before T after, Z.of_nat (length rays) <= 2147483648 ->
  ~ In "{"%char before -> T <> [] -> Forall (Forall (fun i => (i < length rays)%nat)) T ->
  read_triangulation u rays (before ++ triangulation_text T ++ after)%list = Ok (map (fun s => rev (picked rays s)) T, (after, true)).
Proof. intros. now apply read_triangulation_ok. Qed.
Print Assumptions topcom_output_read.

(** Hence the cones form a triangulation, generated by some of the rays. *)
Theorem topcom_triangulates : forall topcom u n V, topcom_contract topcom n V -> Z.of_nat (length V) <= 2147483648 ->
  exists Ts, triangulate_with_topcom topcom u V = Ok Ts /\ triangulates n V Ts /\ forall C, In C Ts -> incl C V.
Proof.
  intros topcom u n V TC SM. destruct (TC (write_configuration V) (configuration_ok V)) as (before & T & after & E & NB & FT & TR).
  assert (NT : T <> []). { intros ->. destruct TR as (_ & B & _). destruct (proj1 (B (fun _ => 0%Q))) as (X & [] & _). exists (fun _ => 0%Q). split; [intros; apply QArith_base.Qle_refl|]. intros i Hi. clear. generalize (length V). intros m. induction m as [|m IH]; [reflexivity|]. cbn [sumq]. rewrite <- IH. ring. }
  exists (map (fun s => rev (picked V s)) T). unfold triangulate_with_topcom. rewrite E, (read_triangulation_ok u V SM before T after NB NT FT). cbn [bind fst]. split; [reflexivity|]. split.
  - rewrite <- (map_map (picked V) (@rev (list Z))). now apply triangulates_rev.
  - intros C HC r Hr. apply in_map_iff in HC as (s & <- & Hs). apply in_rev in Hr. unfold picked in Hr. apply in_map_iff in Hr as (i & <- & Hi). rewrite Forall_forall in FT. specialize (FT s Hs). rewrite Forall_forall in FT. apply nth_In. now apply FT.
Qed.
Print Assumptions topcom_triangulates.

(** Whatever the program prints, reading ends: with at least one cone, with exit, or with an
    access outside the array of rays. *)
Theorem reading_topcom_ends : forall u rays s,
  match read_triangulation u rays s with
  | Ok (l, _) => l <> []
  | Err e => e = Exited \/ e = OutOfBounds
  end.
Proof. intros u rays s. pose proof (read_triangulation_ends u rays s) as H. destruct (read_triangulation u rays s) as [[l f]|e]; [exact (proj1 H)|destruct H; auto]. Qed.
Print Assumptions reading_topcom_ends.

(** Output that is not a triangulation of these rays is not always rejected by the message and
    exit that the code has for it: an index that is too large is used, and at the end of a
    truncated text a variable that was never set; a text that is no number is read as 0. *)
Theorem topcom_output_checked_refuted : exists rays, length rays = 3%nat /\
  (forall u, read_triangulation u rays (lit "{{0,1},{1,3}}") = Err OutOfBounds) /\
  (forall u, 3 <= u -> read_triangulation u rays (lit "{{0,1,") = Err OutOfBounds) /\ read_triangulation 0 rays (lit "{{0,1,") = Err Exited /\
  (forall u, read_triangulation u rays (lit "{{-1}}") = Err OutOfBounds) /\ (forall u, read_simplex 9 u rays [] (lit "x}", true) = Ok ([nth 0 rays []], (lit "x}", false))).
Proof.
  exists [[1;0];[1;1];[0;1]]. split; [reflexivity|]. split; [intros u; reflexivity|]. split; [|split; [reflexivity|split; [intros u; reflexivity|intros u; reflexivity]]].
  intros u Hu. destruct u as [|p|p]; [lia| |lia]. destruct p as [[p|p|]|[p|p|]|]; try lia; vm_compute; reflexivity.
Qed.
Print Assumptions topcom_output_checked_refuted.

(** Computing all triangulations never succeeds: if the output file can be opened, the program
    always ends with exit or an access outside the array, ... *)
Theorem all_triangulations_refuted : forall topcom u V ts, all_triangulations topcom true u V <> Ok ts.
Proof.
  intros topcom u V ts. unfold all_triangulations. destruct (topcom (write_configuration V)) as [s|]; [|discriminate]. destruct (read_all_fails u V (S (S (length s))) s [] ltac:(lia)) as (e & E & _). rewrite E. discriminate.
Qed.
Print Assumptions all_triangulations_refuted.

(** ... also when the file has all triangulations, in the format of TOPCOM. *)
Lemma find_none s : ~ In "{"%char s -> find_brace s = None.
Proof. induction s as [|c s IH]; intros H; [reflexivity|]. cbn [find_brace]. unfold is_char. destruct (Ascii.eqb_spec open_brace c) as [E|_]; [exfalso; apply H; left; symmetry; exact E|]. apply IH. intros X. apply H. now right. Qed.
Theorem all_triangulations_good_output_refuted : forall topcom u V l after, Z.of_nat (length V) <= 2147483648 ->
  topcom (write_configuration V) = Some (flat_map (fun p : text * list (list nat) => fst p ++ triangulation_text (snd p)) l ++ after)%list ->
  ~ In "{"%char after -> (forall p, In p l -> ~ In "{"%char (fst p) /\ snd p <> [] /\ Forall (Forall (fun i => (i < length V)%nat)) (snd p)) ->
  all_triangulations topcom true u V = Err Exited.
Proof.
  intros topcom u V l after SM E NA HL. unfold all_triangulations. rewrite E. clear E. generalize (@nil (list (list (list Z)))) as acc.
  assert (G : forall l fuel acc, (forall p, In p l -> ~ In "{"%char (fst p) /\ snd p <> [] /\ Forall (Forall (fun i => (i < length V)%nat)) (snd p)) -> (length l < fuel)%nat ->
    read_all fuel u V ((flat_map (fun p : text * list (list nat) => fst p ++ triangulation_text (snd p)) l ++ after)%list, true) acc = Err Exited).
  { clear l HL. induction l as [|p l IH]; intros fuel acc HL HF; (destruct fuel as [|k]; [cbn in HF; lia|]); cbn [read_all snd fst].
    - cbn [flat_map app]. unfold read_triangulation. rewrite (find_none after NA). reflexivity.
    - destruct (HL p (or_introl eq_refl)) as (A & B & C). cbn [flat_map]. rewrite <- !app_assoc. rewrite (read_triangulation_ok u V SM (fst p) (snd p) _ A B C). cbn [bind]. destruct (snd p) as [|t0 t]; [now destruct B|]. cbn [map]. apply IH; [intros q Hq; apply HL; now right|cbn in HF; lia]. }
  intros acc. apply G; [exact HL|]. assert (L : (length l <= length (flat_map (fun p : text * list (list nat) => fst p ++ triangulation_text (snd p)) l))%nat).
  { clear. induction l as [|p l IH]; [cbn; lia|]. cbn [flat_map length]. rewrite !app_length. assert (X : (0 < length (triangulation_text (snd p)))%nat) by (unfold triangulation_text; cbn; lia). lia. }
  rewrite app_length. lia.
Qed.
Print Assumptions all_triangulations_good_output_refuted.

(** The contract is met, for the cone over a square, by a program that prints the triangulation
    of the example for C78. *)
Definition square_topcom (t : text) : option text := Some (lit "T[1]:={{3,2,1},{3,1,0}};" ++ [LatteText.newline])%list.
Example square_contract : topcom_contract square_topcom 3 P_Triang.square_cone.
Proof.
  intros t _. exists (lit "T[1]:="), [[3;2;1];[3;1;0]]%nat, (lit ";" ++ [LatteText.newline])%list. split; [vm_compute; reflexivity|]. split; [cbn; intros [X|[X|[X|[X|[X|[X|[]]]]]]]; discriminate|].
  split; [repeat constructor|]. destruct P_Triang.square_triangulated as ((A & B & C & D & E & F) & _ & TR).
  now eapply P_Triang.triangulation_exact; [exact A|exact B|exact C|exact D|exact E|exact F|exact TR].
Qed.
(** Another square cone; what TOPCOM might be given and print. *)
Definition square : list (list Z) := [[1;0;0];[1;1;0];[1;0;1];[1;1;1]].
Example square_read : read_triangulation 7 square (lit "T[1]:={{0,1,2},{1,2,3}};") = Ok ([[[1;0;1];[1;1;0];[1;0;0]];[[1;1;1];[1;0;1];[1;1;0]]], (lit ";", true)).
Proof. vm_compute. reflexivity. Qed.
Example square_text : triangulation_text [[0;1;2];[1;2;3]]%nat = lit "{{0,1,2},{1,2,3}}" /\ filter (fun c => negb (is_space c)) (write_configuration square) = lit "[[1,0,0],[1,1,0],[1,0,1],[1,1,1]]".
Proof. split; vm_compute; reflexivity. Qed.
