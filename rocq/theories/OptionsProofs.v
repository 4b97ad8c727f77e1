(** Proofs for C81 and C82. *)
From Coq Require Import String.
From Verif Require Import Common Rational Text TextProofs LatteText Options OptionsSpec.
Open Scope Z_scope.

Definition put (c : config) (p : field * val) : config := set c (fst p) (snd p).
Lemma set_same c f v : set c f v f = v.
Proof. unfold set. now rewrite (internal_field_dec_lb f f eq_refl). Qed.
Lemma set_other c f v g : f <> g -> set c f v g = c g.
Proof. intros N. unfold set. destruct (field_beq f g) eqn:E; [|reflexivity]. now apply internal_field_dec_bl in E. Qed.
Lemma puts_untouched l : forall c f, (forall w, ~ In (f, w) l) -> fold_left put l c f = c f.
Proof.
  induction l as [|[g w] l IH]; intros c f H; [reflexivity|]. cbn [fold_left]. rewrite IH by (intros w0 I; apply (H w0); now right). unfold put. cbn [fst snd]. apply set_other. intros ->. apply (H w). now left.
Qed.
Lemma puts_holds c f v l : holds_after c f v l -> fold_left put l c f = v.
Proof.
  intros [l0 H E|l1 l2 H]; [now rewrite puts_untouched|]. rewrite fold_left_app. cbn [fold_left]. rewrite puts_untouched by exact H. unfold put. apply set_same.
Qed.
Lemma holds_total c f l : exists v, holds_after c f v l.
Proof.
  induction l as [|[g w] l IH] using rev_ind; [exists (c f); apply untouched; [intros w [] |reflexivity]|].
  destruct (field_eq_dec g f) as [->|N]; [exists w; apply last_set; intros w0 []|].
  destruct IH as [v [l0 H E|l1 l2 H]]; exists v.
  - apply untouched; [|exact E]. intros w0 I. apply in_app_or in I as [I|[I|[]]]; [now apply (H w0)|congruence].
  - rewrite <- app_assoc. apply last_set. intros w0 I. apply in_app_or in I as [I|[I|[]]]; [now apply (H w0)|congruence].
Qed.
Lemma atoi_int n : int n -> atoi (show_Z n) = Ok n.
Proof. intros H. rewrite <- (app_nil_r (show_Z n)). apply atoi_show; [reflexivity|]. unfold int_range. destruct H. apply andb_true_intro. split; apply Z.leb_le; assumption. Qed.

Section Build.
Context (fortytwo lidia : bool) (cones_in : text -> outcome Z).
Notation count_option := (count_option cones_in).
Notation integrate_option := (integrate_option cones_in).

Ltac crunch := cbv -[show_Z atoi set]; try match goal with |- context [atoi (show_Z ?n)] => rewrite (atoi_int n) by assumption end; reflexivity.
Lemma help_step a l c : help a l -> count_option c a = Ok (fold_left put l c).
Proof. intros []; crunch. Qed.
Lemma help_step2 a l c : help a l -> integrate_option c a = Ok (fold_left put l c).
Proof. intros []; crunch. Qed.
Lemma integrate_step a l c : integrate_help a l -> integrate_option c a = Ok (fold_left put l c).
Proof. intros H0; destruct H0; first [now apply help_step2|crunch]. Qed.
Lemma help_dashes a l : help a l -> begins a "--".
Proof. intros []; eexists; reflexivity. Qed.

Lemma same_chars_le n : forall a b, same_chars n a b = true -> forall p, (length p <= n)%nat -> firstn (length p) b = p -> exists r, a = (p ++ r)%list.
Proof.
  induction n as [|n IH]; intros a b H p L F; [destruct p; [exists a; reflexivity|cbn in L; lia]|].
  destruct p as [|x p]; [exists a; reflexivity|]. destruct b as [|y b]; [discriminate F|]. destruct a as [|z a]; [discriminate H|].
  cbn in H, F, L. apply andb_prop in H as [H1 H2]. injection F as -> F. apply Ascii.eqb_eq in H1 as ->. destruct (IH a b H2 p ltac:(lia) F) as [r ->]. exists r. reflexivity.
Qed.
Lemma no_start a p s n : ~ begins a p -> (length (lit p) <= n)%nat -> firstn (length (lit p)) (lit s) = lit p -> starts a s n = false.
Proof. intros N L F. destruct (starts a s n) eqn:E; [|reflexivity]. exfalso. apply N. exact (same_chars_le n a (lit s) E (lit p) L F). Qed.
Lemma text_eqb_true a : forall b, text_eqb a b = true -> a = b.
Proof. induction a as [|x a IH]; intros [|y b] H; try discriminate; [reflexivity|]. cbn in H. apply andb_prop in H as [H1 H2]. apply Ascii.eqb_eq in H1 as ->. now rewrite (IH b H2). Qed.
Lemma no_is a p s : ~ begins a p -> firstn (length (lit p)) (lit s) = lit p -> is a s = false.
Proof.
  intros N F. destruct (is a s) eqn:E; [|reflexivity]. exfalso. apply N. apply text_eqb_true in E. subst a. exists (skipn (length (lit p)) (lit s)). now rewrite <- F at 1; rewrite firstn_skipn.
Qed.
Ltac try_prefixes f H ps :=
  match ps with
  | (?p :: ?t)%list => first [ erewrite (no_start f p) by (first [apply H; cbn; tauto|cbn; lia|reflexivity]) | erewrite (no_is f p) by (first [apply H; cbn; tauto|reflexivity]) | try_prefixes f H t ]
  end.
Lemma plain_shared poly c f : plain_name f -> poly f = false -> shared_option cones_in poly c f = None.
Proof.
  intros H P. unfold shared_option, triangulation_option, dualization_option, smith_option. rewrite P.
  repeat (let r := eval unfold reserved in reserved in try_prefixes f H r). reflexivity.
Qed.
Lemma plain_poly f s n : plain_name f -> firstn 2 (lit s) = lit "--" -> (2 <= n)%nat -> starts f s n = false.
Proof. intros H E L. apply (no_start f "--"); [apply H; now left|exact L|exact E]. Qed.
Lemma plain_is f s : plain_name f -> firstn 2 (lit s) = lit "--" -> is f s = false.
Proof. intros H E. apply (no_is f "--"); [apply H; now left|exact E]. Qed.
Lemma plain_polyhedron c f : plain_name f -> polyhedron_option c f = (if yes (c ExpectDilation) then Some (bind (atoi f) (fun z => Ok (set (set c DilationFactor (VN z)) ExpectDilation (VB false))))
    else if yes (c ExpectFile) then Some (Ok (set (set c FileName (VT f)) ExpectFile (VB false))) else None).
Proof.
  intros H. unfold polyhedron_option. repeat (let r := eval unfold reserved in reserved in try_prefixes f H r). reflexivity.
Qed.
Lemma plain_count c f : plain_name f -> count_option c f = match polyhedron_option c f with Some r => r | None => Err Thrown end.
Proof. intros H. unfold Options.count_option. rewrite plain_shared; [|exact H|now apply plain_poly; [|reflexivity|lia]]. now rewrite (plain_is f "--help" H eq_refl). Qed.
Lemma plain_integrate c f : plain_name f -> integrate_option c f = match polyhedron_option c f with Some r => r | None => Err Thrown end.
Proof.
  intros H. unfold Options.integrate_option. rewrite plain_shared; [|exact H|now apply plain_is].
  repeat (let r := eval unfold reserved in reserved in try_prefixes f H r). reflexivity.
Qed.

(** Naming the input. *)
Definition input_of (name : text) (l : list (field * val)) : list (field * val) := (FileName, VT name) :: (ExpectFile, VB false) :: l.
Lemma name_step a name l c : names_input a name l -> c ExpectDilation = VB false -> c ExpectFile = VB true -> count_option c a = Ok (fold_left put (input_of name l) c).
Proof.
  intros [f H|f|f|f|f|f] E1 E2; [|reflexivity..]. rewrite plain_count, plain_polyhedron by exact H. now rewrite E1, E2.
Qed.
Lemma name_step2 a name l c : names_input a name l -> c ExpectDilation = VB false -> c ExpectFile = VB true -> integrate_option c a = Ok (fold_left put (input_of name l) c).
Proof.
  intros [f H|f|f|f|f|f] E1 E2; [|reflexivity..]. rewrite plain_integrate, plain_polyhedron by exact H. now rewrite E1, E2.
Qed.
Lemma scan_app step l1 : forall c l2, scan_options step c (l1 ++ l2) = bind (scan_options step c l1) (fun c' => scan_options step c' l2).
Proof. induction l1 as [|a l1 IH]; intros c l2; [reflexivity|]. cbn [scan_options app bind]. destruct (step c a) as [c'|e]; [apply IH|reflexivity]. Qed.
Definition all_settings (l : list (text * list (field * val))) : list (field * val) := flat_map snd l.
Lemma scan_help l : forall c, Forall (fun p => help (fst p) (snd p)) l -> scan_options count_option c (map fst l) = Ok (fold_left put (all_settings l) c).
Proof.
  induction l as [|[a s] l IH]; intros c F; [reflexivity|]. inversion F as [|x y H F' E1]; subst. cbn [map scan_options fst]. rewrite (help_step a s c H). cbn [bind]. rewrite (IH _ F'). unfold all_settings. cbn [flat_map snd]. now rewrite fold_left_app.
Qed.
Lemma scan_help2 l : forall c, Forall (fun p => integrate_help (fst p) (snd p)) l -> scan_options integrate_option c (map fst l) = Ok (fold_left put (all_settings l) c).
Proof.
  induction l as [|[a s] l IH]; intros c F; [reflexivity|]. inversion F as [|x y H F' E1]; subst. cbn [map scan_options fst]. rewrite (integrate_step a s c H). cbn [bind]. rewrite (IH _ F'). unfold all_settings. cbn [flat_map snd]. now rewrite fold_left_app.
Qed.
(** The variables that no documented option touches. *)
Definition internal (f : field) : bool := match f with ExpectFile | FileName | ExpectDilation | Approximate | ShortVector | MemorySave => true | _ => false end.
Lemma help_internal a l f w : help a l -> internal f = true -> ~ In (f, w) l.
Proof. clear fortytwo lidia cones_in. intros H I J. destruct H; cbn [In] in J; intuition (try congruence); match goal with E : (_, _) = (f, w) |- _ => injection E as <- <-; discriminate I end. Qed.
Lemma integrate_internal a l f w : integrate_help a l -> internal f = true -> ~ In (f, w) l.
Proof. clear fortytwo lidia cones_in. intros H I J. destruct H; [now apply (help_internal a l f w) | ..]; cbn [In] in J; intuition (try congruence); match goal with E : (_, _) = (f, w) |- _ => injection E as <- <-; discriminate I end. Qed.
Lemma name_internal a n l f w : names_input a n l -> internal f = true -> ~ In (f, w) l.
Proof. clear fortytwo lidia cones_in. intros H I J. destruct H; cbn [In] in J; intuition (try congruence); match goal with E : (_, _) = (f, w) |- _ => injection E as <- <-; discriminate I end. Qed.
Lemma settings_internal (P : text -> list (field * val) -> Prop) l f w : (forall a s, P a s -> ~ In (f, w) s) -> Forall (fun p => P (fst p) (snd p)) l -> ~ In (f, w) (all_settings l).
Proof. intros H F I. apply in_flat_map in I as ([a s] & I1 & I2). rewrite Forall_forall in F. exact (H a s (F _ I1) I2). Qed.

(** Only a file name or an --input option changes what file is read. *)
Definition keeps (c c' : config) : Prop := c' FileName = c FileName /\ c' ExpectFile = c ExpectFile.
Lemma keeps_refl c : keeps c c. Proof. split; reflexivity. Qed.
Lemma keeps_set c c' f v : keeps c c' -> f <> FileName -> f <> ExpectFile -> keeps c (set c' f v).
Proof. intros [A B] N1 N2. split; rewrite set_other by assumption; assumption. Qed.
Lemma keeps_set_int c c' f t c2 : keeps c c' -> f <> FileName -> f <> ExpectFile -> set_int c' f t = Ok c2 -> keeps c c2.
Proof. intros K N1 N2 E. unfold set_int in E. apply bind_ok in E as (z & _ & E). injection E as <-. now apply keeps_set. Qed.
Ltac keep := repeat (apply keeps_set; [|discriminate|discriminate]); apply keeps_refl.
Ltac walk E := cbv zeta in E; match type of E with (if ?b then _ else _) = _ => destruct b eqn:?; [|walk E] | _ => idtac end.
Ltac leaf E := cbv beta zeta in E; match type of E with
  | Some _ = Some _ => injection E as E; leaf E
  | Ok _ = Ok _ => injection E as <-; keep
  | Err _ = Ok _ => discriminate E
  | None = Some _ => discriminate E
  | set_int _ _ _ = Ok _ => refine (keeps_set_int _ _ _ _ _ _ _ _ E); [keep|discriminate|discriminate]
  | (if ?b then _ else _) = Ok _ => destruct b; leaf E
  | bind _ _ = Ok _ => let E' := fresh in apply bind_ok in E as (? & E' & E); leaf E
  | set _ _ _ = ?x => subst x; keep
  | ?x = ?y => subst y; keep
  end.
Lemma keeps_tri c a c' : triangulation_option cones_in c a = Some (Ok c') -> keeps c c'.
Proof. unfold triangulation_option. intros E. walk E; leaf E. Qed.
Lemma keeps_dual c a c' : dualization_option c a = Some (Ok c') -> keeps c c'.
Proof. unfold dualization_option. intros E. walk E; leaf E. Qed.
Lemma keeps_smith c a c' : smith_option c a = Some (Ok c') -> keeps c c'.
Proof. unfold smith_option. intros E. walk E; leaf E. Qed.
Lemma keeps_shared poly c a c' : shared_option cones_in poly c a = Some (Ok c') -> keeps c c'.
Proof.
  unfold shared_option. intros E. walk E; try leaf E.
  - injection E as E. apply bind_ok in E as (c1 & E1 & E). injection E as <-. apply keeps_set; [|discriminate|discriminate]. refine (keeps_set_int _ _ _ _ _ _ _ _ E1); [keep|discriminate|discriminate].
  - destruct (triangulation_option cones_in c a) as [[c1|]|] eqn:E1; [|discriminate E|].
    + injection E as <-. pose proof (keeps_tri c a c1 E1) as K. destruct (starts a "--triangulation=" 16); [|exact K]. apply keeps_set; [exact K|discriminate|discriminate].
    + destruct (dualization_option c a) as [r|] eqn:E2; [injection E as ->; exact (keeps_dual c a c' E2)|].
      destruct (smith_option c a) as [r|] eqn:E3; [injection E as ->; exact (keeps_smith c a c' E3)|]. walk E; leaf E.
Qed.
Lemma sok (x y : config) : Some (Ok x) = Some (Ok y) -> x = y. Proof. congruence. Qed.
Lemma polyhedron_names c a c' : begins a "--" -> polyhedron_option c a = Some (Ok c') -> keeps c c' \/ exists k, k <> 0%nat /\ c' FileName = VT (skipn k a).
Proof.
  intros B. assert (D : starts a "--" 2 = true) by (destruct B as [r ->]; reflexivity). unfold polyhedron_option. rewrite D. cbn [negb]. intros E.
  walk E; try (left; leaf E); right; apply sok in E; subst c'; eexists; (split; [|rewrite ?set_other by discriminate; apply set_same]); discriminate.
Qed.
Lemma count_names c a c' : begins a "--" -> count_option c a = Ok c' -> keeps c c' \/ exists k, k <> 0%nat /\ c' FileName = VT (skipn k a).
Proof.
  intros B E. unfold Options.count_option in E. destruct (shared_option cones_in _ c a) as [r|] eqn:E1; [subst r; left; exact (keeps_shared _ c a c' E1)|].
  destruct (is a "--help"); [discriminate E|]. destruct (polyhedron_option c a) as [r|] eqn:E2; [subst r; now apply polyhedron_names|discriminate E].
Qed.
Lemma adjust_name c : adjust c FileName = c FileName.
Proof.
  assert (I : forall (b : bool) k f v, f <> FileName -> (if b then set k f v else k) FileName = k FileName) by (intros [] k f v N; [now apply set_other|reflexivity]).
  unfold adjust. cbv zeta. rewrite I by discriminate. rewrite I by discriminate.
  match goal with |- (if ?b then _ else _) _ = _ => destruct b end; [rewrite I by discriminate; rewrite set_other by discriminate|]; apply I; discriminate.
Qed.
End Build.
