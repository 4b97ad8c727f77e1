(** C81, C82: the command lines of count and integrate. *)
From Coq Require Import String.
From Verif Require Import Common Rational Text LatteText Options OptionsSpec OptionsProofs.
Open Scope Z_scope.

Ltac field_neq := let E := fresh in intros E; discriminate E.
Lemma adjust_plain c : c Approximate = VB false -> c ShortVector = VE "LatteLLL" -> forall f, f <> MemorySave -> adjust c f = c f.
Proof.
  intros A S f N. unfold adjust. rewrite S. cbn [is_e String.eqb Ascii.eqb Bool.eqb andb]. cbv zeta. rewrite A. cbn [yes].
  assert (I : forall (b : bool) k, (if b then Options.set k MemorySave (VB false) else k) f = k f) by (intros [] k; [apply set_other; congruence|reflexivity]). now rewrite !I.
Qed.
(** C81, the options.  Any documented options in any order, and one input named at any place:
    the command line is accepted, that input is read, and every setting has the value given by
    the last option that sets it, or its default. *)
Theorem count_command_line : forall fortytwo lidia cones_in before after a name l,
  Forall (fun p => help (fst p) (snd p)) before -> Forall (fun p => help (fst p) (snd p)) after -> names_input a name l ->
  exists c, count_options fortytwo lidia cones_in (map fst before ++ a :: map fst after) = Ok c /\ c FileName = VT name /\
  forall f v, f <> FileName -> f <> ExpectFile -> f <> MemorySave -> holds_after (defaults fortytwo lidia) f v (flat_map snd before ++ l ++ flat_map snd after) -> c f = v.
Proof.
  intros ft li ci before after a name l F1 F2 N. set (d := defaults ft li).
  set (c1 := fold_left put (all_settings before) d). set (c2 := fold_left put (input_of name l) c1). set (c3 := fold_left put (all_settings after) c2).
  assert (K1 : forall f, internal f = true -> c1 f = d f).
  { intros f I. apply puts_untouched. intros w. apply (settings_internal help); [|exact F1]. intros x s H. now apply (help_internal x). }
  assert (K3 : forall f, internal f = true -> c3 f = c2 f).
  { intros f I. apply puts_untouched. intros w. apply (settings_internal help); [|exact F2]. intros x s H. now apply (help_internal x). }
  assert (K2 : forall f, internal f = true -> f <> FileName -> f <> ExpectFile -> c2 f = c1 f).
  { intros f I N1 N2. apply puts_untouched. intros w [E|[E|E]]; [congruence|congruence|]. exact (name_internal a name l f w N I E). }
  assert (E2 : c2 ExpectFile = VB false /\ c2 FileName = VT name).
  { unfold c2, input_of. cbn [fold_left]. rewrite !(puts_untouched l) by (intros w; apply (name_internal a name l _ w N); reflexivity). unfold put. cbn [fst snd]. split; [apply set_same|]. rewrite set_other by field_neq. apply set_same. }
  assert (R : scan_options (count_option ci) d (map fst before ++ a :: map fst after) = Ok c3).
  { rewrite scan_app, (scan_help ci before d F1). cbn [bind scan_options]. fold c1. rewrite (name_step ci a name l c1 N); [|rewrite K1 by reflexivity; reflexivity..]. cbn [bind]. apply (scan_help ci after _ F2). }
  exists (adjust c3). assert (AP : c3 Approximate = VB false) by (rewrite K3, K2, K1 by (reflexivity || field_neq); reflexivity). assert (SV : c3 ShortVector = VE "LatteLLL") by (rewrite K3, K2, K1 by (reflexivity || field_neq); reflexivity). split; [|split].
  - unfold count_options. destruct (map fst before ++ a :: map fst after) as [|x t] eqn:EL; [now destruct (map fst before)|]. fold d. rewrite R. cbn [bind]. rewrite K3 by reflexivity. destruct E2 as [-> _]. reflexivity.
  - rewrite adjust_plain; auto; [|field_neq]. rewrite K3 by reflexivity. apply E2.
  - intros f v N1 N2 N3 H. rewrite adjust_plain by auto. pose proof (puts_holds d f v _ H) as Hv. rewrite !fold_left_app in Hv. fold (all_settings before) (all_settings after) c1 in Hv. rewrite <- Hv.
    assert (EX : forall m k1 k2 g, k1 g = k2 g -> fold_left put m k1 g = fold_left put m k2 g).
    { induction m as [|p m IH]; intros k1 k2 g E; [exact E|]. cbn [fold_left]. apply IH. unfold put, set. destruct (field_beq (fst p) g); [reflexivity|exact E]. }
    unfold c3. apply EX. unfold c2, input_of. cbn [fold_left]. apply EX. unfold put. cbn [fst snd]. now rewrite !set_other by congruence.
Qed.
Print Assumptions count_command_line.
Example count_command_line_met : exists c,
  count_options false false (fun _ => Ok 1) (map lit ["--maxdet=20"; "--irrational-primal"; "cube.latte"; "--exponential"; "--maxdet=5"]%string) = Ok c /\ c FileName = VT (lit "cube.latte") /\ c MaxDet = VN 5 /\ c Decomposition = VE "IrrationalPrimalDecomposition" /\ c DilationFactor = VN 1.
Proof. eexists. split; [reflexivity|]. repeat split. Qed.
Example sample_options : names_input (lit "cube.latte") (lit "cube.latte") [] /\ help (lit "--maxdet=" ++ show_Z 20) [(MaxDet, VN 20)].
Proof.
  split; [|constructor; unfold int; lia]. constructor. intros s I [r E]. cbn [In reserved] in I. repeat (destruct I as [<-|I]; [discriminate E|]). exact I.
Qed.

(** C81, the file name.  Given alone, a name is read if and only if it does not begin with one
    of the words that also are (prefixes of) old-style options. *)
Theorem file_name_taken : forall fortytwo lidia cones_in name,
  (exists c, count_options fortytwo lidia cones_in [name] = Ok c /\ c FileName = VT name) <-> plain_name name.
Proof.
  intros ft li ci name. split.
  - intros (c & E & FN) s I [r ->]. unfold count_options in E. cbn [scan_options] in E. apply bind_ok in E as (c1 & E1 & E2).
    apply bind_ok in E1 as (c2 & E1 & E3). injection E3 as <-.
    assert (L : length (lit s ++ r) <> 0%nat). { clear -I. cbn [In reserved] in I. repeat (destruct I as [<-|I]; [discriminate|]). destruct I. }
    assert (X : c2 ExpectFile = VB true \/ exists k, k <> 0%nat /\ c2 FileName = VT (skipn k (lit s ++ r))).
    { cbn [In reserved] in I. destruct I as [<-|I].
      - destruct (count_names ci (defaults ft li) (lit "--" ++ r) c2 (ex_intro _ r eq_refl) E1) as [[_ K]|K]; [left; exact K|right; exact K].
      - left. repeat (destruct I as [<-|I]; [cbv -[atoi Options.set atol defaults] in E1; first [discriminate E1|injection E1 as <-; repeat rewrite set_other by field_neq; reflexivity]|]). destruct I. }
    destruct X as [X|(k & Nk & X)]; [now rewrite X in E2|]. destruct (yes (c2 ExpectFile)); [discriminate E2|]. injection E2 as <-. rewrite adjust_name, X in FN. injection FN as FN.
    apply (f_equal (@length _)) in FN. rewrite skipn_length in FN. lia.
  - intros P. destruct (count_command_line ft li ci [] [] name name [] ltac:(constructor) ltac:(constructor) (n_file name P)) as (c & E & FN & _). exists c. split; assumption.
Qed.
Print Assumptions file_name_taken.
Example file_names : plain_name (lit "cube.latte") /\ plain_name (lit "./unit.latte") /\ ~ plain_name (lit "unit.latte").
Proof.
  split; [|split]; [| |intros H; apply (H "uni"%string); [cbn; tauto|exists (lit "t.latte"); reflexivity]];
  intros s I [r E]; cbn [In reserved] in I; repeat (destruct I as [<-|I]; [discriminate E|]); exact I.
Qed.

(** C81, rejections: an argument that begins with two dashes and with none of the words listed
    here is an error wherever it stands; so is a command line without an input, and one with a
    further file name. *)
Definition accepted : list string := ["--nod"; "--no-de"; "--exp"; "--poly"; "--maxdet="; "--irr"; "--all"; "--dual"; "--count"; "--multi"; "--ehrhart-p"; "--ehrhart-s"; "--simplified-e"; "--ehrhart-taylor="; "--avoid"; "--triangulation="; "--triangulation-max-height="; "--nonsimp"; "--triangulation-bias="; "--special-cone="; "--debug-triangulation"; "--dualization="; "--smith-form="; "--appro"; "--sampling-factor="; "--num-samples="; "--random-seed="; "--help"; "--dilation="; "--interior"; "--vrep"; "--homog"; "--cdd"; "--input-primal-homog-cone="; "--input-dual-homog-cone="; "--subcones="; "--input-primal-homog-cones="; "--input-dual-homog-cones="; "--input-vertex-cones="; "--compute-vertex-cones="; "--redundancy-check="]%string.
Lemma dashes_first x a s n : begins a "--" -> firstn 1 (lit s) = [x] -> is_char "-" x = false -> (1 <= n)%nat -> starts a s n = false.
Proof.
  intros [r ->] E N L. unfold starts. destruct (lit s) as [|y t]; [discriminate E|]. injection E as ->. destruct n as [|n]; [lia|]. unfold is_char in *. cbn in *. rewrite N. reflexivity.
Qed.
Definition known (s : string) (n : nat) : bool :=
  existsb (fun p => (length (lit p) <=? n)%nat && text_eqb (firstn (length (lit p)) (lit s)) (lit p)) accepted || match lit s with x :: _ => negb (is_char "-" x) && (1 <=? n)%nat | [] => false end.
Lemma not_started a s n : begins a "--" -> (forall p, In p accepted -> ~ begins a p) -> known s n = true -> starts a s n = false.
Proof.
  intros B H K. apply orb_prop in K as [K|K].
  - apply existsb_exists in K as (p & I & K). apply andb_prop in K as [K1 K2]. apply Nat.leb_le in K1. apply text_eqb_true in K2. exact (no_start a p s n (H p I) K1 K2).
  - destruct (lit s) as [|x t] eqn:E; [discriminate K|]. apply andb_prop in K as [K1 K2]. apply Nat.leb_le in K2. apply (dashes_first x); [exact B|now rewrite E|now destruct (is_char "-" x)|exact K2].
Qed.
Lemma not_equal a s : begins a "--" -> (forall p, In p accepted -> ~ begins a p) -> known s 100 = true -> is a s = false.
Proof.
  intros B H K. destruct (is a s) eqn:E; [|reflexivity]. apply text_eqb_true in E. rewrite <- (not_started a s 100 B H K). unfold starts. rewrite <- E. symmetry. clear. generalize 100%nat.
  induction a as [|x a IH]; intros [|k]; try reflexivity. cbn. rewrite (IH k). unfold is_char. now rewrite Ascii.eqb_refl.
Qed.
Ltac drop_tests a B H := repeat match goal with
  | |- context [starts a ?s ?n] => rewrite (not_started a s n B H eq_refl)
  | |- context [is a ?s] => rewrite (not_equal a s B H eq_refl) end.
Lemma unknown_step ci c a : begins a "--" -> (forall s, In s accepted -> ~ begins a s) -> count_option ci c a = Err Thrown.
Proof.
  intros B H. assert (D : starts a "--" 2 = true) by (destruct B as [r ->]; reflexivity). unfold count_option, shared_option, triangulation_option, dualization_option, smith_option, polyhedron_option. cbv beta zeta. rewrite D.
  drop_tests a B H. reflexivity.
Qed.
Theorem unknown_options_rejected : forall fortytwo lidia cones_in l1 a l2, begins a "--" -> (forall s, In s accepted -> ~ begins a s) ->
  forall c, count_options fortytwo lidia cones_in (l1 ++ a :: l2) <> Ok c.
Proof.
  intros ft li ci l1 a l2 B H c E. unfold count_options in E. destruct (l1 ++ a :: l2) as [|x t] eqn:EL; [discriminate E|]. rewrite <- EL in E. rewrite scan_app in E. cbn [scan_options] in E.
  destruct (scan_options (count_option ci) (defaults ft li) l1) as [c1|e]; [|discriminate E]. cbn [bind] in E. rewrite (unknown_step ci c1 a B H) in E. discriminate E.
Qed.
Print Assumptions unknown_options_rejected.
Example unknown_option_met : begins (lit "--verbose") "--" /\ forall s, In s accepted -> ~ begins (lit "--verbose") s.
Proof.
  split; [exists (lit "verbose"); reflexivity|]. intros s I [r E]. cbn [In accepted] in I. repeat (destruct I as [<-|I]; [discriminate E|]). exact I.
Qed.
Theorem input_missing_or_repeated : forall fortytwo lidia cones_in opts,
  Forall (fun p => help (fst p) (snd p)) opts -> count_options fortytwo lidia cones_in (map fst opts) = Err Thrown /\
  forall a name l second, names_input a name l -> plain_name second -> count_options fortytwo lidia cones_in (map fst opts ++ [a; second]) = Err Thrown.
Proof.
  intros ft li ci opts F. set (d := defaults ft li). set (c1 := fold_left put (all_settings opts) d).
  assert (K1 : forall f, internal f = true -> c1 f = d f).
  { intros f I. apply puts_untouched. intros w. apply (settings_internal help); [|exact F]. intros x s H. now apply (help_internal x). }
  split.
  - unfold count_options. destruct (map fst opts) as [|x t] eqn:EL; [reflexivity|]. rewrite <- EL. fold d. rewrite (scan_help ci opts d F). cbn [bind]. fold c1. now rewrite K1.
  - intros a name l second N P. unfold count_options. destruct (map fst opts ++ [a; second]) as [|x t] eqn:EL; [now destruct (map fst opts)|]. rewrite <- EL. fold d.
    rewrite scan_app, (scan_help ci opts d F). cbn [bind scan_options]. fold c1. rewrite (name_step ci a name l c1 N); [|rewrite K1 by reflexivity; reflexivity..]. cbn [bind].
    rewrite (plain_count ci _ _ P), (plain_polyhedron ci _ _ P).
    assert (E1 : fold_left put (input_of name l) c1 ExpectDilation = VB false).
    { rewrite puts_untouched; [now rewrite K1|]. intros w [X|[X|X]]; [discriminate X|discriminate X|]. exact (name_internal a name l ExpectDilation w N eq_refl X). }
    assert (E2 : fold_left put (input_of name l) c1 ExpectFile = VB false).
    { unfold input_of. cbn [fold_left]. rewrite (puts_untouched l) by (intros w; apply (name_internal a name l _ w N); reflexivity). unfold put. apply set_same. }
    now rewrite E1, E2.
Qed.
Print Assumptions input_missing_or_repeated.

(** C81, refuted.  The statement that each documented option works, that only documented options
    are accepted, that numbers are checked, and that an input named twice is an error. *)
Theorem command_line_refuted : forall fortytwo lidia cones_in, let run l := count_options fortytwo lidia cones_in (map lit l) in
  (* --interior, which the help lists, always throws *)
  (forall c, count_option cones_in c (lit "--interior") = Err Thrown) /\
  (* names of files that are taken for options *)
  (forall r, count_options fortytwo lidia cones_in [lit "uni" ++ r]%list = Err Thrown) /\
  (exists c, run ["unit.latte"; "cube.latte"]%string = Ok c /\ c FileName = VT (lit "cube.latte") /\ c AssumeUnimodular = VB true) /\
  (* mistyped options that select another method *)
  (forall r, exists c, count_options fortytwo lidia cones_in [lit "--irrelevant" ++ r; lit "cube.latte"]%list = Ok c /\ c Decomposition = VE "IrrationalPrimalDecomposition") /\
  (* a number that is none switches the decomposition off *)
  (exists c, run ["--maxdet=many"; "cube.latte"]%string = Ok c /\ c MaxDet = VN 0) /\
  (* two inputs: an error in one order, not in the other *)
  run ["--input-vertex-cones=v"; "cube.latte"]%string = Err Thrown /\
  (exists c, run ["cube.latte"; "--input-vertex-cones=v"]%string = Ok c /\ c FileName = VT (lit "v")).
Proof.
  intros ft li ci run. unfold run. split; [reflexivity|]. split; [reflexivity|]. split; [eexists; split; [reflexivity|split; reflexivity]|]. split; [intros r; eexists; split; reflexivity|].
  split; [eexists; split; reflexivity|]. split; [reflexivity|]. eexists; split; reflexivity.
Qed.
Print Assumptions command_line_refuted.

(** C82.  integrate: what is asked for. *)
Inductive integrand := LinearForms | Products | Polynomial.
Inductive job := Volume | Integral (k : integrand) | TopCoefficients.
Definition job_of (c : config) : option job :=
  if yes (c ValVolume) then Some Volume
  else if yes (c ValIntegrate) then
    if is_e (c Integrand) "inputLinearForm" then Some (Integral LinearForms) else if is_e (c Integrand) "inputProductLinearForm" then Some (Integral Products)
    else if is_e (c Integrand) "inputPolynomial" then Some (Integral Polynomial) else None
  else if yes (c ValEhrhart) then Some TopCoefficients else None.
(** The methods the help describes: "tangent cones", "over a triangulation", both by default. *)
Definition methods (j : job) (cones triangulation : bool) (m : method) : Prop :=
  match j with
  | Volume => m = VolumeCone /\ (cones = true \/ triangulation = false) \/ m = VolumeTriangulation /\ (triangulation = true \/ cones = false)
  | Integral LinearForms => m = FormsCone /\ (cones = true \/ triangulation = false) \/ m = FormsTriangulation /\ (triangulation = true \/ cones = false)
  | Integral Polynomial => m = PolynomialCone /\ (cones = true \/ triangulation = false) \/ m = PolynomialTriangulation /\ (triangulation = true \/ cones = false) \/ m = PolynomialAsProducts /\ cones = false /\ triangulation = false
  | Integral Products => m = ProductsTriangulation
  | TopCoefficients => m = TopEhrhart
  end.
Definition plf_unset (l : list (field * val)) : Prop := forall w, ~ In (AsPLF, w) l.
Lemma integrate_no_plf a l w : integrate_help a l -> ~ In (AsPLF, w) l.
Proof. intros H J. destruct H as [a l H| | | | | | | | | | | | |]; [destruct H|..]; cbn [In] in J; intuition congruence. Qed.
Lemma name_no_plf a n l w : names_input a n l -> ~ In (AsPLF, w) l.
Proof. intros H J. destruct H; cbn [In] in J; intuition congruence. Qed.

(** Any documented options in any order with one input, one value asked for, and for an
    integral an integrand: the settings are those of the last options, and exactly the methods
    asked for are run, unless both --cone-decompose and --triangulate are given. *)
Theorem integrate_command_line : forall fortytwo lidia cones_in before after a name l,
  Forall (fun p => integrate_help (fst p) (snd p)) before -> Forall (fun p => integrate_help (fst p) (snd p)) after -> names_input a name l ->
  let settings := (flat_map snd before ++ l ++ flat_map snd after)%list in
  let start := set (defaults fortytwo lidia) Decomposition (VE "IrrationalAllPrimalDecomposition") in
  forall cfg, (forall f, holds_after start f (cfg f) settings) ->
  forall j, job_of cfg = Some j ->
  exists c ms, integrate_options fortytwo lidia cones_in (map fst before ++ a :: map fst after) = Ok (c, ms) /\ c FileName = VT name /\
  (forall f, f <> FileName -> f <> ExpectFile -> f <> MemorySave -> f <> Homogenize -> f <> Integrand -> c f = cfg f) /\
  (c Integrand = if yes (cfg ValVolume) then VE "inputVolume" else cfg Integrand) /\
  (yes (cfg UseCones) && yes (cfg UseTriangulation) = false -> forall m, In m ms <-> methods j (yes (cfg UseCones)) (yes (cfg UseTriangulation)) m) /\
  (* cones are computed when some method needs them, or none was excluded *)
  (c Homogenize = VB (negb (existsb is_cone_method ms || negb (yes (cfg UseTriangulation)) || yes (cfg UseCones)))).
Proof.
  intros ft li ci before after a name l F1 F2 N settings start cfg HC j HJ. change start with (integrate_defaults ft li) in *. set (d := integrate_defaults ft li) in *.
  set (c1 := fold_left put (all_settings before) d). set (c2 := fold_left put (input_of name l) c1). set (c3 := fold_left put (all_settings after) c2).
  assert (K1 : forall f, internal f = true -> c1 f = d f).
  { intros f I. apply puts_untouched. intros w. apply (settings_internal integrate_help); [|exact F1]. intros x s H. now apply (integrate_internal x). }
  assert (K3 : forall f, internal f = true -> c3 f = c2 f).
  { intros f I. apply puts_untouched. intros w. apply (settings_internal integrate_help); [|exact F2]. intros x s H. now apply (integrate_internal x). }
  assert (K2 : forall f, internal f = true -> f <> FileName -> f <> ExpectFile -> c2 f = c1 f).
  { intros f I N1 N2. apply puts_untouched. intros w [E|[E|E]]; [congruence|congruence|]. exact (name_internal a name l f w N I E). }
  assert (E2 : c2 ExpectFile = VB false /\ c2 FileName = VT name).
  { unfold c2, input_of. cbn [fold_left]. rewrite !(puts_untouched l) by (intros w; apply (name_internal a name l _ w N); reflexivity). unfold put. cbn [fst snd]. split; [apply set_same|]. rewrite set_other by field_neq. apply set_same. }
  assert (R : scan_options (integrate_option ci) d (map fst before ++ a :: map fst after) = Ok c3).
  { rewrite scan_app, (scan_help2 ci before d F1). cbn [bind scan_options]. fold c1. rewrite (name_step2 ci a name l c1 N); [|rewrite K1 by reflexivity; reflexivity..]. cbn [bind]. apply (scan_help2 ci after _ F2). }
  assert (AP : c3 Approximate = VB false) by (rewrite K3, K2, K1 by (reflexivity || field_neq); reflexivity). assert (SV : c3 ShortVector = VE "LatteLLL") by (rewrite K3, K2, K1 by (reflexivity || field_neq); reflexivity).
  assert (V : forall f, f <> FileName -> f <> ExpectFile -> c3 f = cfg f).
  { intros f N1 N2. pose proof (puts_holds d f _ _ (HC f)) as Hv. unfold settings in Hv. rewrite !fold_left_app in Hv. fold (all_settings before) (all_settings after) c1 in Hv. rewrite <- Hv.
    assert (EX : forall m k1 k2 g, k1 g = k2 g -> fold_left put m k1 g = fold_left put m k2 g).
    { induction m as [|p m IH]; intros k1 k2 g E; [exact E|]. cbn [fold_left]. apply IH. unfold put, set. destruct (field_beq (fst p) g); [reflexivity|exact E]. }
    unfold c3. apply EX. unfold c2, input_of. cbn [fold_left]. apply EX. unfold put. cbn [fst snd]. now rewrite !set_other by congruence. }
  assert (PL : cfg AsPLF = VB false).
  { rewrite <- V by field_neq. unfold c3. rewrite puts_untouched by (intros w; apply (settings_internal integrate_help); [intros x s H; now apply (integrate_no_plf x)|exact F2]).
    unfold c2, input_of. cbn [fold_left]. rewrite puts_untouched by (intros w; now apply (name_no_plf a name)). unfold put. cbn [fst snd]. rewrite !set_other by field_neq.
    unfold c1. rewrite puts_untouched by (intros w; apply (settings_internal integrate_help); [intros x s H; now apply (integrate_no_plf x)|exact F1]). reflexivity. }
  unfold integrate_options. destruct (map fst before ++ a :: map fst after) as [|x t] eqn:EL; [now destruct (map fst before)|]. fold d. rewrite R. cbn [bind].
  assert (NJ : negb (yes (c3 ValEhrhart)) && negb (yes (c3 ValIntegrate)) && negb (yes (c3 ValVolume)) = false).
  { rewrite !V by field_neq. unfold job_of in HJ. destruct (yes (cfg ValVolume)), (yes (cfg ValIntegrate)), (yes (cfg ValEhrhart)); try reflexivity. discriminate HJ. }
  rewrite NJ. destruct (process_user_input c3) as [c4 ms] eqn:EP.
  assert (C4 : (forall f, f <> Integrand -> c4 f = c3 f) /\ c4 Integrand = (if yes (cfg ValVolume) then VE "inputVolume" else cfg Integrand)).
  { unfold process_user_input in EP. rewrite !V in EP by field_neq. destruct (yes (cfg ValVolume)).
    - injection EP as <- _. split; [intros f Nf; apply set_other; congruence|apply set_same].
    - injection EP as <- _. split; [reflexivity|apply V; field_neq]. }
  destruct C4 as [C4 CI]. set (c5 := set c4 Homogenize _). assert (EF : c5 ExpectFile = VB false). { unfold c5. rewrite set_other by field_neq. rewrite C4 by field_neq. rewrite K3 by reflexivity. apply E2. }
  rewrite EF. cbn [yes]. exists (adjust c5), ms. split; [reflexivity|].
  assert (A5 : forall f, f <> MemorySave -> adjust c5 f = c5 f).
  { apply adjust_plain; unfold c5; rewrite set_other by field_neq; rewrite C4 by field_neq; assumption. }
  split; [|split; [|split; [|split]]].
  - rewrite A5 by field_neq. unfold c5. rewrite set_other, C4, K3 by (reflexivity || field_neq). apply E2.
  - intros f N1 N2 N3 N4 N5. rewrite A5 by assumption. unfold c5. rewrite set_other by congruence. rewrite C4 by assumption. now apply V.
  - rewrite A5 by field_neq. unfold c5. rewrite set_other by field_neq. exact CI.
  - intros NB m. unfold process_user_input in EP. rewrite !V in EP by field_neq. rewrite PL in EP. unfold job_of in HJ. destruct (yes (cfg ValVolume)).
    + injection HJ as <-. injection EP as _ <-. unfold methods. destruct (yes (cfg UseCones)), (yes (cfg UseTriangulation)); try discriminate NB; cbn [In]; intuition congruence.
    + injection EP as _ <-. destruct (yes (cfg ValIntegrate)).
      * destruct (is_e (cfg Integrand) "inputLinearForm"); [|destruct (is_e (cfg Integrand) "inputProductLinearForm"); [|destruct (is_e (cfg Integrand) "inputPolynomial"); [|discriminate HJ]]];
        injection HJ as <-; unfold methods; cbn [yes]; destruct (yes (cfg UseCones)), (yes (cfg UseTriangulation)); try discriminate NB; cbn [In]; intuition congruence.
      * destruct (yes (cfg ValEhrhart)); [|discriminate HJ]. injection HJ as <-. cbn [In methods]. intuition congruence.
  - rewrite A5 by field_neq. unfold c5. rewrite set_same. f_equal. f_equal. rewrite !C4, !V by field_neq. destruct (existsb is_cone_method ms), (yes (cfg UseCones)), (yes (cfg UseTriangulation)); reflexivity.
Qed.
Print Assumptions integrate_command_line.
Example integrate_met : exists c,
  integrate_options false false (fun _ => Ok 1) (map lit ["--valuation=integrate"; "cube.latte"; "--triangulate"; "--linear-forms=f.txt"]%string) = Ok (c, [FormsTriangulation]) /\ c FileName = VT (lit "cube.latte") /\
  c Homogenize = VB true /\ integrand_source c = FromFile (lit "f.txt").
Proof. eexists. split; [reflexivity|]. split; [reflexivity|split; reflexivity]. Qed.

(** C82, refuted: asking for both methods runs one; a value that does not exist is ignored; the
    first of two values asked for is dropped; and whether integrate asks for a missing
    integrand depends on a variable that was never initialised. *)
Theorem integrate_command_line_refuted : forall fortytwo lidia cones_in, let run l := integrate_options fortytwo lidia cones_in (map lit l) in
  (exists c, run ["--valuation=volume"; "--cone-decompose"; "--triangulate"; "cube.latte"]%string = Ok (c, [VolumeCone])) /\
  (exists c ms, run ["--valuation=volume"; "--valuation=surface"; "cube.latte"]%string = Ok (c, ms)) /\
  (exists c, run ["--valuation=integrate"; "--monomials=f"; "--valuation=volume"; "cube.latte"]%string = Ok (c, [VolumeCone; VolumeTriangulation])) /\
  (exists c ms, run ["--valuation=integrate"; "cube.latte"]%string = Ok (c, ms) /\ integrand_source c = Undefined).
Proof.
  intros ft li ci run. unfold run. split; [eexists; reflexivity|]. split; [eexists _, _; reflexivity|]. split; [eexists; reflexivity|]. eexists _, _. split; reflexivity.
Qed.
Print Assumptions integrate_command_line_refuted.
(** The integrand is read from the file named last, whatever else is given. *)
Theorem integrand_from_file : forall c f k, c Integrand = VE k -> c IntegrandFile = VT f -> k <> "nothing"%string -> k <> "inputVolume"%string -> integrand_source c = FromFile f.
Proof. intros c f k E F N1 N2. unfold integrand_source, is_e. rewrite E, F. destruct (String.eqb_spec k "inputVolume"); [contradiction|]. destruct (String.eqb_spec k "nothing"); [contradiction|reflexivity]. Qed.
Print Assumptions integrand_from_file.
