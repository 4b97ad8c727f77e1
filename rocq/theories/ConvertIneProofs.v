(** Proofs for C91. *)
From Coq Require Import QArith String Lqa Qfield.
From Verif Require Import Common Rational RationalSpec RationalProofs Text TextProofs LatteText LatteTextSpec LatteTextProofs LatteTextProofs2 CheckEmpty CheckEmptyProofs CddText CddTextSpec CddTextProofs ConvertIne ConvertIneSpec.
Open Scope Z_scope.

Lemma ignore_line x R : forall k, ~ In newline x -> (length x < k)%nat -> ignore k (x ++ newline :: R) = R.
Proof.
  induction x as [|c x IH]; intros k N L; (destruct k as [|k]; [cbn in L; lia|]); cbn [app ignore].
  - reflexivity.
  - assert (E : is_char newline c = false). { unfold is_char. apply Ascii.eqb_neq. intros E. apply N. left. now rewrite E. } rewrite E. apply IH; [intros X; apply N; now right|cbn in L; lia].
Qed.
(** What a word is read as. *)
Definition read_as (q : rat) (x : Q) : Prop := 0 < den q /\ lowest_terms q /\ (value q == x)%Q.
Lemma word_read w x : number_word w x -> good w /\ exists q, rat_of_text w = Ok q /\ read_as q x.
Proof.
  intros [n|n d Hd].
  - split; [apply good_Z|]. exists (mkRat n 1). split; [|split; [cbn; lia|]; split; [split; [cbn; lia|cbn; apply Z.gcd_1_r]|unfold value, inject_Z; reflexivity]].
    unfold rat_of_text. rewrite split_at_none by apply show_Z_no_slash. pose proof (to_ZZ_show n [] eq_refl) as E. rewrite app_nil_r in E. now rewrite E.
  - split.
    + destruct (good_Z n) as (N1 & G1), (good_Z d) as (_ & G2). split; [intros E; apply app_eq_nil in E as (_ & E); discriminate E|]. apply Forall_app. split; [exact G1|]. now constructor.
    + exists (rat_make n d). split.
      * unfold rat_of_text. rewrite (split_at_app (is_char "/")) by (first [apply show_Z_no_slash|reflexivity]). cbn [tl].
        pose proof (to_ZZ_show n [] eq_refl) as E. rewrite app_nil_r in E. rewrite E. cbn [bind]. pose proof (to_ZZ_show d [] eq_refl) as E2. rewrite app_nil_r in E2. rewrite E2. reflexivity.
      * destruct (canonicalize_correct n d Hd) as (L & V). split; [apply L|]. split; [exact L|exact V].
Qed.
Lemma entries_read ws row : Forall2 number_word ws row -> forall l s rest, toks (ws ++ l) s rest -> exists qs s', read_entries (length row) s = Ok (qs, s') /\ toks l s' rest /\ Forall2 read_as qs row.
Proof.
  induction 1 as [|w x ws row H F IH]; intros l s rest T; [exists [], s; split; [reflexivity|]; split; [exact T|constructor]|].
  destruct (word_read w x H) as (_ & q & E & RA). destruct (tk_word w (ws ++ l) s rest T) as (s1 & E1 & T1). destruct (IH l s1 rest T1) as (qs & s' & E2 & T2 & F2).
  exists (q :: qs), s'. split; [|split; [exact T2|now constructor]]. cbn [length read_entries]. unfold read_cdd. rewrite E1, E. cbn [bind fst snd]. now rewrite E2.
Qed.
Lemma value_div q : 0 < den q -> (value q == inject_Z (num q) / inject_Z (den q))%Q.
Proof. apply value_quot. Qed.
Lemma integral_iff q x j : read_as q x -> (integral (inject_Z j * x) <-> (den q | j)).
Proof.
  intros (D & (_ & G) & V). assert (ND : ~ (inject_Z (den q) == 0)%Q). { intros E. change 0%Q with (inject_Z 0) in E. apply (proj1 (inject_Z_injective _ _)) in E. lia. } split.
  - intros (z & E). rewrite <- V, (value_div q D) in E. assert (E1 : (inject_Z j * inject_Z (num q) == inject_Z z * inject_Z (den q))%Q). { rewrite <- E. field. exact ND. }
    rewrite <- !inject_Z_mult in E1. apply (proj1 (inject_Z_injective _ _)) in E1. apply (Z.gauss _ (num q)); [exists z; lia|]. rewrite Z.gcd_comm. exact G.
  - intros (k & ->). exists (k * num q). rewrite <- V, (value_div q D), !inject_Z_mult. field. exact ND.
Qed.
Lemma lcm_with_lcm l q : 0 < l -> 0 < den q -> lcm_with l q = Z.lcm l (den q).
Proof.
  intros Hl Hq. unfold lcm_with, Z.lcm. pose proof (Z.gcd_divide_l l (den q)) as (a & Ea). pose proof (Z.gcd_divide_r l (den q)) as (b & Eb). pose proof (Z.gcd_nonneg l (den q)) as Hg. set (g := Z.gcd l (den q)) in *. assert (g <> 0) by (intros E; rewrite E, Z.mul_0_r in Ea; lia).
  rewrite (Z.mul_comm (den q) l), Z.divide_div_mul_exact by (first [assumption|now exists b]). symmetry. apply Z.abs_eq. apply Z.mul_nonneg_nonneg; [lia|]. apply Z.div_pos; lia.
Qed.
Lemma common_from row qs : Forall2 read_as qs row -> forall l, 0 < l -> let k := fold_left lcm_with qs l in
  0 < k /\ (l | k) /\ Forall (fun q => (den q | k)) qs /\ forall j, (l | j) -> Forall (fun q => (den q | j)) qs -> (k | j).
Proof.
  induction 1 as [|q x qs row (D & L & V) F IH]; intros l Hl; cbn [fold_left].
  - split; [exact Hl|]. split; [apply Z.divide_refl|]. split; [constructor|]. intros j H _. exact H.
  - rewrite lcm_with_lcm by assumption. assert (HL : 0 < Z.lcm l (den q)). { pose proof (Z.lcm_nonneg l (den q)). assert (Z.lcm l (den q) <> 0) by (intros E; apply Z.lcm_eq_0 in E; lia). lia. }
    destruct (IH (Z.lcm l (den q)) HL) as (A & B & C & E). split; [exact A|]. split; [exact (Z.divide_trans _ _ _ (Z.divide_lcm_l _ _) B)|]. split; [constructor; [exact (Z.divide_trans _ _ _ (Z.divide_lcm_r _ _) B)|exact C]|].
    intros j H1 H2. apply E; [apply Z.lcm_least; [exact H1|exact (Forall_inv H2)]|exact (Forall_inv_tail H2)].
Qed.
Lemma common_least qs row : Forall2 read_as qs row -> least_multiplier (common_denominator qs) row.
Proof.
  intros F. destruct (common_from row qs F 1 ltac:(lia)) as (A & _ & B & C). unfold common_denominator. set (k := fold_left lcm_with qs 1) in *.
  assert (T : forall j, Forall (fun q => (den q | j)) qs <-> Forall (fun q => integral (inject_Z j * q)) row).
  { intros j. clear -F. induction F as [|q x qs row H F IH]; [split; constructor|]. rewrite !Forall_cons_iff, IH, (integral_iff q x j H). reflexivity. }
  split; [exact A|]. split; [now apply T|]. intros j H. apply C; [apply Z.divide_1_l|now apply T].
Qed.
(** The row that is written. *)
Definition out_row (qs : list rat) : list rat := map (fun q => canonicalize (mkRat (num q * common_denominator qs) (den q))) qs.
Definition scaled_row (k : Z) (row : list Q) (out : list rat) : Prop := Forall2 (fun x q => den q = 1 /\ (inject_Z (num q) == inject_Z k * x)%Q) row out.
Lemma out_scaled qs row : Forall2 read_as qs row -> scaled_row (common_denominator qs) row (out_row qs) /\ Forall lowest_terms (out_row qs).
Proof.
  intros F. destruct (common_from row qs F 1 ltac:(lia)) as (_ & _ & B & _). fold (common_denominator qs) in B. unfold out_row, scaled_row. revert B. set (k := common_denominator qs). clearbody k. intros B.
  induction F as [|q x qs row (D & L & V) F IH]; [split; constructor|]. destruct (IH (Forall_inv_tail B)) as (H1 & H2). destruct (canonicalize_correct (num q * k) (den q) ltac:(lia)) as (LT & V'). cbn [map].
  assert (ND : ~ (inject_Z (den q) == 0)%Q). { intros E. change 0%Q with (inject_Z 0) in E. apply (proj1 (inject_Z_injective _ _)) in E. lia. }
  destruct (Forall_inv B) as (b & Eb). set (c := canonicalize (mkRat (num q * k) (den q))) in *.
  assert (D1 : den c = 1).
  { destruct LT as (Dc & Gc). rewrite (value_div c Dc) in V'. assert (E : num c * den q = num q * k * den c).
    { apply (proj1 (inject_Z_injective _ _)). rewrite !(inject_Z_mult _ (den _)). assert (NC : ~ (inject_Z (den c) == 0)%Q) by (intros E; change 0%Q with (inject_Z 0) in E; apply (proj1 (inject_Z_injective _ _)) in E; lia).
      setoid_replace (inject_Z (num c)) with (inject_Z (num c) / inject_Z (den c) * inject_Z (den c))%Q by (field; exact NC). rewrite V'. field. exact ND. }
    rewrite Eb in E. assert (E2 : num c = num q * b * den c) by nia. assert (X : (den c | 1)). { rewrite <- Gc. apply Z.gcd_greatest; [exists (num q * b); lia|apply Z.divide_refl]. }
    apply Z.divide_1_r in X. lia. }
  split; [constructor; [|exact H1]|constructor; [exact LT|exact H2]]. split; [exact D1|].
  assert (VC : (value c == inject_Z (num c))%Q) by (rewrite (value_div c) by lia; rewrite D1; unfold Qdiv; change (/ inject_Z 1)%Q with 1%Q; ring). rewrite <- VC, V', <- V, (value_div q D), inject_Z_mult. field. exact ND.
Qed.
Lemma rows_converted width ws rows : Forall2 (Forall2 number_word) ws rows -> Forall (fun row => length row = width) rows -> forall l s rest, toks (concat ws ++ l) s rest ->
  exists qss, convert_rows (length rows) width s = Ok (flat_map (fun row => show_entries (map show_rat row) ++ [newline])%list (map out_row qss)) /\ Forall2 (Forall2 read_as) qss rows.
Proof.
  induction 1 as [|w row ws rows H F IH]; intros W l s rest T; [exists []; split; [reflexivity|constructor]|].
  cbn [concat] in T. rewrite <- app_assoc in T. destruct (entries_read w row H _ s rest T) as (qs & s1 & E1 & T1 & F1). destruct (IH (Forall_inv_tail W) l s1 rest T1) as (qss & E2 & F2).
  exists (qs :: qss). split; [|now constructor]. pose proof (Forall_inv W) as Lr. cbv beta in Lr. cbn [length convert_rows]. rewrite <- Lr, E1. cbn [bind fst snd]. rewrite Lr, E2. cbn [bind map flat_map]. f_equal. unfold write_row, out_row. rewrite !map_map. reflexivity.
Qed.
Lemma kind_no_newline kind : In kind [lit "integer"; lit "rational"; lit "real"] -> ~ In newline kind.
Proof. intros H X. repeat (destruct H as [<-|H]; [cbn in X; repeat (destruct X as [X|X]; [discriminate X|]); exact X|]). exact H. Qed.
Lemma spaces_no_newline b : spaces b -> ~ In newline b.
Proof. intros H X. unfold spaces in H. rewrite Forall_forall in H. discriminate (H _ X). Qed.
Lemma spaces_nondigit b s : spaces b -> b <> [] -> nondigit (b ++ s) = true.
Proof. intros H N. destruct b as [|c b]; [congruence|]. pose proof (Forall_inv H) as E. cbv beta in E. subst c. reflexivity. Qed.
Lemma file_converted p width rows t : ine_file p width rows t -> exists qss, Forall2 (Forall2 read_as) qss rows /\ convert_ine t = Ok (write_matrix (mkMatrix (map out_row qss) width (repeat false (length rows)) false)).
Proof.
  intros (W & S1 & S2 & h & kind & r & z & ws & HP & HL & HK & Lh & HR & HW & ->).
  destruct HL as (u & e & HU & HE & ->).
  inversion HU as [|b1 x1 l1 t1 B1 P1 U1 Y1 Y2]; subst. inversion U1 as [|b2 x2 l2 t2 B2 P2 U2 Y1 Y2]; subst. inversion U2 as [|b3 x3 l3 t3 B3 P3 U3 Y1 Y2]; subst. inversion U3; subst. rewrite app_nil_r in *.
  assert (GW : Forall (Forall good) ws). { clear -HW. induction HW as [|w row ws rows H F IH]; constructor; [|exact IH]. clear -H. induction H as [|a b w row H F IH]; constructor; [apply (word_read a b H)|exact IH]. }
  destruct (lines_toks ws r z [] HR GW) as (b' & _ & T); [constructor|]. cbn [app] in T.
  destruct (rows_converted width ws rows HW W [] (r ++ z) (b' ++ z)) as (qss & E & F); [rewrite app_nil_r; exact T|]. exists qss. split; [exact F|]. unfold convert_ine.
  rewrite skip_file by exact HP. repeat rewrite <- app_assoc.
  rewrite (read_int_show (Z.of_nat (length rows)) _ (b2 ++ show_nat width ++ b3 ++ kind ++ e ++ [newline] ++ r ++ z)); [|unfold same_rest; rewrite skip_spaces by (now apply spaces_white); reflexivity|now apply spaces_nondigit|now apply int_nat]. cbn [bind].
  rewrite (read_int_show (Z.of_nat width) _ (b3 ++ kind ++ e ++ [newline] ++ r ++ z)); [|unfold same_rest; rewrite skip_spaces by (now apply spaces_white); reflexivity|now apply spaces_nondigit|apply int_nat; unfold int_size; lia]. cbn [bind].
  rewrite (proj2 (Z.ltb_ge (Z.of_nat width) 0)) by lia. rewrite !Nat2Z.id.
  replace (b3 ++ kind ++ e ++ [newline] ++ r ++ z)%list with ((b3 ++ kind ++ e) ++ newline :: (r ++ z))%list by (repeat rewrite <- app_assoc; reflexivity).
  rewrite ignore_line; [|intros X; rewrite !in_app_iff in X; destruct X as [X|[X|X]]; [exact (spaces_no_newline _ P3 X)|exact (kind_no_newline _ HK X)|exact (spaces_no_newline _ HE X)]|rewrite !app_length in *; cbn [length] in Lh; lia].
  rewrite E. cbn [bind]. unfold write_matrix. cbn [mx_rows mx_cols mx_lin].
  assert (EM : forall k i, members (repeat false k) i = []) by (induction k as [|k IH]; intros i; [reflexivity|cbn [repeat members app]; apply IH]). rewrite EM, app_nil_r. rewrite map_length.
  assert (EL : length qss = length rows) by (clear -F; induction F; cbn; congruence). rewrite EL. reflexivity.
Qed.
