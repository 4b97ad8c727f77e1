(** Proofs for C84: reading lines of words. *)
From Coq Require Import QArith String Sorted.
From Verif Require Import Common Rational RationalSpec Text TextProofs LatteText LatteTextProofs LatteTextProofs2 RatVec RatVecSpec RatVecProofs CheckEmpty CheckEmptyProofs CddText CddTextSpec.
Open Scope Z_scope.

Definition good (w : text) : Prop := w <> [] /\ Forall (fun x => is_space x = false) w.
Definition white (b : text) : Prop := Forall (fun c => is_space c = true) b.
Definition breaks (s : text) : Prop := match s with c :: _ => is_space c = true | [] => False end.
(** The stream s is the words ws followed by rest. *)
Inductive toks : list text -> text -> text -> Prop :=
| toks_nil s : toks [] s s
| toks_cons b w l s rest : white b -> good w -> breaks s -> toks l s rest -> toks (w :: l) (b ++ w ++ s) rest.
Lemma skip_spaces b s : white b -> skip_space (b ++ s) = skip_space s.
Proof. induction 1 as [|c b H F IH]; [reflexivity|]. cbn [app skip_space]. now rewrite H. Qed.
Lemma breaks_nondigit s : breaks s -> nondigit s = true.
Proof. destruct s as [|c s]; [reflexivity|]. destruct c as [[] [] [] [] [] [] [] []]; intros H; first [reflexivity|discriminate H]. Qed.
Lemma tk_word w l s rest : toks (w :: l) s rest -> exists s', next_word s = (w, s') /\ toks l s' rest.
Proof.
  intros H. inversion H as [|b w0 l0 s1 rest0 W G B T]; subst. exists s1. split; [|exact T]. destruct s1 as [|c s1]; [destruct B|].
  apply next_word_app; [apply G|apply G|exact B|]. unfold same_rest. now apply skip_spaces.
Qed.
Lemma tk_int z l s rest : toks (show_Z z :: l) s rest -> int_range z = true -> exists s', read_int s = Ok (z, s') /\ toks l s' rest.
Proof.
  intros H R. inversion H as [|b w0 l0 s1 rest0 W G B T]; subst. exists s1. split; [|exact T]. apply read_int_show; [|now apply breaks_nondigit|exact R]. unfold same_rest. now apply skip_spaces.
Qed.
Lemma tk_rat q l s rest : toks (show_rat q :: l) s rest -> lowest_terms q -> exists s', read_cdd s = Ok (q, s') /\ toks l s' rest.
Proof. intros H L. destruct (tk_word _ _ _ _ H) as (s' & E & T). exists s'. split; [|exact T]. unfold read_cdd. rewrite E, (show_rat_reads q L). reflexivity. Qed.
Lemma good_Z z : good (show_Z z).
Proof. split; [destruct (show_Z_cons z) as (c & s & ->); discriminate|]. apply plain_spaces, show_Z_plain. Qed.
Lemma good_rat q : good (show_rat q).
Proof. split; [unfold show_rat; destruct (show_Z_cons (num q)) as (c & s & ->); discriminate|]. apply plain_spaces, show_rat_plain. Qed.

Lemma spaces_white b : spaces b -> white b.
Proof. apply Forall_impl. now intros c ->. Qed.
Lemma words_toks l : forall u rest, words l u -> Forall good l -> breaks rest -> toks l (u ++ rest) rest.
Proof.
  induction l as [|w l IH]; intros u rest H F B; inversion H; subst; [constructor|]. rewrite <- !app_assoc. inversion F as [|x y G F']; subst. constructor; [now apply spaces_white|exact G| |now apply IH].
  match goal with H : words l ?v |- _ => inversion H; subst end; [exact B|].
  match goal with H : spaces ?c, N : ?c <> [] |- _ => destruct c; [congruence|]; cbn [app breaks]; apply (Forall_inv (spaces_white _ H)) end.
Qed.
Lemma toks_white b l s rest : white b -> l <> [] -> toks l s rest -> toks l (b ++ s) rest.
Proof. intros W N H. destruct H; [congruence|]. rewrite app_assoc. constructor; [now apply Forall_app|assumption..]. Qed.
Lemma toks_app l1 : forall s m l2 rest, toks l1 s m -> toks l2 m rest -> toks (l1 ++ l2) s rest.
Proof. induction l1 as [|w l1 IH]; intros s m l2 rest H1 H2; inversion H1; subst; [exact H2|]. cbn [app]. constructor; [assumption..|]. now apply (IH _ m). Qed.
Lemma white_app a b : white a -> white b -> white (a ++ b)%list. Proof. intros. now apply Forall_app. Qed.
Lemma lines_toks ls : forall r z b, lines ls r -> Forall (Forall good) ls -> white b -> exists b', white b' /\ toks (concat ls) (b ++ r ++ z) (b' ++ z).
Proof.
  induction ls as [|l ls IH]; intros r z b H F W; inversion H as [|l0 ls0 t u HL HLS]; subst; [exists b; split; [exact W|constructor]|].
  destruct HL as (u0 & e & HW & HE & ->). inversion F as [|x y G F']; subst.
  assert (We : white (e ++ [newline])) by (apply white_app; [now apply spaces_white|repeat constructor]).
  destruct l as [|w l].
  - inversion HW; subst. destruct (IH u z (b ++ e ++ [newline])%list HLS F') as (b' & W' & T); [now apply white_app|]. exists b'. split; [exact W'|]. cbn [concat app] in *. repeat rewrite <- app_assoc in *. exact T.
  - destruct (IH u z (e ++ [newline])%list HLS F' We) as (b' & W' & T). exists b'. split; [exact W'|]. cbn [concat]. apply toks_app with (m := ((e ++ [newline]) ++ u ++ z)%list); [|exact T].
    apply toks_white; [exact W|discriminate|]. replace (((u0 ++ e ++ [newline]) ++ u) ++ z)%list with (u0 ++ ((e ++ [newline]) ++ u ++ z))%list by (repeat rewrite <- app_assoc; reflexivity).
    apply words_toks; [exact HW|exact G|]. destruct e as [|c e]; [reflexivity|]. cbn [app breaks]. exact (Forall_inv We).
Qed.
Lemma line_toks l t r : line l t -> Forall good l -> exists e, spaces e /\ toks l (t ++ r) ((e ++ [newline]) ++ r).
Proof.
  intros (u & e & HW & HE & ->) G. exists e. assert (We : white (e ++ [newline])) by (apply white_app; [now apply spaces_white|repeat constructor]).
  split; [exact HE|]. replace ((u ++ e ++ [newline]) ++ r)%list with (u ++ ((e ++ [newline]) ++ r))%list by (repeat rewrite <- app_assoc; reflexivity).
  apply words_toks; [exact HW|exact G|]. destruct e as [|c e]; [reflexivity|]. exact (Forall_inv We).
Qed.
(** Skipping the preamble. *)
Lemma get_line_app l r : ~ In newline l -> get_line (l ++ newline :: r) = (l, r).
Proof.
  induction l as [|c l IH]; intros N; [reflexivity|]. cbn [app get_line]. unfold is_char. destruct (Ascii.eqb_spec newline c) as [<-|_]; [exfalso; apply N; now left|]. rewrite IH by (intros I; apply N; now right). reflexivity.
Qed.
Lemma text_eqb_refl a : text_eqb a a = true.
Proof. induction a as [|c a IH]; [reflexivity|]. cbn. unfold is_char. now rewrite Ascii.eqb_refl, IH. Qed.
Lemma text_eqb_eq a : forall b, text_eqb a b = true -> a = b.
Proof. induction a as [|x a IH]; intros [|y b] H; try discriminate; [reflexivity|]. cbn in H. apply andb_prop in H as [H1 H2]. apply Ascii.eqb_eq in H1 as ->. now rewrite (IH b H2). Qed.
Lemma skip_preamble p r : preamble p -> forall f, (length p < f)%nat -> skip_begin f (p ++ lit "begin" ++ newline :: r) = Ok r.
Proof.
  intros (ls & F & ->). induction ls as [|l ls IH]; intros f L.
  - destruct f as [|f]; [cbn in L; lia|]. reflexivity.
  - inversion F as [|x y [N1 N2] F']; subst. cbn [flat_map] in *. destruct f as [|f]; [lia|]. rewrite !app_length in L. cbn [length] in L. cbn [skip_begin].
    replace (((l ++ [newline]) ++ flat_map (fun l0 => l0 ++ [newline]) ls) ++ lit "begin" ++ newline :: r)%list with (l ++ newline :: (flat_map (fun l0 => l0 ++ [newline]) ls ++ lit "begin" ++ newline :: r))%list by (repeat (rewrite <- app_assoc; cbn [app]); reflexivity).
    destruct (l ++ newline :: _)%list as [|c t] eqn:E; [destruct l; discriminate E|]. rewrite <- E, get_line_app by exact N1. destruct (text_eqb l (lit "begin")) eqn:Eb; [now apply text_eqb_eq in Eb|]. apply IH; [exact F'|lia].
Qed.
Lemma skip_file p r : preamble p -> skip_begin (S (length (p ++ lit "begin" ++ newline :: r)%list)) (p ++ lit "begin" ++ newline :: r) = Ok r.
Proof. intros P. apply skip_preamble; [exact P|]. rewrite app_length. lia. Qed.
Lemma int_nat n : int_size n -> int_range (Z.of_nat n) = true.
Proof. unfold int_size. intros H. apply int_small. lia. Qed.

(** The coordinates. *)
Lemma reach_step P c v o v' : (P = nonzero \/ P = positive) -> reachable P c v -> op_ok P (ctor_dim c) o -> rstep v o = Ok v' -> reachable P c v'.
Proof.
  intros D (C & v0 & p & E0 & F & R) O S. split; [exact C|]. exists v0, (p ++ [o])%list. split; [exact E0|]. split; [apply Forall_app; split; [exact F|now constructor]|].
  clear -R S. revert v0 R. induction p as [|a p IH]; intros v0 R; cbn [rrun app] in *; [injection R as ->; rewrite S; reflexivity|]. apply bind_ok in R as (v1 & R1 & R2). rewrite R1. cbn [bind]. now apply IH.
Qed.
Lemma read_coords_ok n lead l rest : 0 < num lead -> forall qs j v s, reachable positive (CZero n) v -> (j + length qs <= n)%nat -> Forall lowest_terms qs -> toks (map show_rat qs ++ l) s rest ->
  exists v' s', read_coords (length qs) j lead v s = Ok (v', s') /\ toks l s' rest /\ reachable positive (CZero n) v' /\
  (forall i, (i < j)%nat -> num_at v' i = num_at v i /\ den_at v' i = den_at v i) /\
  forall i, (i < length qs)%nat -> num_at v' (j + i) = num (nth i qs zero_rat) * den lead /\ den_at v' (j + i) = den (nth i qs zero_rat) * num lead.
Proof.
  intros Hl. induction qs as [|q qs IH]; intros j v s R J F T.
  - exists v, s. split; [reflexivity|]. split; [exact T|]. split; [exact R|]. split; [split; reflexivity|]. intros i Hi. cbn in Hi. lia.
  - inversion F as [|x y Lq F']; subst. cbn [map app length] in *. destruct (tk_rat q _ _ _ T Lq) as (s1 & E1 & T1). cbn [read_coords]. rewrite E1. cbn [bind].
    assert (D : positive = nonzero \/ positive = positive) by now right. destruct (reachable_inv positive (CZero n) v D R) as [IV DV]. cbn [ctor_dim] in DV.
    assert (O : op_ok positive (dim v) (RSetEntry j (num q * den lead) (den q * num lead) false)). { rewrite DV. cbn [op_ok]. split; [lia|]. unfold positive. destruct Lq as [Lq _]. nia. }
    destruct (rstep_ok positive v _ D IV O) as (v1 & E2 & IV1 & DV1). pose proof E2 as E2'. cbn [rstep] in E2. rewrite E2. cbn [bind].
    assert (R1 : reachable positive (CZero n) v1). { apply (reach_step positive (CZero n) v (RSetEntry j (num q * den lead) (den q * num lead) false)); [exact D|exact R| |exact E2']. rewrite DV in O. exact O. }
    destruct (effect_set_entry positive (CZero n) v j _ _ false v1 D R O E2') as (N1 & N2 & N3).
    destruct (IH (S j) v1 s1 R1 ltac:(lia) F' T1) as (v' & s' & E3 & T3 & R3 & K1 & K2). exists v', s'. split; [exact E3|]. split; [exact T3|]. split; [exact R3|]. split.
    + intros i Hi. destruct (K1 i ltac:(lia)) as [-> ->]. apply N3. lia.
    + intros [|i] Hi; [rewrite Nat.add_0_r; destruct (K1 j ltac:(lia)) as [-> ->]; cbn [nth]; split; assumption|]. cbn [nth]. replace (j + S i)%nat with (S j + i)%nat by lia. apply K2. cbn in Hi. lia.
Qed.
Lemma pos_num q : lowest_terms q -> (0 < value q)%Q -> 0 < num q.
Proof. intros [P _] H. unfold value, Qlt in H. cbn in H. lia. Qed.
Lemma value_quot q : 0 < den q -> (value q == inject_Z (num q) / inject_Z (den q))%Q.
Proof. intros H. unfold value. rewrite (Qmake_Qdiv (num q)). rewrite Z2Pos.id by exact H. reflexivity. Qed.
Lemma row_point n lead qs v : lowest_terms lead -> Forall lowest_terms qs -> 0 < num lead -> length qs = n -> dim v = n ->
  (forall i, (i < n)%nat -> num_at v i = num (nth i qs zero_rat) * den lead /\ den_at v i = den (nth i qs zero_rat) * num lead) -> is_point v n (lead :: qs).
Proof.
  intros [L1 _] F P Lq D H. split; [exact D|]. intros j Hj. destruct (H j Hj) as [E1 E2]. unfold coord, point_of. rewrite E1, E2. cbn [nth].
  assert (Dq : 0 < den (nth j qs zero_rat)). { rewrite Forall_forall in F. apply (F (nth j qs zero_rat)). apply nth_In. lia. }
  rewrite !value_quot by assumption. rewrite !inject_Z_mult. field. repeat split; intros E; unfold Qeq in E; cbn in E; lia.
Qed.
(** The table of vertices; it stops at the first row that begins with 0. *)
Lemma read_vertices_ok n l rest : forall rows s, Forall (fun row => length row = S n /\ Forall lowest_terms row) rows -> Forall vertex_row rows ->
  toks (concat (map (map show_rat) rows) ++ l) s rest ->
  exists vs, read_vertices (length rows) (S n) s = Ok (Some vs) /\ Forall2 (fun v row => reachable positive (CZero n) v /\ is_point v n row) vs rows.
Proof.
  induction rows as [|row rows IH]; intros s F V T; [exists []; split; [reflexivity|constructor]|]. inversion F as [|x y [Lr Fr] F']; subst. inversion V as [|x y Vr V']; subst.
  destruct row as [|lead qs]; [discriminate Lr|]. injection Lr as Lq. inversion Fr as [|x y Ll Fq]; subst. unfold vertex_row in Vr. cbn [nth] in Vr. pose proof (pos_num _ Ll Vr) as PL.
  cbn [map concat app length] in *. destruct (tk_rat lead _ _ _ T Ll) as (s1 & E1 & T1). cbn [read_vertices]. rewrite E1. cbn [bind]. rewrite (proj2 (Z.eqb_neq _ _)) by lia.
  replace (S (length qs) - 1)%nat with (length qs) by lia.
  assert (R0 : reachable positive (CZero (length qs)) (rv_zero (length qs))). { split; [cbn; unfold positive; lia|]. exists (rv_zero (length qs)), []. split; [reflexivity|]. split; [constructor|reflexivity]. }
  rewrite <- app_assoc in T1. destruct (read_coords_ok (length qs) lead _ rest PL qs 0 (rv_zero (length qs)) s1 R0 ltac:(lia) Fq T1) as (v & s2 & E2 & T2 & R2 & _ & K). rewrite E2. cbn [bind].
  destruct (IH s2 F' V' T2) as (vs & E3 & F3). rewrite E3. cbn [bind]. exists (v :: vs). split; [reflexivity|]. constructor; [|exact F3]. split; [exact R2|].
  destruct (reachable_inv positive (CZero (length qs)) v ltac:(now right) R2) as [_ DV]. apply row_point; auto.
Qed.
Lemma read_vertices_unbounded n l rest : forall rows before row after s, rows = (before ++ row :: after)%list -> Forall (fun row => length row = S n /\ Forall lowest_terms row) rows -> Forall vertex_row before ->
  num (nth 0 row zero_rat) = 0 -> toks (concat (map (map show_rat) rows) ++ l) s rest -> read_vertices (length rows) (S n) s = Ok None.
Proof.
  induction rows as [|r0 rows IH]; intros before row after s E F V Z0 T; [destruct before; discriminate E|]. inversion F as [|x y [Lr Fr] F']; subst.
  destruct r0 as [|lead qs]; [discriminate Lr|]. injection Lr as Lq. inversion Fr as [|x y Ll Fq]; subst.
  cbn [map concat app length] in *. destruct (tk_rat lead _ _ _ T Ll) as (s1 & E1 & T1). cbn [read_vertices]. rewrite E1. cbn [bind].
  destruct before as [|b before]; [injection E as <- <-; cbn [nth] in Z0; now rewrite Z0|]. injection E as <- E. inversion V as [|x y Vr V']; subst. unfold vertex_row in Vr. cbn [nth] in Vr. pose proof (pos_num _ Ll Vr) as PL.
  rewrite (proj2 (Z.eqb_neq _ _)) by lia. replace (S (length qs) - 1)%nat with (length qs) by lia.
  assert (R0 : reachable positive (CZero (length qs)) (rv_zero (length qs))). { split; [cbn; unfold positive; lia|]. exists (rv_zero (length qs)), []. split; [reflexivity|]. split; [constructor|reflexivity]. }
  rewrite <- app_assoc in T1. destruct (read_coords_ok (length qs) lead _ rest PL qs 0 (rv_zero (length qs)) s1 R0 ltac:(lia) Fq T1) as (v & s2 & E2 & T2 & R2 & _ & K). rewrite E2. cbn [bind].
  rewrite (IH before row after s2 eq_refl F' V' Z0 T2). reflexivity.
Qed.
