(** Subcone files: lemmas. *)
From Coq Require Import String Decimal DecimalFacts DecimalPos.
From Verif Require Import Common Text TextProofs LatteText LatteTextProofs Subcones SubconesSpec.
Open Scope Z_scope.

(** ** Numbers of at most 16 digits *)
Lemma acc_big u : forall a, Zpos a * 10 ^ Z.of_nat (length (digit_chars u)) <= Zpos (Pos.of_uint_acc u a).
Proof.
  induction u; intros a; cbn [digit_chars length Pos.of_uint_acc]; [cbn; lia|..]; rewrite Nat2Z.inj_succ, Z.pow_succ_r by lia; match goal with |- _ <= Zpos (Pos.of_uint_acc _ ?b) => pose proof (IHu b) as H; assert (Zpos a * 10 <= Zpos b) by lia; assert (0 < 10 ^ Z.of_nat (length (digit_chars u))) by lia; nia end.
Qed.
Lemma to_uint_head p u : Pos.to_uint p <> D0 u.
Proof.
  intros E. pose proof (DecimalPos.Unsigned.to_of (Pos.to_uint p)) as T. rewrite DecimalPos.Unsigned.of_to in T. cbn [N.to_uint] in T. rewrite E in T. unfold unorm in T. destruct (nzhead (D0 u)) eqn:Z; try discriminate T; [|now apply (nzhead_nonzero (D0 u) u0)].
  injection T as ->. pose proof (DecimalPos.Unsigned.of_to p) as P. rewrite E in P. discriminate P.
Qed.
Lemma show_short z : 0 <= z < 10 ^ 16 -> (length (show_Z z) <= 16)%nat.
Proof.
  intros H. destruct z as [|p|p]; [vm_compute; lia| |lia]. unfold show_Z. cbn [Z.to_int]. pose proof (DecimalPos.Unsigned.of_to p) as P. destruct (Pos.to_uint p) as [|u|u|u|u|u|u|u|u|u|u] eqn:E; [cbn; lia|exfalso; exact (to_uint_head p u E)|..];
    cbn [Pos.of_uint] in P; injection P as P; cbn [digit_chars length]; match type of P with Pos.of_uint_acc u ?a = p => pose proof (acc_big u a) as B end; rewrite P in B;
    (destruct (Nat.le_gt_cases (length (digit_chars u)) 15) as [L|L]; [lia|]); assert (10 ^ 16 <= 10 ^ Z.of_nat (length (digit_chars u))) by (apply Z.pow_le_mono_r; lia); lia.
Qed.
(** ** Reading numbers *)
Lemma spaced_nondigit t : spaced t -> nondigit t = true.
Proof. intros (c & t' & -> & H). cbn [nondigit]. destruct (is_digit c) eqn:E; [|reflexivity]. destruct (digit_not c E). congruence. Qed.
Lemma skip_blanks b s : blanks b -> skip_space (b ++ s) = skip_space s.
Proof. intros H. induction H as [|c b Hc H IH]; [reflexivity|]. cbn [app skip_space]. now rewrite Hc. Qed.
Lemma get_number u z l t r : numbers (z :: l) t r -> int_range z = true -> exists t', get_int u (t, true) = (z, (t', true)) /\ numbers l t' r.
Proof.
  intros H R. inversion H as [|b z' l' t' u' B S0 N]; subst. exists t'. split; [|exact N]. unfold get_int. rewrite (skip_blanks b _ B), skip_show_Z.
  destruct (show_Z_cons z) as (c & s & E). rewrite E. cbn [app]. change (c :: (s ++ t')%list) with ((c :: s) ++ t')%list. rewrite <- E, (read_signed_show z t' (spaced_nondigit t' S0)), R. destruct S0 as (c' & s' & -> & _). reflexivity.
Qed.
Lemma get_none u t : blanks t -> get_int u (t, true) = (u, ([], false)).
Proof. intros H. unfold get_int. rewrite <- (app_nil_r t), (skip_blanks t [] H). reflexivity. Qed.
Lemma get_no_number u t : no_number t -> exists x f, get_int u (t, true) = (x, f) /\ snd f = false.
Proof.
  intros [B|(b & c & t' & B & -> & SP & DG & M & P)]; [exists u, ([], false); split; [now apply get_none|reflexivity]|]. exists 0, (c :: t', false). split; [|reflexivity]. unfold get_int. rewrite (skip_blanks b (c :: t') B). cbn [skip_space]. rewrite SP.
  assert (R : read_signed (c :: t') = None).
  { unfold read_signed, is_char. destruct (Ascii.eqb_spec "-" c) as [E|_]; [congruence|]. destruct (Ascii.eqb_spec "+" c) as [E|_]; [congruence|]. cbn [take_digits]. unfold is_digit in DG. destruct (digit_of c); [discriminate|reflexivity]. }
  now rewrite R.
Qed.
Lemma bit_range b : int_range (bit b) = true. Proof. now destruct b. Qed.
Lemma read_bits_ok u row : forall l t r, numbers (map bit row ++ l) t r -> exists t', read_bits u (length row) (t, true) = Ok (row, (t', true)) /\ numbers l t' r.
Proof.
  induction row as [|b row IH]; intros l t r H; [exists t; split; [reflexivity|exact H]|]. cbn [map app length] in H |- *. destruct (get_number u _ _ _ _ H (bit_range b)) as (t1 & G & N). destruct (IH l t1 r N) as (t2 & E & N2). exists t2. split; [|exact N2].
  cbn [read_bits]. rewrite G. cbv beta iota. rewrite E. now destruct b.
Qed.
Lemma pick_ok rs : forall i ind acc r, (length ind = length rs) -> (In r (pick (Z.of_nat i) rs ind acc) <-> In r acc \/ exists j, (j < length rs)%nat /\ nth j ind false = true /\ r = mkRay (vector (nth j rs (mkRay [] 0))) (Z.of_nat (i + j))).
Proof.
  induction rs as [|x rs IH]; intros i ind acc r L; destruct ind as [|b ind]; try discriminate L; cbn [pick]; [split; [auto|intros [H|(j & H & _)]; [exact H|cbn in H; lia]]|]. injection L as L.
  replace (Z.of_nat i + 1) with (Z.of_nat (S i)) by lia. rewrite (IH (S i) ind _ r L). split.
  - intros [H|(j & J & B & ->)]; [|right; exists (S j); split; [cbn; lia|]; split; [exact B|]; cbn [nth]; f_equal; lia]. destruct b; [|left; exact H]. destruct H as [<-|H]; [|left; exact H]. right. exists 0%nat. split; [cbn; lia|]. split; [reflexivity|]. cbn [nth]. f_equal. lia.
  - intros [H|(j & J & B & ->)]; [left; destruct b; [now right|exact H]|]. destruct j as [|j]; cbn [nth] in *; [left; rewrite B; left; f_equal; lia|]. right. exists j. split; [cbn in J; lia|]. split; [exact B|]. f_equal. lia.
Qed.
Lemma pick_nodup rs : forall i ind acc, NoDup acc -> Forall (fun r => hint r < i) acc -> NoDup (pick i rs ind acc).
Proof.
  induction rs as [|x rs IH]; intros i ind acc N F; destruct ind as [|b ind]; cbn [pick]; auto. apply IH; destruct b; auto.
  - constructor; [|exact N]. intros H. rewrite Forall_forall in F. specialize (F _ H). cbn in F. lia.
  - constructor; [cbn; lia|]. eapply Forall_impl; [|exact F]. cbv beta. intros; lia.
  - eapply Forall_impl; [|exact F]. cbv beta. intros; lia.
Qed.
Lemma read_cones_ok {V} u (master : cone V) rows : forall i l t r, Forall (fun row => length row = length (rays master)) rows -> numbers (concat (map (map bit) rows) ++ l) t r ->
  exists cs, read_cones u master (length rows) (Z.of_nat i) (t, true) = Ok cs /\ length cs = length rows /\
  forall j c, nth_error cs j = Some c -> vertex c = vertex master /\ cone_hint c = Z.of_nat (i + j) /\ selects (rays master) (nth j rows []) (rays c).
Proof.
  induction rows as [|row rows IH]; intros i l t r F N; [exists []; split; [reflexivity|]; split; [reflexivity|]; intros [|j] c; discriminate|].
  inversion_clear F as [|? ? L F']. cbn [map concat] in N. rewrite <- app_assoc in N. destruct (read_bits_ok u row _ t r N) as (t1 & E & N1). destruct (IH (S i) l t1 r F' N1) as (cs & EC & LC & HC).
  exists (cone_from_indicator master row (Z.of_nat i) :: cs). split; [|split; [cbn; now rewrite LC|]].
  - cbn [length read_cones]. rewrite <- L, E. cbn [bind check_stream snd]. replace (Z.of_nat i + 1) with (Z.of_nat (S i)) by lia. rewrite EC. reflexivity.
  - intros [|j] c H; cbn [nth_error] in H.
    + injection H as <-. cbn [cone_from_indicator vertex cone_hint rays nth]. split; [reflexivity|]. split; [f_equal; lia|]. split; [apply pick_nodup; constructor|]. intros x. rewrite (pick_ok (rays master) 0 row [] x L). cbn [In Nat.add]. split; [intros [[]|H]; exact H|auto].
    + destruct (HC j c H) as (A & B & C). split; [exact A|]. split; [rewrite B; f_equal; lia|exact C].
Qed.
Lemma read_file_ok {V} u (master : cone V) N rows l t r : numbers (N :: Z.of_nat (length (rays master)) :: concat (map (map bit) rows) ++ l) t r -> int_range N = true -> int_range (Z.of_nat (length (rays master))) = true ->
  Z.to_nat N = length rows -> Forall (fun row => length row = length (rays master)) rows -> exists cs, read_subcones u master t = Ok cs /\ listed master rows cs.
Proof.
  intros H R1 R2 EN F. destruct (get_number u _ _ _ _ H R1) as (t1 & G1 & N1). destruct (get_number u _ _ _ _ N1 R2) as (t2 & G2 & N2). destruct (read_cones_ok u master rows 0 l t2 r F N2) as (cs & E & L & P).
  exists cs. split; [|split; [exact L|exact P]]. unfold read_subcones. rewrite G1. rewrite G2. cbn [check_stream snd bind]. rewrite Z.eqb_refl, EN. exact E.
Qed.
(** ** Bad files *)
Lemma read_bits_bad u k : forall f, snd f = false -> read_bits u k f = Err Exited \/ exists l, read_bits u k f = Ok (l, f).
Proof.
  induction k as [|k IH]; intros f B; [right; now exists []|]. cbn [read_bits]. assert (G : get_int u f = (u, f)) by (destruct f as [t g]; cbn in B; subst g; reflexivity). rewrite G. cbv beta iota. destruct (negb (u =? 0) && negb (u =? 1)); [now left|].
  destruct (IH f B) as [E|(l & E)]; rewrite E; cbn [bind]; [now left|right]. now exists ((u =? 1) :: l).
Qed.
(** [stuck u t]: the next number is neither 0 nor 1, or there is none. *)
Definition stuck (u : Z) (t : text) : Prop := exists x f, get_int u (t, true) = (x, f) /\ (x <> 0 /\ x <> 1 \/ snd f = false).
Lemma read_bits_stuck u bits : forall k t r, numbers (map bit bits) t r -> stuck u r -> (length bits < k)%nat -> read_bits u k (t, true) = Err Exited \/ exists l f, read_bits u k (t, true) = Ok (l, f) /\ snd f = false.
Proof.
  induction bits as [|b bits IH]; intros k t r N ST L; (destruct k as [|k]; [cbn in L; lia|]); cbn [read_bits].
  - cbn [map] in N. inversion N; subst. destruct ST as (x & f & G & H). rewrite G. destruct H as [[A B]|B].
    + apply Z.eqb_neq in A, B. rewrite A, B. now left.
    + destruct (negb (x =? 0) && negb (x =? 1)); [now left|]. destruct (read_bits_bad u k f B) as [E|(l & E)]; rewrite E; cbn [bind]; [now left|right]. now exists ((x =? 1) :: l), f.
  - cbn [map] in N. destruct (get_number u _ _ _ _ N (bit_range b)) as (t1 & G & N1). rewrite G. cbn [length] in L. destruct (IH k t1 r N1 ST ltac:(lia)) as [E|(l & f & E & B)]; rewrite E; destruct b; cbn [bit Z.eqb Pos.eqb negb andb bind fst snd]; try (now left); right; eexists; eexists; (split; [reflexivity|exact B]).
Qed.
Lemma numbers_split a : forall b t r, numbers (a ++ b) t r -> exists m, numbers a t m /\ numbers b m r.
Proof.
  induction a as [|z a IH]; intros b t r N; [exists t; split; [constructor|exact N]|]. cbn [app] in N. inversion N as [|b0 z' l' t' u' B S0 N']; subst. destruct (IH b t' r N') as (m & A & C). exists m. split; [now constructor|exact C].
Qed.
Lemma read_cones_stuck {V} u (master : cone V) n : forall i bits t r, numbers (map bit bits) t r -> stuck u r -> (length bits < n * length (rays master))%nat -> read_cones u master n i (t, true) = Err Exited.
Proof.
  induction n as [|n IH]; intros i bits t r N ST L; [cbn in L; lia|]. cbn [read_cones]. set (k := length (rays master)) in *. destruct (Nat.lt_ge_cases (length bits) k) as [S1|S1].
  - destruct (read_bits_stuck u bits k t r N ST S1) as [E|(l & f & E & B)]; rewrite E; cbn [bind]; [reflexivity|]. unfold check_stream. now rewrite B.
  - rewrite <- (firstn_skipn k bits), map_app in N. destruct (read_bits_ok u (firstn k bits) _ t r N) as (t1 & E & N1). rewrite firstn_length_le in E by lia. rewrite E. cbn [bind check_stream snd].
    rewrite (IH (i + 1) (skipn k bits) t1 r N1 ST); [reflexivity|]. rewrite skipn_length. lia.
Qed.
