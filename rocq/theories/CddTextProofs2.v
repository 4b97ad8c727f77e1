(** Proofs for C84: the two files. *)
From Coq Require Import QArith String Sorted Permutation.
From Verif Require Import Common Rational RationalSpec Text TextProofs LatteText LatteTextProofs LatteTextProofs2 RatVec RatVecSpec RatVecProofs CheckEmpty CheckEmptyProofs CddText CddTextSpec CddTextProofs.
Open Scope Z_scope.

(** The header. *)
Lemma good_kind kind : In kind [lit "integer"; lit "rational"] -> good kind.
Proof. intros [<-|[<-|[]]]; split; try discriminate; repeat constructor. Qed.
Lemma toks_end s rest : toks [] s rest -> s = rest.
Proof. intros H. now inversion H. Qed.
Lemma read_header width rows t : ext_file width rows t -> exists e r z, spaces e /\ lines (map (map show_rat) rows) r /\ forall k,
  bind (skip_begin (S (length t)) t) (fun s1 => bind (read_int s1) (fun '(nv, s2) => bind (read_int s2) (fun '(nn, s3) => let '(_, s4) := next_word s3 in k nv nn s4)))
  = k (Z.of_nat (length rows)) (Z.of_nat width) ((e ++ [newline]) ++ r ++ z)%list :> outcome answer.
Proof.
  intros (F & S1 & S2 & p & h & kind & r & z & P & H & K & L & ->). rewrite skip_file by exact P. cbn [bind].
  destruct (line_toks _ h (r ++ z) H) as (e & We & T). { exact (Forall_cons _ (good_Z _) (Forall_cons _ (good_Z _) (Forall_cons _ (good_kind kind K) (Forall_nil _)))). }
  exists e, r, z. split; [exact We|]. split; [exact L|]. intros k.
  destruct (tk_int (Z.of_nat (length rows)) _ _ _ T (int_nat _ S1)) as (s1 & E1 & T1). rewrite E1. cbn [bind].
  destruct (tk_int (Z.of_nat width) _ _ _ T1 (int_nat _ S2)) as (s2 & E2 & T2). rewrite E2. cbn [bind].
  destruct (tk_word kind _ _ _ T2) as (s3 & E3 & T3). rewrite E3. apply toks_end in T3. now rewrite T3.
Qed.
Lemma rows_good rows : Forall (Forall good) (map (map show_rat) rows).
Proof. apply Forall_forall. intros l H. apply in_map_iff in H as (row & <- & _). apply Forall_forall. intros w H. apply in_map_iff in H as (q & <- & _). apply good_rat. Qed.
Lemma line_white e : spaces e -> white (e ++ [newline]).
Proof. intros H. apply white_app; [now apply spaces_white|repeat constructor]. Qed.
Lemma read_ext_vertices n rows t : ext_file (S n) rows t -> (2 <= length rows)%nat -> Forall vertex_row rows ->
  exists vs, read_ext t = Ok (Vertices (Z.of_nat (S n)) vs) /\ Forall2 (fun v row => reachable positive (CZero n) v /\ is_point v n row) vs rows.
Proof.
  intros H N V. destruct (read_header _ _ _ H) as (e & r & z & We & L & K). destruct H as (F & _).
  destruct (lines_toks _ r z _ L (rows_good rows) (line_white e We)) as (b & Wb & T). destruct (read_vertices_ok n [] (b ++ z) rows ((e ++ [newline]) ++ r ++ z)%list F V) as (vs & E & F2); [rewrite app_nil_r; exact T|].
  exists vs. split; [|exact F2]. unfold read_ext. rewrite K. rewrite !(proj2 (Z.eqb_neq _ _)) by lia. rewrite (proj2 (Z.ltb_ge _ _)) by lia. rewrite !Nat2Z.id, E. reflexivity.
Qed.
Lemma read_ext_unbounded n rows before row after t : ext_file (S n) rows t -> (2 <= length rows)%nat -> rows = (before ++ row :: after)%list -> Forall vertex_row before -> num (nth 0 row zero_rat) = 0 ->
  read_ext t = Ok (Stop (Some 0)).
Proof.
  intros H N E0 V Z0. destruct (read_header _ _ _ H) as (e & r & z & We & L & K). destruct H as (F & _).
  destruct (lines_toks _ r z _ L (rows_good rows) (line_white e We)) as (b & Wb & T).
  unfold read_ext. rewrite K. rewrite !(proj2 (Z.eqb_neq _ _)) by lia. rewrite (proj2 (Z.ltb_ge _ _)) by lia. rewrite !Nat2Z.id.
  rewrite (read_vertices_unbounded n [] (b ++ z) rows before row after ((e ++ [newline]) ++ r ++ z)%list E0 F V Z0); [reflexivity|rewrite app_nil_r; exact T].
Qed.
Lemma read_ext_empty width t : ext_file width [] t -> read_ext t = Ok (Stop (Some 0)).
Proof. intros H. destruct (read_header _ _ _ H) as (e & r & z & We & L & K). unfold read_ext. rewrite K. reflexivity. Qed.

(** One vertex. *)
Lemma skip_blanks : forall b c s, Forall (fun x => blank x = true) b -> blank c = false -> b <> [] -> one_vertex (b ++ c :: s) = if is_char "0" c then Ok (Stop None) else one_vertex (c :: s).
Proof.
  induction b as [|x b IH]; intros c s F B N; [congruence|]. inversion F as [|y l X F']; subst. cbn [app one_vertex]. rewrite X. destruct b as [|y b].
  - cbn [app]. reflexivity.
  - cbn [app]. assert (Y0 : is_char "0" y = false). { pose proof (Forall_inv F') as Y. unfold blank in Y. unfold is_char in *. destruct (Ascii.eqb_spec "0" y) as [<-|]; [discriminate Y|reflexivity]. }
    rewrite Y0. change (y :: (b ++ c :: s)%list) with ((y :: b) ++ c :: s)%list. apply IH; [exact F'|exact B|discriminate].
Qed.
Lemma spaces_blank e : spaces e -> Forall (fun x => blank x = true) e.
Proof. apply Forall_impl. now intros c ->. Qed.
Definition slashes (w : text) : bool := existsb (is_char "/") w.
Lemma has_slash_app : forall u r flag, Forall (fun c => line_end c = false) u -> has_slash (u ++ newline :: r) flag = Ok (flag || slashes u).
Proof.
  induction u as [|c u IH]; intros r flag F; cbn [app has_slash]; [now destruct flag|]. inversion F as [|x y C F']; subst. rewrite C, IH by exact F'. unfold slashes. cbn [existsb]. now rewrite orb_assoc.
Qed.
Lemma slashes_app a b : slashes (a ++ b) = slashes a || slashes b.
Proof. apply existsb_app. Qed.
Lemma slashes_spaces e : spaces e -> slashes e = false.
Proof. induction 1 as [|c e -> F IH]; [reflexivity|exact IH]. Qed.
Lemma slashes_words l : forall u, words l u -> slashes u = existsb slashes l.
Proof. induction l as [|w l IH]; intros u H; inversion H as [|b w0 l0 t0 Nb Sb Hw]; subst; [reflexivity|]. rewrite !slashes_app, (slashes_spaces b Sb). cbn [orb existsb]. f_equal. now apply IH. Qed.
Lemma slashes_Z z : slashes (show_Z z) = false.
Proof. pose proof (show_Z_no_slash z) as F. induction F as [|c s H F IH]; [reflexivity|]. unfold slashes in *. cbn [existsb]. now rewrite H, IH. Qed.
Lemma slashes_rat q : slashes (show_rat q) = negb (den q =? 1).
Proof. unfold show_rat. rewrite slashes_app, slashes_Z. destruct (den q =? 1); reflexivity. Qed.
Lemma not_space_line c : is_space c = false -> line_end c = false.
Proof. destruct c as [[] [] [] [] [] [] [] []]; intros H; first [reflexivity|discriminate H]. Qed.
Lemma words_no_end l : forall u, words l u -> Forall good l -> Forall (fun c => line_end c = false) u.
Proof.
  induction l as [|w l IH]; intros u H G; inversion H; subst; [constructor|]. inversion G as [|x y Gw G']; subst. apply Forall_app. split; [|apply Forall_app; split; [|now apply IH]].
  - eapply Forall_impl; [|eassumption]. now intros c ->.
  - eapply Forall_impl; [|apply Gw]. intros c. apply not_space_line.
Qed.
Lemma read_ext_one width qs t : ext_file width [mkRat 1 1 :: qs] t -> read_ext t = Ok (Stop (Some (if forallb (fun q => den q =? 1) qs then 1 else 0))).
Proof.
  intros H. destruct (read_header _ _ _ H) as (e & r & z & We & L & K). unfold read_ext. rewrite K. change (Z.of_nat (length [mkRat 1 1 :: qs])) with 1. cbn [Z.eqb Pos.eqb].
  cbn [map] in L. inversion L as [|l0 ls0 t0 u0 HL HLS]; subst. inversion HLS; subst. destruct HL as (u & e' & HW & HE & ->). rewrite app_nil_r.
  inversion HW as [|b w l u' Nb Sb HW']; subst. change (show_rat (mkRat 1 1)) with ["1"%char].
  replace ((e ++ [newline]) ++ ((b ++ ["1"%char] ++ u') ++ e' ++ [newline]) ++ z)%list with (((e ++ [newline]) ++ b) ++ "1"%char :: (u' ++ e') ++ newline :: z)%list by (repeat (rewrite <- app_assoc; cbn [app]); reflexivity).
  rewrite skip_blanks; [|apply Forall_app; split; [apply Forall_app; split; [now apply spaces_blank|repeat constructor]|now apply spaces_blank]|reflexivity|destruct e; discriminate].
  change (is_char "0" "1") with false. cbv iota. cbn [one_vertex]. change (blank "1") with false. cbv iota.
  change ("1"%char :: ((u' ++ e') ++ newline :: z)%list) with (("1"%char :: u' ++ e') ++ newline :: z)%list.
  rewrite has_slash_app.
  - cbn [bind orb]. change (slashes ("1"%char :: u' ++ e')) with (slashes (u' ++ e')). rewrite slashes_app, (slashes_spaces e' HE), orb_false_r, (slashes_words _ _ HW'). f_equal. f_equal. f_equal.
    assert (X : existsb slashes (map show_rat qs) = negb (forallb (fun q => den q =? 1) qs)). { clear. induction qs as [|q qs IH]; [reflexivity|]. cbn [map existsb forallb]. rewrite slashes_rat, IH. now destruct (den q =? 1). }
    rewrite X. now destruct (forallb (fun q => den q =? 1) qs).
  - constructor; [reflexivity|]. apply Forall_app. split; [apply (words_no_end (map show_rat qs)); [exact HW'|]|eapply Forall_impl; [|exact HE]; now intros c ->].
    apply Forall_forall. intros w I. apply in_map_iff in I as (q & <- & _). apply good_rat.
Qed.
Lemma read_ext_ray width qs t : ext_file width [mkRat 0 1 :: qs] t -> read_ext t = Ok (Stop None).
Proof.
  intros H. destruct (read_header _ _ _ H) as (e & r & z & We & L & K). unfold read_ext. rewrite K. change (Z.of_nat (length [mkRat 0 1 :: qs])) with 1. cbn [Z.eqb Pos.eqb].
  cbn [map] in L. inversion L as [|l0 ls0 t0 u0 HL HLS]; subst. inversion HLS; subst. destruct HL as (u & e' & HW & HE & ->). rewrite app_nil_r.
  inversion HW as [|b w l u' Nb Sb HW']; subst. change (show_rat (mkRat 0 1)) with ["0"%char].
  replace ((e ++ [newline]) ++ ((b ++ ["0"%char] ++ u') ++ e' ++ [newline]) ++ z)%list with (((e ++ [newline]) ++ b) ++ "0"%char :: (u' ++ e') ++ newline :: z)%list by (repeat (rewrite <- app_assoc; cbn [app]); reflexivity).
  rewrite skip_blanks; [|apply Forall_app; split; [apply Forall_app; split; [now apply spaces_blank|repeat constructor]|now apply spaces_blank]|reflexivity|destruct e; discriminate]. reflexivity.
Qed.

(** The list of neighbours. *)
Section Rays.
Context (vs : list rvec) (v : rvec) (n : nat) (R : nat -> list Z -> Prop) (ok : nat -> Prop).
Context (RO : forall k, ok k -> exists r, ray_to vs v n (Z.of_nat k) = Ok r /\ R k r).
Lemma listed_ok rest l : forall adj s, Forall ok adj -> Forall (fun k => int_range (Z.of_nat k) = true) adj -> toks (map show_nat adj ++ l) s rest ->
  exists rs s', listed_rays vs v n (length adj) s = Ok (rs, s') /\ toks l s' rest /\ Forall2 R adj rs.
Proof.
  induction adj as [|k adj IH]; intros s F G T; [exists [], s; split; [reflexivity|]; split; [exact T|constructor]|]. inversion F as [|x y Ok F']; subst. inversion G as [|x y Gk G']; subst.
  cbn [map app length listed_rays] in *. destruct (tk_int _ _ _ _ T Gk) as (s1 & E1 & T1). rewrite E1. cbn [bind]. destruct (RO k Ok) as (r & Er & Hr). rewrite Er. cbn [bind].
  destruct (IH s1 F' G' T1) as (rs & s' & E & T' & F2). rewrite E. cbn [bind]. exists (r :: rs), s'. split; [reflexivity|]. split; [exact T'|now constructor].
Qed.
Lemma rays_until_ok : forall d a f, (d < f)%nat -> (forall k, (a <= k < a + d)%nat -> ok k) ->
  exists ws, rays_until f vs v n (Z.of_nat a) (Z.of_nat (a + d)) = Ok (ws, Z.of_nat (a + d)) /\ Forall2 R (seq a d) ws.
Proof.
  induction d as [|d IH]; intros a f Lf H; (destruct f as [|f]; [lia|]); cbn [rays_until].
  - rewrite (proj2 (Z.ltb_ge _ _)) by lia. exists []. rewrite Nat.add_0_r. split; [reflexivity|constructor].
  - rewrite (proj2 (Z.ltb_lt _ _)) by lia. destruct (RO a ltac:(apply H; lia)) as (r & Er & Hr). rewrite Er. cbn [bind]. replace (Z.of_nat a + 1) with (Z.of_nat (S a)) by lia. replace (a + S d)%nat with (S a + d)%nat by lia.
    destruct (IH (S a) f ltac:(lia) ltac:(intros k Hk; apply H; lia)) as (ws & E & F2). rewrite E. cbn [bind]. exists (r :: ws). split; [reflexivity|]. cbn [seq]. now constructor.
Qed.
Lemma until_ok a b : (a <= b)%nat -> (forall k, (a <= k < b)%nat -> ok k) -> exists ws, until vs v n (Z.of_nat a) (Z.of_nat b) = Ok (ws, Z.of_nat b) /\ Forall2 R (seq a (b - a)) ws.
Proof.
  intros L H. unfold until. destruct (rays_until_ok (b - a) a (S (Z.to_nat (Z.of_nat b - Z.of_nat a))) ltac:(lia) ltac:(intros k Hk; apply H; lia)) as (ws & E & F). replace (a + (b - a))%nat with b in E by lia. exists ws. split; assumption.
Qed.
Definition absent (others : list nat) (k : nat) : bool := negb (existsb (Nat.eqb k) others).
Lemma absent_in others k : absent others k = true <-> ~ In k others.
Proof. unfold absent. rewrite Bool.negb_true_iff. rewrite <- Bool.not_true_iff_false, existsb_exists. split; [intros H I; apply H; exists k; split; [exact I|apply Nat.eqb_refl]|]. intros H (x & I & E). apply Nat.eqb_eq in E. subst. now apply H. Qed.
Lemma filter_all {A} (f : A -> bool) l : (forall x, In x l -> f x = true) -> filter f l = l.
Proof. induction l as [|x l IH]; intros H; [reflexivity|]. cbn [filter]. rewrite (H x) by now left. f_equal. apply IH. intros y I. apply H. now right. Qed.
Lemma filter_same {A} (f g : A -> bool) l : (forall x, In x l -> f x = g x) -> filter f l = filter g l.
Proof. induction l as [|x l IH]; intros H; [reflexivity|]. cbn [filter]. rewrite (H x) by now left. rewrite IH; [reflexivity|]. intros y I. apply H. now right. Qed.
Lemma unlisted_ok N rest l : forall others a s, (a <= S N)%nat -> StronglySorted lt others -> Forall (fun k => (a <= k <= N)%nat) others -> Forall (fun k => int_range (Z.of_nat k) = true) others ->
  (forall k, (a <= k <= N)%nat -> ~ In k others -> ok k) -> toks (map show_nat others ++ l) s rest ->
  exists ws1 r s' ws2, unlisted_rays vs v n (length others) (Z.of_nat a) s = Ok (ws1, r, s') /\ until vs v n r (Z.of_nat N + 1) = Ok (ws2, Z.of_nat N + 1) /\ toks l s' rest /\ Forall2 R (filter (absent others) (seq a (S N - a))) (ws1 ++ ws2).
Proof.
  induction others as [|k others IH]; intros a s La SS F G H T.
  - exists [], (Z.of_nat a), s. replace (Z.of_nat N + 1) with (Z.of_nat (S N)) by lia. destruct (until_ok a (S N) La ltac:(intros k Hk; apply H; [lia|intros []])) as (ws & E & F2). exists ws. split; [reflexivity|]. split; [exact E|]. split; [exact T|].
    rewrite filter_all; [exact F2|reflexivity].
  - inversion SS as [|x y SS' LT]; subst. inversion F as [|x y Fk F']; subst. inversion G as [|x y Gk G']; subst. cbn [map app length unlisted_rays] in *.
    destruct (tk_int _ _ _ _ T Gk) as (s1 & E1 & T1). rewrite E1. cbn [bind]. rewrite Forall_forall in LT.
    destruct (until_ok a k ltac:(lia)) as (ws & E & F2). { intros j Hj. apply H; [lia|]. intros [I|I]; [lia|]. specialize (LT j I). lia. }
    rewrite E. cbn [bind]. replace (Z.of_nat k + 1) with (Z.of_nat (S k)) by lia.
    destruct (IH (S k) s1 ltac:(lia) SS') as (ws1 & r & s' & ws2 & E2 & E3 & T2 & F3); auto.
    { apply Forall_forall. intros j I. rewrite Forall_forall in F'. specialize (F' j I). specialize (LT j I). cbv beta in F'. lia. }
    { intros j Hj NI. apply H; [lia|]. intros [I|I]; [lia|now apply NI]. }
    rewrite E2. cbn [bind]. exists (ws ++ ws1)%list, r, s', ws2. split; [reflexivity|]. split; [exact E3|]. split; [exact T2|]. rewrite <- app_assoc.
    replace (S N - a)%nat with ((k - a) + S (S N - S k))%nat by lia. rewrite seq_app, filter_app. replace (a + (k - a))%nat with k by lia. apply Forall2_app.
    + rewrite filter_all; [exact F2|]. intros j Hj. apply in_seq in Hj. apply absent_in. intros [I|I]; [lia|]. specialize (LT j I). lia.
    + cbn [seq filter]. replace (absent (k :: others) k) with false by (symmetry; apply Bool.not_true_iff_false; rewrite absent_in; intros X; apply X; now left).
      rewrite (filter_same (absent (k :: others)) (absent others)); [exact F3|]. intros j Hj. apply in_seq in Hj. unfold absent. cbn [existsb]. rewrite (proj2 (Nat.eqb_neq j k)) by lia. reflexivity.
Qed.
End Rays.
Lemma nat_range N k : int_size N -> (k <= N)%nat -> int_range (Z.of_nat k) = true.
Proof. intros H L. apply int_nat. unfold int_size in *. lia. Qed.
Lemma neg_range k : int_size k -> int_range (- Z.of_nat k) = true.
Proof. unfold int_size, int_range. intros H. apply andb_true_intro. split; apply Z.leb_le; lia. Qed.
Lemma filter_count {A} (f : A -> bool) l : (length (filter f l) + length (filter (fun x => negb (f x)) l) = length l)%nat.
Proof. induction l as [|x l IH]; [reflexivity|]. cbn [filter]. destruct (f x); cbn [negb length]; lia. Qed.
Section Adjacency.
Context (vs : list rvec) (n N : nat) (adj : nat -> list nat) (R : nat -> nat -> list Z -> Prop).
Context (SN : int_size N) (AI : forall i, Forall (fun k => (1 <= k <= N)%nat) (adj i) /\ int_size (length (adj i))).
Lemma adjacency_ok l rest : forall vrest i ls s, length ls = length vrest -> (i + length vrest <= N)%nat ->
  (forall j, (j < length vrest)%nat -> neighbours N (S (i + j)) (adj (i + j)) (nth j ls [])) ->
  (forall j k, (j < length vrest)%nat -> In k (adj (i + j)) -> exists r, ray_to vs (nth j vrest (rv_zero 0)) n (Z.of_nat k) = Ok r /\ R (i + j)%nat k r) ->
  toks (concat ls ++ l) s rest ->
  exists cones, read_adjacency vs n (Z.of_nat N) (Z.of_nat i) vrest s = Ok cones /\ map fst cones = vrest /\ forall j, (j < length vrest)%nat -> Forall2 (R (i + j)%nat) (adj (i + j)) (snd (nth j cones (rv_zero 0, []))).
Proof.
  induction vrest as [|v vrest IH]; intros i ls s LL LN HN HR T; [exists []; split; [reflexivity|]; split; [reflexivity|]; intros j Hj; cbn in Hj; lia|].
  destruct ls as [|l0 ls]; [discriminate LL|]. injection LL as LL. cbn [length] in *. pose proof (HN 0%nat ltac:(lia)) as H0. rewrite Nat.add_0_r in H0. cbn [nth] in H0. destruct (AI i) as [AF AS].
  cbn [concat] in T. rewrite <- app_assoc in T. cbn [read_adjacency].
  assert (Q : exists s1 s2 s3 num rays s5, read_int s = Ok (Z.of_nat (S i), s1) /\ read_int s1 = Ok (num, s2) /\ next_word s2 = (lit ":", s3) /\
    (if 0 <=? num then listed_rays vs v n (Z.to_nat num) s3 else bind (unlisted_rays vs v n (Z.to_nat (Z.of_nat N - - num)) 1 s3) (fun '(ws, r, s4) => bind (until vs v n r (Z.of_nat N + 1)) (fun '(ws', _) => Ok (ws ++ ws', s4)%list))) = Ok (rays, s5) /\
    toks (concat ls ++ l) s5 rest /\ Forall2 (R i) (adj i) rays).
  { pose proof (HR 0%nat) as HR0. rewrite Nat.add_0_r in HR0. cbn [nth] in HR0. inversion H0 as [E|others SS FO EA NA E]; subst l0.
    - cbn [app] in T. destruct (tk_int _ _ _ _ T (nat_range N (S i) SN ltac:(lia))) as (s1 & E1 & T1). destruct (tk_int _ _ _ _ T1 (int_nat _ AS)) as (s2 & E2 & T2). destruct (tk_word _ _ _ _ T2) as (s3 & E3 & T3).
      destruct (listed_ok vs v n (R i) (fun k => In k (adj i)) ltac:(intros k Hk; apply HR0; [lia|exact Hk]) rest (concat ls ++ l) (adj i) s3) as (rs & s5 & E5 & T5 & F5); [apply Forall_forall; auto| |exact T3|].
      { eapply Forall_impl; [|exact AF]. intros k Hk. cbv beta in Hk. apply (nat_range N); [exact SN|lia]. }
      exists s1, s2, s3, (Z.of_nat (length (adj i))), rs, s5. split; [exact E1|]. split; [exact E2|]. split; [exact E3|]. rewrite (proj2 (Z.leb_le _ _)) by lia. rewrite Nat2Z.id. split; [exact E5|]. split; [exact T5|exact F5].
    - cbn [app] in T. destruct (tk_int _ _ _ _ T (nat_range N (S i) SN ltac:(lia))) as (s1 & E1 & T1). destruct (tk_int _ _ _ _ T1 (neg_range _ AS)) as (s2 & E2 & T2). destruct (tk_word _ _ _ _ T2) as (s3 & E3 & T3).
      assert (LO : (length (adj i) + length others = N)%nat).
      { rewrite EA. rewrite <- (seq_length N 1) at 2. rewrite <- (filter_count (fun k => negb (existsb (Nat.eqb k) others)) (seq 1 N)). f_equal. apply Permutation_length. apply NoDup_Permutation.
        - clear -SS. induction SS as [|a l SS IH F]; constructor; [|exact IH]. intros I. rewrite Forall_forall in F. specialize (F a I). lia.
        - apply NoDup_filter, seq_NoDup.
        - intros x. rewrite filter_In, in_seq, Bool.negb_involutive, existsb_exists. split; [intros I; split; [rewrite Forall_forall in FO; specialize (FO x I); cbv beta in FO; lia|exists x; split; [exact I|apply Nat.eqb_refl]]|]. intros (_ & y & I & Ey). apply Nat.eqb_eq in Ey. now subst. }
      destruct (unlisted_ok vs v n (R i) (fun k => In k (adj i)) ltac:(intros k Hk; apply HR0; [lia|exact Hk]) N rest (concat ls ++ l) others 1 s3) as (ws1 & r & s5 & ws2 & E5 & E6 & T5 & F5); try assumption; [lia| | |].
      { eapply Forall_impl; [|exact FO]. intros k Hk. cbv beta in Hk. apply (nat_range N); [exact SN|lia]. }
      { intros k Hk NI. rewrite EA. apply filter_In. split; [apply in_seq; lia|]. now apply absent_in. }
      exists s1, s2, s3, (- Z.of_nat (length (adj i))), (ws1 ++ ws2)%list, s5. split; [exact E1|]. split; [exact E2|]. split; [exact E3|].
      assert (P : (0 < length (adj i))%nat) by (destruct (adj i); [congruence|cbn; lia]). rewrite (proj2 (Z.leb_gt _ _)) by lia. replace (Z.to_nat (Z.of_nat N - - - Z.of_nat (length (adj i)))) with (length others) by lia. change 1 with (Z.of_nat 1) at 1. rewrite E5. cbn [bind]. rewrite E6. cbn [bind].
      split; [reflexivity|]. split; [exact T5|]. rewrite EA. replace (S N - 1)%nat with N in F5 by lia. exact F5. }
  destruct Q as (s1 & s2 & s3 & num & rays & s5 & E1 & E2 & E3 & E4 & T5 & F5). rewrite E1. cbn [bind]. rewrite (proj2 (Z.eqb_eq _ _)) by lia. cbn [negb]. rewrite E2. cbn [bind]. rewrite E3, E4. cbn [bind].
  replace (Z.of_nat i + 1) with (Z.of_nat (S i)) by lia. destruct (IH (S i) ls s5 LL ltac:(lia)) as (cones & E & EF & EC); [| |exact T5|].
  { intros j Hj. specialize (HN (S j) ltac:(lia)). cbn [nth] in HN. now replace (S i + j)%nat with (i + S j)%nat by lia. }
  { intros j k Hj. replace (S i + j)%nat with (i + S j)%nat by lia. intros Hk. exact (HR (S j) k ltac:(lia) Hk). }
  rewrite E. cbn [bind]. exists ((v, rays) :: cones). split; [reflexivity|]. split; [cbn [map fst]; now rewrite EF|]. intros [|j] Hj; [rewrite Nat.add_0_r; exact F5|]. replace (i + S j)%nat with (S i + j)%nat by lia. apply EC. lia.
Qed.
End Adjacency.
Lemma get_line_words more : forall u e r, words more u -> Forall (fun w => ~ In newline w) more -> spaces e -> get_line (u ++ (e ++ [newline]) ++ r) = ((u ++ e)%list, r).
Proof.
  intros u e r H F E. replace (u ++ (e ++ [newline]) ++ r)%list with ((u ++ e) ++ newline :: r)%list by (repeat (rewrite <- app_assoc; cbn [app]); reflexivity). apply get_line_app.
  assert (NS : forall x, spaces x -> ~ In newline x). { intros x Hx I. unfold spaces in Hx. rewrite Forall_forall in Hx. specialize (Hx _ I). discriminate Hx. }
  intros I. apply in_app_or in I as [I|I]; [|exact (NS e E I)]. clear -H F I NS. induction H as [|b w l t Nb Sb H IH]; [exact I|]. inversion F as [|x y Fw F']; subst. apply in_app_or in I as [I|I]; [exact (NS b Sb I)|]. apply in_app_or in I as [I|I]; [exact (Fw I)|exact (IH F' I)].
Qed.
Lemma good_nat_words l : Forall good (map show_nat l).
Proof. apply Forall_forall. intros w I. apply in_map_iff in I as (k & <- & _). apply good_Z. Qed.
Lemma neighbours_good n i adj l : neighbours n i adj l -> Forall good l.
Proof.
  assert (C : good (lit ":")) by (split; [discriminate|repeat constructor]).
  intros []; (apply Forall_cons; [apply good_Z|apply Forall_cons; [apply good_Z|apply Forall_cons; [exact C|apply good_nat_words]]]).
Qed.
Lemma read_ead_ok vs n adj (R : nat -> nat -> list Z -> Prop) t : ead_file adj t -> length adj = length vs ->
  (forall i k, (i < length vs)%nat -> In k (nth i adj []) -> exists r, ray_to vs (nth i vs (rv_zero 0)) n (Z.of_nat k) = Ok r /\ R i k r) ->
  exists cones, read_ead vs n t = Ok cones /\ map fst cones = vs /\ forall i, (i < length vs)%nat -> Forall2 (R i) (nth i adj []) (snd (nth i cones (rv_zero 0, []))).
Proof.
  intros (F & SN & p & h & ls & r & z & more & P & H & M & LL & HN & L & ->) LA HR. unfold read_ead. rewrite skip_file by exact P. cbn [bind].
  destruct H as (u & e & HW & HE & ->). inversion HW as [|b w l u' Nb Sb HW']; subst.
  assert (E1 : read_int (((b ++ show_nat (length adj) ++ u') ++ e ++ [newline]) ++ r ++ z)%list = Ok (Z.of_nat (length adj), (u' ++ (e ++ [newline]) ++ r ++ z)%list)).
  { replace (((b ++ show_nat (length adj) ++ u') ++ e ++ [newline]) ++ r ++ z)%list with (b ++ show_nat (length adj) ++ (u' ++ (e ++ [newline]) ++ r ++ z))%list by (repeat (rewrite <- app_assoc; cbn [app]); reflexivity).
    apply read_int_show; [unfold same_rest; apply skip_spaces; now apply spaces_white| |now apply int_nat]. apply breaks_nondigit. inversion HW' as [|b0 w0 l0 t0 Nb0 Sb0 Hw0]; subst.
    - cbn [app]. pose proof (line_white e HE) as We. destruct e as [|c e]; [reflexivity|]. exact (Forall_inv We).
    - destruct b0 as [|c b0]; [congruence|]. exact (Forall_inv (spaces_white _ Sb0)). }
  rewrite E1. cbn [bind]. rewrite (get_line_words more u' e (r ++ z) HW' M HE). rewrite LA, (proj2 (Z.ltb_ge _ _)) by lia. rewrite Nat2Z.id, firstn_all, skipn_all.
  assert (G : Forall (Forall good) ls). { apply Forall_forall. intros l I. apply (In_nth _ _ []) in I as (i & Hi & <-). apply (neighbours_good (length adj) (S i) (nth i adj [])). apply HN. lia. }
  destruct (lines_toks ls r z [] L G (Forall_nil _)) as (b' & Wb & T). cbn [app] in T.
  assert (AI : forall i, Forall (fun k => (1 <= k <= length vs)%nat) (nth i adj []) /\ int_size (length (nth i adj []))).
  { intros i. destruct (Nat.lt_ge_cases i (length adj)) as [Hi|Hi]; [rewrite Forall_forall in F; specialize (F _ (nth_In adj [] Hi)); rewrite LA in F; exact F|]. rewrite nth_overflow by exact Hi. split; [constructor|]. unfold int_size. cbn. lia. }
  rewrite LA in *. destruct (adjacency_ok vs n (length vs) (fun i => nth i adj []) R SN AI [] (b' ++ z)%list vs 0 ls (r ++ z)%list LL ltac:(lia) HN) as (cones & E & EF & EC); [exact HR|rewrite app_nil_r; exact T|].
  change (Z.of_nat 0) with 0 in E. rewrite E. cbn [bind map]. rewrite app_nil_r. exists cones. split; [reflexivity|]. split; [exact EF|exact EC].
Qed.
