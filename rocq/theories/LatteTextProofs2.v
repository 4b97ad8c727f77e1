From Coq Require Import QArith String.
From Verif Require Import Common Rational RationalSpec Text TextProofs LatteText LatteTextSpec LatteTextProofs.
Open Scope Z_scope.

Lemma int_small z : 0 <= z <= 2147483647 -> int_range z = true.
Proof. intros H. unfold int_range. apply andb_true_iff. split; apply Z.leb_le; lia. Qed.
Lemma skip_head c s : is_space c = false -> skip_space (c :: s) = c :: s.
Proof. apply skip_space_plain. Qed.

Lemma keyword_step f s vrep m k rest : mx_vrep m = vrep -> legal_keyword m k -> vrep_ok vrep k ->
  same_rest s (show_keyword k ++ rest) ->
  exists s', same_rest s' rest /\ keywords (S f) (skip_space s) vrep 0 m = keywords f (skip_space s') vrep 0 (apply_keyword m k).
Proof.
  intros V (Lc&Li&Lg) Vk E. rewrite E. unfold show_keyword.
  assert (IR : Forall (fun z => int_range z = true) (indices k)).
  { destruct k as [l|l]; cbn [indices] in *; apply Forall_forall; intros i Hi;
      pose proof (proj1 (Forall_forall _ _) Lg i Hi) as G; pose proof (proj1 (Forall_forall _ _) Li i Hi) as G2; cbv beta in G, G2; apply int_small; lia. }
  assert (RI : forall s0, exists s1, read_int (" "%char :: show_nat (length (indices k)) ++ " "%char :: s0) = Ok (Z.of_nat (length (indices k)), s1) /\ same_rest s1 s0).
  { intros s0. exists (" "%char :: s0). split; [|reflexivity]. apply read_int_show; [reflexivity|reflexivity|apply int_small; lia]. }
  assert (RL : forall s1, same_rest s1 (show_entries (map show_Z (indices k)) ++ newline :: rest) ->
     exists s2, read_ints (length (indices k)) s1 = Ok (indices k, s2) /\ same_rest s2 rest).
  { intros s1 E1. destruct (read_ints_show (indices k) s1 (newline :: rest) IR E1) as (s2&A&B). exists s2. split; [exact A|].
    unfold same_rest in *. rewrite B. apply skip_nl. }
  destruct k as [l|l]; cbn [indices] in *.
  - repeat rewrite <- app_assoc. cbn [app]. rewrite <- app_assoc. cbn [app].
    change (lit "linearity ") with (lit "linearity" ++ [" "%char])%list. rewrite <- app_assoc. cbn [app].
    destruct (RI (show_entries (map show_Z l) ++ newline :: rest)%list) as (s1&A1&B1).
    destruct (RL s1 B1) as (s2&A2&B2). exists s2. split; [exact B2|].
    change (lit "linearity") with ["l"%char;"i"%char;"n"%char;"e"%char;"a"%char;"r"%char;"i"%char;"t"%char;"y"%char]. cbn [app].
    rewrite skip_head by reflexivity.
    cbn [keywords].
    match goal with |- context [get_word 19 ?t] => replace (get_word 19 t) with (lit "linearity", " "%char :: show_nat (length l) ++ " "%char :: show_entries (map show_Z l) ++ newline :: rest)%list by reflexivity end.
    change (text_eqb (lit "linearity") (lit "linearity")) with true. cbv iota. rewrite A1. cbn [bind fst snd].
    rewrite Nat2Z.id, A2. cbn [bind fst snd]. rewrite linearity_flags; [|eapply Forall_impl; [|exact Lg]; intros i Hi; cbv beta in Hi; lia].
    reflexivity.
  - repeat rewrite <- app_assoc. cbn [app]. rewrite <- app_assoc. cbn [app].
    change (lit "nonnegative ") with (lit "nonnegative" ++ [" "%char])%list. rewrite <- app_assoc. cbn [app].
    destruct (RI (show_entries (map show_Z l) ++ newline :: rest)%list) as (s1&A1&B1).
    destruct (RL s1 B1) as (s2&A2&B2). exists s2. split; [exact B2|].
    change (lit "nonnegative") with ["n"%char;"o"%char;"n"%char;"n"%char;"e"%char;"g"%char;"a"%char;"t"%char;"i"%char;"v"%char;"e"%char]. cbn [app].
    rewrite skip_head by reflexivity.
    cbn [keywords].
    match goal with |- context [get_word 19 ?t] => replace (get_word 19 t) with (lit "nonnegative", " "%char :: show_nat (length l) ++ " "%char :: show_entries (map show_Z l) ++ newline :: rest)%list by reflexivity end.
    change (text_eqb (lit "nonnegative") (lit "linearity")) with false. change (text_eqb (lit "nonnegative") (lit "nonnegative")) with true. cbv iota.
    cbn [vrep_ok] in Vk. rewrite Vk in *. rewrite A1. cbn [bind fst snd].
    rewrite (proj2 (Z.ltb_ge (Z.of_nat (length l)) 0)) by lia. rewrite Nat2Z.id, A2. cbn [bind fst snd].
    unfold add_nonnegativity. rewrite unit_rows_ok by exact Lg. cbn [bind apply_keyword]. rewrite V.
    assert (R : repeat false (length l) = map (fun _ => false) l) by (clear; induction l; [reflexivity|cbn; rewrite IHl; reflexivity]).
    rewrite R. reflexivity.
Qed.
Lemma apply_vrep m k : mx_vrep (apply_keyword m k) = mx_vrep m.
Proof. destruct k; reflexivity. Qed.
Lemma keywords_ok vrep : forall ks f s m, mx_vrep m = vrep -> legal_keywords m ks -> Forall (vrep_ok vrep) ks ->
  (length ks < f)%nat -> same_rest s (flat_map show_keyword ks) ->
  keywords f (skip_space s) vrep 0 m = Ok (fold_left apply_keyword ks m).
Proof.
  induction ks as [|k ks IH]; intros f s m V L K F E.
  - destruct f as [|f]; [lia|]. rewrite E. reflexivity.
  - destruct f as [|f]; [lia|]. destruct L as (L1&L2). cbn [flat_map] in E.
    destruct (keyword_step f s vrep m k _ V L1 (Forall_inv K) E) as (s'&E'&->). cbn [fold_left].
    apply (IH f s' (apply_keyword m k)); [rewrite apply_vrep; exact V|exact L2|apply (Forall_inv_tail K)|cbn [length] in F; lia|exact E'].
Qed.
Lemma show_keyword_len ks : (length ks <= length (flat_map show_keyword ks))%nat.
Proof.
  induction ks as [|k ks IH]; [cbn; lia|]. cbn [flat_map length]. rewrite app_length. unfold show_keyword at 1.
  rewrite !app_length. cbn [length]. lia.
Qed.

(** The text of a matrix without its linearity line. *)
Definition show_body (m : matrix) : text :=
  (show_nat (length (mx_rows m)) ++ " "%char :: show_nat (mx_cols m) ++ newline ::
   flat_map (fun row => show_entries (map show_rat row) ++ [newline]) (mx_rows m))%list.
Lemma read_body m ks vrep : wf_matrix m -> let m0 := mkMatrix (mx_rows m) (mx_cols m) (repeat false (length (mx_rows m))) vrep in
  legal_keywords m0 ks -> Forall (vrep_ok vrep) ks ->
  read_matrix (show_body m ++ flat_map show_keyword ks) vrep false false = Ok (fold_left apply_keyword ks m0).
Proof.
  intros (W1&W2&W3&W4) m0 L K. unfold read_matrix.
  set (s := (show_body m ++ flat_map show_keyword ks)%list).
  assert (Es : s = (show_nat (length (mx_rows m)) ++ " "%char :: show_nat (mx_cols m) ++ newline ::
   flat_map (fun row => show_entries (map show_rat row) ++ [newline]) (mx_rows m) ++ flat_map show_keyword ks)%list).
  { unfold s, show_body. repeat (rewrite <- app_assoc; cbn [app]). reflexivity. }
  rewrite (read_int_show (Z.of_nat (length (mx_rows m))) s (" "%char :: show_nat (mx_cols m) ++ newline ::
   flat_map (fun row => show_entries (map show_rat row) ++ [newline]) (mx_rows m) ++ flat_map show_keyword ks)%list); [|rewrite Es; reflexivity|reflexivity|apply int_small; lia].
  cbn [bind fst snd].
  rewrite (read_int_show (Z.of_nat (mx_cols m)) _ (newline ::
   flat_map (fun row => show_entries (map show_rat row) ++ [newline]) (mx_rows m) ++ flat_map show_keyword ks)%list); [|reflexivity|reflexivity|apply int_small; lia].
  cbn [bind fst snd]. rewrite !Nat2Z.id.
  destruct (read_rows_show (mx_cols m) (mx_rows m) (newline :: flat_map (fun row => show_entries (map show_rat row) ++ [newline]) (mx_rows m) ++ flat_map show_keyword ks)%list
     (flat_map show_keyword ks) W1) as (s'&E1&E2); [reflexivity|].
  rewrite E1. cbn [bind fst snd]. replace (Z.of_nat (mx_cols m) + Z.of_nat 0) with (Z.of_nat (mx_cols m)) by lia. rewrite Nat2Z.id.
  assert (Mi : map (fun row : list rat => repeat (mkRat 0 1) 0 ++ row)%list (mx_rows m) = mx_rows m) by apply map_id.
  rewrite Mi. change (Z.of_nat 0) with 0.
  rewrite (keywords_ok vrep ks _ s' m0); [reflexivity|reflexivity|exact L|exact K| |exact E2].
  unfold s. rewrite app_length. pose proof (show_keyword_len ks). lia.
Qed.

Lemma write_as_keywords m : write_matrix m =
  (show_body m ++ match members (mx_lin m) 1 with [] => [] | l => show_keyword (Linearity (map Z.of_nat l)) end)%list.
Proof.
  unfold write_matrix, show_body. repeat (rewrite <- app_assoc; cbn [app]). do 5 f_equal.
  destruct (members (mx_lin m) 1) as [|i l]; [reflexivity|]. unfold show_keyword. cbn [indices]. rewrite map_length, map_map. reflexivity.
Qed.
Lemma members_length lin : forall i, (length (members lin i) <= length lin)%nat.
Proof. induction lin as [|b lin IH]; intros i; [cbn; lia|]. cbn [members]. rewrite app_length. specialize (IH (S i)). destruct b; cbn [length]; lia. Qed.

(** The matrix written, followed by further keywords. *)
Theorem write_read_keywords m ks : wf_matrix m -> legal_keywords m ks -> Forall (vrep_ok (mx_vrep m)) ks ->
  read_matrix (write_matrix m ++ flat_map show_keyword ks) (mx_vrep m) false false = Ok (fold_left apply_keyword ks m).
Proof.
  intros W L K. pose proof W as (W1&W2&W3&W4). rewrite write_as_keywords, <- app_assoc.
  set (m0 := mkMatrix (mx_rows m) (mx_cols m) (repeat false (length (mx_rows m))) (mx_vrep m)).
  assert (A0 : apply_keyword m0 (Linearity (map Z.of_nat (members (mx_lin m) 1))) = m).
  { unfold apply_keyword, m0. cbn [mx_rows mx_cols mx_lin mx_vrep].
    assert (F : Forall (fun i => 1 <= i) (map Z.of_nat (members (mx_lin m) 1))) by (apply Forall_map, Forall_forall; intros j Hj; apply members_in in Hj; lia).
    pose proof (linearity_flags _ (repeat false (length (mx_lin m))) F) as E1. rewrite members_flags in E1.
    injection E1 as E2. rewrite <- W2. transitivity (mkMatrix (mx_rows m) (mx_cols m) (mx_lin m) (mx_vrep m)); [f_equal; symmetry; exact E2|destruct m; reflexivity]. }
  destruct (members (mx_lin m) 1) as [|i0 l0] eqn:El.
  - cbn [app].
    assert (M : m0 = m).
    { rewrite <- A0. unfold apply_keyword. cbn [map existsb]. unfold m0. cbn [mx_rows mx_cols mx_lin mx_vrep]. f_equal.
      generalize (length (mx_rows m)). clear. intros n. rewrite repeat_length.
      generalize 1%nat. induction n as [|n IH]; intros k; [reflexivity|]. cbn [repeat seq combine map snd orb]. f_equal. apply IH. }
    rewrite (read_body m ks (mx_vrep m) W); fold m0; rewrite ?M; [reflexivity|exact L|exact K].
  - rewrite <- El in *. change (show_keyword (Linearity (map Z.of_nat (members (mx_lin m) 1))) ++ flat_map show_keyword ks)%list with
      (flat_map show_keyword (Linearity (map Z.of_nat (members (mx_lin m) 1)) :: ks)).
    rewrite (read_body m _ (mx_vrep m) W); fold m0.
    + cbn [fold_left]. rewrite A0. reflexivity.
    + split; [|rewrite A0; exact L]. pose proof (members_length (mx_lin m) 1). unfold legal_keyword. cbn [indices]. rewrite map_length.
      assert (F : Forall (fun i => 1 <= i <= Z.of_nat (length (mx_rows m))) (map Z.of_nat (members (mx_lin m) 1)))
        by (apply Forall_map, Forall_forall; intros j Hj; apply members_in in Hj; rewrite W2 in Hj; lia).
      split; [lia|]. split; [|exact F]. eapply Forall_impl; [|exact F]. intros i Hi. cbv beta in Hi. lia.
    + constructor; [exact I|exact K].
Qed.

(** ** What the keywords add *)
Lemma affine_unit : forall n k x i, (k <= i < k + n)%nat -> length x = n ->
  (affine (map (fun j => if Z.of_nat j =? Z.of_nat i then mkRat 1 1 else mkRat 0 1) (seq k n)) x == nth (i - k) x 0)%Q.
Proof.
  assert (V0 : (value (mkRat 0 1) == 0)%Q) by reflexivity. assert (V1 : (value (mkRat 1 1) == 1)%Q) by reflexivity.
  assert (Zr : forall n k x i, (i < k)%nat -> (affine (map (fun j => if Z.of_nat j =? Z.of_nat i then mkRat 1 1 else mkRat 0 1) (seq k n)) x == 0)%Q).
  { induction n as [|n IH]; intros k x i H; [reflexivity|]. cbn [seq map affine]. destruct x as [|q x]; [reflexivity|].
    rewrite (proj2 (Z.eqb_neq (Z.of_nat k) (Z.of_nat i))) by lia. rewrite IH by lia. rewrite V0. ring. }
  induction n as [|n IH]; intros k x i H L; [lia|]. destruct x as [|q x]; [discriminate|]. cbn [seq map affine].
  destruct (Z.eqb_spec (Z.of_nat k) (Z.of_nat i)) as [E|E].
  - rewrite Zr by lia. replace (i - k)%nat with O by lia. cbn [nth]. rewrite V1. ring.
  - rewrite IH by (cbn [length] in L; lia). replace (i - k)%nat with (S (i - S k)) by lia. cbn [nth]. rewrite V0. ring.
Qed.
Lemma apply_row m k i x : (i < length (mx_rows m))%nat -> row_at (apply_keyword m k) i x = row_at m i x.
Proof. intros H. unfold row_at. destruct k as [l|l]; cbn [apply_keyword mx_rows]; [reflexivity|]. rewrite app_nth1 by exact H. reflexivity. Qed.

Lemma keyword_meaning m k x : length (mx_lin m) = length (mx_rows m) -> length x = (mx_cols m - 1)%nat -> legal_keyword m k ->
  satisfies (apply_keyword m k) x <-> satisfies m x /\ stated m k x.
Proof.
  intros W Lx (_&_&Lg). destruct k as [l|l]; cbn [stated].
  - assert (Lin : forall i, (i < length (mx_rows m))%nat ->
      nth i (mx_lin (apply_keyword m (Linearity l))) false = nth i (mx_lin m) false || existsb (Z.eqb (Z.of_nat (S i))) l).
    { intros i Hi. destruct (set_add_all_ok l (mx_lin m)) as (lin'&E&N); [eapply Forall_impl; [|exact Lg]; intros z Hz; cbv beta in Hz; lia|].
      rewrite linearity_flags in E by (eapply Forall_impl; [|exact Lg]; intros z Hz; cbv beta in Hz; lia).
      inversion E as [E1]. cbn [apply_keyword mx_lin]. rewrite E1. apply N. rewrite W. exact Hi. }
    unfold satisfies. cbn [apply_keyword mx_rows] in *. split.
    + intros H. split.
      * intros i Hi. specialize (H i Hi). cbn [apply_keyword mx_lin] in Lin. cbn [mx_lin] in H. rewrite Lin in H by exact Hi.
        change (row_at {| mx_rows := mx_rows m; mx_cols := mx_cols m; mx_lin := _; mx_vrep := mx_vrep m |} i x) with (row_at m i x) in H.
        destruct (nth i (mx_lin m) false); cbn [orb] in H; [exact H|]. destruct (existsb _ l) in H; [rewrite H; apply Qle_refl|exact H].
      * apply Forall_forall. intros z Hz. pose proof (proj1 (Forall_forall _ _) Lg z Hz) as G. cbv beta in G.
        assert (Hi : (Z.to_nat (z - 1) < length (mx_rows m))%nat) by lia. specialize (H _ Hi). cbn [mx_lin] in *. rewrite Lin in H by exact Hi.
        replace (existsb (Z.eqb (Z.of_nat (S (Z.to_nat (z - 1))))) l) with true in H.
        2:{ symmetry. apply existsb_exists. exists z. split; [exact Hz|]. apply Z.eqb_eq. lia. }
        rewrite orb_true_r in H. exact H.
    + intros (H&St) i Hi. cbn [mx_lin] in *. rewrite Lin by exact Hi. specialize (H i Hi).
      change (row_at {| mx_rows := mx_rows m; mx_cols := mx_cols m; mx_lin := _; mx_vrep := mx_vrep m |} i x) with (row_at m i x).
      destruct (existsb _ l) eqn:Ex; [|rewrite orb_false_r; exact H]. rewrite orb_true_r.
      apply existsb_exists in Ex. destruct Ex as (z&Iz&Ez). apply Z.eqb_eq in Ez. subst z.
      pose proof (proj1 (Forall_forall _ _) St _ Iz) as G. cbv beta in G. replace (Z.to_nat (Z.of_nat (S i) - 1)) with i in G by lia. exact G.
  - unfold satisfies. cbn [apply_keyword mx_rows mx_lin mx_cols] in *.
    set (rows := map _ l). set (m' := {| mx_rows := mx_rows m ++ rows; mx_cols := _; mx_lin := _; mx_vrep := _ |}).
    assert (Old : forall i, (i < length (mx_rows m))%nat -> row_at m' i x = row_at m i x)
      by (intros i Hi; unfold row_at, m'; cbn [mx_rows]; rewrite app_nth1 by exact Hi; reflexivity).
    assert (New : forall j, (j < length l)%nat -> (row_at m' (length (mx_rows m) + j) x == nth (Z.to_nat (nth j l 0%Z - 1)) x 0)%Q).
    { intros j Hj. unfold row_at, m'. cbn [mx_rows]. rewrite app_nth2 by lia. replace (length (mx_rows m) + j - length (mx_rows m))%nat with j by lia.
      unfold rows. set (f := fun i : Z => _ : list rat). rewrite (nth_indep (map f l) [] (f 0)) by (rewrite map_length; exact Hj). rewrite (map_nth f).
      pose proof (proj1 (Forall_forall _ _) Lg (nth j l 0) (nth_In l 0 Hj)) as G. cbv beta in G. unfold f.
      pose proof (affine_unit (mx_cols m) 0 (1%Q :: x) (Z.to_nat (nth j l 0)) ltac:(lia) ltac:(cbn [length]; lia)) as U.
      rewrite Z2Nat.id in U by lia. rewrite U, Nat.sub_0_r.
      replace (Z.to_nat (nth j l 0)) with (S (Z.to_nat (nth j l 0 - 1))) by lia. reflexivity. }
    assert (NewF : forall j, nth (length (mx_rows m) + j) (mx_lin m ++ map (fun _ : Z => false) l) false = false).
    { intros j. rewrite app_nth2 by lia. destruct (nth_in_or_default (length (mx_rows m) + j - length (mx_lin m)) (map (fun _ : Z => false) l) false) as [I|D]; [|exact D].
      apply in_map_iff in I. destruct I as (z&E&_). congruence. }
    assert (Ll : length rows = length l) by apply map_length.
    rewrite app_length, Ll. split.
    + intros H. split.
      * intros i Hi. specialize (H i ltac:(lia)). rewrite app_nth1 in H by lia. rewrite Old in H by exact Hi. exact H.
      * apply Forall_forall. intros z Hz. destruct (In_nth l z 0 Hz) as (j&Hj&Ej). specialize (H (length (mx_rows m) + j)%nat ltac:(lia)).
        rewrite NewF in H. rewrite (New j Hj), Ej in H. exact H.
    + intros (H&St) i Hi. destruct (lt_dec i (length (mx_rows m))) as [Lt|Ge].
      * rewrite app_nth1 by lia. rewrite Old by exact Lt. apply H, Lt.
      * replace i with (length (mx_rows m) + (i - length (mx_rows m)))%nat by lia. rewrite NewF, New by lia.
        apply (proj1 (Forall_forall _ _) St). apply nth_In. lia.
Qed.

Lemma apply_lin_len m k : length (mx_lin m) = length (mx_rows m) -> length (mx_lin (apply_keyword m k)) = length (mx_rows (apply_keyword m k)).
Proof.
  intros W. destruct k as [l|l]; cbn [apply_keyword mx_lin mx_rows].
  - rewrite map_length, combine_length, seq_length. lia.
  - rewrite !app_length, !map_length. lia.
Qed.
Lemma apply_rows_le m k : (length (mx_rows m) <= length (mx_rows (apply_keyword m k)))%nat /\ mx_cols (apply_keyword m k) = mx_cols m.
Proof. destruct k as [l|l]; cbn [apply_keyword mx_rows mx_cols]; [auto|]. rewrite app_length. split; [lia|reflexivity]. Qed.
Lemma legal_mono m k k' : legal_keyword m k' -> legal_keyword (apply_keyword m k) k'.
Proof.
  intros (A&B&C). destruct (apply_rows_le m k) as (R1&R2). split; [exact A|]. split; [exact B|]. destruct k' as [l|l].
  - eapply Forall_impl; [|exact C]. intros i Hi. cbv beta in *. lia.
  - rewrite R2. exact C.
Qed.
Lemma stated_same m k k' x : legal_keyword m k' -> stated (apply_keyword m k) k' x <-> stated m k' x.
Proof.
  intros (_&_&C). destruct k' as [l|l]; cbn [stated]; [|tauto].
  rewrite !Forall_forall. split; intros H i Hi; specialize (H i Hi); pose proof (proj1 (Forall_forall _ _) C i Hi) as G; cbv beta in G.
  - rewrite apply_row in H by lia. exact H.
  - rewrite apply_row by lia. exact H.
Qed.
Theorem keywords_meaning x : forall ks m, length (mx_lin m) = length (mx_rows m) -> length x = (mx_cols m - 1)%nat ->
  Forall (legal_keyword m) ks ->
  legal_keywords m ks /\ (satisfies (fold_left apply_keyword ks m) x <-> satisfies m x /\ Forall (fun k => stated m k x) ks).
Proof.
  induction ks as [|k ks IH]; intros m W Lx L; cbn [fold_left legal_keywords].
  - split; [exact I|]. split; [intros H; split; [exact H|constructor]|tauto].
  - destruct (IH (apply_keyword m k)) as (A&B).
    + apply apply_lin_len, W.
    + rewrite (proj2 (apply_rows_le m k)). exact Lx.
    + eapply Forall_impl; [|exact (Forall_inv_tail L)]. intros k'. apply legal_mono.
    + split; [split; [exact (Forall_inv L)|exact A]|]. rewrite B, (keyword_meaning m k x W Lx (Forall_inv L)).
      assert (S1 : Forall (fun k' => stated (apply_keyword m k) k' x) ks <-> Forall (fun k' => stated m k' x) ks).
      { rewrite !Forall_forall. split; intros H k' Hk; specialize (H k' Hk); pose proof (proj1 (Forall_forall _ _) (Forall_inv_tail L) k' Hk) as G;
          [apply (stated_same m k k' x G) in H|apply (stated_same m k k' x G)]; exact H. }
      rewrite S1. split; [intros ((H1&H2)&H3); split; [exact H1|constructor; assumption]|].
      intros (H1&H2). split; [split; [exact H1|exact (Forall_inv H2)]|exact (Forall_inv_tail H2)].
Qed.

(** ** The command-line option "nonnegative" and the homogenized reader *)
Lemma unit_rows_oob cols h l i : In i l -> Z.of_nat cols <= i + h -> unit_rows cols h l = Err OutOfBounds.
Proof.
  induction l as [|a l IH]; intros Hi Hb; [destruct Hi|]. cbn [unit_rows].
  destruct (unit_row cols (a + h)) as [r|e] eqn:E.
  - cbn [bind]. destruct Hi as [->|Hi].
    + exfalso. unfold unit_row in E. destruct (Z.ltb_spec (i + h) (Z.of_nat cols)); [lia|]. rewrite andb_false_r in E. discriminate.
    + rewrite (IH Hi Hb). reflexivity.
  - unfold unit_row in E. destruct (_ && _); [discriminate|]. inversion E. reflexivity.
Qed.
Lemma read_count n c t : nondigit (c :: t) = true -> Z.of_nat n <= 2147483647 -> read_int (show_nat n ++ c :: t) = Ok (Z.of_nat n, c :: t).
Proof. intros C H. apply read_int_show; [reflexivity|exact C|apply int_small; lia]. Qed.
Lemma read_blank t : read_int (" "%char :: t) = read_int t.
Proof. reflexivity. Qed.
Theorem option_nonnegative_fails m : wf_matrix m -> mx_cols m <> O -> mx_vrep m = false ->
  read_matrix (write_matrix m) false false true = Err OutOfBounds.
Proof.
  intros W N V. pose proof (write_read_keywords m [] W I (Forall_nil _)) as E. rewrite V in E. cbn [flat_map fold_left] in E. rewrite app_nil_r in E.
  unfold read_matrix in *.
  destruct (read_int (write_matrix m)) as [p1|] eqn:E1; [|discriminate]. cbn [bind] in *.
  destruct (read_int (snd p1)) as [p2|] eqn:E2; [|discriminate]. cbn [bind] in *.
  destruct (read_rows (Z.to_nat (fst p1)) (Z.to_nat (fst p2)) (snd p2)) as [p3|] eqn:E3; [|discriminate]. cbn [bind] in *.
  match type of E with bind ?k _ = _ => destruct k as [m'|] eqn:E4; [|discriminate] end. cbn [bind] in *. inversion E; subst m'. clear E.
  assert (C : mx_cols m = Z.to_nat (fst p2)).
  { pose proof W as (W1&W2&W3&W4). unfold write_matrix in E1.
    rewrite (read_count (length (mx_rows m)) " "%char _ eq_refl) in E1 by lia. inversion E1; subst p1. cbn [snd] in E2.
    rewrite read_blank in E2.
    rewrite (read_count (mx_cols m) newline _ eq_refl) in E2 by lia. inversion E2; subst p2. cbn [fst]. rewrite Nat2Z.id. reflexivity. }
  unfold add_nonnegativity. rewrite <- C. rewrite (unit_rows_oob _ _ _ (Z.of_nat (mx_cols m))); [reflexivity| |cbn; lia].
  apply in_map_iff. exists (mx_cols m - 1)%nat. split; [lia|]. apply in_seq. lia.
Qed.
