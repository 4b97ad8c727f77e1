From Coq Require Import Relations Permutation.
From Verif Require Import Common Text Graph GraphSpec GraphProofs.
Open Scope nat_scope.

(** ** Edges among the vertices off .. off+n-1 *)
Definition isz (e : elist) (off n : nat) : nat := esize (firstn n (skipn off e)).
Definition closed_range (e : elist) (off n : nat) : Prop := forall a b, off <= a < off + n -> In b (nth a e []) -> b < off + n.
Lemma skipn_upd {A} : forall off (e : list A) a x, off <= a -> skipn off (upd e a x) = upd (skipn off e) (a - off) x.
Proof.
  induction off as [|off IH]; intros e a x H; [rewrite Nat.sub_0_r; reflexivity|]. destruct e as [|y e]; [destruct a; reflexivity|].
  destruct a as [|a]; [lia|]. cbn [upd skipn]. rewrite IH by lia. reflexivity.
Qed.
Lemma nth_skipn {A} : forall off (e : list A) j d, nth j (skipn off e) d = nth (off + j) e d.
Proof. induction off as [|off IH]; intros e j d; [reflexivity|]. destruct e as [|y e]; [destruct j; reflexivity|]. cbn [skipn Nat.add nth]. apply IH. Qed.
Lemma isz_push e off n a b : off <= a < off + n -> off + n <= length e -> isz (upd e a (nth a e [] ++ [b])) off n = isz e off n + 1.
Proof.
  intros Ha Hn. unfold isz. rewrite skipn_upd, firstn_upd by lia.
  assert (L : a - off < length (firstn n (skipn off e))) by (rewrite firstn_length, skipn_length; lia).
  pose proof (esize_upd _ _ (nth a e [] ++ [b]) L) as U. rewrite nth_firstn_lt, nth_skipn in U by lia.
  replace (off + (a - off)) with a in U by lia. rewrite app_length in U. cbn [length] in U. lia.
Qed.
Lemma isz_other e off n a l : ~ (off <= a < off + n) -> isz (upd e a l) off n = isz e off n.
Proof.
  intros Ha. unfold isz. f_equal. apply (nth_ext _ _ [] []).
  - rewrite !firstn_length, !skipn_length, length_upd. reflexivity.
  - intros j Hj. rewrite firstn_length, skipn_length, length_upd in Hj. rewrite !nth_firstn_lt, !nth_skipn by lia. apply nth_upd_neq. lia.
Qed.
Lemma isz_all e : isz e 0 (length e) = esize e.
Proof. unfold isz. cbn [skipn]. rewrite firstn_all. reflexivity. Qed.

(** Rows of a strictly upper triangular table. *)
Lemma rows_bound N : forall (r : elist) s, s + length r = N ->
  (forall j, j < length r -> NoDup (nth j r []) /\ forall b, In b (nth j r []) -> s + j < b < N) -> 2 * esize r <= length r * (length r - 1).
Proof.
  induction r as [|row r IH]; intros s L H; [cbn; lia|]. cbn [length] in *.
  pose proof (H 0 ltac:(lia)) as (D&F). cbn [nth] in D, F.
  assert (Lr : length row <= length r).
  { replace (length r) with (length (seq (S s) (length r))) by apply seq_length. apply NoDup_incl_length; [exact D|]. intros b Hb. apply in_seq. specialize (F b Hb). lia. }
  specialize (IH (S s) ltac:(lia)). assert (2 * esize r <= length r * (length r - 1)).
  { apply IH. intros j Hj. destruct (H (S j) ltac:(lia)) as (D2&F2). cbn [nth] in *. split; [exact D2|]. intros b Hb. specialize (F2 b Hb). lia. }
  unfold esize in *. cbn [map list_sum fold_right]. change (fold_right Nat.add 0) with list_sum. nia.
Qed.
Lemma rows_missing N : forall (r : elist) s, s + length r = N -> 2 * esize r < length r * (length r - 1) ->
  exists j b, j < length r /\ s + j < b < N /\ ~ In b (nth j r []).
Proof.
  induction r as [|row r IH]; intros s L H; [cbn in H; lia|]. cbn [length] in *.
  destruct (forallb (fun b => existsb (Nat.eqb b) row) (seq (S s) (length r))) eqn:E.
  - rewrite forallb_forall in E.
    assert (Lr : length r <= length row).
    { replace (length r) with (length (seq (S s) (length r))) by apply seq_length. apply NoDup_incl_length; [apply seq_NoDup|]. intros b Hb. apply existsb_in, E, Hb. }
    destruct (IH (S s)) as (j&b&A&B&C); [lia|unfold esize in *; cbn [map list_sum fold_right] in H; change (fold_right Nat.add 0) with list_sum in H; nia|].
    exists (S j), b. cbn [nth]. split; [lia|]. split; [lia|exact C].
  - assert (exists b, In b (seq (S s) (length r)) /\ existsb (Nat.eqb b) row = false) as (b&Ib&Eb).
    { clear -E. induction (seq (S s) (length r)) as [|x l IH]; [discriminate|]. cbn [forallb] in E. destruct (existsb (Nat.eqb x) row) eqn:Ex.
      - destruct (IH E) as (b&I&F). exists b. split; [right; exact I|exact F].
      - exists x. split; [left; reflexivity|exact Ex]. }
    exists 0, b. apply in_seq in Ib. cbn [nth]. split; [lia|]. split; [lia|]. intros I. apply existsb_in in I. congruence.
Qed.
Lemma row_strict e a b : wf e -> (forall x, ~ eadj e x x) -> In b (nth a e []) -> a < b < length e.
Proof.
  intros W Lf I. destruct (wf_adj e a b W (or_introl I)) as (Ha&Hb). destruct (W a Ha) as (_&F). pose proof (proj1 (Forall_forall _ _) F b I) as G. cbv beta in G.
  destruct (Nat.eq_dec a b) as [->|D]; [exfalso; apply (Lf b); left; exact I|lia].
Qed.
Lemma range_bound e off n : wf e -> (forall x, ~ eadj e x x) -> off + n <= length e -> closed_range e off n -> 2 * isz e off n <= n * (n - 1).
Proof.
  intros W Lf L C. unfold isz. assert (Ln : length (firstn n (skipn off e)) = n) by (rewrite firstn_length, skipn_length; lia).
  pose proof (rows_bound (off + n) (firstn n (skipn off e)) off) as B. rewrite Ln in B. apply B; [reflexivity|].
  intros j Hj. rewrite nth_firstn_lt, nth_skipn by lia. split; [apply W; lia|]. intros b Hb. pose proof (row_strict e _ b W Lf Hb). specialize (C (off + j) b ltac:(lia) Hb). lia.
Qed.
Lemma range_missing e off n : wf e -> off + n <= length e -> 2 * isz e off n < n * (n - 1) -> exists a b, off <= a < b /\ b < off + n /\ ~ eadj e a b.
Proof.
  intros W L H. unfold isz in H. assert (Ln : length (firstn n (skipn off e)) = n) by (rewrite firstn_length, skipn_length; lia).
  pose proof (rows_missing (off + n) (firstn n (skipn off e)) off) as B. rewrite Ln in B. destruct (B eq_refl H) as (j&b&A&R&Nb).
  rewrite nth_firstn_lt, nth_skipn in Nb by lia. exists (off + j), b. split; [lia|]. split; [lia|]. intros [I|I]; [exact (Nb I)|].
  destruct (W b ltac:(lia)) as (_&F). pose proof (proj1 (Forall_forall _ _) F _ I) as G. cbv beta in G. lia.
Qed.

(** ** The loop that adds random edges *)
Record filled (n off : nat) (target cnt : Z) (e e' : elist) : Prop := mkFilled {
  fi_wf : wf e'; fi_len : length e' = length e;
  fi_mono : forall a b, eadj e a b -> eadj e' a b;
  fi_new : forall a b, eadj e' a b -> eadj e a b \/ (off <= a < off + n /\ off <= b < off + n);
  fi_loop : (forall a, ~ eadj e a a) -> forall a, ~ eadj e' a a;
  fi_isz : Z.of_nat (isz e' off n) = (Z.of_nat (isz e off n) + Z.max 0 (target - cnt))%Z;
  fi_esize : Z.of_nat (esize e') = (Z.of_nat (esize e) + Z.max 0 (target - cnt))%Z;
  fi_row : forall a, ~ (off <= a < off + n) -> nth a e' [] = nth a e [] }.

Lemma step_filled n off u v e : wf e -> off + n <= length e -> off <= u < off + n -> off <= v < off + n -> u <> v ->
  exists e1 fl, add_edge e u v = Ok (e1, fl) /\ filled n off (if fl : bool then 1 else 0)%Z 0 e e1 /\ (fl = false -> e1 = e /\ eadj e u v).
Proof.
  intros W L Hu Hv D. destruct (add_edge_ok e u v W) as (e1&fl&E1&W1&L1&A1&T1&F1&R1); [lia|lia|].
  exists e1, fl. split; [exact E1|]. split; [|intros Hf; destruct (F1 Hf); auto]. constructor.
  - exact W1.
  - exact L1.
  - intros a b H. apply A1. left; exact H.
  - intros a b H. apply A1 in H. destruct H as [H|[(->&->)|(->&->)]]; [left; exact H|right; lia|right; lia].
  - intros Lf a H. apply A1 in H. destruct H as [H|[(->&H)|(->&H)]]; [exact (Lf a H)|congruence|congruence].
  - destruct fl; [rewrite (R1 eq_refl), isz_push by lia; lia|destruct (F1 eq_refl) as (_&->); lia].
  - destruct fl; [destruct (T1 eq_refl) as (_&->); lia|destruct (F1 eq_refl) as (_&->); lia].
  - intros a Ha. destruct fl; [rewrite (R1 eq_refl); apply nth_upd_neq; lia|destruct (F1 eq_refl) as (_&->); reflexivity].
Qed.
Lemma filled_refl n off t c e : wf e -> (t <= c)%Z -> filled n off t c e e.
Proof. intros W H. constructor; auto; lia. Qed.
Lemma filled_trans n off t c c1 e e1 e2 : (c <= c1 <= t)%Z -> filled n off c1 c e e1 -> filled n off t c1 e1 e2 -> filled n off t c e e2.
Proof.
  intros H A B. constructor.
  - apply B.
  - rewrite (fi_len _ _ _ _ _ _ B). apply A.
  - intros a b X. apply B, A, X.
  - intros a b X. apply (fi_new _ _ _ _ _ _ B) in X. destruct X as [X|X]; [apply A, X|right; exact X].
  - intros X. apply (fi_loop _ _ _ _ _ _ B), (fi_loop _ _ _ _ _ _ A), X.
  - rewrite (fi_isz _ _ _ _ _ _ B), (fi_isz _ _ _ _ _ _ A). lia.
  - rewrite (fi_esize _ _ _ _ _ _ B), (fi_esize _ _ _ _ _ _ A). lia.
  - intros a X. rewrite (fi_row _ _ _ _ _ _ B a X). apply A, X.
Qed.
Lemma fill_safe rnd n off target : n <> 0 -> forall fuel cnt e pos, wf e -> off + n <= length e ->
  fill fuel rnd n off target cnt e pos = Err OutOfFuel \/
  exists e' p', fill fuel rnd n off target cnt e pos = Ok (e', p') /\ filled n off target cnt e e'.
Proof.
  intros Hn. induction fuel as [|f IH]; intros cnt e pos W L; [left; reflexivity|]. cbn [fill].
  destruct (Z.ltb_spec cnt target) as [Lt|Ge].
  - pose proof (Nat.mod_upper_bound (rnd pos) n Hn). pose proof (Nat.mod_upper_bound (rnd (pos + 1)) n Hn).
    set (v1 := rnd pos mod n + off). set (v2 := rnd (pos + 1) mod n + off).
    destruct (Nat.eqb_spec v1 v2) as [E|E]; [apply IH; assumption|].
    destruct (step_filled n off v1 v2 e W L) as (e1&fl&E1&F1&F2); [unfold v1; lia|unfold v2; lia|exact E|]. rewrite E1. cbn [bind fst snd].
    pose proof (fi_len _ _ _ _ _ _ F1) as L1.
    destruct (IH (if fl then cnt + 1 else cnt)%Z e1 (pos + 2)) as [Er|(e'&p'&Eo&Fo)]; [apply F1|lia|left; exact Er|].
    right. exists e', p'. split; [exact Eo|]. apply (filled_trans n off target cnt (if fl then cnt + 1 else cnt)%Z e e1 e'); [destruct fl; lia| |exact Fo].
    destruct F1. constructor; auto; destruct fl; lia.
  - right. exists e, pos. split; [reflexivity|]. apply filled_refl; [exact W|lia].
Qed.
Lemma fill_more rnd n off target : forall f cnt e pos r k, fill f rnd n off target cnt e pos = Ok r -> fill (f + k) rnd n off target cnt e pos = Ok r.
Proof.
  induction f as [|f IH]; intros cnt e pos r k H; [discriminate|]. cbn [fill Nat.add] in *. destruct (cnt <? target)%Z; [|exact H].
  destruct (Nat.eqb _ _); [apply IH, H|]. destruct (add_edge _ _ _) as [p|]; [|discriminate]. cbn [bind] in *. apply IH, H.
Qed.
Lemma fill_live rnd n off target : n <> 0 -> fair rnd n -> (2 * target <= Z.of_nat (n * (n - 1)))%Z ->
  forall d cnt e pos, Z.to_nat (target - cnt) = d -> wf e -> off + n <= length e -> (Z.of_nat (isz e off n) <= cnt)%Z ->
  exists f r, fill f rnd n off target cnt e pos = Ok r.
Proof.
  intros Hn Fr Ht. induction d as [|d IH]; intros cnt e pos Hd W L C.
  - exists 1, (e, pos). cbn [fill]. rewrite (proj2 (Z.ltb_ge cnt target)) by lia. reflexivity.
  - destruct (range_missing e off n W L) as (a&b&Hab&Hb&Na); [lia|].
    destruct (Fr pos (a - off) (b - off)) as (k&K1&K2); [lia|lia|].
    revert pos K1 K2. induction k as [|k IHk]; intros pos K1 K2.
    + replace (pos + 2 * 0) with pos in K1 by lia. replace (pos + 2 * 0 + 1) with (pos + 1) in K2 by lia.
      destruct (step_filled n off a b e W L) as (e1&fl&E1&F1&F2); [lia|lia|lia|].
      destruct fl; [|destruct (F2 eq_refl) as (_&X); contradiction].
      destruct (IH (cnt + 1)%Z e1 (pos + 2)) as (f&r&Ef); [lia|apply F1|rewrite (fi_len _ _ _ _ _ _ F1); exact L|rewrite (fi_isz _ _ _ _ _ _ F1); lia|].
      exists (S f), r. cbn [fill]. rewrite (proj2 (Z.ltb_lt cnt target)) by lia. rewrite K1, K2.
      replace (a - off + off) with a by lia. replace (b - off + off) with b by lia. rewrite (proj2 (Nat.eqb_neq a b)) by lia. rewrite E1. cbn [bind fst snd]. exact Ef.
    + pose proof (Nat.mod_upper_bound (rnd pos) n Hn). pose proof (Nat.mod_upper_bound (rnd (pos + 1)) n Hn).
      destruct (IHk (pos + 2)) as (f&r&Ef); [rewrite <- K1; do 2 f_equal; lia|rewrite <- K2; do 2 f_equal; lia|].
      destruct (Nat.eq_dec (rnd pos mod n + off) (rnd (pos + 1) mod n + off)) as [E|E].
      * exists (S f), r. cbn [fill]. rewrite (proj2 (Z.ltb_lt cnt target)) by lia. rewrite (proj2 (Nat.eqb_eq _ _) E). exact Ef.
      * destruct (step_filled n off (rnd pos mod n + off) (rnd (pos + 1) mod n + off) e W L) as (e1&fl&E1&F1&F2); [lia|lia|exact E|].
        destruct fl.
        -- destruct (IH (cnt + 1)%Z e1 (pos + 2)) as (f'&r'&Ef'); [lia|apply F1|rewrite (fi_len _ _ _ _ _ _ F1); exact L|rewrite (fi_isz _ _ _ _ _ _ F1); lia|].
           exists (S f'), r'. cbn [fill]. rewrite (proj2 (Z.ltb_lt cnt target)) by lia. rewrite (proj2 (Nat.eqb_neq _ _) E). rewrite E1. cbn [bind fst snd]. exact Ef'.
        -- destruct (F2 eq_refl) as (->&_). exists (S f), r. cbn [fill]. rewrite (proj2 (Z.ltb_lt cnt target)) by lia. rewrite (proj2 (Nat.eqb_neq _ _) E). rewrite E1. cbn [bind fst snd]. exact Ef.
Qed.

(** ** Whole generators *)
Lemma wf_repeat n : wf (repeat [] n).
Proof. intros a _. rewrite nth_repeat_nil. split; constructor. Qed.
Lemma adj_repeat n a b : ~ eadj (repeat [] n) a b.
Proof. unfold eadj. rewrite !nth_repeat_nil. intros [[]|[]]. Qed.

Lemma spanning_ok rnd g pos : stored g -> (1 <= numVertex g)%Z ->
  exists g', spanning_tree rnd g pos = Ok (g', pos + 2 * (order g - 1)) /\ stored g' /\ numVertex g' = numVertex g /\ connected g' /\
    (loop_free g -> loop_free g') /\ (forall a b, adjacent g a b -> adjacent g' a b) /\
    ((forall a b, ~ adjacent g a b) -> Z.of_nat (size g') = numVertex g - 1)%Z.
Proof.
  intros (Sn&W) H1. unfold spanning_tree. rewrite (proj2 (Z.ltb_ge (numVertex g - 1) 0)) by lia.
  set (m := Z.to_nat (numVertex g - 1)). assert (Hm : order g = S m) by lia.
  destruct (tree_loop_ok rnd m (seq 0 m) [m] (edges g) pos) as (e'&E&W'&L'&C'&M'&Lf'&Sz').
  - exact W.
  - rewrite seq_length. lia.
  - discriminate.
  - fold (order g). rewrite Hm, seq_S. rewrite <- (seq_length m 0) at 1. rewrite firstn_all. apply Permutation_refl.
  - intros a b [<-|[]] [<-|[]]. apply rt_refl.
  - rewrite E. cbn [bind fst snd]. exists (mkGraph (numVertex g) e'). split; [do 3 f_equal; lia|]. unfold order in *.
    split; [split; [unfold order; cbn [numVertex edges]; lia|exact W']|]. split; [reflexivity|]. split; [|split; [exact Lf'|split; [exact M'|]]].
    + intros a b Ha Hb. unfold order in Ha, Hb. cbn [edges] in Ha, Hb. apply C'; lia.
    + intros Em. change (size _) with (esize e'). rewrite Sz'; [|intros a b H; destruct (Em a b H)].
      assert (E0 : esize (edges g) = 0).
      { assert (A : forall l, In l (edges g) -> l = []).
        { intros l Hl. destruct (In_nth _ _ [] Hl) as (a&Ha&Ea). destruct l as [|b l]; [reflexivity|]. exfalso. apply (Em a b). left. rewrite Ea. left; reflexivity. }
        clear -A. induction (edges g) as [|l e IH]; [reflexivity|]. unfold esize in *. cbn [map list_sum fold_right]. change (fold_right Nat.add 0) with list_sum.
        rewrite (A l (or_introl eq_refl)). apply IH. intros x Hx. apply A. right; exact Hx. }
      lia.
Qed.
Definition empty_graph (n : Z) : graph := mkGraph n (repeat [] (Z.to_nat n)).
Lemma empty_ok n : (0 <= n)%Z -> stored (empty_graph n) /\ (forall a b, ~ adjacent (empty_graph n) a b) /\ fresh n = Ok (edges (empty_graph n)).
Proof.
  intros H. split; [|split].
  - split; [unfold order, empty_graph; cbn [numVertex edges]; rewrite repeat_length; lia|apply wf_repeat].
  - intros a b. apply adj_repeat.
  - unfold fresh. rewrite (proj2 (Z.ltb_ge n 0)) by lia. reflexivity.
Qed.

Definition connected_args (n k : Z) : Prop := (2 < n)%Z /\ (n - 1 <= k)%Z /\ (k <= n * (n - 1) / 2)%Z /\ (n * (n - 1) <= 2147483647)%Z.
Lemma int_ok z : (-2147483648 <= z <= 2147483647)%Z -> int_range z = true.
Proof. intros H. unfold int_range. apply andb_true_iff. split; apply Z.leb_le; lia. Qed.
Lemma half_le k x : (k <= x / 2)%Z <-> (2 * k <= x)%Z.
Proof. split; intros H; [pose proof (Z.mul_div_le x 2 ltac:(lia)); lia|apply Z.div_le_lower_bound; lia]. Qed.

Lemma connected_unfold fuel rnd g n k pos : connected_args n k ->
  exists g1, spanning_tree rnd (empty_graph n) pos = Ok (g1, pos + 2 * (Z.to_nat n - 1)) /\ stored g1 /\ numVertex g1 = n /\ order g1 = Z.to_nat n /\ connected g1 /\ loop_free g1 /\
    (Z.of_nat (size g1) = n - 1)%Z /\
    random_connected fuel rnd g n k pos = bind (fill fuel rnd (Z.to_nat n) 0 k (n - 1) (edges g1) (pos + 2 * (Z.to_nat n - 1))) (fun q => Ok (mkGraph n (fst q), snd q)).
Proof.
  intros (A1&A2&A3&A4). pose proof (proj1 (half_le _ _) A3) as A5.
  destruct (empty_ok n ltac:(lia)) as (S0&E0&F0).
  destruct (spanning_ok rnd (empty_graph n) pos S0 ltac:(cbn [empty_graph numVertex]; lia)) as (g1&E1&S1&N1&C1&L1&_&Z1).
  assert (O0 : order (empty_graph n) = Z.to_nat n) by (unfold order; cbn [empty_graph edges]; apply repeat_length).
  rewrite O0 in E1. cbn [empty_graph numVertex] in N1, Z1.
  exists g1. split; [exact E1|]. split; [exact S1|]. split; [exact N1|]. split; [destruct S1 as (Sn&_); lia|]. split; [exact C1|].
  split; [apply L1; intros a; apply E0|]. split; [apply Z1, E0|].
  unfold random_connected. rewrite (proj2 (Z.leb_gt n 2)) by lia. rewrite int_ok by nia. cbn [negb].
  rewrite Z.gtb_ltb, (proj2 (Z.ltb_ge (k + 1) n)) by lia. rewrite int_ok by nia. cbn [negb]. rewrite Z.gtb_ltb, (proj2 (Z.ltb_ge (n * (n - 1) / 2) k)) by lia.
  rewrite F0. cbn [bind]. change (mkGraph n (edges (empty_graph n))) with (empty_graph n). rewrite E1. cbn [bind fst snd]. reflexivity.
Qed.
Lemma graph_simple n e : wf e -> Z.of_nat (length e) = n -> (forall a, ~ eadj e a a) -> simple n (mkGraph n e).
Proof. intros W L Lf. split; [reflexivity|]. split; [split; [symmetry; exact L|exact W]|exact Lf]. Qed.

Lemma random_connected_safe fuel rnd g n k pos : connected_args n k ->
  random_connected fuel rnd g n k pos = Err OutOfFuel \/
  exists g' p', random_connected fuel rnd g n k pos = Ok (g', p') /\ simple n g' /\ connected g' /\ Z.of_nat (size g') = k.
Proof.
  intros A. destruct (connected_unfold fuel rnd g n k pos A) as (g1&E1&(S1&S2)&N1&O1&C1&L1&Z1&->). destruct A as (A1&A2&A3&A4).
  destruct (fill_safe rnd (Z.to_nat n) 0 k ltac:(lia) fuel (n - 1)%Z (edges g1) (pos + 2 * (Z.to_nat n - 1))%nat S2) as [->|(e'&p'&->&F)].
  - unfold order in O1. lia.
  - left; reflexivity.
  - right. cbn [bind fst snd]. exists (mkGraph n e'), p'. split; [reflexivity|]. pose proof (fi_len _ _ _ _ _ _ F) as Le. unfold order in *. split; [|split].
    + apply graph_simple; [apply F|lia|]. apply (fi_loop _ _ _ _ _ _ F). exact L1.
    + intros a b Ha Hb. unfold order in *. cbn [edges] in Ha, Hb. apply (ejoined_mono (edges g1)); [apply F|]. apply C1; unfold order; lia.
    + change (size (mkGraph n e')) with (esize e'). rewrite (fi_esize _ _ _ _ _ _ F). change (size g1) with (esize (edges g1)) in Z1. lia.
Qed.
Lemma random_connected_live rnd g n k pos : connected_args n k -> fair rnd (Z.to_nat n) ->
  exists fuel r, random_connected fuel rnd g n k pos = Ok r.
Proof.
  intros A Fr. destruct (connected_unfold 0 rnd g n k pos A) as (g1&E1&(S1&S2)&N1&O1&C1&L1&Z1&_). pose proof A as (A1&A2&A3&A4). pose proof (proj1 (half_le _ _) A3) as A5.
  destruct (fill_live rnd (Z.to_nat n) 0 k ltac:(lia) Fr ltac:(nia) _ (n - 1)%Z (edges g1) (pos + 2 * (Z.to_nat n - 1))%nat eq_refl S2) as (f&r&E).
  - unfold order in O1. lia.
  - replace (Z.to_nat n) with (length (edges g1)) by (unfold order in O1; lia). rewrite isz_all. change (size g1) with (esize (edges g1)) in Z1. lia.
  - destruct (connected_unfold f rnd g n k pos A) as (g2&E2&_&_&_&_&_&_&U). rewrite E1 in E2. inversion E2; subst g2.
    exists f. eexists. rewrite U, E. reflexivity.
Qed.
