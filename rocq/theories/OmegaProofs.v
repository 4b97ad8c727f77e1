(** Short vectors: the lattice of determinants, the search over the box. *)
From Verif Require Import Common ZMat Hermite HermiteProofs Det DetProofs Piped PipedSpec PipedProofs Irrational BarvinokProofs3 BarvinokProofs4 Omega OmegaSpec.
Open Scope Z_scope.

(** norm *)
Lemma norm_fold x : forall l s, 0 <= s -> let r := fold_left (fun s i => if s <? Z.abs (nth i x 0) then Z.abs (nth i x 0) else s) l s in
  s <= r /\ (forall i, In i l -> Z.abs (nth i x 0) <= r) /\ forall b, s <= b -> (forall i, In i l -> Z.abs (nth i x 0) <= b) -> r <= b.
Proof.
  induction l as [|j l IH]; intros s Hs; cbn [fold_left].
  - split; [lia|]. split; [intros i []|]. intros; lia.
  - destruct (Z.ltb_spec s (Z.abs (nth j x 0))) as [H|H].
    + destruct (IH (Z.abs (nth j x 0)) ltac:(lia)) as (A & B & C). split; [lia|]. split; [intros i [<-|Hi]; auto|]. intros b Hb Hx. apply C; [apply Hx; now left|intros i Hi; apply Hx; now right].
    + destruct (IH s Hs) as (A & B & C). split; [lia|]. split; [intros i [<-|Hi]; [lia|auto]|]. intros b Hb Hx. apply C; [auto|intros i Hi; apply Hx; now right].
Qed.
Lemma norm_ge x m i : (i < m)%nat -> Z.abs (nth i x 0) <= norm x m.
Proof. intros Hi. apply (norm_fold x (seq 0 m) 0 ltac:(lia)). apply in_seq. lia. Qed.
Lemma norm_nonneg x m : 0 <= norm x m.
Proof. apply (norm_fold x (seq 0 m) 0 ltac:(lia)). Qed.
Lemma norm_le x m b : 0 <= b -> (forall i, (i < m)%nat -> Z.abs (nth i x 0) <= b) -> norm x m <= b.
Proof. intros Hb H. apply (norm_fold x (seq 0 m) 0 ltac:(lia)); [auto|]. intros i Hi. apply in_seq in Hi. apply H. lia. Qed.
Lemma norm_0 x m : norm x m = 0 -> forall i, (i < m)%nat -> nth i x 0 = 0.
Proof. intros H i Hi. pose proof (norm_ge x m i Hi). lia. Qed.
Lemma norm_ext x y m : (forall i, (i < m)%nat -> nth i x 0 = nth i y 0) -> norm x m = norm y m.
Proof. intros H. apply Z.le_antisymm; apply norm_le; try apply norm_nonneg; intros i Hi; [rewrite H by auto|rewrite <- H by auto]; now apply norm_ge. Qed.

(** decimal digits *)
Lemma numbers_app m : forall c acc, numbers m c acc = numbers m c [] ++ acc.
Proof. induction m as [|m IH]; intros c acc; cbn [numbers]; [reflexivity|]. rewrite IH. rewrite (IH _ [_]). rewrite <- app_assoc. reflexivity. Qed.
Lemma numbers_length m : forall c acc, length (numbers m c acc) = (m + length acc)%nat.
Proof. induction m as [|m IH]; intros c acc; cbn [numbers]; [reflexivity|]. rewrite IH. cbn [length]. lia. Qed.
Lemma numbers_range m : forall c acc, Forall (fun d => -5 <= d <= 4) acc -> Forall (fun d => -5 <= d <= 4) (numbers m c acc).
Proof. induction m as [|m IH]; intros c acc H; cbn [numbers]; [exact H|]. apply IH. constructor; [|exact H]. pose proof (Z.mod_pos_bound c 10 ltac:(lia)). lia. Qed.
Definition val (c : list Z) : Z := fold_left (fun a d => 10 * a + (d + 5)) c 0.
Lemma val_snoc c d : val (c ++ [d]) = 10 * val c + (d + 5).
Proof. unfold val. now rewrite fold_left_app. Qed.
Lemma val_digits c : Forall (fun d => -5 <= d <= 4) c -> numbers (length c) (val c) [] = c /\ 0 <= val c <= 10 ^ Z.of_nat (length c) - 1 /\ (val c = 0 -> forall d, In d c -> d = -5).
Proof.
  induction c as [|d c IH] using rev_ind; intros H; [split; [reflexivity|]; split; [cbn; lia|]; intros _ d []|].
  apply Forall_app in H as [Hc Hd]. apply Forall_inv in Hd. cbv beta in Hd. destruct (IH Hc) as (A & B & C). rewrite val_snoc, app_length. cbn [length]. rewrite Nat.add_1_r. cbn [numbers].
  replace (10 * val c + (d + 5)) with (d + 5 + val c * 10) by ring. rewrite Z.div_add, Z.mod_add, Z.div_small, Z.mod_small by lia.
  rewrite numbers_app. cbn [Z.add]. rewrite A. split; [f_equal; f_equal; lia|]. rewrite Nat2Z.inj_succ, Z.pow_succ_r by lia. split; [lia|].
  intros E e He. apply in_app_iff in He as [He|[<-|[]]]; [apply C; [lia|auto]|lia].
Qed.

Lemma mix_length m x L : length (mix m x L) = m.
Proof. unfold mix. now rewrite map_length, seq_length. Qed.
Lemma mix_nth m x L k : (k < m)%nat -> nth k (mix m x L) 0 = zsum m (fun j => nth j x 0 * ent L j k).
Proof. intros H. unfold mix. now rewrite nth_map_seq. Qed.
Lemma mix_unit m L i k : (i < m)%nat -> (k < m)%nat -> nth k (mix m (unit_row m i) L) 0 = ent L i k.
Proof.
  intros Hi Hk. rewrite mix_nth by auto. rewrite (zsum_single m _ i Hi).
  - unfold unit_row. rewrite nth_map_seq by auto. rewrite Nat.eqb_refl. ring.
  - intros j Hj N. unfold unit_row. rewrite nth_map_seq by auto. rewrite (proj2 (Nat.eqb_neq i j)) by auto. ring.
Qed.

Section Row.
Context (m : nat) (L : list (list Z)) (Hm : (0 < m)%nat) (NZ : forall i, (i < m)%nat -> norm (nth i L []) m <> 0).
Lemma short_row_ok : (short_row m L < m)%nat /\ (forall j, (j < m)%nat -> norm (nth (short_row m L) L []) m <= norm (nth j L []) m \/ 1000000 <= norm (nth j L []) m) /\
  norm (nth (short_row m L) L []) m <= norm (nth 0 L []) m.
Proof.
  set (f := fun '(pp, index) i => let p := norm (nth i L []) m in if negb (p =? 0) && (p <? pp) then (p, i) else (pp, index)).
  assert (G : forall l pp index, (forall i, In i l -> (i < m)%nat) -> (index < m)%nat -> (pp = 1000000 /\ index = 0%nat \/ pp < 1000000 /\ pp = norm (nth index L []) m) ->
    let r := fold_left f l (pp, index) in (snd r < m)%nat /\ fst r <= pp /\ (fst r = 1000000 /\ snd r = 0%nat \/ fst r < 1000000 /\ fst r = norm (nth (snd r) L []) m) /\ forall j, In j l -> fst r <= norm (nth j L []) m).
  { induction l as [|i l IH]; intros pp index Hl Hi Inv; cbn [fold_left].
    - split; [exact Hi|]. split; [cbn; lia|]. split; [exact Inv|intros j []].
    - assert (Hi' : (i < m)%nat) by (apply Hl; now left). set (p := norm (nth i L []) m). specialize (NZ i Hi'). fold p in NZ.
      change (f (pp, index) i) with (if negb (p =? 0) && (p <? pp) then (p, i) else (pp, index)). rewrite (proj2 (Z.eqb_neq p 0) NZ). cbn [negb andb]. destruct (Z.ltb_spec p pp) as [H|H].
      + destruct (IH p i (fun k Hk => Hl k (or_intror Hk)) Hi') as (A & B & C & D); [right; split; [lia|reflexivity]|]. split; [exact A|]. split; [lia|]. split; [exact C|]. intros j [<-|Hj]; [exact B|now apply D].
      + destruct (IH pp index (fun k Hk => Hl k (or_intror Hk)) Hi Inv) as (A & B & C & D). split; [exact A|]. split; [exact B|]. split; [exact C|]. intros j [<-|Hj]; [fold p; lia|now apply D]. }
  destruct (G (seq 0 m) 1000000 0%nat) as (A & B & C & D); [intros i Hi; apply in_seq in Hi; lia|exact Hm|left; auto|]. cbv zeta in *.
  change (snd (fold_left f (seq 0 m) (1000000, 0%nat))) with (short_row m L) in *. split; [exact A|].
  destruct C as [[C1 C2]|[C1 C2]].
  - rewrite C2. split; [|lia]. intros j Hj. right. rewrite <- C1. apply D. apply in_seq. lia.
  - split; [intros j Hj; left; rewrite <- C2; apply D; apply in_seq; lia|]. rewrite <- C2. apply D. apply in_seq. lia.
Qed.
(** The search. *)
Definition in_range (c : list Z) : Prop := length c = m /\ Forall (fun d => -5 <= d <= 4) c.
Lemma better_fold l : forall st0, let st := fold_left (better m L) l st0 in
  fst st <= fst st0 /\
  (st = st0 \/ exists c, in_range c /\ snd st = mix m c L /\ fst st = norm (snd st) m /\ fst st <> 0 /\ fst st < fst st0) /\
  forall x, In x l -> norm (mix m (numbers m x []) L) m = 0 \/ fst st <= norm (mix m (numbers m x []) L) m.
Proof.
  induction l as [|x l IH]; intros st0; cbn [fold_left]; [split; [lia|]; split; [now left|intros x []]|].
  set (st1 := better m L st0 x). specialize (IH st1). cbv zeta in *. destruct IH as (A & B & C).
  assert (S1 : (st1 = st0 /\ (norm (mix m (numbers m x []) L) m = 0 \/ fst st0 <= norm (mix m (numbers m x []) L) m)) \/
    (st1 = (norm (mix m (numbers m x []) L) m, mix m (numbers m x []) L) /\ fst st1 < fst st0 /\ fst st1 <> 0)).
  { unfold st1, better. cbv zeta. destruct (Z.ltb_spec (norm (mix m (numbers m x []) L) m) (fst st0)) as [H|H]; cbn [andb]; [|left; auto]. destruct (Z.eqb_spec (norm (mix m (numbers m x []) L) m) 0) as [E|E]; cbn [negb]; [left; auto|]. right. cbn [fst]. auto. }
  assert (R : in_range (numbers m x [])) by (split; [rewrite numbers_length; cbn; lia|apply numbers_range; constructor]).
  destruct S1 as [[-> H]|(E1 & E2 & E3)].
  - split; [exact A|]. split; [exact B|]. intros y [<-|Hy]; [destruct H as [H|H]; [now left|right; lia]|now apply C].
  - split; [lia|]. split.
    + right. destruct B as [->|(c & C1 & C2 & C3 & C4 & C5)]; [|exists c; repeat (split; [assumption|]); lia].
      exists (numbers m x []). split; [exact R|]. rewrite E1 in E2, E3 |- *. cbn [fst snd] in *. auto.
    + intros y [<-|Hy]; [right|now apply C]. assert (E4 := f_equal fst E1). cbn [fst] in E4. lia.
Qed.
Lemma box_search_ok index : (index < m)%nat -> norm (nth index L []) m <= norm (nth 0 L []) m ->
  match box_search m L index with
  | Err e => (10 <= m)%nat
  | Ok v => (m < 10)%nat /\ (exists c, in_range c /\ v = mix m c L /\ norm v m < 100000000 /\ norm v m <> 0 \/ v = nth index L []) /\
            (forall c, in_range c -> (exists d, In d c /\ d <> -5) -> norm (mix m c L) m = 0 \/ 100000000 <= norm (mix m c L) m \/ norm v m <= norm (mix m c L) m) /\
            (v = nth index L [] \/ norm v m < 100000000)
  end.
Proof.
  intros Hi HN. unfold box_search. destruct (Z.ltb_spec int_max (10 ^ Z.of_nat m - 1)) as [H|H].
  - destruct (Nat.le_gt_cases 10 m) as [X|X]; [exact X|exfalso]. assert (10 ^ Z.of_nat m <= 10 ^ 9) by (apply Z.pow_le_mono_r; lia). unfold int_max in H. lia.
  - set (l := map Z.of_nat _). destruct (better_fold l (100000000, nth index L [])) as (A & B & C). cbv zeta in *. set (st := fold_left (better m L) l (100000000, nth index L [])) in *. cbn [fst snd] in *.
    assert (M10 : (m < 10)%nat). { destruct (Nat.le_gt_cases 10 m) as [X|X]; [exfalso|exact X]. assert (10 ^ 10 <= 10 ^ Z.of_nat m) by (apply Z.pow_le_mono_r; lia). unfold int_max in H. lia. }
    split; [exact M10|]. split; [|split].
    + destruct B as [->|(c & C1 & C2 & C3 & C4 & C5)]; [exists []; right; reflexivity|]. exists c. left. split; [exact C1|]. split; [exact C2|]. rewrite <- C3. auto.
    + intros c [Lc Rc] (d & Hd & Nd). destruct (val_digits c Rc) as (V1 & V2 & V3). rewrite Lc in V1, V2.
      assert (HI : In (val c) l). { apply in_map_iff. exists (Z.to_nat (val c)). split; [lia|]. apply in_seq. assert (val c <> 0) by (intros E; exact (Nd (V3 E d Hd))). lia. }
      destruct (C _ HI) as [Z0|GE]; rewrite V1 in *; [now left|]. right. destruct B as [E|(c' & C1 & C2 & C3 & C4 & C5)]; [left; rewrite E in GE; exact GE|right; lia].
    + destruct B as [->|(c & C1 & C2 & C3 & C4 & C5)]; [now left|right; lia].
Qed.
End Row.
