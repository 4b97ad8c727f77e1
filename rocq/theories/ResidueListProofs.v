(** The search for lambda. *)
From Coq Require Import QArith.
From Verif Require Import Common ZMat Piped Residue ResidueList.
From Verif Require PreprocProofs.
Open Scope Z_scope.

Definition wide (B : list (list (list Z))) (dots : list (list Z)) : Prop := Forall2 (fun rays ds : list _ => length ds = length rays) B dots.
Definition fits (lam : list Z) (B : list (list (list Z))) : Prop := Forall (Forall (fun r => zdot lam r <> 0)) B.
Lemma dots_cone_ok f g rays : forall ds, length ds = length rays -> (forall j, (j < length rays)%nat -> f (nth j rays []) (nth j ds 0) = g (nth j rays [])) ->
  forall l h, dots_cone f rays ds = (l, h) -> length l = length rays /\ match h with None => l = map g rays /\ Forall (fun r => g r <> 0) rays | Some r => In r rays /\ g r = 0 end.
Proof.
  induction rays as [|r rays IH]; intros [|d ds] L H l h E; try discriminate L; cbn [dots_cone] in E.
  - injection E as <- <-. split; [reflexivity|]. split; [reflexivity|constructor].
  - rewrite (H 0%nat ltac:(cbn; lia) : f r d = g r) in E. destruct (Z.eqb_spec (g r) 0) as [Z0|NZ].
    + injection E as <- <-. split; [exact L|]. split; [now left|exact Z0].
    + destruct (dots_cone f rays ds) as [l' h'] eqn:E'. injection E as <- <-. destruct (IH ds ltac:(cbn in L; lia) ltac:(intros j Hj; exact (H (S j) ltac:(cbn; lia))) l' h' E') as (L' & M). split; [cbn; lia|]. destruct h' as [r'|].
      * split; [right; apply M|apply M].
      * destruct M as (M1 & M2). split; [cbn [map]; now rewrite M1|now constructor].
Qed.
Lemma check_ok dim hc n dl lam0 lam B : (forall rays r, In rays B -> In r rays -> zdot lam0 r + partial_dot dim n dl r = zdot lam r) ->
  forall i dots, wide B dots -> (forall k, (k < length B)%nat -> (i + k < hc)%nat -> nth k dots [] = map (zdot lam0) (nth k B [])) ->
  forall l h, check dim hc n dl lam i B dots = (l, h) -> wide B l /\
  match h with
  | None => l = map (map (zdot lam)) B /\ Forall (Forall (fun r => zdot lam r <> 0)) B
  | Some (i', r) => (i <= i')%nat /\ (exists rays, In rays B /\ In r rays) /\ zdot lam r = 0 /\ forall k, (k < length B)%nat -> (i + k < i')%nat -> nth k l [] = map (zdot lam) (nth k B [])
  end.
Proof.
  induction B as [|rays B IH]; intros HS i dots W HD l h E; inversion W as [|x ds y dots' W0 W1]; subst; cbn [check] in E.
  - injection E as <- <-. split; [constructor|]. split; [reflexivity|constructor].
  - set (f := if (i <? hc)%nat then _ else _) in E. destruct (dots_cone f rays ds) as [ds' h0] eqn:E0.
    destruct (dots_cone_ok f (zdot lam) rays ds W0) with (l := ds') (h := h0) as (L0 & M0); [|exact E0|].
    { intros j Hj. unfold f. destruct (Nat.ltb_spec i hc) as [Lt|Ge]; [|reflexivity]. pose proof (HD 0%nat ltac:(cbn; lia) ltac:(lia)) as D0. cbn [nth] in D0. rewrite D0. rewrite (nth_indep _ 0 (zdot lam0 [])) by (rewrite map_length; exact Hj). rewrite map_nth. apply (HS rays); [now left|now apply nth_In]. }
    destruct h0 as [r|].
    + injection E as <- <-. split; [now constructor|]. split; [lia|]. split; [exists rays; split; [now left|apply M0]|]. split; [apply M0|]. intros k _ Hk. lia.
    + destruct (check dim hc n dl lam (S i) B dots') as [l' h'] eqn:E1. injection E as <- <-. destruct M0 as (-> & F0).
      destruct (IH ltac:(intros rs r H1 H2; apply (HS rs); [now right|exact H2]) (S i) dots' W1 ltac:(intros k Hk Hk'; exact (HD (S k) ltac:(cbn; lia) ltac:(lia))) l' h' E1) as (W' & M'). split; [now constructor|]. destruct h' as [(i', r)|].
      * destruct M' as (P1 & (rs & I1 & I2) & P3 & P4). split; [lia|]. split; [exists rs; split; [now right|exact I2]|]. split; [exact P3|]. intros [|k] Hk Hk'; [reflexivity|]. cbn [nth]. apply P4; [cbn in Hk; lia|lia].
      * destruct M' as (-> & F1). split; [reflexivity|now constructor].
Qed.

Lemma check_zero dim n m dl dl' lam B : forall i dots, check dim 0 n dl lam i B dots = check dim 0 m dl' lam i B dots.
Proof.
  induction B as [|rays B IH]; intros i [|ds dots]; try reflexivity. cbn [check]. change (i <? 0)%nat with false. cbv iota. destruct (dots_cone _ rays ds) as [a [b|]]; [reflexivity|]. now rewrite IH.
Qed.
Lemma check_fresh0 dim n dl lam B dots : wide B dots -> forall l h, check dim 0 n dl lam 0 B dots = (l, h) -> wide B l /\ match h with None => l = map (map (zdot lam)) B /\ fits lam B | Some (i', r) => (exists rays, In rays B /\ In r rays) /\ zdot lam r = 0 /\ forall k, (k < length B)%nat -> (k < i')%nat -> nth k l [] = map (zdot lam) (nth k B []) end.
Proof.
  intros W l h E. rewrite (check_zero dim n dim dl [] lam B) in E. destruct (check_ok dim 0 dim [] lam lam B) with (i := 0%nat) (dots := dots) (l := l) (h := h) as (W' & M); [|exact W|intros k _ Hk; lia|exact E|].
  - intros rays r _ _. unfold partial_dot. rewrite Nat.sub_diag. cbn. lia.
  - split; [exact W'|]. destruct h as [(i', r)|]; [|exact M]. split; [apply M|]. split; [apply M|]. intros k Hk Hk'. apply M; [exact Hk|lia].
Qed.

Lemma next_lambda_len dim n lam : length (next_lambda dim n lam) = dim.
Proof. unfold next_lambda. now rewrite map_length, seq_length. Qed.
Lemma next_change_len dim n lam dl : length (next_change dim n lam dl) = dim.
Proof. unfold next_change. now rewrite map_length, seq_length. Qed.
Lemma nth_map_seq {A} (f : nat -> A) dim j d : (j < dim)%nat -> nth j (map f (seq 0 dim)) d = f j.
Proof. intros H. rewrite (nth_indep _ d (f 0%nat)) by (rewrite map_length, seq_length; exact H). rewrite map_nth, seq_nth by exact H. reflexivity. Qed.
Lemma next_step dim n lam dl r : (n < dim)%nat -> length lam = dim -> zdot lam r + partial_dot dim n (next_change dim n lam dl) r = zdot (next_lambda dim n lam) r.
Proof.
  intros Hn L. unfold zdot, partial_dot. rewrite next_lambda_len, L.
  assert (SP : forall f, zsum dim f = zsum n f + zsum (dim - n) (fun k => f (n + k)%nat)) by (intros f; rewrite <- PreprocProofs.zsum_split; f_equal; lia). rewrite !(SP (fun k => nth k _ 0 * _)). clear SP.
  assert (E1 : zsum n (fun k => nth k (next_lambda dim n lam) 0 * nth k r 0) = zsum n (fun k => nth k lam 0 * nth k r 0)).
  { apply zsum_ext. intros k Hk. unfold next_lambda. rewrite nth_map_seq by lia. destruct (Nat.ltb_spec k n); [reflexivity|lia]. }
  rewrite E1, <- Z.add_assoc. f_equal. rewrite <- zsum_add. apply zsum_ext. intros k Hk. unfold next_lambda, next_change. rewrite !nth_map_seq by lia.
  destruct (Nat.ltb_spec (n + k) n); [lia|]. destruct (Nat.eqb_spec (n + k) n); ring.
Qed.
Lemma down_le n : forall m r lam, (down n m r lam <= n)%nat.
Proof. induction n as [|n IH]; intros m r lam; cbn [down]; [lia|]. destruct (_ || _); [specialize (IH (m || negb (nth n r 0 =? 0)) r lam)|]; lia. Qed.
Lemma next_index_lt dim r lam : (0 < dim)%nat -> (next_index dim r lam < dim)%nat.
Proof. intros H. unfold next_index. pose proof (down_le (dim - 1) (negb (nth (dim - 1) r 0 =? 0)) r lam). lia. Qed.
Lemma search_ok dim B : (0 < dim)%nat -> forall left hc n dl lam0 lam dots, length lam = dim -> wide B dots ->
  (hc = 0%nat \/ (forall rays r, In rays B -> In r rays -> zdot lam0 r + partial_dot dim n dl r = zdot lam r) /\ forall k, (k < length B)%nat -> (k < hc)%nat -> nth k dots [] = map (zdot lam0) (nth k B [])) ->
  forall lam' l, search left dim B hc n dl lam dots = Some (lam', l) -> length lam' = dim /\ fits lam' B /\ l = map (map (zdot lam')) B.
Proof.
  intros Hd. induction left as [|left IH]; intros hc n dl lam0 lam dots Ll W H lam' l E; [discriminate E|]. cbn [search] in E. destruct (check dim hc n dl lam 0 B dots) as [dots' h] eqn:EC.
  assert (C : wide B dots' /\ match h with None => dots' = map (map (zdot lam)) B /\ fits lam B | Some (i', r) => forall k, (k < length B)%nat -> (k < i')%nat -> nth k dots' [] = map (zdot lam) (nth k B []) end).
  { destruct H as [->|(H1 & H2)].
    - destruct (check_fresh0 dim n dl lam B dots W dots' h EC) as (W' & M). split; [exact W'|]. destruct h as [(i', r)|]; [apply M|exact M].
    - destruct (check_ok dim hc n dl lam0 lam B H1 0 dots W) with (l := dots') (h := h) as (W' & M); [intros k Hk Hk'; apply H2; [exact Hk|lia]|exact EC|]. split; [exact W'|]. destruct h as [(i', r)|]; [|exact M]. intros k Hk Hk'. apply M; [exact Hk|lia]. }
  destruct C as (W' & M). destruct h as [(i', r)|].
  - destruct ((nth (next_index dim r lam) lam 0 =? 2) || (left =? 0)%nat); [discriminate E|]. refine (IH i' _ _ lam _ dots' _ W' _ lam' l E); [apply next_lambda_len|]. right. split; [|exact M]. intros rays q _ _. apply next_step; [now apply next_index_lt|exact Ll].
  - injection E as <- <-. split; [exact Ll|]. split; [apply M|apply M].
Qed.
Lemma check_fresh dim lam B dots : wide B dots -> forall l h, check dim 0 0 [] lam 0 B dots = (l, h) -> wide B l /\ match h with None => l = map (map (zdot lam)) B /\ fits lam B | Some (_, r) => ~ fits lam B end.
Proof.
  intros W l h E. destruct (check_fresh0 dim 0 [] lam B dots W l h E) as (W' & M). split; [exact W'|]. destruct h as [(i', r)|]; [|exact M]. destruct M as ((rays & I1 & I2) & Z0 & _). intros F. unfold fits in F. rewrite Forall_forall in F. specialize (F rays I1). rewrite Forall_forall in F. exact (F r I2 Z0).
Qed.
Lemma random_ok dim rnd B : forall fuel k dots, wide B dots -> forall lam l, random_search fuel dim rnd k B dots = Ok (lam, l) -> (exists j, lam = rnd j) /\ fits lam B /\ l = map (map (zdot lam)) B.
Proof.
  induction fuel as [|f IH]; intros k dots W lam l E; [discriminate E|]. cbn [random_search] in E. destruct (check dim 0 0 [] (rnd k) 0 B dots) as [dots' h] eqn:EC. destruct (check_fresh dim (rnd k) B dots W dots' h EC) as (W' & M). destruct h as [h|]; [exact (IH (S k) dots' W' lam l E)|]. injection E as <- <-. split; [now exists k|]. split; apply M.
Qed.
Lemma random_total dim rnd B j : fits (rnd j) B -> forall d k dots, (j - k <= d)%nat -> (k <= j)%nat -> wide B dots -> exists lam, (exists i, lam = rnd i) /\ fits lam B /\ forall fuel, (S d <= fuel)%nat -> random_search fuel dim rnd k B dots = Ok (lam, map (map (zdot lam)) B).
Proof.
  intros F. induction d as [|d IH]; intros k dots Hd Hk W; destruct (check dim 0 0 [] (rnd k) 0 B dots) as [dots' h] eqn:EC; destruct (check_fresh dim (rnd k) B dots W dots' h EC) as (W' & M); destruct h as [(i', r)|].
  - assert (k = j) by lia. subst k. contradiction.
  - exists (rnd k). split; [now exists k|]. split; [apply M|]. intros [|f] Hf; [lia|]. cbn [random_search]. rewrite EC. now rewrite (proj1 M).
  - assert (NE : k <> j) by (intros ->; contradiction). destruct (IH (S k) dots' ltac:(lia) ltac:(lia) W') as (lam & R & Fl & H). exists lam. split; [exact R|]. split; [exact Fl|]. intros [|f] Hf; [lia|]. cbn [random_search]. rewrite EC. apply H. lia.
  - exists (rnd k). split; [now exists k|]. split; [apply M|]. intros [|f] Hf; [lia|]. cbn [random_search]. rewrite EC. now rewrite (proj1 M).
Qed.
Lemma wide_zeros B : wide B (map (map (fun _ => 0)) B).
Proof. induction B as [|rays B IH]; constructor; [apply map_length|exact IH]. Qed.
Lemma find_ok fuel dim rnd B lam l : (0 < dim)%nat -> find_lambda fuel dim rnd B = Ok (lam, l) -> (length lam = dim \/ exists j, lam = rnd j) /\ fits lam B /\ l = map (map (zdot lam)) B.
Proof.
  intros Hd. unfold find_lambda. destruct (search _ _ _ _ _ _ _ _) as [(lam', l')|] eqn:E; intros H.
  - injection H as -> ->. destruct (search_ok dim B Hd _ 0%nat _ _ [] _ _ ltac:(apply repeat_length) (wide_zeros B) ltac:(now left) _ _ E) as (A & C). split; [now left|exact C].
  - destruct (random_ok dim rnd B _ _ _ (wide_zeros B) _ _ H) as (A & C). split; [now right|exact C].
Qed.
Lemma find_total dim rnd B : (0 < dim)%nat -> (exists j, fits (rnd j) B) -> exists F lam, (length lam = dim \/ exists j, lam = rnd j) /\ fits lam B /\ forall fuel, (F <= fuel)%nat -> find_lambda fuel dim rnd B = Ok (lam, map (map (zdot lam)) B).
Proof.
  intros Hd (j & F). unfold find_lambda. destruct (search _ _ _ _ _ _ _ _) as [(lam, l)|] eqn:E.
  - destruct (search_ok dim B Hd _ 0%nat _ _ [] _ _ ltac:(apply repeat_length) (wide_zeros B) ltac:(now left) _ _ E) as (A & C & D). exists 0%nat, lam. split; [now left|]. split; [exact C|]. intros _ _. now rewrite D.
  - destruct (random_total dim rnd B j F j 0%nat _ ltac:(lia) ltac:(lia) (wide_zeros B)) as (lam & R & Fl & H). exists (S j), lam. split; [now right|]. split; [exact Fl|exact H].
Qed.
(** The search gives up only when [left] is used up or nothing is left to try; it ends with fuel only if the random vectors do not. *)
Lemma random_fuel dim rnd B : forall fuel k dots, wide B dots -> random_search fuel dim rnd k B dots = Err OutOfFuel \/ exists lam l, random_search fuel dim rnd k B dots = Ok (lam, l).
Proof.
  induction fuel as [|f IH]; intros k dots W; [now left|]. cbn [random_search]. destruct (check dim 0 0 [] (rnd k) 0 B dots) as [dots' h] eqn:EC. destruct (check_fresh dim (rnd k) B dots W dots' h EC) as (W' & _). destruct h; [apply IH, W'|right; eauto].
Qed.
