From Verif Require Import Common Kannan KannanSpec.
Open Scope Z_scope.

(** * Number theory *)
Fixpoint zsum (rs : list Z) : Z := match rs with [] => 0 | r :: t => r + zsum t end.
Fixpoint horner (l : Z) (rs : list Z) : Z := match rs with [] => 0 | r :: t => r + l * horner l t end.

Lemma horner_upper l B rs : 1 <= l -> 0 <= B -> Forall (fun r => r <= B) rs ->
  horner l rs * (l - 1) <= B * (l ^ Z.of_nat (length rs) - 1).
Proof.
  intros Hl HB. induction 1 as [|r rs Hr H IH]; [simpl; lia|].
  cbn [horner length]. rewrite Nat2Z.inj_succ, Z.pow_succ_r by lia.
  set (P := l ^ Z.of_nat (length rs)) in *. nia.
Qed.
Lemma horner_opp l rs : horner l (map Z.opp rs) = - horner l rs.
Proof. induction rs; cbn [horner map]; lia. Qed.
Lemma horner_lower l B rs : 1 <= l -> 0 <= B -> Forall (fun r => - B <= r) rs ->
  - (B * (l ^ Z.of_nat (length rs) - 1)) <= horner l rs * (l - 1).
Proof.
  intros Hl HB H. assert (K : horner l (map Z.opp rs) * (l - 1) <= B * (l ^ Z.of_nat (length (map Z.opp rs)) - 1)).
  { apply horner_upper; auto. apply Forall_map. eapply Forall_impl; [|exact H]. simpl. intros; lia. }
  rewrite horner_opp, map_length in K. lia.
Qed.
Lemma horner_zero l B rs : 2 * B < l -> Forall (fun r => - B <= r <= B) rs -> horner l rs = 0 -> Forall (fun r => r = 0) rs.
Proof.
  intros Hl. induction 1 as [|r rs Hr H IH]; [constructor|]. cbn [horner]. intros E.
  assert (Z0 : horner l rs = 0).
  { destruct (Z.lt_trichotomy (horner l rs) 0) as [G|[G|G]]; [nia|exact G|nia]. }
  rewrite Z0 in E. constructor; [lia|auto].
Qed.
Lemma zsum_upper B rs : Forall (fun r => r <= B) rs -> zsum rs <= B * Z.of_nat (length rs).
Proof. induction 1; simpl zsum; cbn [length]; lia. Qed.
Lemma zsum_member B rs r : 0 <= B -> Forall (fun r => r <= B) rs -> In r rs -> 0 <= zsum rs -> - (B * (Z.of_nat (length rs) - 1)) <= r.
Proof.
  intros HB H. induction H as [|x rs Hx H IH]; [intros []|]. intros [->|Hi] Hs; cbn [zsum length] in *.
  - pose proof (zsum_upper B rs H). lia.
  - destruct (Z_le_gt_dec 0 (zsum rs)) as [G|G]; [specialize (IH Hi G); nia|].
    (* shift: zsum rs >= -x >= -B *)
    assert (K : forall rs r, Forall (fun r => r <= B) rs -> In r rs -> zsum rs - B * (Z.of_nat (length rs) - 1) <= r).
    { clear -HB. induction 1 as [|y rs Hy H IH]; [intros []|]. intros [->|Hi]; cbn [zsum length].
      - pose proof (zsum_upper B rs H). lia.
      - specialize (IH Hi). lia. }
    specialize (K rs r H Hi). lia.
Qed.

Lemma kannan_digits rs l b : rs <> [] -> 1 <= b -> 3 * Z.of_nat (length rs) * b <= l ->
  Forall (fun r => r <= b) rs ->
  l ^ (Z.of_nat (length rs) + 1) * zsum rs + l * horner l rs = 0 -> Forall (fun r => r = 0) rs.
Proof.
  intros Hne Hb Hl Hr E.
  assert (Hm : 1 <= Z.of_nat (length rs)) by (destruct rs; [congruence|simpl; lia]).
  set (m := Z.of_nat (length rs)) in *. assert (Bl : 3 * (m * b) <= l) by lia. assert (M1 : 1 <= m * b) by nia.
  rewrite Z.pow_add_r, Z.pow_1_r in E by lia. set (P := l ^ m) in *.
  assert (PP : 1 <= P) by (assert (0 < P) by (apply Z.pow_pos_nonneg; lia); lia).
  assert (E1 : P * zsum rs + horner l rs = 0) by nia.
  assert (U : horner l rs * (l - 1) <= b * (P - 1)) by (apply horner_upper; auto; lia).
  assert (R0 : 0 <= zsum rs).
  { destruct (Z_le_gt_dec 0 (zsum rs)) as [|G]; [assumption|exfalso].
    assert (P <= horner l rs) by nia. assert (b <= l - 1) by nia. nia. }
  assert (Lo : Forall (fun r => - (m * b) <= r <= m * b) rs).
  { rewrite Forall_forall in *. intros r Hi. specialize (Hr r Hi) as Hr1. split; [|nia].
    assert (- (b * (m - 1)) <= r) by (apply (zsum_member b rs r); auto; [lia|now apply Forall_forall]). lia. }
  assert (L : - (m * b * (P - 1)) <= horner l rs * (l - 1)).
  { apply horner_lower; [lia|lia|]. eapply Forall_impl; [|exact Lo]. simpl; intros; lia. }
  assert (Z0 : zsum rs = 0) by nia.
  apply (horner_zero l (m * b)); auto; nia.
Qed.

(** * Rows *)
Lemma dotp_app a b x y : length a = length x -> dotp (a ++ b) (x ++ y) = dotp a x + dotp b y.
Proof. revert x; induction a as [|c a IH]; intros [|z x] H; try discriminate; cbn [dotp app]; [lia|]. rewrite IH by (simpl in H; lia). lia. Qed.
Lemma dotp_zeros k y : dotp (repeat 0 k) y = 0.
Proof. revert y; induction k; intros [|z y]; cbn [dotp repeat]; auto. rewrite IHk. lia. Qed.
Lemma row_value_app r t x y : r <> [] -> length r = S (length x) -> row_value (r ++ t) (x ++ y) = row_value r x + dotp t y.
Proof. destruct r as [|b a]; [congruence|]. intros _ H. cbn [row_value app]. rewrite dotp_app by (simpl in H; lia). lia. Qed.
Fixpoint vadd (m : Z) (a row : list Z) : list Z :=
  match a, row with c :: a', r :: row' => r + m * c :: vadd m a' row' | _, _ => row end.
Lemma axpy_app m a row t : length row = length a -> axpy m a (row ++ t) = Ok (vadd m a row ++ t).
Proof.
  revert row; induction a as [|c a IH]; intros [|r row] H; try discriminate; cbn [axpy vadd app]; auto.
  rewrite IH by (simpl in H; lia). reflexivity.
Qed.
Lemma vadd_length m a row : length (vadd m a row) = length row.
Proof. revert row; induction a; intros [|r row]; cbn [vadd length]; auto. Qed.
Lemma dotp_vadd m a row x : length row = length a -> dotp (vadd m a row) x = dotp row x + m * dotp a x.
Proof.
  revert row x; induction a as [|c a IH]; intros [|r row] [|y x] H; try discriminate; cbn [dotp vadd]; try lia.
  rewrite IH by (simpl in H; lia). lia.
Qed.
Lemma row_value_vadd m a row x : length row = length a -> row_value (vadd m a row) x = row_value row x + m * row_value a x.
Proof.
  destruct a as [|b a], row as [|r row]; try discriminate; intros H; cbn [row_value vadd]; [lia|].
  rewrite dotp_vadd by (simpl in H; lia). lia.
Qed.
Lemma copy_into_app a row t : length row = length a -> copy_into a (row ++ t) = Ok (a ++ t).
Proof.
  revert row; induction a as [|c a IH]; intros [|r row] H; try discriminate; cbn [copy_into app]; auto.
  rewrite IH by (simpl in H; lia). reflexivity.
Qed.
Lemma row_value_zeros k x : row_value (repeat 0 k) x = 0.
Proof. destruct k; cbn [repeat row_value]; auto. now rewrite dotp_zeros. Qed.

Lemma modify_at {A} (l1 : list A) x l2 i f : length l1 = i ->
  modify (l1 ++ x :: l2) i f = bind (f x) (fun y => Ok (l1 ++ y :: l2)).
Proof.
  intros <-. unfold modify. rewrite nth_error_app2, Nat.sub_diag by lia. cbn [nth_error].
  destruct (f x) as [y|]; cbn [bind]; auto. f_equal. induction l1; cbn [upd app length]; congruence.
Qed.

(** * The scan *)
Lemma max_coeff_ok cs m : Forall (fun c => c <= 0) cs ->
  exists m', max_coeff cs m = Ok m' /\ m <= m' /\ Forall (fun c => - c <= m') cs.
Proof.
  intros H; revert m; induction H as [|c cs Hc H IH]; intros m; cbn [max_coeff].
  - exists m. repeat split; auto.
    lia.
  - destruct (Z.ltb_spec 0 c); [lia|]. destruct (IH (if m <? - c then - c else m)) as (m' & E & L & F).
    exists m'. split; [exact E|]. assert (m <= m' /\ - c <= m') as [? ?] by (destruct (Z.ltb_spec m (- c)); lia).
    split; [lia|constructor; [lia|exact F]].
Qed.
Lemma max_coeff_bad cs m : ~ Forall (fun c => c <= 0) cs -> max_coeff cs m = Err Exited.
Proof.
  revert m; induction cs as [|c cs IH]; intros m H; cbn [max_coeff]; [exfalso; apply H; constructor|].
  destruct (Z.ltb_spec 0 c); auto.
Qed.
Definition nagg (rows : list krow) : nat := length (filter agg rows).

Lemma scan_ok rows : forall s b a, Forall (fun r => coef r <> []) rows -> Forall acceptable rows ->
  exists b' a', scan rows s b a = Ok ((s + nslack rows)%nat, b', a') /\ b <= b' /\ a <= a' /\
    Forall (fun r => agg r = true -> hd 0 (coef r) <= b') rows /\
    Forall (fun r => agg r = true -> Forall (fun c => - c <= a') (tl (coef r))) rows.
Proof.
  induction rows as [|r rows IH]; intros s b a HN HA.
  - exists b, a. simpl. rewrite Nat.add_0_r. split; [reflexivity|]. split; [lia|]. split; [lia|]. auto.
  - inversion HN as [|? ? N1 N2]; inversion HA as [|? ? A1 A2]; subst. cbn [scan]. unfold nslack. cbn [filter].
    destruct (agg r) eqn:Ea; cbn [andb].
    + destruct (A1 Ea) as [B1 C1]. destruct (coef r) as [|b0 cs] eqn:Ec; [congruence|]. cbn [hd tl] in *.
      destruct (Z.ltb_spec b0 0); [lia|]. destruct (max_coeff_ok cs a C1) as (a1 & E1 & L1 & F1). rewrite E1. cbn [bind].
      destruct (IH (if lin r then s else S s) (if b <? b0 then b0 else b) a1 N2 A2) as (b' & a' & E & Lb & La & Fb & Fa).
      exists b', a'. split.
      * rewrite E. do 3 f_equal. fold (nslack rows). destruct (lin r); cbn [negb]; unfold nslack; [reflexivity|]. cbn [length]. lia.
      * assert (b <= b' /\ b0 <= b') as [? ?] by (destruct (Z.ltb_spec b b0); lia).
        repeat split; auto; try lia; constructor; auto; rewrite Ec; cbn [hd tl]; intros _; [lia|].
        eapply Forall_impl; [|exact F1]. simpl; intros; lia.
    + destruct (IH s b a N2 A2) as (b' & a' & E & Lb & La & Fb & Fa). exists b', a'. split; [exact E|].
      repeat split; auto; constructor; auto; congruence.
Qed.
Lemma scan_bad rows : forall s b a, Forall (fun r => coef r <> []) rows -> ~ Forall acceptable rows ->
  scan rows s b a = Err Exited.
Proof.
  induction rows as [|r rows IH]; intros s b a HN HA; [exfalso; apply HA; constructor|].
  inversion HN as [|? ? N1 N2]; subst. cbn [scan].
  assert (D : forall l, Forall (fun c => c <= 0) l \/ ~ Forall (fun c => c <= 0) l).
  { intros l. destruct (Forall_dec (fun c => c <= 0) (fun c => Z_le_dec c 0) l) as [|]; auto. }
  destruct (agg r) eqn:Ea.
  - destruct (coef r) as [|b0 cs] eqn:Ec; [congruence|]. destruct (Z.ltb_spec b0 0); auto.
    destruct (D cs) as [F|F]; [|now rewrite max_coeff_bad].
    destruct (max_coeff_ok cs a F) as (a1 & E1 & _). rewrite E1. cbn [bind]. apply IH; auto.
    intros G. apply HA. constructor; auto. intros _. rewrite Ec. cbn [hd tl]. split; [lia|exact F].
  - apply IH; auto. intros G. apply HA. constructor; auto. intros; congruence.
Qed.

(** * The main loop *)
Section Loop.
Variables (lambda lmp1 : Z) (C NS : nat).
Definition ncopy (rows : list krow) : nat := length (filter (fun r => negb (agg r)) rows).
Definition zrow : bool * list Z := (false, repeat 0 (C + NS)%nat).
Definition copied (rows : list krow) : cddmat := map (fun r => (lin r, coef r ++ repeat 0 NS)) (filter (fun r => negb (agg r)) rows).
Definition unit_row (j : nat) : list Z := repeat 0 (C + j)%nat ++ 1 :: repeat 0 (NS - S j)%nat.
Definition slack_rows (k : nat) (rows : list krow) : cddmat := map (fun j => (false, unit_row j)) (seq k (nslack rows)).
Fixpoint aggx (l : Z) (ax : list Z) (rows : list krow) : list Z :=
  match rows with
  | [] => ax
  | r :: rows' => if agg r then aggx (l * lambda) (vadd (lmp1 + l) (coef r) ax) rows' else aggx l ax rows'
  end.
Fixpoint aggs (l : Z) (rows : list krow) : list Z :=
  match rows with
  | [] => []
  | r :: rows' => if agg r then (if lin r then aggs (l * lambda) rows' else - (lmp1 + l) :: aggs (l * lambda) rows') else aggs l rows'
  end.
Definition layout (cop : cddmat) (nc : nat) (sl : cddmat) (ns : nat) (ax asl : list Z) : cddmat :=
  cop ++ repeat zrow nc ++ sl ++ repeat zrow ns ++ [(true, ax ++ asl ++ repeat 0 ns)].

Lemma repeat_split {A} (x : A) a b : repeat x (a + S b) = repeat x a ++ x :: repeat x b.
Proof. induction a; simpl; congruence. Qed.

Lemma ncopy_cons ag ln cf rows : ncopy (mkRow ag ln cf :: rows) = if ag then ncopy rows else S (ncopy rows).
Proof. unfold ncopy. cbn. now destruct ag. Qed.
Lemma nslack_cons ag ln cf rows : nslack (mkRow ag ln cf :: rows) = if ag && negb ln then S (nslack rows) else nslack rows.
Proof. unfold nslack. cbn. now destruct ag, ln. Qed.
Lemma copied_cons ag ln cf rows : copied (mkRow ag ln cf :: rows) = if ag then copied rows else (ln, cf ++ repeat 0 NS) :: copied rows.
Proof. unfold copied. cbn. now destruct ag. Qed.
Lemma slack_rows_cons k ag ln cf rows : slack_rows k (mkRow ag ln cf :: rows) =
  if ag && negb ln then (false, unit_row k) :: slack_rows (S k) rows else slack_rows k rows.
Proof. unfold slack_rows. rewrite nslack_cons. now destruct (ag && negb ln). Qed.

Lemma kloop_ok rows : Forall (fun r => length (coef r) = C) rows ->
  forall l cop sl ax asl, length ax = C -> length sl = length asl -> (length asl + nslack rows)%nat = NS ->
  exists s', kloop (length cop + ncopy rows + length sl + nslack rows) lambda lmp1
    (mkK (layout cop (ncopy rows) sl (nslack rows) ax asl) l (C + length asl)
         (length cop + ncopy rows + length sl) (length cop)) rows = Ok s' /\
    kmat s' = (cop ++ copied rows) ++ (sl ++ slack_rows (length asl) rows) ++ [(true, aggx l ax rows ++ (asl ++ aggs l rows))].
Proof.
  induction 1 as [|r rows Hr H IH]; intros l cop sl ax asl Lx Ls LN.
  - eexists. split; [reflexivity|]. cbn [kmat aggx aggs]. unfold layout, ncopy, nslack, copied, slack_rows. cbn. now rewrite !app_nil_r.
  - cbn [kloop]. unfold kstep. cbn [kmat li slack_var slack_row dest_row].
    destruct r as [ag ln cf]. cbn [agg lin coef] in *. rewrite ncopy_cons, nslack_cons, copied_cons, slack_rows_cons in *.
    destruct ag; cbn [negb andb] in *.
    + unfold layout. destruct ln; cbn [negb] in *.
      *
        match goal with |- context [modify ?m ?i ?f] =>
          replace m with ((cop ++ repeat zrow (ncopy rows) ++ sl ++ repeat zrow (nslack rows)) ++ (true, ax ++ asl ++ repeat 0 (nslack rows)) :: []) by (rewrite <- !app_assoc; reflexivity) end.
        rewrite modify_at by (rewrite !app_length, !repeat_length; lia).
        cbn [snd fst]. rewrite axpy_app by lia. cbn [bind].
        destruct (IH (l * lambda) cop sl (vadd (lmp1 + l) cf ax) asl) as (s' & E & K); auto; [now rewrite vadd_length|].
        exists s'. split; [|exact K]. rewrite <- E. unfold layout. f_equal; f_equal; rewrite <- !app_assoc; reflexivity.
      *
        match goal with |- context [modify ?m ?i ?f] =>
          replace m with ((cop ++ repeat zrow (ncopy rows) ++ sl ++ repeat zrow (S (nslack rows))) ++ (true, ax ++ asl ++ repeat 0 (S (nslack rows))) :: []) by (rewrite <- !app_assoc; reflexivity) end.
        rewrite modify_at by (rewrite !app_length, !repeat_length; lia).
        cbn [snd fst]. rewrite axpy_app by lia. cbn [bind]. unfold set_entry at 1.
        rewrite modify_at by (rewrite !app_length, !repeat_length; lia). cbn [snd fst repeat].
        replace (vadd (lmp1 + l) cf ax ++ asl ++ 0 :: repeat 0 (nslack rows)) with ((vadd (lmp1 + l) cf ax ++ asl) ++ 0 :: repeat 0 (nslack rows)) by now rewrite <- app_assoc.
        rewrite modify_at by (rewrite app_length, vadd_length; lia). cbn [bind]. unfold set_entry.
        match goal with |- context [modify ?m ?i ?f] =>
          replace m with ((cop ++ repeat zrow (ncopy rows) ++ sl) ++ zrow :: (repeat zrow (nslack rows) ++ [(true, (vadd (lmp1 + l) cf ax ++ asl) ++ - (lmp1 + l) :: repeat 0 (nslack rows))])) by (cbn [repeat]; rewrite <- !app_assoc; reflexivity) end.
        rewrite modify_at by (rewrite !app_length, !repeat_length; lia). cbv beta.
        replace (snd zrow) with (repeat 0 (C + length asl) ++ 0 :: repeat 0 (NS - S (length asl))) by (rewrite <- repeat_split; cbn; f_equal; lia).
        rewrite modify_at by (rewrite repeat_length; lia). cbn [bind].
        destruct (IH (l * lambda) cop (sl ++ [(false, unit_row (length asl))]) (vadd (lmp1 + l) cf ax) (asl ++ [- (lmp1 + l)])) as (s' & E & K).
        { now rewrite vadd_length. } { rewrite !app_length. simpl. lia. } { rewrite app_length. simpl. lia. }
        exists s'. split.
        -- rewrite <- E. rewrite !app_length. cbn [length]. f_equal; [lia|]. f_equal; try lia.
           unfold layout, unit_row. rewrite <- !app_assoc. cbn [app]. reflexivity.
        -- rewrite K. rewrite app_length. cbn [length]. rewrite <- !app_assoc. cbn [app aggx aggs agg lin coef].
           replace (length asl + 1)%nat with (S (length asl)) by lia. reflexivity.
    + unfold layout. cbn [repeat app].
      rewrite modify_at by reflexivity. cbv beta. change (snd zrow) with (repeat 0 (C + NS)). change (fst zrow) with false. rewrite repeat_app.
      rewrite copy_into_app by (rewrite repeat_length; lia). cbn [bind].
      assert (E0 : (if ln then set_lin (cop ++ (false, cf ++ repeat 0 NS) :: repeat zrow (ncopy rows) ++ sl ++ repeat zrow (nslack rows) ++ [(true, ax ++ asl ++ repeat 0 (nslack rows))]) (length cop)
              else Ok (cop ++ (false, cf ++ repeat 0 NS) :: repeat zrow (ncopy rows) ++ sl ++ repeat zrow (nslack rows) ++ [(true, ax ++ asl ++ repeat 0 (nslack rows))]))
              = Ok (cop ++ (ln, cf ++ repeat 0 NS) :: repeat zrow (ncopy rows) ++ sl ++ repeat zrow (nslack rows) ++ [(true, ax ++ asl ++ repeat 0 (nslack rows))])).
      { destruct ln; [|reflexivity]. unfold set_lin. now rewrite modify_at. }
      rewrite E0. cbn [bind].
      destruct (IH l (cop ++ [(ln, cf ++ repeat 0 NS)]) sl ax asl) as (s' & E & K); auto.
      exists s'. split.
      -- rewrite <- E. rewrite app_length. cbn [length]. f_equal; [lia|]. f_equal; try lia.
         unfold layout. rewrite <- !app_assoc. reflexivity.
      -- rewrite K. cbn [aggx aggs agg lin coef]. rewrite <- !app_assoc. reflexivity.
Qed.
End Loop.

(** * Meaning of the new matrix *)
Fixpoint resid (rows : list krow) (x s : list Z) : list Z :=
  match rows with
  | [] => []
  | r :: rows' =>
      if agg r then
        if lin r then row_value (coef r) x :: resid rows' x s
        else match s with s0 :: s' => row_value (coef r) x - s0 :: resid rows' x s' | [] => [] end
      else resid rows' x s
  end.
Fixpoint wsum (lambda lmp1 l : Z) (rs : list Z) : Z :=
  match rs with [] => 0 | r :: t => (lmp1 + l) * r + wsum lambda lmp1 (l * lambda) t end.
Lemma wsum_eq lambda lmp1 rs : forall l, wsum lambda lmp1 l rs = lmp1 * zsum rs + l * horner lambda rs.
Proof. induction rs as [|r rs IH]; intros l; cbn [wsum zsum horner]; [lia|]. rewrite IH. lia. Qed.
Lemma resid_length rows x : forall s, length s = nslack rows -> length (resid rows x s) = nagg rows.
Proof.
  induction rows as [|[ag ln cf] rows IH]; intros s; auto. rewrite nslack_cons. unfold nagg. cbn [resid filter agg lin].
  destruct ag; cbn [andb]; [|apply IH]. destruct ln; cbn [negb length]; intros H; [now rewrite IH|].
  destruct s as [|s0 s]; [discriminate|]. cbn [length] in *. rewrite IH by lia. reflexivity.
Qed.
Lemma agg_value lambda lmp1 C rows x : Forall (fun r => length (coef r) = C) rows -> forall l ax s,
  length ax = C -> length s = nslack rows ->
  row_value (aggx lambda lmp1 l ax rows) x + dotp (aggs lambda lmp1 l rows) s = row_value ax x + wsum lambda lmp1 l (resid rows x s).
Proof.
  induction 1 as [|[ag ln cf] rows Hr H IH]; intros l ax s Lx; [cbn; lia|].
  rewrite nslack_cons. cbn [aggx aggs resid agg lin coef] in *. intros Hs. destruct ag; cbn [andb] in *; [|now apply IH].
  destruct ln; cbn [negb wsum] in *.
  - rewrite IH; [|now rewrite vadd_length|exact Hs]. rewrite row_value_vadd by lia. lia.
  - destruct s as [|s0 s]; [discriminate|]. cbn [dotp length wsum] in *. specialize (IH (l * lambda) (vadd (lmp1 + l) cf ax) s).
    rewrite vadd_length in IH. specialize (IH Lx ltac:(lia)). rewrite row_value_vadd in IH by lia. lia.
Qed.
Lemma aggx_length lambda lmp1 rows : forall l ax, length (aggx lambda lmp1 l ax rows) = length ax.
Proof. induction rows as [|r rows IH]; intros l ax; cbn [aggx]; auto. destruct (agg r); rewrite IH; auto. apply vadd_length. Qed.

Lemma aggs_length lambda lmp1 rows : forall l, length (aggs lambda lmp1 l rows) = nslack rows.
Proof.
  induction rows as [|[ag ln cf] rows IH]; intros l; auto. rewrite nslack_cons. cbn [aggs agg lin].
  destruct ag, ln; cbn [andb negb length]; rewrite ?IH; auto.
Qed.
Lemma dotp_unit k t y : dotp (repeat 0 k ++ 1 :: repeat 0 t) y = nth k y 0.
Proof.
  revert y; induction k; intros [|z y]; cbn [repeat app dotp nth]; auto.
  - rewrite dotp_zeros. lia.
  - rewrite IHk. lia.
Qed.
Lemma slack_rows_solve n NS rows x s : length x = n -> length s = nslack rows -> NS = nslack rows ->
  (solves (slack_rows (S n) NS 0 rows) (x ++ s) <-> Forall (fun z => 0 <= z) s).
Proof.
  intros Lx Ls ->. unfold solves, slack_rows. rewrite Forall_map, !Forall_forall.
  assert (V : forall j, row_value (unit_row (S n) (nslack rows) j) (x ++ s) = nth j s 0).
  { intros j. unfold unit_row. cbn [plus repeat app row_value]. rewrite dotp_unit, app_nth2 by lia. rewrite Z.add_0_l. f_equal. lia. }
  split.
  - intros H z Hz. apply In_nth with (d := 0) in Hz as (j & Hj & <-). specialize (H j). unfold row_holds in H. cbn [fst snd] in H.
    rewrite V in H. apply H, in_seq. lia.
  - intros H j Hj. apply in_seq in Hj. unfold row_holds. cbn [fst snd]. rewrite V. apply H, nth_In. lia.
Qed.
Lemma copied_solve n NS rows x s : Forall (fun r => length (coef r) = S n) rows -> length x = n ->
  (solves (copied NS rows) (x ++ s) <-> solves (map plain (filter (fun r => negb (agg r)) rows)) x).
Proof.
  intros H Lx. unfold solves, copied. rewrite !Forall_map, !Forall_forall.
  assert (V : forall r, In r (filter (fun r => negb (agg r)) rows) -> row_value (coef r ++ repeat 0 NS) (x ++ s) = row_value (coef r) x).
  { intros r Hr. apply filter_In in Hr as [Hr _]. rewrite Forall_forall in H. specialize (H r Hr).
    rewrite row_value_app, dotp_zeros; [lia| |lia]. destruct (coef r); [discriminate|congruence]. }
  unfold row_holds, plain. cbn [fst snd].
  split; intros K r Hr; specialize (K r Hr); [rewrite <- V by exact Hr|rewrite V by exact Hr]; exact K.
Qed.
Lemma resid_zero rows x : forall s, length s = nslack rows -> Forall (fun z => 0 <= z) s ->
  (Forall (fun r => r = 0) (resid rows x s) <-> solves (map plain (filter agg rows)) x /\ s = slacks_of rows x).
Proof.
  unfold solves. induction rows as [|[ag ln cf] rows IH]; intros s; [intros H _; destruct s; [|discriminate]; cbn; repeat split; auto|].
  rewrite nslack_cons. unfold slacks_of. cbn [resid filter agg lin coef]. destruct ag; cbn [andb]; [|apply IH].
  cbn [map]. unfold plain at 1. cbn [lin coef]. rewrite Forall_cons_iff. unfold row_holds at 1. cbn [fst snd].
  destruct ln; cbn [negb]; intros Hs Hp.
  - rewrite Forall_cons_iff. rewrite IH by auto. unfold slacks_of. tauto.
  - destruct s as [|s0 s]; [discriminate|]. inversion Hp; subst. cbn [length] in Hs. rewrite Forall_cons_iff, IH by (auto; lia). unfold slacks_of. cbn [map coef].
    split.
    + intros (A & B & ->). split; [split; [lia|exact B]|]. f_equal. lia.
    + intros ((A & B) & E). injection E as -> E. split; [lia|]. split; auto.
Qed.
Lemma slacks_nonneg rows x : solves (map plain (filter agg rows)) x -> Forall (fun z => 0 <= z) (slacks_of rows x).
Proof.
  unfold solves, slacks_of. rewrite !Forall_map, !Forall_forall. intros H r Hr. apply filter_In in Hr as [Hr E].
  apply andb_prop in E as [E1 E2]. specialize (H r). unfold row_holds, plain in H. cbn [fst snd] in H.
  apply negb_true_iff in E2. rewrite E2 in H. apply H. apply filter_In. auto.
Qed.
Lemma slacks_length rows x : length (slacks_of rows x) = nslack rows.
Proof. unfold slacks_of. apply map_length. Qed.
Lemma solves_split rows x : solves (map plain rows) x <->
  solves (map plain (filter (fun r => negb (agg r)) rows)) x /\ solves (map plain (filter agg rows)) x.
Proof.
  unfold solves. rewrite !Forall_map, !Forall_forall. split.
  - intros H. split; intros r Hr; apply filter_In in Hr as [Hr _]; auto.
  - intros [H1 H2] r Hr. destruct (agg r) eqn:E; [apply H2|apply H1]; apply filter_In; rewrite E; auto.
Qed.
Lemma dotp_nonpos a x : Forall (fun c => c <= 0) a -> Forall (fun z => 0 <= z) x -> dotp a x <= 0.
Proof. intros H; revert x; induction H; intros [|y x0] Hx; cbn [dotp]; try lia. inversion Hx; subst. specialize (IHForall x0 H4). nia. Qed.
Lemma resid_upper rows x B : Forall acceptable rows -> Forall (fun z => 0 <= z) x ->
  Forall (fun r => agg r = true -> hd 0 (coef r) <= B) rows -> 0 <= B ->
  forall s, Forall (fun z => 0 <= z) s -> Forall (fun r => r <= B) (resid rows x s).
Proof.
  intros HA Hx HB B0. induction rows as [|[ag ln cf] rows IH]; intros s Hs; cbn [resid]; [constructor|].
  inversion HA as [|? ? A1 A2]; inversion HB as [|? ? B1 B2]; subst. unfold acceptable in A1. cbn [agg lin coef] in *.
  destruct ag; [|now apply IH]. destruct (A1 eq_refl) as [P1 P2]. specialize (B1 eq_refl).
  assert (V : row_value cf x <= B).
  { destruct cf as [|b a]; cbn [row_value hd tl] in *; [lia|]. pose proof (dotp_nonpos a x P2 Hx). lia. }
  destruct ln; [constructor; auto|]. destruct s as [|s0 s]; [constructor|]. inversion Hs; subst. constructor; auto. lia.
Qed.

Lemma filter_split_length rows : (length rows = ncopy rows + nagg rows)%nat.
Proof. unfold ncopy, nagg. induction rows as [|r rows IH]; auto. cbn [filter length]. destruct (agg r); cbn [negb length]; lia. Qed.

Lemma kannan_shape rows n : Forall (fun r => length (coef r) = S n) rows -> Forall acceptable rows ->
  exists bm am, 0 <= bm /\ 0 <= am /\
    Forall (fun r => agg r = true -> hd 0 (coef r) <= bm) rows /\
    Forall (fun r => agg r = true -> Forall (fun c => - c <= am) (tl (coef r))) rows /\
    let lambda := 3 * Z.of_nat (nagg rows) * Z.of_nat n * am * bm in
    let lmp1 := lambda ^ (Z.of_nat (nagg rows) + 1) in
    kannan rows (S n) = Ok (copied (nslack rows) rows ++ slack_rows (S n) (nslack rows) 0 rows ++
      [(true, aggx lambda lmp1 lambda (repeat 0 (S n)) rows ++ aggs lambda lmp1 lambda rows)]).
Proof.
  intros HL HA. unfold kannan.
  destruct (scan_ok rows 0 0 0) as (bm & am & E & Lb & La & Fb & Fa); auto.
  { eapply Forall_impl; [|exact HL]. intros r Hr. cbv beta in *. destruct (coef r); [discriminate|congruence]. }
  exists bm, am. split; [lia|]. split; [lia|]. split; [exact Fb|]. split; [exact Fa|]. cbv zeta.
  set (lambda := 3 * Z.of_nat (nagg rows) * Z.of_nat n * am * bm) in *.
  set (lmp1 := lambda ^ (Z.of_nat (nagg rows) + 1)) in *.
  rewrite E. cbn [bind]. fold (nagg rows). rewrite Nat.add_0_l.
  pose proof (filter_split_length rows) as FL.
  replace (length rows + nslack rows - nagg rows + 1)%nat with (ncopy rows + nslack rows + 1)%nat by lia.
  replace (ncopy rows + nslack rows + 1 - 1)%nat with (ncopy rows + nslack rows)%nat by lia.
  replace (length rows - nagg rows)%nat with (ncopy rows) by lia.
  replace (Z.of_nat (S n) - 1) with (Z.of_nat n) by lia. fold lambda lmp1.
  unfold create. replace (ncopy rows + nslack rows + 1)%nat with ((ncopy rows + nslack rows) + S 0)%nat by lia.
  rewrite repeat_split. unfold set_lin. rewrite modify_at by apply repeat_length. cbn [bind fst snd repeat].
  destruct (kloop_ok lambda lmp1 (S n) (nslack rows) rows HL lambda [] [] (repeat 0 (S n)) []) as (s' & E' & K); auto.
  { apply repeat_length. }
  cbn [length] in E'. rewrite !Nat.add_0_r, !Nat.add_0_l in E'.
  assert (Em : layout (S n) (nslack rows) [] (ncopy rows) [] (nslack rows) (repeat 0 (S n)) [] =
     repeat (false, repeat 0 (S n + nslack rows)) (ncopy rows + nslack rows) ++ [(true, repeat 0 (S n + nslack rows))]).
  { unfold layout, zrow. cbn [app]. rewrite (repeat_app _ (ncopy rows)), (repeat_app 0 (S n)), <- app_assoc. reflexivity. }
  rewrite Em in E'. cbn [repeat app] in *. rewrite E'. cbn [bind]. rewrite K. reflexivity.
Qed.

Lemma kannan_value rows n bm am x s (lambda := 3 * Z.of_nat (nagg rows) * Z.of_nat n * am * bm)
  (lmp1 := lambda ^ (Z.of_nat (nagg rows) + 1)) :
  Forall (fun r => length (coef r) = S n) rows -> length x = n -> length s = nslack rows ->
  row_value (aggx lambda lmp1 lambda (repeat 0 (S n)) rows ++ aggs lambda lmp1 lambda rows) (x ++ s)
   = lmp1 * zsum (resid rows x s) + lambda * horner lambda (resid rows x s).
Proof.
  intros HL Lx Ls. rewrite row_value_app.
  - rewrite agg_value with (C := S n) by (auto; apply repeat_length). now rewrite row_value_zeros, wsum_eq.
  - intros E. apply (f_equal (@length _)) in E. rewrite aggx_length, repeat_length in E. discriminate.
  - rewrite aggx_length, repeat_length. lia.
Qed.

Lemma kannan_ok rows n : Forall (fun r => length (coef r) = S n) rows -> Forall acceptable rows ->
  has_positive_data rows \/ filter agg rows = [] ->
  exists m, kannan rows (S n) = Ok m /\ Forall (fun r => length (snd r) = S n + nslack rows)%nat m /\
  forall x s, length x = n -> length s = nslack rows -> Forall (fun z => 0 <= z) x ->
  (solves m (x ++ s) <-> solves (map plain rows) x /\ s = slacks_of rows x).
Proof.
  intros HL HA HP. destruct (kannan_shape rows n HL HA) as (bm & am & B0 & A0 & Fb & Fa & E).
  set (lambda := 3 * Z.of_nat (nagg rows) * Z.of_nat n * am * bm) in *.
  set (lmp1 := lambda ^ (Z.of_nat (nagg rows) + 1)) in *.
  eexists. split; [exact E|]. split.
  { rewrite !Forall_app. split; [|split].
    - unfold copied. apply Forall_map, Forall_forall. intros r Hr. apply filter_In in Hr as [Hr _]. cbn [snd].
      rewrite Forall_forall in HL. rewrite app_length, repeat_length, HL by exact Hr. lia.
    - unfold slack_rows. apply Forall_map, Forall_forall. intros j Hj. apply in_seq in Hj. cbn [snd]. unfold unit_row.
      rewrite app_length. cbn [length]. rewrite !repeat_length. lia.
    - constructor; [|constructor]. cbn [snd]. rewrite app_length, aggx_length, repeat_length, aggs_length. reflexivity. }
  intros x s Lx Ls Px. unfold solves. rewrite !Forall_app.
  change (Forall (row_holds (x ++ s)) (copied (nslack rows) rows)) with (solves (copied (nslack rows) rows) (x ++ s)).
  change (Forall (row_holds (x ++ s)) (slack_rows (S n) (nslack rows) 0 rows)) with (solves (slack_rows (S n) (nslack rows) 0 rows) (x ++ s)).
  rewrite (copied_solve n) by auto. rewrite slack_rows_solve by auto. rewrite Forall_cons_iff. unfold row_holds at 1. cbn [fst snd].
  unfold lambda, lmp1. rewrite kannan_value by auto. fold lambda. fold lmp1.
  change (Forall (row_holds x) (map plain rows)) with (solves (map plain rows) x). rewrite (solves_split rows x).
  split.
  - intros (Hc & Hs & Hv & _).
    assert (R0 : Forall (fun r => r = 0) (resid rows x s)).
    { pose proof (resid_length rows x s Ls) as RL. destruct HP as [[(r1 & I1 & G1 & P1) (r2 & c & I2 & G2 & C2 & N2)]|N].
      - assert (Hm : (0 < nagg rows)%nat).
        { unfold nagg. destruct (filter agg rows) eqn:F; [|simpl; lia]. assert (I : In r1 (filter agg rows)) by (apply filter_In; auto). rewrite F in I. destruct I. }
        assert (Hb : 1 <= bm) by (rewrite Forall_forall in Fb; specialize (Fb r1 I1 G1); lia).
        assert (Ha : 1 <= am) by (rewrite Forall_forall in Fa; specialize (Fa r2 I2 G2); rewrite Forall_forall in Fa; specialize (Fa c C2); lia).
        assert (Hn : 1 <= Z.of_nat n).
        { rewrite Forall_forall in HL. specialize (HL r2 I2). destruct (coef r2) as [|? [|? ?]]; cbn in *; [lia|tauto|lia]. }
        apply (kannan_digits _ lambda bm); auto.
        + intros Z0. rewrite Z0 in RL. simpl in RL. lia.
        + rewrite RL. unfold lambda. assert (1 <= Z.of_nat n * am) by nia. nia.
        + apply resid_upper; auto; lia.
        + rewrite RL. exact Hv.
      - unfold nagg in RL. rewrite N in RL. destruct (resid rows x s); [constructor|discriminate]. }
    apply resid_zero in R0; auto. destruct R0 as [R1 R2]. split; [split|]; [exact Hc|exact R1|exact R2].
  - intros ((Hc & Hg) & ->). split; [exact Hc|]. split; [now apply slacks_nonneg|]. split; [|constructor].
    assert (R0 : Forall (fun r => r = 0) (resid rows x (slacks_of rows x))).
    { apply resid_zero; auto using slacks_length, slacks_nonneg. }
    assert (S0 : forall rs, Forall (fun r => r = 0) rs -> zsum rs = 0 /\ horner lambda rs = 0).
    { induction 1 as [|r rs -> _ [I1 I2]]; cbn [zsum horner]; [auto|]. rewrite I1, I2. lia. }
    destruct (S0 _ R0) as [-> ->]. lia.
Qed.

Lemma kannan_rejects rows n : Forall (fun r => length (coef r) = S n) rows -> ~ Forall acceptable rows ->
  kannan rows (S n) = Err Exited.
Proof.
  intros HL HA. unfold kannan. rewrite scan_bad; auto.
  eapply Forall_impl; [|exact HL]. intros r Hr. cbv beta in *. destruct (coef r); [discriminate|congruence].
Qed.

(** x1 + x2 = 0 alone: lambda = 0, every point is accepted. *)
Lemma kannan_zero_rhs : exists rows m x, Forall acceptable rows /\ kannan rows 3 = Ok m /\ Forall (fun z => 0 <= z) x /\
  solves m x /\ ~ solves (map plain rows) x.
Proof.
  exists [mkRow true true [0; -1; -1]], [(true, [0; 0; 0])], [1; 0]. split.
  { constructor; [|constructor]. intros _. split; [simpl; lia|]. repeat constructor; lia. }
  split; [reflexivity|]. split; [repeat constructor; lia|]. split; [repeat constructor|].
  intros H. inversion H as [|? ? K _]. cbv in K. discriminate.
Qed.
(** x1 = 1, x2 = 1 without x >= 0: the aggregated equation has other integer solutions. *)
Lemma kannan_negative_points : exists rows m x, Forall acceptable rows /\ has_positive_data rows /\ kannan rows 3 = Ok m /\
  solves m x /\ ~ solves (map plain rows) x.
Proof.
  (* lambda = 12: multipliers 1728+12 = 1740 and 1728+144 = 1872; 1740 dx + 1872 dy = 0 has (dx,dy) = (156,-145) *)
  exists [mkRow true true [1; -1; 0]; mkRow true true [1; 0; -1]].
  eexists. exists [157; -144]. split.
  { repeat constructor; intros; simpl; lia. }
  split.
  { split; [exists (mkRow true true [1; -1; 0])|exists (mkRow true true [1; -1; 0]), (-1)]; cbn; repeat split; auto; lia. }
  split; [reflexivity|]. split; [repeat constructor|].
  intros H. inversion H as [|? ? K _]. cbv in K. discriminate.
Qed.
