From Verif Require Import Common Util UtilSpec.
Open Scope Z_scope.

Lemma timer_ok ops : forall t last total,
  (started t = true -> exists s, start_time t = Some s /\ total = ticks_elapsed t + (last - s)) ->
  (started t = false -> total = ticks_elapsed t) ->
  if all_legal (started t) ops
  then exists t', timer_run t ops = Ok (t', answers (started t) last total ops)
  else timer_run t ops = Err AssertFail.
Proof.
  induction ops as [|[op now] ops IH]; intros t last total H1 H2; [cbn; eauto|].
  cbn [all_legal timer_run answers]. unfold timer_step.
  destruct op; cbn [legal run_after].
  - destruct (started t) eqn:E; cbn [negb andb assert_then bind]; [reflexivity|].
    specialize (IH (mkT (ticks_elapsed t) (Some now) true) now total). cbn [started ticks_elapsed start_time] in IH.
    specialize (H2 eq_refl).
    assert (X : true = true -> exists s : Z, Some now = Some s /\ total = ticks_elapsed t + (now - s)) by (intros _; exists now; split; [reflexivity|lia]).
    specialize (IH X ltac:(discriminate)).
    destruct (all_legal true ops); [destruct IH as [t' R]; rewrite R; cbn [bind]; eauto|now rewrite IH].
  - destruct (started t) eqn:E; cbn [negb andb assert_then bind]; [|reflexivity].
    destruct (H1 eq_refl) as (s & Es & Et). rewrite Es. cbn [bind].
    specialize (IH (mkT (ticks_elapsed t + now - s) (Some s) false) now (total + (now - last))). cbn [started ticks_elapsed start_time] in IH.
    specialize (IH ltac:(discriminate) ltac:(intros _; lia)).
    destruct (all_legal false ops); [destruct IH as [t' R]; rewrite R; cbn [bind]; eauto|now rewrite IH].
  - destruct (started t) eqn:E; cbn [negb andb assert_then bind]; [reflexivity|].
    specialize (IH (mkT 0 (start_time t) false) now 0). cbn [started ticks_elapsed start_time] in IH.
    specialize (IH ltac:(discriminate) ltac:(auto)).
    destruct (all_legal false ops); [destruct IH as [t' R]; rewrite R; cbn [bind]; eauto|now rewrite IH].
  - destruct (started t) eqn:E; cbn [negb andb assert_then bind]; [reflexivity|].
    specialize (IH t now total). rewrite E in IH. specialize (IH ltac:(discriminate) H2).
    destruct (all_legal false ops); [destruct IH as [t' R]; rewrite R; cbn [bind]; rewrite (H2 eq_refl); eauto|now rewrite IH].
Qed.
Lemma timer_history ops last :
  if all_legal false ops then exists t', timer_run timer_new ops = Ok (t', answers false last 0 ops)
  else timer_run timer_new ops = Err AssertFail.
Proof. apply (timer_ok ops timer_new last 0); [discriminate|reflexivity]. Qed.

Lemma of_bytes_from n : forall z, of_bytes (bytes_from z n) = Z.abs z mod 256 ^ Z.of_nat n.
Proof.
  induction n as [|n IH]; intros z; [cbn; now rewrite Z.mod_1_r|]. cbn [bytes_from of_bytes].
  rewrite IH, Nat2Z.inj_succ, Z.pow_succ_r by lia.
  assert (P : 0 < 256 ^ Z.of_nat n) by (apply Z.pow_pos_nonneg; lia).
  rewrite Z.rem_mul_r by lia. rewrite (Z.abs_eq (Z.abs z / 256)) by (apply Z.div_pos; lia). lia.
Qed.
Lemma num_bytes_enough z : Z.abs z < 256 ^ Z.of_nat (num_bytes z).
Proof.
  unfold num_bytes, num_bits. destruct (Z.eqb_spec z 0) as [->|N]; [reflexivity|].
  pose proof (Z.log2_nonneg (Z.abs z)). rewrite Z2Nat.id by (apply Z.div_pos; lia).
  change 256 with (2 ^ 8). rewrite <- Z.pow_mul_r by (try apply Z.div_pos; lia).
  destruct (Z.log2_spec (Z.abs z)) as [_ L]; [lia|]. eapply Z.lt_le_trans; [exact L|]. apply Z.pow_le_mono_r; [lia|].
  pose proof (Z.div_mod (Z.log2 (Z.abs z) + 1 + 7) 8). pose proof (Z.mod_pos_bound (Z.log2 (Z.abs z) + 1 + 7) 8). lia.
Qed.
Lemma of_bytes_all z : of_bytes (bytes_from z (num_bytes z)) = Z.abs z.
Proof. rewrite of_bytes_from. apply Z.mod_small. split; [lia|apply num_bytes_enough]. Qed.
Lemma zz_to_mpz_id z : zz_to_mpz z = z.
Proof. unfold zz_to_mpz. rewrite of_bytes_all. destruct (Z.eqb_spec (Z.sgn z) (-1)); lia. Qed.
Lemma mpz_to_zz_id z : mpz_to_zz z = Ok z.
Proof.
  unfold mpz_to_zz, mpz_export.
  assert (R : Z.of_nat (num_bytes z) <= (sizeinbase2 z + 8 - 1) / 8).
  { unfold num_bytes, num_bits, sizeinbase2. destruct (Z.eqb_spec z 0) as [->|N]; [cbn; lia|].
    pose proof (Z.log2_nonneg (Z.abs z)). rewrite Z2Nat.id by (apply Z.div_pos; lia). apply Z.div_le_mono; lia. }
  destruct (Z.leb_spec (Z.of_nat (num_bytes z)) ((sizeinbase2 z + 8 - 1) / 8)); [|lia]. cbn [bind].
  rewrite of_bytes_all. f_equal. destruct (Z.eqb_spec (Z.sgn z) (-1)); lia.
Qed.
Lemma bytes_are_bytes n : forall z, Forall (fun b => 0 <= b < 256) (bytes_from z n).
Proof. induction n; intros; cbn [bytes_from]; constructor; auto. apply Z.mod_pos_bound; lia. Qed.

Lemma zz_to_int_ok z : zz_to_int z = if INT_MAX <? Z.abs z then Err Exited else Ok z.
Proof. unfold zz_to_int. now rewrite zz_to_mpz_id. Qed.
Lemma zz_to_int_safe z v : zz_to_int z = Ok v -> v = z /\ int_range v = true.
Proof.
  rewrite zz_to_int_ok. destruct (Z.ltb_spec INT_MAX (Z.abs z)); [discriminate|]. intros E; injection E as <-.
  split; [reflexivity|]. unfold int_range, INT_MIN, INT_MAX in *. apply andb_true_intro. rewrite !Z.leb_le. lia.
Qed.

Lemma ipm_ok a b m : 0 < m -> exists r, inner_product_modulo a b m = Ok r /\ 0 <= r < m /\ (m | inner_product a b - r).
Proof.
  intros H. unfold inner_product_modulo. destruct (Z.eqb_spec m 0); [lia|]. eexists; split; [reflexivity|].
  split; [apply Z.mod_pos_bound; lia|]. exists (inner_product a b / m). pose proof (Z.div_mod (inner_product a b) m). lia.
Qed.

Lemma random_int_range rnd from to r : double_rounding rnd -> 0 <= r < 2 ^ 31 ->
  int_range from = true -> int_range to = true -> from <= to -> to - from + 1 <= INT_MAX ->
  exists v, random_int rnd from to r = Ok v /\ from <= v <= to.
Proof.
  intros HR Hr If It L LO. unfold int_range, INT_MIN, INT_MAX, random_int, RAND_MAX1 in *.
  apply andb_prop in If as [F1 F2]. apply andb_prop in It as [T1 T2]. rewrite Z.leb_le in *.
  assert (G : forall z, - 2 ^ 31 <= z <= 2 ^ 31 - 1 -> int_range z = true).
  { intros z Hz. unfold int_range, INT_MIN, INT_MAX. apply andb_true_intro. rewrite !Z.leb_le. lia. }
  rewrite !G by lia. cbn [negb].
  set (p := (to - from + 1) * r). assert (P0 : 0 <= p) by (unfold p; nia).
  destruct (HR p P0) as [R0 R1].
  assert (PB : p + (to - from + 1) <= (to - from + 1) * 2 ^ 31) by (unfold p; nia).
  assert (Q : 0 <= Z.quot (rnd p) (2 ^ 31) <= to - from).
  { rewrite Z.quot_div_nonneg by lia. split; [apply Z.div_pos; lia|].
    assert (rnd p / 2 ^ 31 < to - from + 1); [|lia]. apply Z.div_lt_upper_bound; [lia|].
    assert (D : rnd p - p < to - from + 1); [|lia].
    assert (2 ^ 53 * (rnd p - p) <= p) by lia. lia. }
  rewrite G by lia. cbn [negb]. eexists; split; [reflexivity|]. lia.
Qed.
Lemma random_int_onto rnd from to v : double_rounding rnd ->
  int_range from = true -> int_range to = true -> from <= v <= to -> to - from + 1 <= 2 ^ 31 - 1024 ->
  exists r, 0 <= r < 2 ^ 31 /\ random_int rnd from to r = Ok v.
Proof.
  intros HR If It L LO. set (g := to - from + 1) in *. set (k := v - from).
  assert (K : 0 <= k < g) by (unfold k, g; lia).
  assert (W : exists r, 0 <= r < 2 ^ 31 /\ k * 2 ^ 31 <= rnd (g * r) < (k + 1) * 2 ^ 31).
  { destruct (Z_lt_le_dec g (2 ^ 22)) as [Sm|La].
    - set (r := (k * 2 ^ 31 + g - 1) / g).
      assert (R : k * 2 ^ 31 <= g * r < k * 2 ^ 31 + g).
      { unfold r. pose proof (Z.div_mod (k * 2 ^ 31 + g - 1) g). pose proof (Z.mod_pos_bound (k * 2 ^ 31 + g - 1) g). lia. }
      assert (R31 : 0 <= r < 2 ^ 31) by nia.
      exists r. split; [exact R31|]. assert (P0 : 0 <= g * r) by lia. destruct (HR _ P0) as [_ R1].
      assert (g * r < 2 ^ 53) by nia. assert (rnd (g * r) = g * r) by nia. lia.
    - set (r := (k * 2 ^ 31 + 512 + g - 1) / g).
      assert (R : k * 2 ^ 31 + 512 <= g * r < k * 2 ^ 31 + 512 + g).
      { unfold r. pose proof (Z.div_mod (k * 2 ^ 31 + 512 + g - 1) g). pose proof (Z.mod_pos_bound (k * 2 ^ 31 + 512 + g - 1) g). lia. }
      assert (R31 : 0 <= r < 2 ^ 31) by nia.
      exists r. split; [exact R31|]. assert (P0 : 0 <= g * r) by lia. destruct (HR _ P0) as [_ R1].
      assert (g * r < 2 ^ 62) by nia. assert (Z.abs (rnd (g * r) - g * r) <= 512) by lia. lia. }
  destruct W as (r & Hr & W). exists r. split; [exact Hr|].
  destruct (random_int_range rnd from to r HR Hr If It) as (v' & E & _); [lia|unfold INT_MAX; fold g; lia|].
  rewrite E. f_equal. unfold random_int in E.
  destruct (negb (int_range (to - from))); [discriminate|]. fold g in E. destruct (negb (int_range g)); [discriminate|].
  cbv zeta in E. destruct (negb _); [discriminate|]. injection E as <-. unfold RAND_MAX1.
  rewrite Z.quot_div_nonneg by lia. assert (rnd (g * r) / 2 ^ 31 = k); [|unfold k in *; lia].
  symmetry. apply Z.div_unique with (rnd (g * r) - k * 2 ^ 31); lia.
Qed.
Lemma exact_is_rounding : double_rounding (fun p => p).
Proof. intros p Hp. rewrite Z.sub_diag. cbn. lia. Qed.
Lemma random_overflow_witness : exists from to, int_range from = true /\ int_range to = true /\ from <= to /\
  forall rnd r, random_int rnd from to r = Err IntOverflow.
Proof. exists (-2), INT_MAX. repeat split; unfold INT_MAX; lia. Qed.
Lemma random_ZZ_ok bnd from to : (forall n, 0 < n -> 0 <= bnd n < n) -> from <= to -> from <= random_ZZ bnd from to <= to.
Proof. intros H L. unfold random_ZZ. specialize (H (to - from + 1)). lia. Qed.
Lemma random_ZZ_onto from to v : from <= v <= to -> exists bnd, (forall n, 0 < n -> 0 <= bnd n < n) /\ random_ZZ bnd from to = v.
Proof.
  intros L. exists (fun n => if n =? to - from + 1 then v - from else 0). split.
  - intros n Hn. destruct (Z.eqb_spec n (to - from + 1)); lia.
  - unfold random_ZZ. rewrite Z.eqb_refl. lia.
Qed.
