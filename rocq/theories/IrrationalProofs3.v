(** irrationalizeCone: integer points, and facets with small entries. *)
From Coq Require Import QArith Qfield Qround Lqa Znumtheory Zpow_facts.
From Verif Require Import Common ZMat Hermite HermiteProofs Det DetProofs RatVec RatVecSpec RatVecProofs Piped PipedSpec PipedProofs PipedProofs2 PipedProofs3 PipedProofs4 ConeSpec ConeProofs Irrational IrrationalProofs IrrationalProofs2.
Open Scope Q_scope.

Lemma near_points n c v u x : (0 < n)%nat -> cone_ok n c -> near n c v u -> in_cone n (coord v) (s_rays c) (zpoint x) <-> in_cone n (coord u) (s_rays c) (zpoint x).
Proof.
  intros Hn OK NR. rewrite !(in_cone_iff n c OK). split; intros H i Hi; specialize (H i Hi); rewrite phi_zpoint in *; rewrite le_floor in *; [rewrite <- (near_floor n Hn c OK v u i NR Hi)|rewrite (near_floor n Hn c OK v u i NR Hi)]; exact H.
Qed.
Lemma near_walls n c v u x : (0 < n)%nat -> cone_ok n c -> near n c v u -> ~ on_wall n (coord u) (s_rays c) (zpoint x).
Proof.
  intros Hn OK NR W. apply (proj1 (on_wall_iff n c OK _ _)) in W as (i & Hi & E). rewrite phi_zpoint in E. symmetry in E. exact (near_irrational n Hn c v u NR i _ Hi E).
Qed.
Open Scope Z_scope.
(** The last non-zero entry *)
Lemma last_nonzero n (f : nat -> Z) : (forall k, (k < n)%nat -> f k = 0) \/ exists j, (j < n)%nat /\ f j <> 0 /\ forall k, (j < k < n)%nat -> f k = 0.
Proof.
  induction n as [|n IH]; [left; intros; lia|]. destruct (Z.eq_dec (f n) 0) as [E|E].
  - destruct IH as [IH|(j & Hj & N & Z0)]; [left; intros k Hk; destruct (Nat.eq_dec k n) as [->|]; auto; apply IH; lia|]. right. exists j. split; [lia|]. split; auto. intros k Hk. destruct (Nat.eq_dec k n) as [->|]; auto. apply Z0. lia.
  - right. exists n. split; [lia|]. split; auto. intros; lia.
Qed.
Lemma odd_pow_divide e a b : 0 <= e -> (2 ^ e | a * (2 * b + 1)) -> (2 ^ e | a).
Proof.
  intros He H. apply Gauss with (2 * b + 1).
  - now rewrite Z.mul_comm.
  - apply rel_prime_sym. apply rel_prime_Zpower_r; auto. apply Zgcd_1_rel_prime. 
    replace (2 * b + 1) with (1 + b * 2) by ring. rewrite Z.gcd_comm. rewrite Z.gcd_add_mult_diag_r. reflexivity.
Qed.
(** coordinates a_k / 2^(q+1) + 1 / 2^(q+2+k(K+2)) *)
Lemma not_integral n (y : nat -> Q) (a f : nat -> Z) q K t : 0 <= q -> 0 <= K ->
  (forall k, (k < n)%nat -> (y k == inject_Z (a k) / inject_Z (2 ^ (q + 1)) + 1 / inject_Z (2 ^ (q + 2 + Z.of_nat k * (K + 2))))%Q) ->
  (forall k, (k < n)%nat -> Z.abs (f k) < 2 ^ (K + 2)) -> (forall m, (forall k, (k < n)%nat -> (m | f k)) -> (m | 1)) ->
  ~ (sumq n (fun k => y k * inject_Z (f k)) == inject_Z t)%Q.
Proof.
  intros Hq HK HY HB PR EQ. destruct (last_nonzero n f) as [Z0|(j & Hj & Nz & Z0)].
  - destruct (PR 2) as [c Hc]; [intros k Hk; rewrite Z0 by auto; exists 0; lia|lia].
  - set (e := fun k : nat => q + 2 + Z.of_nat k * (K + 2)). set (o := fun k : nat => 2 * (a k * 2 ^ (Z.of_nat k * (K + 2))) + 1).
    assert (E0 : forall k, 0 <= e k) by (intros k; unfold e; nia).
    assert (YK : forall k, (k < n)%nat -> (y k == inject_Z (o k) / inject_Z (2 ^ e k))%Q).
    { intros k Hk. rewrite (HY k Hk). unfold o. rewrite inject_Z_plus, !inject_Z_mult. fold (e k). assert (EE : e k = q + 1 + 1 + Z.of_nat k * (K + 2)) by (unfold e; ring). rewrite EE. rewrite (Z.pow_add_r 2 (q + 1 + 1)), (Z.pow_add_r 2 (q + 1) 1) by nia. rewrite !inject_Z_mult. change (inject_Z (2 ^ 1)) with 2%Q. change (inject_Z 2) with 2%Q. change (inject_Z 1) with 1%Q. field. split; apply q_nz, pow_inj_pos; nia. }
    (* multiply by 2^(e j) *)
    assert (EZ : zsum (S j) (fun k => f k * o k * 2 ^ (e j - e k)) = t * 2 ^ e j).
    { apply (proj1 (inject_Z_injective _ _)). rewrite inject_Z_mult, <- EQ, <- sumq_inj.
      assert (SPL : (sumq n (fun k => y k * inject_Z (f k)) == sumq (S j) (fun k => y k * inject_Z (f k)))%Q).
      { clear -Z0 Hj. assert (G : forall m, (S j + m <= n)%nat -> (sumq (S j + m) (fun k => y k * inject_Z (f k)) == sumq (S j) (fun k => y k * inject_Z (f k)))%Q).
        { induction m as [|m IH]; intros Hm; [now rewrite Nat.add_0_r|]. rewrite Nat.add_succ_r. cbn [sumq]. rewrite IH by lia. rewrite (Z0 (S j + m)%nat) by lia. cbn [sumq]. ring. }
        specialize (G (n - S j)%nat ltac:(lia)). replace (S j + (n - S j))%nat with n in G by lia. exact G. }
      rewrite SPL. rewrite (Qmult_comm (sumq _ _)), <- sumq_scal. apply sumq_ext. intros k Hk. rewrite (YK k) by lia.
      assert (EE : e j = e k + (e j - e k)) by ring. rewrite EE at 2. rewrite (Z.pow_add_r 2 (e k)) by (auto; unfold e; nia). rewrite !inject_Z_mult. field. apply q_nz, pow_inj_pos. auto. }
    cbn [zsum] in EZ. rewrite Z.sub_diag in EZ. change (2 ^ 0) with 1 in EZ.
    destruct j as [|j'].
    + cbn [zsum] in EZ. assert (F1 : Z.abs (f 0%nat) = 1).
      { assert (D : (f 0%nat | 1)) by (apply PR; intros k Hk; destruct k; [apply Z.divide_refl|rewrite (Z0 (S k)) by lia; apply Z.divide_0_r]). apply Z.divide_1_r in D. lia. }
      assert (E1 : 2 ^ e 0%nat = 2 * 2 ^ (q + 1)). { unfold e. replace (q + 2 + Z.of_nat 0 * (K + 2)) with (1 + (q + 1)) by lia. rewrite Z.pow_add_r by lia. reflexivity. }
      rewrite E1 in EZ. unfold o in EZ. set (u := a 0%nat * 2 ^ (Z.of_nat 0 * (K + 2))) in *. set (w := 2 ^ (q + 1)) in *. assert (f 0%nat = 1 \/ f 0%nat = -1) as [Hf|Hf] by lia; rewrite Hf in EZ; lia.
    + assert (D1 : (2 ^ (K + 2) | f (S j') * o (S j'))).
      { assert (HS : (2 ^ (K + 2) | zsum (S j') (fun k => f k * o k * 2 ^ (e (S j') - e k)))).
        { apply zsum_divide. intros k Hk. apply Z.divide_mul_r. exists (2 ^ (e (S j') - e k - (K + 2))). rewrite <- Z.pow_add_r by (unfold e; nia). f_equal. ring. }
        assert (HT : (2 ^ (K + 2) | t * 2 ^ e (S j'))). { apply Z.divide_mul_r. exists (2 ^ (e (S j') - (K + 2))). rewrite <- Z.pow_add_r by (unfold e; nia). f_equal. ring. }
        destruct HS as [u Hu]. destruct HT as [w Hw]. cbn [zsum] in Hu. exists (w - u). rewrite Z.mul_sub_distr_r. rewrite Hw in EZ. cbn [zsum] in EZ. rewrite Hu, Z.mul_1_r in EZ. lia. }
      unfold o in D1. apply odd_pow_divide in D1; [|lia]. destruct D1 as [u Hu]. specialize (HB (S j') Hj). rewrite Hu, Z.abs_mul in HB. assert (0 < 2 ^ (K + 2)) by (apply Z.pow_pos_nonneg; lia). rewrite (Z.abs_eq (2 ^ (K + 2))) in HB by lia. assert (u <> 0) by (intros ->; lia). nia.
Qed.
Lemma max_entry_ge rays r i : Z.abs (nth i (nth r rays []) 0) <= max_entry rays.
Proof.
  unfold max_entry. 
  assert (G1 : forall l m, m <= fold_left (fun m x => if m <? Z.abs x then Z.abs x else m) l m /\ forall x, In x l -> Z.abs x <= fold_left (fun m x => if m <? Z.abs x then Z.abs x else m) l m).
  { induction l as [|y l IH]; intros m; cbn [fold_left]; [split; [lia|contradiction]|]. destruct (IH (if m <? Z.abs y then Z.abs y else m)) as [A B]. split; [destruct (Z.ltb_spec m (Z.abs y)); lia|]. intros x [<-|Hx]; auto. destruct (Z.ltb_spec m (Z.abs y)); lia. }
  assert (G2 : forall rs m, m <= fold_left (fun m r => fold_left (fun m x => if m <? Z.abs x then Z.abs x else m) r m) rs m /\ forall r x, In r rs -> In x r -> Z.abs x <= fold_left (fun m r => fold_left (fun m x => if m <? Z.abs x then Z.abs x else m) r m) rs m).
  { induction rs as [|y l IH]; intros m; cbn [fold_left]; [split; [lia|contradiction]|]. destruct (IH (fold_left (fun m x => if m <? Z.abs x then Z.abs x else m) y m)) as [A B]. destruct (G1 y m) as [C D]. split; [lia|]. intros r0 x [<-|Hr] Hx; [|eauto]. specialize (D x Hx). lia. }
  destruct (G2 rays 0) as [P0 P1]. destruct (Nat.lt_ge_cases r (length rays)) as [Hr|Hr]; [|rewrite (nth_overflow rays) by lia; destruct i; cbn [nth]; exact P0].
  destruct (Nat.lt_ge_cases i (length (nth r rays []))) as [Hi|Hi]; [|rewrite (nth_overflow (nth r rays [])) by lia; exact P0]. apply (P1 (nth r rays [])); now apply nth_In.
Qed.
Lemma irr_bits_bound depth n c C f : (exists r i, C = Z.abs (nth i (nth r (s_rays c) []) 0)) -> Z.abs f <= 8 * (Z.of_nat n ^ Z.of_nat depth * C) ^ Z.of_nat (n - 1) -> Z.abs f < 2 ^ (irr_bits depth n c + 2) /\ 0 <= irr_bits depth n c.
Proof.
  intros (r & i & ->) H. pose proof (max_entry_ge (s_rays c) r i) as ME. set (C := Z.abs (nth i (nth r (s_rays c) []) 0)) in *. set (B := Z.of_nat n ^ Z.of_nat depth) in *. assert (HB : 0 <= B) by (apply Z.pow_nonneg; lia). assert (HC : 0 <= C) by (unfold C; lia).
  assert (MO : (B * C) ^ Z.of_nat (n - 1) <= (B * max_entry (s_rays c)) ^ Z.of_nat (n - 1)) by (apply Z.pow_le_mono_l; split; nia).
  unfold irr_bits. fold B. destruct (num_bits_spec (2 * (B * max_entry (s_rays c)) ^ Z.of_nat (n - 1))) as [K0 K1]; [apply Z.mul_nonneg_nonneg; [lia|]; apply Z.pow_nonneg; nia|]. split; auto. rewrite Z.pow_add_r by lia. change (2 ^ 2) with 4. lia.
Qed.
Lemma irrationalize_main depth n c v : (0 < n)%nat -> cone_ok n c -> (exists P k, (P = nonzero \/ P = positive) /\ reachable P k v) -> dim v = n ->
  exists nv, irrationalize depth n c v = Ok nv /\ dim nv = n /\ (exists k, reachable nonzero k nv) /\
  (forall x, in_cone n (coord v) (s_rays c) (zpoint x) <-> in_cone n (coord nv) (s_rays c) (zpoint x)) /\
  (forall x, ~ on_wall n (coord nv) (s_rays c) (zpoint x)) /\
  (forall C f, (exists r i, C = Z.abs (nth i (nth r (s_rays c) []) 0)) -> (forall k, (k < n)%nat -> Z.abs (f k) <= 8 * (Z.of_nat n ^ Z.of_nat depth * C) ^ Z.of_nat (n - 1)) ->
    (forall m, (forall k, (k < n)%nat -> (m | f k)) -> (m | 1)) -> forall t, ~ (sumq n (fun k => coord nv k * inject_Z (f k)) == inject_Z t)%Q).
Proof.
  intros Hn OK (P & k & DP & R) Dv. destruct (irrationalize_core n Hn c OK depth v (reachable_scales P k v n DP R Dv)) as (nv & kk & E & K0 & RN & DN & NR & CO). exists nv. split; auto. split; auto. split; [eauto|]. split; [|split].
  - intros x. now apply near_points.
  - intros x. now apply (near_walls n c v).
  - intros C f HC HF PR t.
    assert (CH : exists a : nat -> Z, forall i, (i < n)%nat -> (coord nv i == inject_Z (a i) / inject_Z (2 ^ (kk + 1)) + 1 / inject_Z (2 ^ (kk + 2 + Z.of_nat i * (irr_bits depth n c + 2))))%Q).
    { clear -CO. induction n as [|m IH] in CO |- *; [exists (fun _ => 0); intros; lia|]. 
      assert (G : forall p, (p <= S m)%nat -> exists a : nat -> Z, forall i, (i < p)%nat -> (coord nv i == inject_Z (a i) / inject_Z (2 ^ (kk + 1)) + 1 / inject_Z (2 ^ (kk + 2 + Z.of_nat i * (irr_bits depth (S m) c + 2))))%Q); [|apply G; lia].
      induction p as [|p IHp]; intros Hp; [exists (fun _ => 0); intros; lia|]. destruct (IHp ltac:(lia)) as [a Ha]. destruct (CO p ltac:(lia)) as [b Hb]. exists (fun i => if (i =? p)%nat then b else a i). intros i Hi. destruct (Nat.eqb_spec i p) as [->|N]; [exact Hb|apply Ha; lia]. }
    destruct CH as [a Ha]. apply (not_integral n (coord nv) a f kk (irr_bits depth n c) t K0); auto.
    + destruct (irr_bits_bound depth n c C 0 HC) as [_ G]; [|exact G]. rewrite Z.abs_0. apply Z.mul_nonneg_nonneg; [lia|]. apply Z.pow_nonneg. destruct HC as (r & i & ->). apply Z.mul_nonneg_nonneg; [apply Z.pow_nonneg; lia|lia].
    + intros i Hi. apply (irr_bits_bound depth n c C (f i) HC (HF i Hi)).
Qed.
