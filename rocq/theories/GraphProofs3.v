From Coq Require Import Relations Permutation FinFun.
From Verif Require Import Common Text Graph GraphSpec GraphProofs GraphProofs2.
Open Scope nat_scope.

Lemma nodup_app {A} (l l' : list A) : NoDup l -> NoDup l' -> (forall x, In x l -> In x l' -> False) -> NoDup (l ++ l').
Proof.
  induction l as [|x l IH]; intros H H' D; [exact H'|]. inversion H; subst. cbn [app]. constructor.
  - rewrite in_app_iff. intros [I|I]; [contradiction|]. exact (D x (or_introl eq_refl) I).
  - apply IH; [assumption|assumption|]. intros y I I'. exact (D y (or_intror I) I').
Qed.
Lemma nodup_flat_map {A B} (f : A -> list B) : forall l, NoDup l -> (forall x, In x l -> NoDup (f x)) ->
  (forall x y z, In x l -> In y l -> In z (f x) -> In z (f y) -> x = y) -> NoDup (flat_map f l).
Proof.
  induction l as [|x l IH]; intros H F D; [constructor|]. inversion H; subst. cbn [flat_map]. apply nodup_app.
  - apply F. left; reflexivity.
  - apply IH; [assumption|intros y Hy; apply F; right; exact Hy|]. intros a b z Ha Hb. apply D; right; assumption.
  - intros z Z1 Z2. apply in_flat_map in Z2. destruct Z2 as (y&Iy&Zy). assert (x = y) by (apply (D x y z); [left; reflexivity|right; exact Iy|exact Z1|exact Zy]). subst y. contradiction.
Qed.
Lemma nodup_pairs {A} (f : A -> nat * nat) l : (forall x y, f x = f y -> x = y) -> NoDup l -> NoDup (map f l).
Proof. intros I. apply Injective_map_NoDup. exact I. Qed.

(** ** Fixed families *)
Lemma in_linear n a b : In (a, b) (linear_pushes n) <-> b = a + 1 /\ a < n - 1.
Proof.
  unfold linear_pushes. rewrite in_map_iff. split; [intros (k&E&I); inversion E; subst; apply in_seq in I; lia|].
  intros (->&H). exists a. split; [reflexivity|]. apply in_seq. lia.
Qed.
Lemma linear_nodup n : NoDup (linear_pushes n).
Proof. apply nodup_pairs; [intros x y E; inversion E; reflexivity|apply seq_NoDup]. Qed.
Lemma linear_ok g0 n : (2 <= n)%Z -> exists g, make_linear g0 n = Ok g /\ simple n g /\ Z.of_nat (size g) = (n - 1)%Z /\
  forall a b, adjacent g a b <-> (Z.of_nat a < n /\ Z.of_nat b < n)%Z /\ (b = a + 1 \/ a = b + 1).
Proof.
  intros H. unfold make_linear. rewrite (proj2 (Z.leb_gt n 1)) by lia.
  destruct (build_ok n (linear_pushes (Z.to_nat n))) as (g&E&S1&O&Sz&A); [lia|apply linear_nodup| |].
  - apply Forall_forall. intros [a b] I. apply in_linear in I. cbn [fst snd]. lia.
  - exists g. split; [exact E|]. split; [exact S1|]. split; [rewrite Sz; unfold linear_pushes; rewrite map_length, seq_length; lia|].
    intros a b. rewrite A. unfold pair_in. rewrite !in_linear. lia.
Qed.
Lemma circle_ok g0 n : (3 <= n)%Z -> exists g, make_circle g0 n = Ok g /\ simple n g /\ Z.of_nat (size g) = n /\
  forall a b, adjacent g a b <-> cyclic (Z.to_nat n) a b.
Proof.
  intros H. unfold make_circle. rewrite (proj2 (Z.leb_gt n 2)) by lia.
  assert (IC : forall a b, In (a, b) (circle_pushes (Z.to_nat n)) <-> (b = a + 1 /\ a < Z.to_nat n - 1) \/ (a = 0 /\ b = Z.to_nat n - 1)).
  { intros a b. unfold circle_pushes. fold (linear_pushes (Z.to_nat n)). rewrite in_app_iff, in_linear. cbn [In]. split; [intros [X|[X|[]]]; [left; exact X|right; inversion X; auto]|].
    intros [X|(->&->)]; [left; exact X|right; left; reflexivity]. }
  destruct (build_ok n (circle_pushes (Z.to_nat n))) as (g&E&S1&O&Sz&A).
  - lia.
  - unfold circle_pushes. fold (linear_pushes (Z.to_nat n)). apply nodup_app; [apply linear_nodup|repeat constructor; intros []|].
    intros [a b] I [J|[]]. inversion J; subst. apply in_linear in I. lia.
  - apply Forall_forall. intros [a b] I. apply IC in I. cbn [fst snd]. lia.
  - exists g. split; [exact E|]. split; [exact S1|]. split; [rewrite Sz; unfold circle_pushes; rewrite app_length, map_length, seq_length; cbn [length]; lia|].
    intros a b. rewrite A. unfold pair_in, cyclic. rewrite !IC. set (m := Z.to_nat n) in *. assert (Hm : 3 <= m) by lia.
    assert (Md : forall x, x < m -> (x + 1) mod m = if x =? m - 1 then 0 else x + 1).
    { intros x Hx. destruct (Nat.eqb_spec x (m - 1)) as [->|D]; [replace (m - 1 + 1) with m by lia; apply Nat.mod_same; lia|apply Nat.mod_small; lia]. }
    split.
    + intros X. assert (Ha : a < m) by lia. assert (Hb : b < m) by lia. split; [exact Ha|]. split; [exact Hb|]. rewrite !Md by assumption.
      destruct (Nat.eqb_spec a (m - 1)); destruct (Nat.eqb_spec b (m - 1)); lia.
    + intros (Ha&Hb&X). rewrite !Md in X by assumption. destruct (Nat.eqb_spec a (m - 1)); destruct (Nat.eqb_spec b (m - 1)); lia.
Qed.
Lemma center_ok g0 n o : (4 <= n)%Z -> o <> 0%Z -> exists g, make_circle_with_center g0 n o = Ok g /\ simple n g /\
  forall a b, adjacent g a b <-> cyclic (Z.to_nat n - 1) a b \/
     (Z.of_nat b = n - 1 /\ Z.of_nat a < n - 1 /\ (o | Z.of_nat a))%Z \/ (Z.of_nat a = n - 1 /\ Z.of_nat b < n - 1 /\ (o | Z.of_nat b))%Z.
Proof.
  intros H Ho. unfold make_circle_with_center. rewrite (proj2 (Z.leb_gt n 3)) by lia. rewrite (proj2 (Z.eqb_neq o 0) Ho).
  set (m := Z.to_nat n). assert (Hm : 4 <= m) by lia. assert (Em : Z.of_nat m = n) by lia.
  assert (IC : forall a b, In (a, b) (center_pushes m o) <-> (b = a + 1 /\ a < m - 2) \/ (a = 0 /\ b = m - 2) \/ (b = m - 1 /\ a < m - 1 /\ (o | Z.of_nat a)%Z)).
  { intros a b. unfold center_pushes. rewrite !in_app_iff. replace (m - 2) with (m - 1 - 1) by lia. fold (linear_pushes (m - 1)). rewrite in_linear. cbn [In].
    assert (X : In (a, b) (map (fun k => (k, m - 1)) (filter (fun k => (Z.rem (Z.of_nat k) o =? 0)%Z) (seq 0 (m - 1)))) <-> (b = m - 1 /\ a < m - 1 /\ (o | Z.of_nat a)%Z)).
    { rewrite in_map_iff. split.
      - intros (k&E&I). injection E as E1 E2. rewrite E1 in I. apply filter_In in I. destruct I as (I&R). apply in_seq in I. apply Z.eqb_eq in R. split; [lia|]. split; [lia|].
        apply Z.rem_divide; assumption.
      - intros (->&L&D). exists a. split; [reflexivity|]. apply filter_In. split; [apply in_seq; lia|]. apply Z.eqb_eq, Z.rem_divide; assumption. }
    rewrite X. split; [intros [Y|[[Y|[]]|Y]]; [left; exact Y|right; left; inversion Y; auto|right; right; exact Y]|].
    intros [Y|[(->&->)|Y]]; [left; exact Y|right; left; left; reflexivity|right; right; exact Y]. }
  destruct (build_ok n (center_pushes m o)) as (g&E&S1&O&Sz&A).
  - lia.
  - unfold center_pushes. replace (m - 2) with (m - 1 - 1) by lia. fold (linear_pushes (m - 1)). apply nodup_app; [apply linear_nodup| |].
    + apply nodup_app; [repeat constructor; intros []| |].
      * apply nodup_pairs; [intros x y X; inversion X; reflexivity|apply NoDup_filter, seq_NoDup].
      * intros [a b] [J|[]] I. injection J as J1 J2. apply in_map_iff in I. destruct I as (k&X&_). injection X as X1 X2. lia.
    + intros [a b] I J. apply in_linear in I. apply in_app_iff in J. destruct J as [[J|[]]|J]; [injection J as J1 J2; lia|]. apply in_map_iff in J. destruct J as (k&X&_). injection X as X1 X2. lia.
  - apply Forall_forall. intros [a b] I. apply IC in I. cbn [fst snd]. lia.
  - exists g. split; [exact E|]. split; [exact S1|]. intros a b. rewrite A. unfold pair_in, cyclic. rewrite !IC.
    assert (Md : forall x, x < m - 1 -> (x + 1) mod (m - 1) = if x =? m - 2 then 0 else x + 1).
    { intros x Hx. destruct (Nat.eqb_spec x (m - 2)) as [->|D]; [replace (m - 2 + 1) with (m - 1) by lia; apply Nat.mod_same; lia|apply Nat.mod_small; lia]. }
    assert (C : a < m - 1 /\ b < m - 1 /\ (b = (a + 1) mod (m - 1) \/ a = (b + 1) mod (m - 1)) <->
       ((b = a + 1 /\ a < m - 2) \/ (a = 0 /\ b = m - 2)) \/ ((a = b + 1 /\ b < m - 2) \/ (b = 0 /\ a = m - 2))).
    { split.
      - intros (Ha&Hb&X). rewrite !Md in X by assumption. destruct (Nat.eqb_spec a (m - 2)); destruct (Nat.eqb_spec b (m - 2)); lia.
      - intros X. assert (Ha : a < m - 1) by lia. assert (Hb : b < m - 1) by lia. split; [exact Ha|]. split; [exact Hb|]. rewrite !Md by assumption.
        destruct (Nat.eqb_spec a (m - 2)); destruct (Nat.eqb_spec b (m - 2)); lia. }
    rewrite C. assert (P : forall x, (Z.of_nat x = n - 1)%Z <-> x = m - 1) by (intros x; lia). assert (R : forall x, (Z.of_nat x < n - 1)%Z <-> x < m - 1) by (intros x; lia).
    rewrite !P, !R. tauto.
Qed.

Lemma grid_unique col r c r' c' : c < col -> c' < col -> r * col + c = r' * col + c' -> r = r' /\ c = c'.
Proof. intros H H' E. destruct (lt_eq_lt_dec r r') as [[L|L]|L]; [exfalso; nia|subst; lia|exfalso; nia]. Qed.
Lemma in_checker row col a b : 2 <= row -> 2 <= col -> In (a, b) (checker_pushes row col) <->
  exists r c, r < row /\ c < col /\ a = r * col + c /\ ((c + 1 < col /\ b = r * col + (c + 1)) \/ (r + 1 < row /\ b = (r + 1) * col + c)).
Proof.
  intros Hr Hc. unfold checker_pushes. rewrite !in_app_iff, in_flat_map, !in_map_iff. split.
  - intros [(r&Ir&I)|[(r&E&Ir)|(c&E&Ic)]].
    + apply in_flat_map in I. destruct I as (c&Ic&I). apply in_seq in Ir, Ic. exists r, c. split; [lia|]. split; [lia|].
      destruct I as [I|[I|[]]]; inversion I; subst; (split; [reflexivity|]); [left; lia|right; lia].
    + apply in_seq in Ir. inversion E; subst. exists r, (col - 1). split; [lia|]. split; [lia|]. split; [lia|]. right. lia.
    + apply in_seq in Ic. inversion E; subst. exists (row - 1), c. split; [lia|]. split; [lia|]. split; [reflexivity|]. left. lia.
  - intros (r&c&Lr&Lc&->&[(L&->)|(L&->)]).
    + destruct (Nat.eq_dec r (row - 1)) as [->|D].
      * right; right. exists c. split; [f_equal; lia|apply in_seq; lia].
      * left. exists r. split; [apply in_seq; lia|]. apply in_flat_map. exists c. split; [apply in_seq; lia|]. left. f_equal; lia.
    + destruct (Nat.eq_dec c (col - 1)) as [->|D].
      * right; left. exists r. split; [f_equal; lia|apply in_seq; lia].
      * left. exists r. split; [apply in_seq; lia|]. apply in_flat_map. exists c. split; [apply in_seq; lia|]. right; left. reflexivity.
Qed.
Lemma checker_nodup row col : 2 <= row -> 2 <= col -> NoDup (checker_pushes row col).
Proof.
  intros Hr Hc. unfold checker_pushes. apply nodup_app; [|apply nodup_app|].
  - apply nodup_flat_map; [apply seq_NoDup| |].
    + intros r Ir. apply nodup_flat_map; [apply seq_NoDup| |].
      * intros c Ic. constructor; [|repeat constructor; intros []]. intros [X|[]]. inversion X. nia.
      * intros c c' z Ic Ic' Z1 Z2. destruct Z1 as [<-|[<-|[]]]; destruct Z2 as [Z2|[Z2|[]]]; inversion Z2; nia.
    + intros r r' z Ir Ir' Z1 Z2. apply in_flat_map in Z1, Z2. destruct Z1 as (c&Ic&Z1). destruct Z2 as (c'&Ic'&Z2). apply in_seq in Ic, Ic'.
      assert (fst z = r * col + c) by (destruct Z1 as [<-|[<-|[]]]; reflexivity). assert (fst z = r' * col + c') by (destruct Z2 as [<-|[<-|[]]]; reflexivity).
      apply (grid_unique col r c r' c'); lia.
  - apply nodup_pairs; [intros x y E; inversion E; nia|apply seq_NoDup].
  - apply nodup_pairs; [intros x y E; inversion E; nia|apply seq_NoDup].
  - intros [a b] I J. apply in_map_iff in I, J. destruct I as (r&E&Ir). destruct J as (c&F&Ic). apply in_seq in Ir, Ic. inversion E; subst. inversion F. nia.
  - intros [a b] I J. apply in_flat_map in I. destruct I as (r&Ir&I). apply in_flat_map in I. destruct I as (c&Ic&I). apply in_seq in Ir, Ic.
    assert (Ea : a = r * col + c) by (destruct I as [I|[I|[]]]; inversion I; reflexivity). apply in_app_iff in J. destruct J as [J|J]; apply in_map_iff in J; destruct J as (k&E&Ik); apply in_seq in Ik; inversion E.
    + destruct (grid_unique col r c k (col - 1)); lia.
    + destruct (grid_unique col r c (row - 1) k); lia.
Qed.
Lemma checker_ok g0 row col : (2 <= row)%Z -> (2 <= col)%Z -> (row * col <= 2147483647)%Z ->
  exists g, make_checkerboard g0 row col = Ok g /\ simple (row * col) g /\
  forall r c r' c', (Z.of_nat r < row -> Z.of_nat c < col -> Z.of_nat r' < row -> Z.of_nat c' < col ->
   (adjacent g (r * Z.to_nat col + c)%nat (r' * Z.to_nat col + c')%nat <-> board (r, c) (r', c')))%Z.
Proof.
  intros Hr Hc Hi. unfold make_checkerboard. rewrite (proj2 (Z.leb_gt row 1)), (proj2 (Z.leb_gt col 1)) by lia. cbn [orb]. rewrite int_ok by nia.
  set (R := Z.to_nat row). set (C := Z.to_nat col). assert (HR : 2 <= R) by lia. assert (HC : 2 <= C) by lia. assert (ER : row = Z.of_nat R) by lia. assert (EC : col = Z.of_nat C) by lia.
  destruct (build_ok (row * col) (checker_pushes R C)) as (g&E&S1&O&Sz&A).
  - nia.
  - apply checker_nodup; assumption.
  - apply Forall_forall. intros [a b] I. apply in_checker in I; [|assumption|assumption]. destruct I as (r&c&Lr&Lc&->&[(L&->)|(L&->)]); cbn [fst snd]; nia.
  - exists g. split; [exact E|]. split; [exact S1|]. intros r c r' c' Lr Lc Lr' Lc'. rewrite A. unfold pair_in, board. rewrite !in_checker by assumption. cbn [fst snd].
    assert (Hr1 : r < R) by lia. assert (Hc1 : c < C) by lia. assert (Hr2 : r' < R) by lia. assert (Hc2 : c' < C) by lia. clear Lr Lc Lr' Lc' A. split.
    + intros [(x&y&Lx&Ly&E1&H)|(x&y&Lx&Ly&E1&H)].
      * destruct (grid_unique C r c x y) as (->&->); [lia|lia|exact E1|]. destruct H as [(L&E2)|(L&E2)].
        -- destruct (grid_unique C r' c' x (y + 1)); lia.
        -- destruct (grid_unique C r' c' (x + 1) y); lia.
      * destruct (grid_unique C r' c' x y) as (->&->); [lia|lia|exact E1|]. destruct H as [(L&E2)|(L&E2)].
        -- destruct (grid_unique C r c x (y + 1)); lia.
        -- destruct (grid_unique C r c (x + 1) y); lia.
    + intros [(->&[->| ->])|(->&[->| ->])].
      * left. exists r', c. repeat split; try lia. 
      * right. exists r', c'. repeat split; try lia.
      * left. exists r, c'. repeat split; try lia.
      * right. exists r', c'. repeat split; try lia.
Qed.

(** ** Petersen graphs *)
Lemma petersen_shift s : petersen_pushes s = map (fun p => (s + fst p, s + snd p)) (petersen_pushes 0).
Proof. unfold petersen_pushes. cbn [seq map app fst snd Nat.add]. repeat (f_equal; try lia). Qed.
Lemma petersen_range p : In p (petersen_pushes 0) -> fst p < snd p < 10.
Proof.
  assert (F : forallb (fun p => (fst p <? snd p) && (snd p <? 10)) (petersen_pushes 0) = true) by reflexivity.
  intros I. rewrite forallb_forall in F. specialize (F p I). apply andb_true_iff in F. destruct F as (A&B). apply Nat.ltb_lt in A, B. lia.
Qed.
Lemma petersen_nodup : NoDup (petersen_pushes 0).
Proof.
  assert (H : forall l : list (nat * nat), (fix nd l := match l with [] => true | p :: l' => negb (existsb (fun q => (fst p =? fst q) && (snd p =? snd q)) l') && nd l' end) l = true -> NoDup l).
  { induction l as [|p l IH]; intros E; [constructor|]. apply andb_true_iff in E. destruct E as (A&B). constructor; [|apply IH, B].
    intros I. apply negb_true_iff in A. rewrite <- not_true_iff_false in A. apply A. apply existsb_exists. exists p. split; [exact I|]. rewrite !Nat.eqb_refl. reflexivity. }
  apply H. vm_compute. reflexivity.
Qed.
Lemma petersen_adj a b : a < 10 -> b < 10 -> (pair_in (petersen_pushes 0) a b <-> disjoint (nth a two_subsets (0,0)) (nth b two_subsets (0,0))).
Proof.
  intros Ha Hb.
  assert (F : forallb (fun a => forallb (fun b => Bool.eqb (existsb (fun q => (a =? fst q) && (b =? snd q) || (b =? fst q) && (a =? snd q)) (petersen_pushes 0))
     (let p := nth a two_subsets (0,0) in let q := nth b two_subsets (0,0) in negb (fst p =? fst q) && negb (fst p =? snd q) && negb (snd p =? fst q) && negb (snd p =? snd q))) (seq 0 10)) (seq 0 10) = true)
    by (vm_compute; reflexivity).
  rewrite forallb_forall in F. specialize (F a). rewrite forallb_forall in F by (apply in_seq; lia). specialize (F ltac:(apply in_seq; lia) b ltac:(apply in_seq; lia)). apply eqb_prop in F.
  assert (X : pair_in (petersen_pushes 0) a b <-> existsb (fun q => (a =? fst q) && (b =? snd q) || (b =? fst q) && (a =? snd q)) (petersen_pushes 0) = true).
  { rewrite existsb_exists. unfold pair_in. split.
    - intros [I|I]; eexists; (split; [exact I|]); cbn [fst snd]; rewrite !Nat.eqb_refl; cbn [andb orb]; [reflexivity|apply orb_true_r].
    - intros ((x&y)&I&E). cbn [fst snd] in E. apply orb_true_iff in E. destruct E as [E|E]; apply andb_true_iff in E; destruct E as (E1&E2); apply Nat.eqb_eq in E1, E2; subst; [left|right]; exact I. }
  rewrite X, F. unfold disjoint. cbv zeta. rewrite !andb_true_iff, !negb_true_iff, !Nat.eqb_neq. tauto.
Qed.
Lemma petersens_ok k : (0 <= k)%Z -> (10 * k <= 2147483647)%Z ->
  exists g, make_petersen_fun k = Ok g /\ simple (10 * k) g /\ Z.of_nat (size g) = (15 * k)%Z /\
   forall i x j y, (Z.of_nat i < k)%Z -> (Z.of_nat j < k)%Z -> x < 10 -> y < 10 ->
     (adjacent g (10 * i + x) (10 * j + y) <-> i = j /\ disjoint (nth x two_subsets (0,0)) (nth y two_subsets (0,0))).
Proof.
  intros H0 Hi. unfold make_petersen_fun. rewrite int_ok by lia.
  set (l := flat_map (fun i => petersen_pushes (i * 10)) (seq 0 (Z.to_nat k))).
  assert (IL : forall a b, In (a, b) l <-> exists i p, i < Z.to_nat k /\ In p (petersen_pushes 0) /\ a = 10 * i + fst p /\ b = 10 * i + snd p).
  { intros a b. unfold l. rewrite in_flat_map. split.
    - intros (i&Ii&I). apply in_seq in Ii. rewrite petersen_shift in I. apply in_map_iff in I. destruct I as (p&E&I). inversion E; subst. exists i, p. split; [lia|]. split; [exact I|]. lia.
    - intros (i&p&Li&Ip&->&->). exists i. split; [apply in_seq; lia|]. rewrite petersen_shift. apply in_map_iff. exists p. split; [f_equal; lia|exact Ip]. }
  destruct (build_ok (10 * k) l) as (g&E&S1&O&Sz&A).
  - lia.
  - apply nodup_flat_map; [apply seq_NoDup| |].
    + intros i _. rewrite petersen_shift. apply nodup_pairs; [intros [a b] [c d] X; cbn [fst snd] in X; inversion X; f_equal; lia|apply petersen_nodup].
    + intros i j z _ _ Z1 Z2. rewrite petersen_shift in Z1, Z2. apply in_map_iff in Z1, Z2. destruct Z1 as (p&E1&I1). destruct Z2 as (q&E2&I2). subst z. inversion E2.
      apply petersen_range in I1, I2. lia.
  - apply Forall_forall. intros [a b] I. apply IL in I. destruct I as (i&p&Li&Ip&->&->). apply petersen_range in Ip. cbn [fst snd]. lia.
  - exists g. split; [exact E|]. split; [exact S1|]. split.
    { rewrite Sz. unfold l. assert (Lm : forall m s, length (flat_map (fun i => petersen_pushes (i * 10)) (seq s m)) = 15 * m).
      { induction m as [|m IHm]; intros s; [reflexivity|]. cbn [seq flat_map]. rewrite app_length, IHm. rewrite petersen_shift, map_length. cbn [petersen_pushes seq map app length]. lia. }
      rewrite Lm. lia. }
    intros i x j y Hi1 Hj1 Hx Hy. rewrite A, <- petersen_adj by assumption. unfold pair_in. rewrite !IL. split.
    + intros [(m&p&Lm&Ip&E1&E2)|(m&p&Lm&Ip&E1&E2)]; pose proof (petersen_range p Ip); assert (i = m) by lia; assert (j = m) by lia; (split; [lia|]);
        [left|right]; replace p with (fst p, snd p) in Ip by (destruct p; reflexivity);
        [replace x with (fst p) by lia; replace y with (snd p) by lia|replace x with (snd p) by lia; replace y with (fst p) by lia]; exact Ip.
    + intros (->&[I|I]); [left|right]; exists j; eexists; (split; [lia|]); (split; [exact I|]); cbn [fst snd]; split; reflexivity.
Qed.
Lemma petersen_is_one : make_petersen = make_petersen_fun 1.
Proof. reflexivity. Qed.

(** ** Disconnected graphs *)
Definition disconnected_args (n k : Z) : Prop := (4 <= n < 2147483647)%Z /\ (0 <= k < 2147483647)%Z.
Definition half_up (n : Z) : nat := Z.to_nat ((n + 1) / 2).
Definition half_down (n : Z) : nat := Z.to_nat (n / 2).
Lemma disconnected_unfold fuel rnd g n k pos : disconnected_args n k ->
  random_disconnected fuel rnd g n k pos =
    bind (fill fuel rnd (half_up n) 0 ((k + 1) / 2)%Z 0 (repeat [] (Z.to_nat n)) pos) (fun p =>
    bind (fill fuel rnd (half_down n) (half_up n) (k / 2)%Z 0 (fst p) (snd p)) (fun q => Ok (mkGraph n (fst q), snd q))).
Proof.
  intros (A&B). unfold random_disconnected. rewrite (proj2 (Z.ltb_ge n 4)) by lia. rewrite !int_ok by lia. cbn [andb negb].
  rewrite !Z.quot_div_nonneg by lia. unfold fresh. rewrite (proj2 (Z.ltb_ge n 0)) by lia. reflexivity.
Qed.
Lemma halves n : (4 <= n)%Z -> half_up n + half_down n = Z.to_nat n /\ half_up n <> 0 /\ half_down n <> 0.
Proof. intros H. unfold half_up, half_down. assert (n = 2 * (n / 2) + n mod 2)%Z by (apply Z.div_mod; lia). assert (n + 1 = 2 * ((n + 1) / 2) + (n + 1) mod 2)%Z by (apply Z.div_mod; lia).
  pose proof (Z.mod_pos_bound n 2 ltac:(lia)). pose proof (Z.mod_pos_bound (n + 1) 2 ltac:(lia)). lia. Qed.
Lemma isz_empty n off m : isz (repeat [] n) off m = 0.
Proof.
  unfold isz. assert (A : forall l, In l (firstn m (skipn off (repeat (@nil nat) n))) -> l = []).
  { intros l I. destruct (In_nth _ _ [] I) as (j&Hj&E). rewrite firstn_length in Hj. rewrite nth_firstn_lt, nth_skipn, nth_repeat_nil in E by lia. congruence. }
  revert A. generalize (firstn m (skipn off (repeat (@nil nat) n))). intros r A. induction r as [|l r IH]; [reflexivity|]. unfold esize in *. cbn [map list_sum fold_right].
  change (fold_right Nat.add 0) with list_sum. rewrite (A l (or_introl eq_refl)). apply IH. intros x Hx. apply A. right; exact Hx.
Qed.
(** After the first loop. *)
Lemma first_part n k e1 : disconnected_args n k -> filled (half_up n) 0 ((k + 1) / 2) 0 (repeat [] (Z.to_nat n)) e1 ->
  wf e1 /\ length e1 = Z.to_nat n /\ (forall a, ~ eadj e1 a a) /\ (forall a b, eadj e1 a b -> a < half_up n /\ b < half_up n) /\
  Z.of_nat (isz e1 0 (half_up n)) = ((k + 1) / 2)%Z /\ Z.of_nat (esize e1) = ((k + 1) / 2)%Z /\ isz e1 (half_up n) (half_down n) = 0.
Proof.
  intros (A&B) F. destruct (halves n ltac:(lia)) as (H1&H2&H3). pose proof (Z.div_pos (k + 1) 2 ltac:(lia) ltac:(lia)) as P.
  pose proof (fi_len _ _ _ _ _ _ F) as L. rewrite repeat_length in L.
  assert (Ed : forall a b, eadj e1 a b -> a < half_up n /\ b < half_up n).
  { intros a b X. apply (fi_new _ _ _ _ _ _ F) in X. destruct X as [X|X]; [destruct (adj_repeat _ _ _ X)|lia]. }
  split; [apply F|]. split; [exact L|]. split; [apply (fi_loop _ _ _ _ _ _ F); intros a; apply adj_repeat|]. split; [exact Ed|].
  split; [rewrite (fi_isz _ _ _ _ _ _ F), isz_empty; lia|]. split; [rewrite (fi_esize _ _ _ _ _ _ F), esize_repeat; lia|].
  rewrite <- (isz_empty (Z.to_nat n) (half_up n) (half_down n)). unfold isz. f_equal. apply (nth_ext _ _ [] []).
  - rewrite !firstn_length, !skipn_length, L, repeat_length. reflexivity.
  - intros j Hj. rewrite firstn_length in Hj. rewrite !nth_firstn_lt, !nth_skipn by lia. apply (fi_row _ _ _ _ _ _ F). lia.
Qed.
Lemma random_disconnected_safe fuel rnd g n k pos : disconnected_args n k ->
  random_disconnected fuel rnd g n k pos = Err OutOfFuel \/
  exists g' p', random_disconnected fuel rnd g n k pos = Ok (g', p') /\ simple n g' /\ Z.of_nat (size g') = k /\
    (forall a b, adjacent g' a b -> (a < half_up n <-> b < half_up n)) /\
    (2 * ((k + 1) / 2) <= Z.of_nat (half_up n * (half_up n - 1)) /\ 2 * (k / 2) <= Z.of_nat (half_down n * (half_down n - 1)))%Z.
Proof.
  intros A. rewrite (disconnected_unfold fuel rnd g n k pos A). pose proof A as (A1&A2). destruct (halves n ltac:(lia)) as (H1&H2&H3).
  destruct (fill_safe rnd (half_up n) 0 ((k + 1) / 2) H2 fuel 0 (repeat [] (Z.to_nat n)) pos (wf_repeat _)) as [->|(e1&p1&->&F1)]; [rewrite repeat_length; lia|left; reflexivity|].
  cbn [bind fst snd]. destruct (first_part n k e1 A F1) as (W1&L1&Lf1&Ed1&I1&Sz1&I2).
  destruct (fill_safe rnd (half_down n) (half_up n) (k / 2) H3 fuel 0 e1 p1 W1) as [->|(e2&p2&->&F2)]; [lia|left; reflexivity|].
  right. cbn [bind fst snd]. exists (mkGraph n e2), p2. split; [reflexivity|].
  pose proof (fi_len _ _ _ _ _ _ F2) as L2. assert (Lf2 : forall a, ~ eadj e2 a a) by (apply (fi_loop _ _ _ _ _ _ F2); exact Lf1).
  pose proof (Z.div_pos (k + 1) 2 ltac:(lia) ltac:(lia)) as P1. pose proof (Z.div_pos k 2 ltac:(lia) ltac:(lia)) as P2.
  split; [apply graph_simple; [apply F2|lia|exact Lf2]|]. split.
  { change (size (mkGraph n e2)) with (esize e2). rewrite (fi_esize _ _ _ _ _ _ F2), Sz1.
    assert (k = 2 * (k / 2) + k mod 2)%Z by (apply Z.div_mod; lia). assert (k + 1 = 2 * ((k + 1) / 2) + (k + 1) mod 2)%Z by (apply Z.div_mod; lia).
    pose proof (Z.mod_pos_bound k 2 ltac:(lia)). pose proof (Z.mod_pos_bound (k + 1) 2 ltac:(lia)). lia. }
  split.
  { intros a b X. apply (fi_new _ _ _ _ _ _ F2) in X. destruct X as [X|X]; [destruct (Ed1 a b X); tauto|lia]. }
  split.
  - rewrite <- I1. pose proof (range_bound e1 0 (half_up n) W1 Lf1 ltac:(lia)) as Bd. specialize (Bd ltac:(intros a b Ha Hb; destruct (Ed1 a b (or_introl Hb)); lia)). lia.
  - pose proof (fi_isz _ _ _ _ _ _ F2) as I3. rewrite I2 in I3. assert (W2 : wf e2) by apply F2.
    pose proof (range_bound e2 (half_up n) (half_down n) W2 Lf2 ltac:(lia)) as Bd.
    specialize (Bd ltac:(intros a b Ha Hb; destruct (wf_adj e2 a b W2 (or_introl Hb)); lia)). lia.
Qed.
Lemma random_disconnected_live rnd g n k pos : disconnected_args n k -> fair rnd (half_up n) -> fair rnd (half_down n) ->
  (2 * ((k + 1) / 2) <= Z.of_nat (half_up n * (half_up n - 1)))%Z -> (2 * (k / 2) <= Z.of_nat (half_down n * (half_down n - 1)))%Z ->
  exists fuel r, random_disconnected fuel rnd g n k pos = Ok r.
Proof.
  intros A Fr1 Fr2 B1 B2. pose proof A as (A1&A2). destruct (halves n ltac:(lia)) as (H1&H2&H3).
  destruct (fill_live rnd (half_up n) 0 ((k + 1) / 2) H2 Fr1 B1 _ 0%Z (repeat [] (Z.to_nat n)) pos eq_refl (wf_repeat _)) as (f1&(e1&p1)&E1);
    [rewrite repeat_length; lia|rewrite isz_empty; lia|].
  destruct (fill_safe rnd (half_up n) 0 ((k + 1) / 2) H2 f1 0 (repeat [] (Z.to_nat n)) pos (wf_repeat _)) as [E|(e1'&p1'&E&F1)]; [rewrite repeat_length; lia|congruence|].
  rewrite E1 in E. inversion E; subst e1' p1'. clear E. destruct (first_part n k e1 A F1) as (W1&L1&Lf1&Ed1&I1&Sz1&I2).
  destruct (fill_live rnd (half_down n) (half_up n) (k / 2) H3 Fr2 B2 _ 0%Z e1 p1 eq_refl W1) as (f2&r&E2); [lia|rewrite I2; lia|].
  exists (f1 + f2). eexists. rewrite (disconnected_unfold (f1 + f2) rnd g n k pos A). rewrite (fill_more _ _ _ _ _ _ _ _ _ f2 E1). cbn [bind fst snd].
  rewrite Nat.add_comm. rewrite (fill_more _ _ _ _ _ _ _ _ _ f1 E2). reflexivity.
Qed.
