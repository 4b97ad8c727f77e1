From Coq Require Import Permutation.
From Verif Require Import Common Text Graph GraphSpec GraphProofs GraphProofs2 GraphProofs3 Hyper HyperSpec HyperProofs.
Open Scope Z_scope.

Lemma binomial_over : forall n k, (n < k)%nat -> binomial n k = 0.
Proof. induction n as [|n IH]; intros [|k] H; try lia; [reflexivity|]. cbn [binomial]. rewrite !IH by lia. reflexivity. Qed.
Lemma binomial_self : forall n, binomial n n = 1.
Proof. induction n as [|n IH]; [reflexivity|]. cbn [binomial]. rewrite IH, binomial_over by lia. reflexivity. Qed.
Lemma full_binomial : forall m z, Z.of_nat (length (full m z)) = binomial (m + z) m.
Proof.
  induction m as [|m IHm]; intros z; [destruct z; reflexivity|]. induction z as [|z IHz].
  - rewrite full_nozero, Nat.add_0_r, binomial_self. reflexivity.
  - rewrite full_pascal, Nat2Z.inj_add, IHm, IHz. replace (m + S z)%nat with (S m + z)%nat by lia. replace (S m + S z)%nat with (S (S m + z)) by lia. reflexivity.
Qed.

(** ** Kneser graphs *)
Lemma share_false : forall p q, share p q = false <-> no_common p q.
Proof.
  induction p as [|x p IH]; intros q.
  - split; [intros _ t (H&_); destruct t; discriminate|reflexivity].
  - destruct q as [|y q]; [split; [intros _ t (_&H); destruct t; discriminate|reflexivity]|].
    cbn [share]. rewrite Bool.orb_false_iff, IH. split.
    + intros (A&B) [|t] (H1&H2); cbn [nth] in *; [subst; discriminate|apply (B t); auto].
    + intros H. split; [|intros t; apply (H (S t))]. specialize (H 0%nat). cbn [nth] in H.
      destruct (Z.eqb_spec x 1) as [->|N]; [|reflexivity]. destruct (Z.eqb_spec 1 y) as [<-|N]; [|reflexivity]. exfalso. apply H. auto.
Qed.
Lemma no_common_sym p q : no_common p q -> no_common q p.
Proof. intros H t (A&B). apply (H t). auto. Qed.
Lemma kneser_row_in p i : forall l k a b, In (a, b) (kneser_row p l i k) <-> a = i /\ exists t, (t < length l)%nat /\ b = (k + t)%nat /\ no_common p (nth t l []).
Proof.
  induction l as [|q l IH]; intros k a b.
  - cbn [kneser_row In length]. split; [intros []|intros (_&t&H&_); lia].
  - cbn [kneser_row]. rewrite in_app_iff, IH. split.
    + intros [H|(->&t&Ht&->&N)].
      * destruct (share p q) eqn:E; [destruct H|]. destruct H as [H|[]]. injection H as <- <-. split; [reflexivity|]. exists 0%nat. cbn [length nth]. split; [lia|]. split; [lia|]. apply share_false, E.
      * split; [reflexivity|]. exists (S t). cbn [length nth]. split; [lia|]. split; [lia|exact N].
    + intros (->&t&Ht&->&N). destruct t as [|t]; cbn [nth length] in *.
      * left. apply share_false in N. rewrite N. left. f_equal. lia.
      * right. split; [reflexivity|]. exists t. split; [lia|]. split; [lia|exact N].
Qed.
Lemma kneser_row_nodup p i : forall l k, NoDup (kneser_row p l i k).
Proof.
  induction l as [|q l IH]; intros k; [constructor|]. cbn [kneser_row]. destruct (share p q); [apply IH|]. cbn [app]. constructor; [|apply IH].
  rewrite kneser_row_in. intros (_&t&_&E&_). lia.
Qed.
Lemma kneser_in : forall l i a b, In (a, b) (kneser_pushes l i) <->
  exists s t, (s < t < length l)%nat /\ a = (i + s)%nat /\ b = (i + t)%nat /\ no_common (nth s l []) (nth t l []).
Proof.
  induction l as [|p l IH]; intros i a b.
  - cbn [kneser_pushes In length]. split; [intros []|intros (s&t&H&_); lia].
  - cbn [kneser_pushes]. rewrite in_app_iff, kneser_row_in, IH. split.
    + intros [(->&t&Ht&->&N)|(s&t&Ht&->&->&N)].
      * exists 0%nat, (S t). cbn [length nth]. split; [lia|]. split; [lia|]. split; [lia|exact N].
      * exists (S s), (S t). cbn [length nth]. split; [lia|]. split; [lia|]. split; [lia|exact N].
    + intros (s&t&Ht&->&->&N). destruct t as [|t]; [lia|]. destruct s as [|s]; cbn [nth length] in *.
      * left. split; [lia|]. exists t. split; [lia|]. split; [lia|exact N].
      * right. exists s, t. split; [lia|]. split; [lia|]. split; [lia|exact N].
Qed.
Lemma kneser_nodup : forall l i, NoDup (kneser_pushes l i).
Proof.
  induction l as [|p l IH]; intros i; [constructor|]. cbn [kneser_pushes]. apply nodup_app; [apply kneser_row_nodup|apply IH|].
  intros (a&b) H1 H2. apply kneser_row_in in H1. apply kneser_in in H2. destruct H1 as (->&_). destruct H2 as (s&t&_&E&_). lia.
Qed.
Lemma kneser_ok g n k : (1 <= k)%nat -> Z.of_nat k <= (Z.of_nat n + 1) / 2 -> binomial n k <= 2147483647 ->
  exists l g', all_points n k = Ok l /\ make_kneser g n k = Ok g' /\ simple (binomial n k) g' /\ order g' = length l /\
    forall a b, adjacent g' a b <-> (a < length l)%nat /\ (b < length l)%nat /\ a <> b /\ no_common (nth a l []) (nth b l []).
Proof.
  intros Hk Hn Hb. assert (Hkn : (k <= n)%nat) by (pose proof (Z.mul_div_le (Z.of_nat n + 1) 2); lia).
  assert (Fb : Z.of_nat (length (full k (n - k))) = binomial n k) by (rewrite full_binomial; f_equal; lia).
  set (l := full k (n - k)) in *. set (c := binomial n k) in *.
  destruct (build_ok c (kneser_pushes l 0)) as (g'&B&S1&O1&Z1&A1); [lia|apply kneser_nodup| |].
  { apply Forall_forall. intros (a&b) H. apply kneser_in in H. destruct H as (s&t&Hs&->&->&_). cbn [fst snd]. lia. }
  exists l, g'. split; [apply all_points_ok; lia|]. split.
  - unfold make_kneser, generate_points. rewrite all_points_ok by lia. cbn [bind]. rewrite Z.gtb_ltb, (proj2 (Z.ltb_ge _ _)) by lia.
    rewrite nchoosek_ok by (fold l; lia). fold l. rewrite Fb. cbn [bind]. unfold build in B. destruct (fresh c) as [e|] eqn:Fr; [|discriminate]. cbn [bind] in *.
    destruct (Nat.leb_spec n k) as [L|L].
    + assert (k = n) by lia. subst k. assert (n = 1)%nat by (assert (2 * ((Z.of_nat n + 1) / 2) <= Z.of_nat n + 1) by (apply Z.mul_div_le; lia); lia). subst n.
      cbv in l. unfold l in B. cbn [kneser_pushes kneser_row app pushes bind] in B. injection B as <-. reflexivity.
    + exact B.
  - split; [exact S1|]. split; [rewrite O1; lia|]. intros a b. rewrite A1. unfold pair_in. rewrite !kneser_in. split.
    + intros [(s&t&Hs&->&->&N)|(s&t&Hs&->&->&N)]; cbn [Nat.add]; (split; [lia|]; split; [lia|]; split; [lia|]); [exact N|apply no_common_sym, N].
    + intros (Ha&Hb'&Ne&N). destruct (Nat.lt_trichotomy a b) as [L|[L|L]]; [left|lia|right].
      * exists a, b. split; [lia|]. split; [reflexivity|]. split; [reflexivity|exact N].
      * exists b, a. split; [lia|]. split; [reflexivity|]. split; [reflexivity|apply no_common_sym, N].
Qed.

(** ** Edge polytopes *)
Fixpoint pairs_of (e : list (list nat)) (i : nat) : list (nat * nat) :=
  match e with [] => [] | row :: e' => map (pair i) row ++ pairs_of e' (S i) end.
Lemma edge_rows_ok f F : forall e i, Forall (fun p => f (fst p) (snd p) = Ok (F (fst p) (snd p))) (pairs_of e i) ->
  edge_rows f e i = Ok (flat_map (fun p => F (fst p) (snd p)) (pairs_of e i)).
Proof.
  induction e as [|row e IH]; intros i H; [reflexivity|]. cbn [pairs_of] in *. apply Forall_app in H. destruct H as (H1&H2).
  cbn [edge_rows]. rewrite (IH (S i) H2). rewrite flat_map_app.
  assert (R : forall r, Forall (fun p => f (fst p) (snd p) = Ok (F (fst p) (snd p))) (map (pair i) r) ->
    (fix go (r : list nat) := match r with [] => Ok [] | j :: r' => bind (f i j) (fun p => bind (go r') (fun q => Ok (p ++ q))) end) r
    = Ok (flat_map (fun p => F (fst p) (snd p)) (map (pair i) r))).
  { induction r as [|j r IHr]; intros G; [reflexivity|]. cbn [map] in G. pose proof (Forall_inv G) as G1. cbn [fst snd] in G1. rewrite G1. cbn [bind].
    rewrite (IHr (Forall_inv_tail G)). reflexivity. }
  rewrite (R row H1). reflexivity.
Qed.
Lemma pairs_in : forall e i a b, In (a, b) (pairs_of e i) <-> (i <= a)%nat /\ In b (nth (a - i) e []).
Proof.
  induction e as [|row e IH]; intros i a b.
  - cbn [pairs_of In]. split; [intros []|]. intros (_&H). destruct (a - i)%nat; destruct H.
  - cbn [pairs_of]. rewrite in_app_iff, IH, in_map_iff. split.
    + intros [(x&E&I)|(L&I)]; [injection E as <- <-|].
      * split; [lia|]. rewrite Nat.sub_diag. exact I.
      * split; [lia|]. replace (a - i)%nat with (S (a - S i)) by lia. exact I.
    + intros (L&I). destruct (Nat.eq_dec a i) as [->|N].
      * left. exists b. split; [reflexivity|]. rewrite Nat.sub_diag in I. exact I.
      * right. split; [lia|]. replace (a - i)%nat with (S (a - S i)) in I by lia. exact I.
Qed.
Lemma pairs_nodup : forall e i, (forall a, (a < length e)%nat -> NoDup (nth a e [])) -> NoDup (pairs_of e i).
Proof.
  induction e as [|row e IH]; intros i H; [constructor|]. cbn [pairs_of]. apply nodup_app.
  - apply FinFun.Injective_map_NoDup; [intros x y E; injection E as E; exact E|]. apply (H 0%nat). cbn [length]. lia.
  - apply IH. intros a Ha. apply (H (S a)). cbn [length]. lia.
  - intros (a&b) H1 H2. apply in_map_iff in H1. destruct H1 as (x&E&_). injection E as <- _. apply pairs_in in H2. lia.
Qed.
Lemma pairs_length : forall e i, length (pairs_of e i) = list_sum (map (@length nat) e).
Proof. induction e as [|row e IH]; intros i; [reflexivity|]. cbn [pairs_of map list_sum fold_right]. rewrite app_length, map_length, IH. reflexivity. Qed.

Lemma nth_two n a b x y t : nth t (two_entries n a b x y) 0 = if (t <? n)%nat then if Nat.eqb t a then x else if Nat.eqb t b then y else 0 else 0.
Proof.
  unfold two_entries. destruct (Nat.ltb_spec t n) as [L|L].
  - rewrite (nth_indep _ 0 (if Nat.eqb 0 a then x else if Nat.eqb 0 b then y else 0)) by (rewrite map_length, seq_length; exact L).
    rewrite (map_nth (fun t => if Nat.eqb t a then x else if Nat.eqb t b then y else 0)), seq_nth by exact L. reflexivity.
  - apply nth_overflow. rewrite map_length, seq_length. exact L.
Qed.
Lemma len_two n a b x y : length (two_entries n a b x y) = n.
Proof. unfold two_entries. rewrite map_length, seq_length. reflexivity. Qed.
Lemma nth_upd_z (l : list Z) i x t : nth t (upd l i x) 0 = if (i <? length l)%nat then if Nat.eqb t i then x else nth t l 0 else nth t l 0.
Proof.
  revert i t. induction l as [|y l IH]; intros [|i] [|t]; cbn [upd nth length]; try reflexivity.
  - destruct (S i <? S (length l))%nat; reflexivity.
  - rewrite IH. change (S i <? S (length l))%nat with (i <? length l)%nat. cbn [Nat.eqb]. reflexivity.
Qed.
Lemma put_lt p i x : (i < length p)%nat -> put p i x = Ok (upd p i x).
Proof. intros H. unfold put. rewrite (proj2 (Nat.ltb_lt _ _) H). reflexivity. Qed.
Lemma nth_zeros n t : nth t (repeat 0 n) 0 = 0.
Proof. revert t. induction n; intros [|t]; cbn; auto. Qed.
Lemma upd_two n a b x y : (a < n)%nat -> (b < n)%nat -> a <> b -> upd (upd (repeat 0 n) a x) b y = two_entries n a b x y.
Proof.
  intros Ha Hb N. apply (nth_ext _ _ 0 0); [rewrite !length_upd, repeat_length, len_two; reflexivity|]. intros t Ht.
  rewrite !length_upd, repeat_length in Ht.
  rewrite nth_two, !nth_upd_z, length_upd, repeat_length, nth_zeros, !(proj2 (Nat.ltb_lt _ _)) by assumption.
  destruct (Nat.eqb_spec t b), (Nat.eqb_spec t a); try lia; reflexivity.
Qed.
Lemma upd_two_again n a b x y x' y' : (a < n)%nat -> (b < n)%nat -> a <> b ->
  upd (upd (two_entries n a b x y) a x') b y' = two_entries n a b x' y'.
Proof.
  intros Ha Hb N. apply (nth_ext _ _ 0 0); [rewrite !length_upd, !len_two; reflexivity|]. intros t Ht.
  rewrite !length_upd, len_two in Ht.
  rewrite nth_two, !nth_upd_z, length_upd, len_two, nth_two, !(proj2 (Nat.ltb_lt _ _)) by assumption.
  destruct (Nat.eqb_spec t b), (Nat.eqb_spec t a); try lia; reflexivity.
Qed.
Lemma two_swap n a b x y : a <> b -> two_entries n a b x y = two_entries n b a y x.
Proof. intros N. unfold two_entries. apply map_ext. intros t. destruct (Nat.eqb_spec t a), (Nat.eqb_spec t b); try lia; reflexivity. Qed.

Lemma simple_pairs n g : simple n g -> forall a b, In (a, b) (pairs_of (edges g) 0) <-> (a < b)%nat /\ adjacent g a b.
Proof.
  intros (_&(Nv&St)&Lf) a b. rewrite pairs_in, Nat.sub_0_r.
  assert (K : forall a b, In b (nth a (edges g) []) -> (a < b < order g)%nat).
  { intros x y I. destruct (Nat.lt_ge_cases x (order g)) as [L|L]; [|unfold order in L; rewrite nth_overflow in I by exact L; destruct I].
    destruct (St x L) as (_&F). apply (proj1 (Forall_forall _ _) F) in I as I'. assert (x <> y) by (intros ->; apply (Lf y); left; exact I). lia. }
  split.
  - intros (_&I). split; [apply K in I; lia|left; exact I].
  - intros (L&[I|I]); [split; [lia|exact I]|]. apply K in I. lia.
Qed.
Lemma adj_bound n g : simple n g -> forall a b, adjacent g a b -> (a < order g)%nat /\ (b < order g)%nat /\ a <> b.
Proof.
  intros (_&(Nv&St)&Lf) a b H. assert (N : a <> b) by (intros ->; exact (Lf b H)).
  assert (K : forall a b, In b (nth a (edges g) []) -> (a < order g /\ b < order g)%nat).
  { intros x y I. destruct (Nat.lt_ge_cases x (order g)) as [L|L]; [|unfold order in L; rewrite nth_overflow in I by exact L; destruct I].
    destruct (St x L) as (_&F). apply (proj1 (Forall_forall _ _) F) in I. lia. }
  destruct H as [H|H]; apply K in H; tauto.
Qed.
Lemma edge_polytope_ok n g : simple n g -> exists l, edge_polytope (edges g) = Ok l /\ length l = size g /\ NoDup l /\
  forall v, In v l <-> exists a b, (a < b)%nat /\ adjacent g a b /\ v = 1 :: two_entries (order g) a b 1 1.
Proof.
  intros Sm. pose proof (simple_pairs n g Sm) as SP. pose proof (adj_bound n g Sm) as AB.
  exists (flat_map (fun p => [1 :: two_entries (order g) (fst p) (snd p) 1 1]) (pairs_of (edges g) 0)). split; [|split; [|split]].
  - apply (edge_rows_ok _ (fun i j => [1 :: two_entries (order g) i j 1 1])). apply Forall_forall. intros (a&b) I. apply SP in I. destruct I as (L&A). destruct (AB a b A) as (La&Lb&N).
    cbn [fst snd]. fold (order g). rewrite put_lt by (rewrite repeat_length; exact La). cbn [bind]. rewrite put_lt by (rewrite length_upd, repeat_length; exact Lb). cbn [bind].
    rewrite upd_two by assumption. reflexivity.
  - rewrite flat_map_concat_map. unfold size. rewrite <- (pairs_length (edges g) 0). generalize (pairs_of (edges g) 0). intros l. induction l as [|p l IH]; [reflexivity|]. cbn [map concat app length]. rewrite IH. reflexivity.
  - apply nodup_flat_map.
    + apply pairs_nodup. intros a Ha. destruct Sm as (_&(_&St)&_). apply (St a Ha).
    + intros p _. repeat constructor. intros [].
    + intros (a&b) (a'&b') v I I' [<-|[]] [E|[]]. apply SP in I, I'. destruct I as (L&A), I' as (L'&A'). destruct (AB a b A) as (La&Lb&N). destruct (AB _ _ A') as (La'&Lb'&N').
      cbn [fst snd] in E. injection E as E.
      assert (K : forall t, nth t (two_entries (order g) a' b' 1 1) 0 = nth t (two_entries (order g) a b 1 1) 0) by (intros t; rewrite E; reflexivity).
      pose proof (K a) as Ka. pose proof (K b) as Kb. rewrite !nth_two in Ka, Kb. rewrite (proj2 (Nat.ltb_lt _ _) La) in Ka. rewrite (proj2 (Nat.ltb_lt _ _) Lb) in Kb.
      rewrite !Nat.eqb_refl in Ka, Kb. f_equal; destruct (Nat.eqb_spec a a'), (Nat.eqb_spec a b'), (Nat.eqb_spec b a'), (Nat.eqb_spec b b'); try discriminate; lia || (destruct (Nat.eqb_spec b a); try discriminate; lia).
  - intros v. rewrite in_flat_map. split.
    + intros ((a&b)&I&[<-|[]]). apply SP in I. exists a, b. cbn [fst snd]. tauto.
    + intros (a&b&L&A&->). exists (a, b). split; [apply SP; auto|left; reflexivity].
Qed.
Lemma symmetric_ok n g : simple n g -> exists l, symmetric_edge_polytope (edges g) = Ok l /\ (length l = 2 * size g)%nat /\ NoDup l /\
  forall v, In v l <-> exists a b, adjacent g a b /\ v = 1 :: two_entries (order g) a b 1 (-1).
Proof.
  intros Sm. pose proof (simple_pairs n g Sm) as SP. pose proof (adj_bound n g Sm) as AB. set (N := order g) in *.
  assert (Inj : forall a b a' b', (a < N)%nat -> (b < N)%nat -> a <> b -> two_entries N a b 1 (-1) = two_entries N a' b' 1 (-1) -> a = a' /\ b = b').
  { intros a b a' b' La Lb Ne E.
    assert (K : forall t, nth t (two_entries N a' b' 1 (-1)) 0 = nth t (two_entries N a b 1 (-1)) 0) by (intros t; rewrite E; reflexivity).
    pose proof (K a) as Ka. pose proof (K b) as Kb. rewrite !nth_two in Ka, Kb. rewrite (proj2 (Nat.ltb_lt _ _) La) in Ka. rewrite (proj2 (Nat.ltb_lt _ _) Lb) in Kb.
    rewrite !Nat.eqb_refl in Ka, Kb. rewrite (proj2 (Nat.eqb_neq b a)) in Kb by lia.
    destruct (Nat.eqb_spec a a'); [|destruct (Nat.eqb a b'); discriminate]. destruct (Nat.eqb_spec b a'); [lia|]. destruct (Nat.eqb_spec b b'); [auto|discriminate]. }
  exists (flat_map (fun p => [1 :: two_entries N (fst p) (snd p) 1 (-1); 1 :: two_entries N (snd p) (fst p) 1 (-1)]) (pairs_of (edges g) 0)). split; [|split; [|split]].
  - apply (edge_rows_ok _ (fun i j => [1 :: two_entries N i j 1 (-1); 1 :: two_entries N j i 1 (-1)])). apply Forall_forall. intros (a&b) I. apply SP in I. destruct I as (L&A). destruct (AB a b A) as (La&Lb&Ne).
    cbn [fst snd]. fold (order g). fold N. rewrite put_lt by (rewrite repeat_length; exact La). cbn [bind]. rewrite put_lt by (rewrite length_upd, repeat_length; exact Lb). cbn [bind].
    rewrite upd_two by assumption. rewrite put_lt by (rewrite len_two; exact La). cbn [bind]. rewrite put_lt by (rewrite length_upd, len_two; exact Lb). cbn [bind].
    rewrite upd_two_again by assumption. rewrite (two_swap N b a) by auto. reflexivity.
  - unfold size. rewrite <- (pairs_length (edges g) 0). generalize (pairs_of (edges g) 0). intros l. induction l as [|p l IH]; [reflexivity|]. cbn [flat_map app length]. rewrite IH. lia.
  - apply nodup_flat_map.
    + apply pairs_nodup. intros a Ha. destruct Sm as (_&(_&St)&_). apply (St a Ha).
    + intros (a&b) I. apply SP in I. destruct I as (L&A). destruct (AB a b A) as (La&Lb&Ne). cbn [fst snd]. constructor; [|repeat constructor; intros []].
      intros [E|[]]. injection E as E. symmetry in E. destruct (Inj a b b a La Lb Ne E). lia.
    + intros (a&b) (a'&b') v I I' V V'. apply SP in I, I'. destruct I as (L&A), I' as (L'&A'). destruct (AB a b A) as (La&Lb&Ne). cbn [fst snd In] in V, V'.
      destruct V as [<-|[<-|[]]], V' as [E|[E|[]]]; injection E as E; symmetry in E; apply Inj in E; try assumption; try lia; destruct E; subst; try reflexivity; lia.
  - intros v. rewrite in_flat_map. split.
    + intros ((a&b)&I&V). apply SP in I. destruct I as (_&A). cbn [fst snd In] in V. destruct V as [<-|[<-|[]]]; [exists a, b|exists b, a]; (split; [|reflexivity]); [exact A|destruct A; [right|left]; assumption].
    + intros (a&b&A&->). destruct (AB a b A) as (La&Lb&Ne). destruct (Nat.lt_ge_cases a b) as [L|L].
      * exists (a, b). split; [apply SP; auto|left; reflexivity].
      * exists (b, a). split; [apply SP; split; [lia|destruct A; [right|left]; assumption]|right; left; reflexivity].
Qed.
