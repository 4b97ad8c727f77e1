From Coq Require Import QArith Permutation.
From Verif Require Import Common Knapsack KnapsackSpec.
Open Scope Z_scope.

(** * Moebius values *)
Section Mobius.
Variable gs : list Z.
Hypothesis gs_pos : Forall (fun g => 0 < g) gs.
Hypothesis gs_nodup : NoDup gs.
Let n := length gs.
Let g (i : nat) : Z := nth i gs 0.
Definition ent (l : list mpair) (i : nat) := nth i l mdef.
Definition cond (i j : nat) : bool := negb (i =? j)%nat && ntl_divide (g j) (g i).
Definition csum (l : list mpair) (i : nat) (js : list nat) : Z := fold_right Z.add 0 (map (fun j => m_mu (ent l j)) (filter (cond i) js)).
Definition good (l : list mpair) : Prop :=
  map m_gcd l = gs /\ forall i, (i < n)%nat -> m_valid (ent l i) = true ->
    (forall j, (j < n)%nat -> cond i j = true -> m_valid (ent l j) = true) /\ m_mu (ent l i) = 1 - csum l i (seq 0 n).
Definition grows (l l' : list mpair) : Prop := forall i, m_valid (ent l i) = true -> ent l' i = ent l i.
Lemma grows_refl l : grows l l. Proof. intros i H; auto. Qed.
Lemma grows_trans a b c : grows a b -> grows b c -> grows a c.
Proof. intros H K i V. rewrite K, H; auto. now rewrite H. Qed.
Lemma grows_valid a b i : grows a b -> m_valid (ent a i) = true -> m_valid (ent b i) = true.
Proof. intros H V. now rewrite H. Qed.
Lemma good_len l : good l -> length l = n. Proof. intros [H _]. unfold n. now rewrite <- H, map_length. Qed.
Lemma good_gcd l i : good l -> m_gcd (ent l i) = g i.
Proof. intros [H _]. unfold g, ent. rewrite <- H. change 0 with (m_gcd mdef). now rewrite map_nth. Qed.
Lemma g_pos i : (i < n)%nat -> 0 < g i.
Proof. intros H. apply (proj1 (Forall_forall _ _) gs_pos). apply nth_In. exact H. Qed.
Lemma cond_lt i j : (i < n)%nat -> (j < n)%nat -> cond i j = true -> g i < g j.
Proof.
  intros Hi Hj C. unfold cond in C. apply andb_prop in C as [C1 C2]. apply negb_true_iff, Nat.eqb_neq in C1. unfold ntl_divide in C2.
  pose proof (g_pos i Hi). pose proof (g_pos j Hj). destruct (Z.eqb_spec (g i) 0); [lia|]. apply Z.eqb_eq in C2. apply Z.mod_divide in C2; [|lia].
  apply Z.divide_pos_le in C2; [|lia]. enough (g i <> g j) by lia. intros E. apply C1. exact (proj1 (NoDup_nth gs 0) gs_nodup i j Hi Hj E).
Qed.
Definition above (i : nat) : nat := length (filter (fun k => g i <? g k) (seq 0 n)).
Lemma filter_len_le {A} (f h : A -> bool) l : (forall a, f a = true -> h a = true) -> (length (filter f l) <= length (filter h l))%nat.
Proof. intros H. induction l as [|a l IH]; cbn; auto. destruct (f a) eqn:E; [rewrite (H a E); cbn; lia|]. destruct (h a); cbn; lia. Qed.
Lemma filter_len_lt {A} (f h : A -> bool) l a : (forall a, f a = true -> h a = true) -> In a l -> f a = false -> h a = true -> (length (filter f l) < length (filter h l))%nat.
Proof.
  intros H I F T. induction l as [|b l IH]; [destruct I|]. cbn. destruct I as [->|I].
  - rewrite F, T. cbn. pose proof (filter_len_le f h l H). lia.
  - specialize (IH I). destruct (f b) eqn:E; [rewrite (H b E); cbn; lia|]. destruct (h b); cbn; lia.
Qed.
Lemma above_lt i j : (j < n)%nat -> g i < g j -> (above j < above i)%nat.
Proof.
  intros Hj L. unfold above. apply (filter_len_lt _ _ _ j).
  - intros a H. apply Z.ltb_lt in H. apply Z.ltb_lt. lia.
  - apply in_seq. lia.
  - apply Z.ltb_ge. lia.
  - apply Z.ltb_lt. lia.
Qed.
Lemma csum_grows l l' i js : grows l l' -> (forall j, In j js -> cond i j = true -> m_valid (ent l j) = true) -> csum l' i js = csum l i js.
Proof.
  intros G H. unfold csum. f_equal. apply map_ext_in. intros j Hj. apply filter_In in Hj as [Hj C]. now rewrite (G j (H j Hj C)).
Qed.
Lemma mloop_ok rec i : (i < n)%nat ->
  (forall j l, (j < n)%nat -> cond i j = true -> good l -> exists l', rec j l = Ok l' /\ good l' /\ grows l l' /\ m_valid (ent l' j) = true) ->
  forall k j sum l, (j + k = n)%nat -> good l ->
  exists l', mloop rec i k j sum l = Ok (sum + csum l' i (seq j k), l') /\ good l' /\ grows l l' /\
    forall j', In j' (seq j k) -> cond i j' = true -> m_valid (ent l' j') = true.
Proof.
  intros Hi HR. induction k as [|k IH]; intros j sum l Hjk G; cbn [mloop seq].
  - exists l. unfold csum; cbn. rewrite Z.add_0_r. split; auto. split; auto. split; [apply grows_refl|]. intros j' [].
  - fold (ent l j). fold (ent l i). rewrite (good_gcd l j G), (good_gcd l i G). fold (cond i j). destruct (cond i j) eqn:C.
    + assert (H1 : exists l1, (if m_valid (ent l j) then Ok l else rec j l) = Ok l1 /\ good l1 /\ grows l l1 /\ m_valid (ent l1 j) = true).
      { destruct (m_valid (ent l j)) eqn:V; [exists l; split; auto; split; auto; split; [apply grows_refl|auto]|]. apply HR; auto. lia. }
      destruct H1 as (l1 & E1 & G1 & M1 & V1). rewrite E1. cbn [bind]. fold (ent l1 j).
      destruct (IH (S j) (sum + m_mu (ent l1 j)) l1 ltac:(lia) G1) as (l' & E & G' & M & V). exists l'. split; [|split; [exact G'|split; [exact (grows_trans _ _ _ M1 M)|]]].
      * rewrite E. unfold csum at 2. cbn [filter]. rewrite C. cbn [map fold_right]. fold (csum l' i (seq (S j) k)). rewrite (M j V1). do 2 f_equal. lia.
      * intros j' [<-|H] C'; [now apply (grows_valid _ _ _ M)|auto].
    + destruct (IH (S j) sum l ltac:(lia) G) as (l' & E & G' & M & V). exists l'. split; [|split; [exact G'|split; [exact M|]]].
      * rewrite E. unfold csum at 2. cbn [filter]. rewrite C. reflexivity.
      * intros j' [<-|H] C'; [congruence|auto].
Qed.
Lemma map_upd_gcd l i p : m_gcd p = m_gcd (nth i l mdef) -> map m_gcd (upd l i p) = map m_gcd l.
Proof. revert i; induction l as [|a l IH]; intros [|i] H; cbn in *; auto; [now rewrite H|]. now rewrite IH. Qed.
Lemma mobius_at_ok fuel : forall i l, (above i < fuel)%nat -> (i < n)%nat -> good l ->
  exists l', mobius_at fuel i l = Ok l' /\ good l' /\ grows l l' /\ m_valid (ent l' i) = true.
Proof.
  induction fuel as [|f IH]; intros i l HF Hi G; [lia|]. cbn [mobius_at]. rewrite (good_len l G).
  destruct (Nat.leb_spec n i) as [LE|_]; [lia|]. fold (ent l i). destruct (m_valid (ent l i)) eqn:V.
  - exists l. split; auto. split; auto. split; [apply grows_refl|auto].
  - assert (HR : forall j l, (j < n)%nat -> cond i j = true -> good l -> exists l', mobius_at f j l = Ok l' /\ good l' /\ grows l l' /\ m_valid (ent l' j) = true).
    { intros j l1 Hj C G1. apply IH; auto. pose proof (above_lt i j Hj (cond_lt i j Hi Hj C)). lia. }
    destruct (mloop_ok (mobius_at f) i Hi HR n 0 0 l ltac:(lia) G) as (l1 & E & G1 & M & VV). rewrite E. cbn [bind fst snd].
    set (p := mkPair _ _ _). eexists. split; [reflexivity|].
    assert (L1 : length l1 = n) by now apply good_len.
    assert (En : forall j, ent (upd l1 i p) j = if (j =? i)%nat then p else ent l1 j).
    { intros j. unfold ent. destruct (Nat.eqb_spec j i) as [->|N]; [apply nth_upd_eq; lia|apply nth_upd_neq; auto]. }
    assert (Cii : cond i i = false) by (unfold cond; now rewrite Nat.eqb_refl).
    assert (V1 : m_valid (ent l1 i) = false \/ m_valid (ent l1 i) = true) by (destruct (m_valid (ent l1 i)); auto).
    destruct G1 as [G1 G2].
    (* the entry of i in l1: either still invalid, or (it cannot be) valid with the same value *)
    assert (SAME : m_valid (ent l1 i) = true -> ent l1 i = p).
    { intros Vi. destruct (G2 i Hi Vi) as [_ Mu]. unfold p. fold (ent l1 i). destruct (ent l1 i) as [a b c]. cbn [m_gcd m_mu m_valid] in *. f_equal; auto. }
    assert (GR : grows l1 (upd l1 i p)). { intros j Vj. rewrite En. destruct (Nat.eqb_spec j i) as [->|]; auto. symmetry. auto. }
    assert (Vp : m_valid p = true) by reflexivity.
    refine (conj _ (conj _ _)).
    + split; [rewrite map_upd_gcd; auto|]. intros k Hk Vk. rewrite En in Vk. destruct (Nat.eqb_spec k i) as [->|N].
      * split.
        -- intros j Hj C. rewrite En. destruct (Nat.eqb_spec j i); auto. apply VV; auto. apply in_seq. lia.
        -- rewrite En, Nat.eqb_refl. cbn [p m_mu]. rewrite (csum_grows l1 (upd l1 i p) i _ GR); [unfold p; cbn [m_mu]; lia|]. intros j Hj C. apply VV; auto.
      * destruct (G2 k Hk Vk) as [A B]. split.
        -- intros j Hj C. rewrite En. destruct (Nat.eqb_spec j i); auto.
        -- rewrite En. destruct (Nat.eqb_spec k i); [congruence|]. rewrite (csum_grows l1 (upd l1 i p) k _ GR); [exact B|]. intros j Hj C. apply A; auto. apply in_seq in Hj. lia.
    + apply (grows_trans _ _ _ M GR).
    + now rewrite En, Nat.eqb_refl.
Qed.
Lemma cond_one i1 j : (i1 < n)%nat -> g i1 = 1 -> j <> i1 -> cond i1 j = true.
Proof. intros Hi H1 N. unfold cond, ntl_divide. rewrite H1. cbn [Z.eqb]. rewrite Z.mod_1_r. apply andb_true_iff. split; auto. apply negb_true_iff, Nat.eqb_neq. auto. Qed.
Lemma csum_full l i : good l -> (i < n)%nat -> m_valid (ent l i) = true -> mu_sum l (g i) = 1.
Proof.
  intros G Hi V. pose proof (proj2 (proj2 G i Hi V)) as Mu. pose proof (good_len l G) as L.
  assert (E : mu_sum l (g i) = m_mu (ent l i) + csum l i (seq 0 n)); [|lia]. clear Mu V.
  assert (D : forall p, ntl_divide (m_gcd p) (g i) = (m_gcd p mod g i =? 0)).
  { intros p. unfold ntl_divide. pose proof (g_pos i Hi). destruct (Z.eqb_spec (g i) 0); [lia|reflexivity]. }
  unfold mu_sum, csum.
  rewrite (filter_ext _ (fun p => ntl_divide (m_gcd p) (g i))) by (intros p; now rewrite D).
  assert (K : forall l0 k, (forall j, (j < length l0)%nat -> g (k + j) = m_gcd (ent l0 j) /\ ent l (k + j) = ent l0 j) ->
    fold_right Z.add 0 (map m_mu (filter (fun p => ntl_divide (m_gcd p) (g i)) l0)) =
    (if ((k <=? i) && (i <? k + length l0))%nat then m_mu (ent l i) else 0) + fold_right Z.add 0 (map (fun j => m_mu (ent l j)) (filter (cond i) (seq k (length l0))))).
  { induction l0 as [|p l0 IH]; intros k H; cbn [filter map fold_right length seq].
    - rewrite Nat.add_0_r. destruct (Nat.leb_spec k i), (Nat.ltb_spec i k); cbn; lia.
    - destruct (H O ltac:(cbn; lia)) as [H0 H0']. rewrite Nat.add_0_r in H0, H0'. cbn [ent nth] in H0, H0'. unfold ent in H0, H0'. cbn [nth] in H0, H0'.
      specialize (IH (S k)). rewrite <- H0. unfold cond at 1. fold (ent l k) in H0'.
      assert (T : fold_right Z.add 0 (map m_mu (filter (fun p => ntl_divide (m_gcd p) (g i)) l0)) = (if ((S k <=? i) && (i <? S k + length l0))%nat then m_mu (ent l i) else 0) + fold_right Z.add 0 (map (fun j => m_mu (ent l j)) (filter (cond i) (seq (S k) (length l0))))).
      { apply IH. intros j Hj. specialize (H (S j)). cbn [length] in H. replace (S k + j)%nat with (k + S j)%nat by lia. apply H. lia. }
      destruct (Nat.eqb_spec i k) as [->|N].
      + cbn [negb andb]. rewrite Nat.leb_refl. destruct (Nat.ltb_spec k (k + S (length l0))); [|lia]. cbn [andb].
        assert (R : ntl_divide (g k) (g k) = true) by (unfold ntl_divide; pose proof (g_pos k Hi); destruct (Z.eqb_spec (g k) 0); [lia|]; rewrite Z.mod_same by lia; reflexivity).
        rewrite R. cbn [map fold_right]. rewrite T. destruct (Nat.leb_spec (S k) k); [lia|]. cbn [andb]. rewrite H0'. lia.
      + cbn [negb andb].
        replace ((k <=? i) && (i <? k + S (length l0)))%nat with ((S k <=? i) && (i <? S k + length l0))%nat
          by (destruct (Nat.leb_spec (S k) i), (Nat.leb_spec k i), (Nat.ltb_spec i (S k + length l0)), (Nat.ltb_spec i (k + S (length l0))); cbn; auto; lia).
        destruct (ntl_divide (g k) (g i)); cbn [map fold_right]; rewrite T, ?H0'; lia. }
  rewrite (K l O).
  - rewrite L. destruct (Nat.leb_spec 0 i); [|lia]. destruct (Nat.ltb_spec i (0 + n)); [|lia]. cbn [andb]. reflexivity.
  - intros j Hj. split; [|reflexivity]. symmetry. apply (good_gcd l _ G).
Qed.
End Mobius.

Definition wf (l : list mpair) : Prop := Forall (fun g => 0 < g) (stored l) /\ NoDup (stored l).
Lemma stored_insert l v : stored (insert_gcd l v) = stored l \/ (~ In v (stored l) /\ stored (insert_gcd l v) = stored l ++ [v]).
Proof.
  unfold insert_gcd. destruct (existsb _ l) eqn:E; [now left|right]. split.
  - intros H. apply in_map_iff in H as (p & <- & H). enough (existsb (fun q => m_gcd q =? m_gcd p) l = true) by congruence. apply existsb_exists. exists p. split; auto. apply Z.eqb_refl.
  - unfold stored. rewrite map_app. reflexivity.
Qed.
Lemma insert_In l v w : In w (stored (insert_gcd l v)) <-> In w (stored l) \/ w = v.
Proof.
  unfold insert_gcd. destruct (existsb _ l) eqn:E.
  - split; [now left|]. intros [H| ->]; auto. apply existsb_exists in E as (p & H & E). apply Z.eqb_eq in E. subst. unfold stored. now apply in_map.
  - unfold stored. rewrite map_app, in_app_iff. cbn. intuition.
Qed.
Lemma NoDup_snoc {A} (l : list A) a : NoDup l -> ~ In a l -> NoDup (l ++ [a]).
Proof. intros H N. apply (Permutation_NoDup (l := a :: l)); [apply Permutation_cons_append|now constructor]. Qed.
Lemma wf_insert l v : 0 < v -> wf l -> wf (insert_gcd l v).
Proof.
  intros Hv [W1 W2]. destruct (stored_insert l v) as [E|[N E]]; unfold wf; rewrite E; [now split|]. split.
  - apply Forall_app. split; auto.
  - now apply NoDup_snoc.
Qed.
Lemma index_of_one_ok : forall l i found, match index_of_one l i found with
  | Some k => found = Some k \/ ((i <= k < i + length l)%nat /\ m_gcd (nth (k - i) l mdef) = 1)
  | None => found = None /\ ~ In 1 (stored l) end.
Proof.
  induction l as [|p l IH]; intros i found; cbn [index_of_one].
  - destruct found; [now left|]. split; auto.
  - specialize (IH (S i) (if m_gcd p =? 1 then Some i else found)). destruct (index_of_one l (S i) _) as [k|].
    + destruct IH as [IH|[R IH]].
      * destruct (Z.eqb_spec (m_gcd p) 1) as [E|E]; [|now left]. injection IH as <-. right. rewrite Nat.sub_diag. cbn. split; auto. lia.
      * right. cbn [length]. split; [lia|]. replace (k - i)%nat with (S (k - S i)) by lia. exact IH.
    + destruct IH as [IH N]. destruct (Z.eqb_spec (m_gcd p) 1) as [E|E]; [discriminate|]. split; auto. cbn. intros [H|H]; auto.
Qed.
Lemma index_found l i : index_of_one l i (Some i) = None -> False.
Proof. intros H. pose proof (index_of_one_ok l i (Some i)) as K. rewrite H in K. destruct K; discriminate. Qed.
Lemma reset_stored l : stored (map (fun p => mkPair (m_gcd p) 0 false) l) = stored l.
Proof. unfold stored. rewrite map_map. reflexivity. Qed.
Lemma compute_no_one l : ~ In 1 (stored l) -> compute_mobius l = Err Thrown.
Proof.
  intros N. unfold compute_mobius. pose proof (index_of_one_ok (map (fun p => mkPair (m_gcd p) 0 false) l) O None) as K.
  destruct (index_of_one _ O None) as [k|]; auto. exfalso. destruct K as [K|[R K]]; [discriminate|]. apply N. rewrite <- reset_stored. rewrite <- K. unfold stored. apply in_map. apply nth_In. lia.
Qed.
Lemma filter_length_le {A} (f : A -> bool) l : (length (filter f l) <= length l)%nat.
Proof. induction l as [|a l IH]; cbn; auto. destruct (f a); cbn; lia. Qed.
Lemma compute_ok l : wf l -> In 1 (stored l) -> exists l', compute_mobius l = Ok l' /\ stored l' = stored l /\ forall f, In f (stored l) -> mu_sum l' f = 1.
Proof.
  intros [W1 W2] H1. unfold compute_mobius. set (l0 := map _ l). assert (S0 : stored l0 = stored l) by apply reset_stored.
  pose proof (index_of_one_ok l0 O None) as K. destruct (index_of_one l0 O None) as [k|]; [|destruct K as [_ K]; rewrite S0 in K; contradiction].
  destruct K as [K|[R K]]; [discriminate|]. rewrite Nat.sub_0_r in K.
  assert (L0 : length l0 = length (stored l)) by (rewrite <- S0; unfold stored; now rewrite map_length).
  assert (G : good (stored l) l0).
  { split; [exact S0|]. intros i Hi V. exfalso. unfold ent, l0 in V. rewrite <- L0 in Hi. unfold l0 in Hi. rewrite map_length in Hi.
    rewrite (nth_indep _ mdef ((fun p => mkPair (m_gcd p) 0 false) mdef)) in V by (rewrite map_length; lia). rewrite (map_nth (fun p => mkPair (m_gcd p) 0 false)) in V. discriminate. }
  destruct (mobius_at_ok (stored l) W1 W2 (length l0 + 1) k l0) as (l' & E & G' & M & V); auto.
  - unfold above. set (f := fun _ : nat => _). pose proof (filter_length_le f (seq 0 (length (stored l)))) as F. rewrite seq_length in F. lia.
  - lia.
  - exists l'. split; auto. pose proof (proj1 G') as S'. split; [exact S'|]. intros f Hf. apply (In_nth _ _ 0) in Hf as (i & Hi & <-).
    apply (csum_full (stored l) W1); auto.
    assert (Hk1 : nth k (stored l) 0 = 1) by (rewrite <- S0; unfold stored; change 0 with (m_gcd mdef); now rewrite map_nth).
    destruct (Nat.eq_dec i k) as [->|N]; auto.
    apply (proj2 G' k); auto; [lia|]. apply cond_one; auto. lia.
Qed.
Lemma mrun_wf h : forall l l', Forall (fun o => match o with MInsert v => 0 < v | MCompute => True end) h -> wf l -> mrun l h = Ok l' ->
  wf l' /\ forall v, In v (stored l') <-> In v (stored l) \/ inserted h v.
Proof.
  induction h as [|[v|] h IH]; intros l l' P W E; cbn [mrun] in E.
  - injection E as <-. split; auto. intros v. split; [now left|]. intros [H|[]]; auto.
  - destruct (IH _ _ (Forall_inv_tail P) (wf_insert l v (Forall_inv P) W) E) as [W' I]. split; auto. intros w. rewrite I, insert_In.
    unfold inserted. cbn. split; [intros [[H| ->]|H]; auto|intros [H|[H|H]]; auto]. injection H as ->. auto.
  - apply bind_ok in E as (l1 & E1 & E).
    assert (H1 : In 1 (stored l)). { destruct (in_dec Z.eq_dec 1 (stored l)); auto. rewrite compute_no_one in E1; auto. discriminate. }
    destruct (compute_ok l W H1) as (l2 & E2 & S2 & _). rewrite E2 in E1. injection E1 as ->.
    assert (W1 : wf l1) by (unfold wf; rewrite S2; exact W).
    destruct (IH _ _ (Forall_inv_tail P) W1 E) as [W' I]. split; auto. intros w. rewrite I, S2. unfold inserted. cbn. split; [intros [H|H]; auto|intros [H|[H|H]]; auto]. discriminate.
Qed.
Theorem mobius_history h l : Forall (fun o => match o with MInsert v => 0 < v | MCompute => True end) h -> mrun [] h = Ok l ->
  NoDup (stored l) /\ (forall v, In v (stored l) <-> inserted h v) /\
  (inserted h 1 -> exists l', compute_mobius l = Ok l' /\ stored l' = stored l /\ forall f, In f (stored l) -> mu_sum l' f = 1) /\
  (~ inserted h 1 -> compute_mobius l = Err Thrown).
Proof.
  intros P E. destruct (mrun_wf h [] l P) as [W I]; auto; [split; constructor|].
  assert (I' : forall v, In v (stored l) <-> inserted h v) by (intros v; rewrite I; cbn; tauto).
  split; [apply W|]. split; auto. split.
  - intros H. apply compute_ok; auto. now apply I'.
  - intros H. apply compute_no_one. now rewrite I'.
Qed.
