From Coq Require Import QArith Permutation Sorted Znumtheory.
From Verif Require Import Common IntegSpec IntegProofs Knapsack KnapsackSpec KnapsackProofs KnapsackProofs2.
Open Scope Z_scope.

Lemma sublist_In {A} (S l : list A) a : sublist S l -> In a S -> In a l.
Proof. induction 1; cbn; [tauto|intros [->|H1]; auto|auto]. Qed.
Lemma sublist_filter {A} (f : A -> bool) l : sublist (filter f l) l.
Proof. induction l as [|a l IH]; cbn; [constructor|]. destruct (f a); now constructor. Qed.
Lemma sublist_filter_len {A} (f : A -> bool) S l : sublist S l -> (forall a, In a S -> f a = true) -> (length S <= length (filter f l))%nat.
Proof.
  induction 1 as [|a S l H IH|a S l H IH]; intros F; cbn; auto.
  - rewrite (F a) by now left. cbn. apply le_n_S, IH. intros; apply F; now right.
  - destruct (f a); cbn; auto.
Qed.
Lemma gcd_list_div l a : In a l -> (gcd_list l | a).
Proof. induction l as [|b l IH]; [intros []|]. intros [->|H]; cbn; [apply Z.gcd_divide_l|]. eapply Z.divide_trans; [apply Z.gcd_divide_r|auto]. Qed.
Lemma gcd_list_greatest l d : (forall a, In a l -> (d | a)) -> (d | gcd_list l).
Proof. induction l as [|b l IH]; intros H; cbn; [apply Z.divide_0_r|]. apply Z.gcd_greatest; [apply H; now left|apply IH; intros; apply H; now right]. Qed.
Lemma gcd_list_nonneg l : 0 <= gcd_list l.
Proof. destruct l; cbn; [lia|apply Z.gcd_nonneg]. Qed.
Lemma gcd_list_pos l : Forall (fun x => 0 < x) l -> l <> [] -> 0 < gcd_list l.
Proof. destruct l as [|a l]; [congruence|]. intros H _. pose proof (Forall_inv H) as Ha. pose proof (gcd_list_nonneg (a :: l)). assert (gcd_list (a :: l) <> 0); [|lia]. intros X. cbn in X. apply Z.gcd_eq_0_l in X. cbn beta in Ha. lia. Qed.
Lemma sublist_Forall {A} (P : A -> Prop) S l : sublist S l -> Forall P l -> Forall P S.
Proof. intros H F. rewrite Forall_forall in *. intros a Ha. apply F. now apply (sublist_In S). Qed.

(** Qualifying gcds, as kept by the filter *)
Lemma qualifies alpha g size : Forall (fun x => 0 < x) alpha -> (0 < size)%nat ->
  (isgcd alpha g /\ (size <= length (filter (fun a => (a mod g =? 0)%Z) alpha))%nat) <-> gcd_of_sublist alpha size g.
Proof.
  intros P Hs. split.
  - intros ((S & H & N & E) & L). assert (Hg : 0 < g) by (rewrite <- E; apply gcd_list_pos; auto; now apply (sublist_Forall _ S alpha)).
    exists (filter (fun a => a mod g =? 0) alpha). split; [apply sublist_filter|]. split; auto. split; [destruct (filter _ alpha); [cbn in L; lia|discriminate]|].
    apply Z.divide_antisym_nonneg; [apply gcd_list_nonneg|lia| |].
    + set (F := filter _ _). enough (D : (gcd_list F | gcd_list S)) by now rewrite E in D. unfold F. apply gcd_list_greatest. intros a Ha. apply gcd_list_div. apply filter_In. split; [now apply (sublist_In S)|].
      apply Z.eqb_eq. apply Z.mod_divide; [lia|]. rewrite <- E. now apply gcd_list_div.
    + apply gcd_list_greatest. intros a Ha. apply filter_In in Ha as [_ Ha]. apply Z.eqb_eq in Ha. apply Z.mod_divide; [lia|auto].
  - intros (S & H & L & N & E). assert (Hg : 0 < g) by (rewrite <- E; apply gcd_list_pos; auto; now apply (sublist_Forall _ S alpha)).
    split; [now exists S|]. etransitivity; [exact L|]. apply sublist_filter_len; auto. intros a Ha. apply Z.eqb_eq, Z.mod_divide; [lia|]. rewrite <- E. now apply gcd_list_div.
Qed.
Lemma gcd_keep_ok alpha k : forall out l, Forall (fun x => 0 < x) out -> wf l ->
  exists l', gcd_keep out alpha k l = Ok l' /\ wf l' /\
    forall v, In v (stored l') <-> In v (stored l) \/ (In v out /\ Z.of_nat (length alpha) - k <= Z.of_nat (length (filter (fun a => a mod v =? 0) alpha))).
Proof.
  induction out as [|g out IH]; intros l P W; cbn [gcd_keep].
  - exists l. split; auto. split; auto. intros v. cbn. tauto.
  - pose proof (Forall_inv P) as Hg. cbn beta in Hg. destruct (Z.eqb_spec g 0); [lia|].
    destruct (Z.leb_spec (Z.of_nat (length alpha) - k) (Z.of_nat (length (filter (fun a => a mod g =? 0) alpha)))) as [L|L].
    + destruct (IH (insert_gcd l g) (Forall_inv_tail P) (wf_insert l g Hg W)) as (l' & E & W' & I). exists l'. split; auto. split; auto. intros v. rewrite I, insert_In. cbn.
      split; [intros [[H| ->]|[H1 H2]]; auto|intros [H|[[->|H] H2]]; auto].
    + destruct (IH l (Forall_inv_tail P) W) as (l' & E & W' & I). exists l'. split; auto. split; auto. intros v. rewrite I. cbn.
      split; [intros [H|[H1 H2]]; auto|intros [H|[[->|H] H2]]; auto; lia].
Qed.
Theorem entire_ok alpha k : Forall (fun x => 0 < x) alpha -> (k < length alpha)%nat ->
  exists l, find_gcds false alpha k = Ok l /\ NoDup (stored l) /\ forall g, In g (stored l) <-> gcd_of_sublist alpha (length alpha - k) g.
Proof.
  intros P Hk. unfold find_gcds, gcds_entire.
  destruct (gcd_all_ok alpha [] [] P) as (out & E & I1 & I2); [constructor| |].
  { intros y. split; [intros []|]. intros (S & H & N & _). inversion H; subst. congruence. }
  cbn [app] in I2. rewrite E. cbn [bind].
  destruct (gcd_keep_ok alpha (Z.of_nat k) out []) as (l & E' & W & I).
  - apply Forall_forall. intros y Hy. apply I2 in Hy as (S & H & N & <-). apply gcd_list_pos; auto. now apply (sublist_Forall _ S alpha).
  - split; constructor.
  - exists l. split; auto. split; [apply W|]. intros g. rewrite I, <- qualifies by (auto; lia). rewrite I2. cbn. split; [intros [[]|[H1 H2]]; split; auto; lia|intros [H1 H2]; right; split; auto; lia].
Qed.

(** * Binomials *)
Lemma fact_pos k : 0 < fact k.
Proof. induction k as [|k IH]; cbn [fact]; [lia|]. apply Z.mul_pos_pos; lia. Qed.
Lemma falling_S n k : falling n (S k) = falling n k * (n - Z.of_nat k).
Proof.
  revert n. induction k as [|k IH]; intros n; [cbn [falling]; change (Z.of_nat 0) with 0; ring|]. change (falling n (S (S k))) with (n * falling (n - 1) (S k)). rewrite IH. change (falling n (S k)) with (n * falling (n - 1) k). rewrite Nat2Z.inj_succ. unfold Z.succ. ring.
Qed.
Lemma falling_binom n k : falling (Z.of_nat n) k = binom n k * fact k.
Proof.
  induction k as [|k IH]; [rewrite binom_0; reflexivity|]. rewrite falling_S, IH. pose proof (binom_absorb n k) as A. change (fact (S k)) with (Z.of_nat (S k) * fact k).
  transitivity ((Z.of_nat n - Z.of_nat k) * binom n k * fact k); [ring|]. rewrite <- A. ring.
Qed.
Lemma tk_binomial_ok n k : (k <= n)%nat -> tk_binomial (Z.of_nat n) (Z.of_nat k) = Ok (binom n k).
Proof.
  intros H. unfold tk_binomial. destruct (Z.eqb_spec (Z.of_nat k) (Z.of_nat n)) as [E|E].
  - apply Nat2Z.inj in E. subst. cbn [orb]. now rewrite binom_diag.
  - destruct (Z.eqb_spec (Z.of_nat k) 0) as [E0|E0]; cbn [orb].
    + replace k with O by lia. now rewrite binom_0.
    + destruct (Z.leb_spec (Z.of_nat n ÷ Z.of_nat k) 0) as [L|L].
      * exfalso. rewrite Z.quot_div_nonneg in L by lia. pose proof (Z.div_str_pos (Z.of_nat n) (Z.of_nat k)). lia.
      * rewrite Nat2Z.id, falling_binom. rewrite Z.div_mul; auto. pose proof (fact_pos k). lia.
Qed.

(** * Enumeration of index lists *)
Definition hd0 (t : list Z) : Z := hd 0 t.
Fixpoint heads (a : Z) (c : nat) (t : list Z) : list (list Z) := match c with O => [] | S c' => (a :: t) :: heads (a + 1) c' t end.
(** decreasing lists of length k over 1..n, tails first *)
Fixpoint enum (n : Z) (k : nat) : list (list Z) :=
  match k with O => [[]] | S k' => flat_map (fun t => heads (hd0 t + 1) (Z.to_nat (n - hd0 t)) t) (enum (n - 1) k') end.
Fixpoint chain (n : Z) (l : list (list Z)) : Prop :=
  match l with a :: ((b :: _) as l') => advance n a = Ok b /\ chain n l' | _ => True end.
Lemma heads_chain n t : forall c a, a + Z.of_nat c - 1 <= n -> chain n (heads a c t).
Proof.
  induction c as [|c IH]; intros a H; cbn [heads]; [exact I|]. destruct c as [|c]; [exact I|]. split.
  - cbn [advance]. destruct (Z.ltb_spec n (a + 1)); [lia|reflexivity].
  - apply IH. lia.
Qed.
Lemma heads_last t : forall c a, heads a (S c) t <> [] /\ last (heads a (S c) t) [] = (a + Z.of_nat c) :: t.
Proof.
  induction c as [|c IH]; intros a; [split; [discriminate|cbn; now rewrite Z.add_0_r]|]. split; [discriminate|].
  change (heads a (S (S c)) t) with ((a :: t) :: heads (a + 1) (S c) t). destruct (IH (a + 1)) as [N L]. destruct (heads (a + 1) (S c) t) as [|x l] eqn:E; [congruence|].
  change (last ((a :: t) :: x :: l) []) with (last (x :: l) []). rewrite L. f_equal. lia.
Qed.
Lemma chain_app n l r : chain n l -> chain n r -> (l <> [] -> forall b r', r = b :: r' -> advance n (last l []) = Ok b) -> chain n (l ++ r).
Proof.
  induction l as [|a l IH]; cbn [app]; intros H1 H2 H3; auto. destruct l as [|b l].
  - cbn [app]. destruct r as [|b r]; [exact I|]. split; auto. cbn in H3. apply (H3 ltac:(discriminate) b r eq_refl).
  - destruct H1 as [H0 H1]. change ((b :: l) ++ r) with (b :: (l ++ r)) in *. split; auto. apply IH; auto. intros _ c r' E. apply (H3 ltac:(discriminate) c r' E).
Qed.
Lemma enum_hd : forall k n t, In t (enum n k) -> Z.of_nat k <= n -> length t = k /\ 0 <= hd0 t <= n.
Proof.
  induction k as [|k IH]; intros n t H Hn; cbn [enum] in H.
  - destruct H as [<-|[]]. cbn. split; auto. lia.
  - apply in_flat_map in H as (t' & H & H'). destruct (IH _ _ H ltac:(lia)) as [L B].
    assert (K : forall c a, In t (heads a c t') -> exists h, t = h :: t' /\ a <= h < a + Z.of_nat c).
    { induction c as [|c IHc]; intros a K; [destruct K|]. destruct K as [<-|K]; [exists a; split; auto; lia|]. destruct (IHc _ K) as (h & E & R). exists h. split; auto. lia. }
    destruct (K _ _ H') as (h & -> & R). cbn. split; [auto|lia].
Qed.
Lemma flat_chain n : forall ts, (forall t, In t ts -> 0 <= hd0 t <= n - 1 /\ (length ts > 1 -> t <> [])%nat) -> chain (n - 1) ts ->
  chain n (flat_map (fun t => heads (hd0 t + 1) (Z.to_nat (n - hd0 t)) t) ts).
Proof.
  induction ts as [|t ts IH]; intros H C; [exact I|]. cbn [flat_map].
  destruct (H t ltac:(now left)) as [Ht Nt]. assert (E : exists c, Z.to_nat (n - hd0 t) = S c /\ hd0 t + 1 + Z.of_nat c = n) by (exists (Z.to_nat (n - hd0 t - 1)); lia). destruct E as (c & Ec & Ec').
  apply chain_app.
  - apply heads_chain. rewrite Z2Nat.id; lia.
  - apply IH; [|destruct ts; [exact I|apply C]]. intros t' H'. destruct (H t' ltac:(now right)) as [A B]. split; auto. intros L. apply B. cbn. lia.
  - intros _ b r' Er. rewrite Ec. destruct (heads_last t c (hd0 t + 1)) as [_ L]. rewrite L. cbn [advance]. destruct (Z.ltb_spec n (hd0 t + 1 + Z.of_nat c + 1)); [|lia].
    destruct ts as [|t2 ts]; [discriminate|]. destruct C as [C0 C]. rewrite C0. cbn [bind].
    destruct (H t2 ltac:(right; now left)) as [Ht2 Nt2]. assert (N2 : t2 <> []) by (apply Nt2; cbn; lia). destruct t2 as [|h2 t2]; [congruence|].
    cbn [flat_map] in Er. assert (E2 : exists c2, Z.to_nat (n - hd0 (h2 :: t2)) = S c2) by (exists (Z.to_nat (n - hd0 (h2 :: t2) - 1)); lia). destruct E2 as (c2 & E2). rewrite E2 in Er. cbn [heads app] in Er. injection Er as <- _. reflexivity.
Qed.
Lemma enum_chain : forall k n, Z.of_nat k <= n -> chain n (enum n k).
Proof.
  induction k as [|k IH]; intros n H; [exact I|]. cbn [enum]. apply flat_chain; [|apply IH; lia].
  intros t Ht. destruct (enum_hd _ _ _ Ht ltac:(lia)) as [L B]. split; auto. intros G ->. destruct k; [cbn in G; lia|discriminate].
Qed.
Lemma enum_first : forall k n, Z.of_nat k <= n -> exists r, enum n k = countdown k :: r.
Proof.
  induction k as [|k IH]; intros n H; [now exists []|]. cbn [enum]. destruct (IH (n - 1) ltac:(lia)) as (r & E). rewrite E. cbn [flat_map].
  assert (B : hd0 (countdown k) = Z.of_nat k) by (destruct k; reflexivity).
  rewrite B. assert (X : exists c, Z.to_nat (n - Z.of_nat k) = S c) by (exists (Z.to_nat (n - Z.of_nat k - 1)); lia). destruct X as (c & X). rewrite X. cbn [heads app]. eexists. f_equal. cbn [countdown]. f_equal. lia.
Qed.
