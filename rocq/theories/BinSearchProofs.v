From Coq Require Import QArith Qround.
From Verif Require Import Common BinSearch BinSearchSpec.
Open Scope Z_scope.

Lemma file_rows m q x rhs lhs (lin : list nat) (P : nat -> Prop) :
  (forall i, In (S i) lin <-> P i) ->
  (file_holds (mkFile (m ++ [- rhs :: lhs] ++ q) lin) x <->
   (forall i r, nth_error m i = Some r -> if in_dec Nat.eq_dec (S i) lin then rowval r x = 0 else 0 <= rowval r x) /\
   (if in_dec Nat.eq_dec (S (length m)) lin then - rhs + zdot lhs x = 0 else 0 <= - rhs + zdot lhs x) /\
   (forall i r, nth_error q i = Some r -> if in_dec Nat.eq_dec (S (length m + S i)) lin then rowval r x = 0 else 0 <= rowval r x)).
Proof.
  intros _. unfold file_holds. cbn [frows flin]. split.
  - intros H. split; [|split].
    + intros i r E. apply H. rewrite nth_error_app1; [exact E|]. apply nth_error_Some. congruence.
    + specialize (H (length m) (- rhs :: lhs)). rewrite nth_error_app2, Nat.sub_diag in H by lia. apply H. reflexivity.
    + intros i r E. apply H. rewrite nth_error_app2 by lia. replace (length m + S i - length m)%nat with (S i) by lia. exact E.
  - intros (H1 & H2 & H3) i r E. destruct (Nat.lt_trichotomy i (length m)) as [L|[L|L]].
    + apply H1. now rewrite nth_error_app1 in E.
    + subst i. rewrite nth_error_app2, Nat.sub_diag in E by lia. cbn in E. injection E as <-. exact H2.
    + rewrite nth_error_app2 in E by lia. destruct (i - length m)%nat as [|k] eqn:K; [lia|]. cbn in E.
      replace i with (length m + S k)%nat by lia. now apply H3.
Qed.
Lemma Forall_nth_error {A} (P : A -> Prop) l : Forall P l <-> forall i r, nth_error l i = Some r -> P r.
Proof.
  rewrite Forall_forall. split; intros H.
  - intros i r E. apply H. eapply nth_error_In; eauto.
  - intros r Hr. apply In_nth_error in Hr as [i E]. eauto.
Qed.

Lemma file_ge_meaning m q n rhs cost x :
  (length x = n /\ file_holds (file_ge m q rhs cost) x) <-> (ip_point m q n x /\ rhs <= zdot cost x).
Proof.
  unfold file_ge, ip_point.
  assert (D : forall i, In (S i) (map (fun i => (1 + i)%nat) (seq 0 (length m))) <-> (i < length m)%nat).
  { intros i. rewrite in_map_iff. split.
    - intros (j & E & Hj). apply in_seq in Hj. lia.
    - intros H. exists i. split; [lia|]. apply in_seq. lia. }
  rewrite (file_rows m q x rhs cost _ _ D), !Forall_nth_error.
  set (lin := map (fun i => (1 + i)%nat) (seq 0 (length m))) in *.
  destruct (in_dec Nat.eq_dec (S (length m)) lin) as [I|I]; [apply D in I; lia|].
  split.
  - intros (L & H1 & H2 & H3). split; [|lia]. split; [exact L|]. split; intros i r E.
    + specialize (H1 i r E). destruct (in_dec Nat.eq_dec (S i) lin) as [J|J]; [exact H1|].
      exfalso. apply J, D. apply nth_error_Some. congruence.
    + specialize (H3 i r E). destruct (in_dec Nat.eq_dec (S (length m + S i)) lin) as [J|J]; [apply D in J; lia|exact H3].
  - intros ((L & H1 & H2) & H3). split; [exact L|]. split; [|split; [lia|]]; intros i r E.
    + destruct (in_dec Nat.eq_dec (S i) lin) as [J|J]; [eauto|]. specialize (H1 i r E). lia.
    + destruct (in_dec Nat.eq_dec (S (length m + S i)) lin) as [J|J]; [apply D in J; lia|eauto].
Qed.
Lemma file_equ_meaning m q n rhs cost x :
  (length x = n /\ file_holds (file_equ m q rhs cost) x) <-> (ip_point m q n x /\ zdot cost x = rhs).
Proof.
  unfold file_equ, ip_point.
  assert (D : forall i, In (S i) (1%nat :: map (fun i => (2 + i)%nat) (seq 0 (length m))) <-> (i <= length m)%nat).
  { intros i. cbn [In]. rewrite in_map_iff. split.
    - intros [E|(j & E & Hj)]; [lia|]. apply in_seq in Hj. lia.
    - intros H. destruct i; [auto|]. right. exists i. split; [lia|]. apply in_seq. lia. }
  rewrite (file_rows m q x rhs cost _ _ D), !Forall_nth_error.
  set (lin := 1%nat :: map (fun i => (2 + i)%nat) (seq 0 (length m))) in *.
  destruct (in_dec Nat.eq_dec (S (length m)) lin) as [I|I]; [|exfalso; apply I, D; lia].
  split.
  - intros (L & H1 & H2 & H3). split; [|lia]. split; [exact L|]. split; intros i r E.
    + specialize (H1 i r E). destruct (in_dec Nat.eq_dec (S i) lin) as [J|J]; [exact H1|].
      exfalso. apply J, D. assert (i < length m)%nat by (apply nth_error_Some; congruence). lia.
    + specialize (H3 i r E). destruct (in_dec Nat.eq_dec (S (length m + S i)) lin) as [J|J]; [apply D in J; lia|exact H3].
  - intros ((L & H1 & H2) & H3). split; [exact L|]. split; [|split; [lia|]]; intros i r E.
    + destruct (in_dec Nat.eq_dec (S i) lin) as [J|J]; [eauto|]. specialize (H1 i r E). lia.
    + destruct (in_dec Nat.eq_dec (S (length m + S i)) lin) as [J|J]; [apply D in J; lia|eauto].
Qed.

Section P.
Context (n : nat) (count : lfile -> Z) (m q : list (list Z)) (cost : list Z) (pts : list (list Z)).
Hypothesis HC : counts_correctly n count m q.
Hypothesis HF : finite_ip m q n pts.
Definition nge (v : Z) := filter (fun x => v <=? zdot cost x) pts.
Definition neq (v : Z) := filter (fun x => zdot cost x =? v) pts.
Lemma count_ge v : count (file_ge m q v cost) = Z.of_nat (length (nge v)).
Proof.
  destruct HF as [ND HI]. apply HC; [intros x Lx Hx; eapply file_ge_meaning; eauto|now apply NoDup_filter|].
  intros x. unfold nge. rewrite filter_In, HI, file_ge_meaning, Z.leb_le. tauto.
Qed.
Lemma count_eq v : count (file_equ m q v cost) = Z.of_nat (length (neq v)).
Proof.
  destruct HF as [ND HI]. apply HC; [intros x Lx Hx; eapply file_equ_meaning; eauto|now apply NoDup_filter|].
  intros x. unfold neq. rewrite filter_In, HI, file_equ_meaning, Z.eqb_eq. tauto.
Qed.
Lemma filter_nil_iff {A} (p : A -> bool) l : Z.of_nat (length (filter p l)) = 0 <-> forall x, In x l -> p x = false.
Proof.
  split.
  - intros H x Hx. destruct (p x) eqn:E; [|reflexivity]. assert (I : In x (filter p l)) by (apply filter_In; auto).
    destruct (filter p l); [destruct I|cbn in H; lia].
  - intros H. destruct (filter p l) as [|y t] eqn:E; [reflexivity|]. assert (I : In y (filter p l)) by (rewrite E; now left).
    apply filter_In in I as [I1 I2]. rewrite H in I2 by exact I1. discriminate.
Qed.

Lemma search_ok : forall fuel low high c,
  low < high -> high - low <= Z.of_nat fuel ->
  (exists x, In x pts /\ low <= zdot cost x) -> (forall x, In x pts -> zdot cost x < high) ->
  exists low' high' k, search count m q cost fuel low high c = Ok (low', high', c + k) /\
    0 <= k /\ (forall j, high - low <= 2 ^ Z.of_nat j -> k <= Z.of_nat j) /\
    (exists x, In x pts /\ zdot cost x = low') /\ (forall x, In x pts -> zdot cost x <= low').
Proof.
  induction fuel as [|f IH]; intros low high c Hl Hf (x0 & I0 & L0) Hh; cbn [search].
  - lia.
  - destruct (Z.eqb_spec (high - low) 1) as [E|N].
    + exists low, high, 0. split; [do 2 f_equal; lia|]. split; [lia|]. split; [intros; lia|]. split.
      * exists x0. split; [exact I0|]. specialize (Hh x0 I0). lia.
      * intros x Hx. specialize (Hh x Hx). lia.
    + assert (M : 2 * ((low + high) / 2) <= low + high <= 2 * ((low + high) / 2) + 1).
      { pose proof (Z.div_mod (low + high) 2). pose proof (Z.mod_pos_bound (low + high) 2). lia. }
      set (mid := (low + high) / 2) in *. rewrite count_ge.
      assert (J : forall r k, 2 * r <= high - low + 1 -> (forall j, r <= 2 ^ Z.of_nat j -> k <= Z.of_nat j) ->
        forall j, high - low <= 2 ^ Z.of_nat j -> k + 1 <= Z.of_nat j).
      { intros r k Hr Hk [|j] Hj; [cbn in Hj; lia|]. rewrite Nat2Z.inj_succ, Z.pow_succ_r in Hj by lia.
        assert (k <= Z.of_nat j) by (apply Hk; lia). lia. }
      destruct (Z.eqb_spec (Z.of_nat (length (nge mid))) 0) as [Z0|NZ]; cbn [negb].
      * unfold nge in Z0. rewrite (filter_nil_iff _ pts) in Z0.
        destruct (IH low mid (c + 1)) as (l' & h' & k & E & K & KJ & M1 & M2); try lia; eauto.
        { intros x Hx. specialize (Z0 x Hx). cbv beta in Z0. lia. }
        exists l', h', (k + 1). split; [rewrite E; do 2 f_equal; lia|]. split; [lia|]. split; [|auto].
        apply (J (mid - low)); [lia|exact KJ].
      * destruct (IH mid high (c + 1)) as (l' & h' & k & E & K & KJ & M1 & M2); try lia; auto.
        { destruct (nge mid) as [|y t] eqn:E; [cbn in NZ; lia|]. assert (I : In y (nge mid)) by (rewrite E; now left).
          apply filter_In in I as [I1 I2]. exists y. split; [exact I1|lia]. }
        exists l', h', (k + 1). split; [rewrite E; do 2 f_equal; lia|]. split; [lia|]. split; [|auto].
        apply (J (high - mid)); [lia|exact KJ].
Qed.

Lemma ceil_bounds lo hi : lp_bounds m q n cost lo hi ->
  Qceiling lo <= Qceiling hi /\ forall x, In x pts -> Qceiling lo <= zdot cost x <= Qceiling hi.
Proof.
  intros [H0 H]. split; [now apply Qceiling_resp_le|]. intros x Hx. destruct HF as [_ HI]. apply HI, H in Hx. destruct Hx as [A B].
  apply Qceiling_resp_le in A, B. rewrite Qceiling_Z in A, B. lia.
Qed.

Lemma binary_search_ok lo hi fuel min : lp_bounds m q n cost lo hi -> pts <> [] ->
  Qceiling hi + 1 - Qceiling lo <= Z.of_nat fuel ->
  exists a v, binary_search count m q cost fuel lo hi min = Ok a /\ is_max_value m q n cost v /\
    number a = Z.of_nat (length (neq v)) /\ 0 <= iterations a /\
    (forall j, Qceiling hi + 1 - Qceiling lo <= 2 ^ Z.of_nat j -> iterations a <= Z.of_nat j) /\
    printed a = (if min && negb (v =? Qceiling hi) then - v else v).
Proof.
  intros HL Hne Hf. destruct (ceil_bounds lo hi HL) as [B0 B]. unfold binary_search.
  destruct (Z.ltb_spec (Qceiling hi + 1) (Qceiling lo)); [lia|]. rewrite count_eq.
  destruct HF as [ND HI].
  destruct (Z.eqb_spec (Z.of_nat (length (neq (Qceiling hi)))) 0) as [Z0|NZ]; cbn [negb].
  - unfold neq in Z0. rewrite (filter_nil_iff _ pts) in Z0.
    destruct (search_ok fuel (Qceiling lo) (Qceiling hi + 1) 0) as (l' & h' & k & E & K & KJ & (x & Hx & Ex) & M2); try lia.
    { destruct pts as [|y t]; [congruence|]. exists y. split; [now left|]. apply B. now left. }
    { intros x Hx. specialize (B x Hx). lia. }
    rewrite E. cbn [bind]. eexists _, l'. split; [reflexivity|]. cbn [number printed iterations]. split; [|split; [|split; [|split]]].
    + split; [exists x; split; [now apply HI|exact Ex]|]. intros y Hy. apply HI in Hy. auto.
    + rewrite count_ge. f_equal. f_equal. unfold nge, neq. apply filter_ext_in. intros y Hy. specialize (M2 y Hy). lia.
    + lia.
    + intros j Hj. apply KJ in Hj. lia.
    + specialize (Z0 x Hx). cbv beta in Z0. rewrite Ex in Z0. rewrite Z0. destruct min; reflexivity.
  - eexists _, (Qceiling hi). split; [reflexivity|]. cbn [number printed iterations]. split; [|split; [|split; [|split]]].
    + destruct (neq (Qceiling hi)) as [|y t] eqn:E; [cbn in NZ; lia|]. assert (I : In y (neq (Qceiling hi))) by (rewrite E; now left).
      apply filter_In in I as [I1 I2]. split; [exists y; split; [now apply HI|lia]|]. intros x Hx. apply HI, B in Hx. lia.
    + reflexivity.
    + lia.
    + intros; lia.
    + rewrite Z.eqb_refl, andb_false_r. lia.
Qed.
End P.

Lemma zdot_opp c x : zdot (map Z.opp c) x = - zdot c x.
Proof. revert x; induction c as [|a c IH]; intros [|y x]; cbn [zdot map]; try lia. rewrite IH. lia. Qed.
Lemma max_opp_min m q n c v : is_max_value m q n (map Z.opp c) v -> is_min_value m q n c (- v).
Proof.
  intros [(x & Hx & E) H]. rewrite zdot_opp in E. split; [exists x; split; [exact Hx|lia]|].
  intros y Hy. specialize (H y Hy). rewrite zdot_opp in H. lia.
Qed.

Lemma max_mode n count m q cost pts : counts_correctly n count m q -> finite_ip m q n pts ->
  forall lo hi fuel, lp_bounds m q n cost lo hi -> pts <> [] ->
  Qceiling hi + 1 - Qceiling lo <= Z.of_nat fuel ->
  exists a, binary_search count m q cost fuel lo hi false = Ok a /\ is_max_value m q n cost (printed a) /\
    number a = Z.of_nat (length (filter (fun x => zdot cost x =? printed a) pts)) /\
    0 <= iterations a /\
    (forall j, Qceiling hi + 1 - Qceiling lo <= 2 ^ Z.of_nat j -> iterations a <= Z.of_nat j).
Proof.
  intros HC HF lo hi fuel HL Hne Hf.
  destruct (binary_search_ok n count m q cost pts HC HF lo hi fuel false HL Hne Hf) as (a & v & E & M & N & I1 & I2 & P).
  cbn [andb] in P. subst v. exists a. auto.
Qed.
Lemma min_mode n count m q ucost pts : counts_correctly n count m q -> finite_ip m q n pts ->
  forall lo hi fuel, lp_bounds m q n (map Z.opp ucost) lo hi -> pts <> [] ->
  Qceiling hi + 1 - Qceiling lo <= Z.of_nat fuel ->
  exists a v, binary_search count m q (map Z.opp ucost) fuel lo hi true = Ok a /\ is_min_value m q n ucost v /\
    number a = Z.of_nat (length (filter (fun x => zdot ucost x =? v) pts)) /\
    printed a = (if - v =? Qceiling hi then - v else v).
Proof.
  intros HC HF lo hi fuel HL Hne Hf.
  destruct (binary_search_ok n count m q _ pts HC HF lo hi fuel true HL Hne Hf) as (a & v & E & M & N & I1 & I2 & P).
  exists a, (- v). split; [exact E|]. split; [now apply max_opp_min|]. split.
  - rewrite N. unfold neq. do 2 f_equal. apply filter_ext. intros x. rewrite zdot_opp. lia.
  - rewrite P. cbn [andb]. replace (- - v) with v by lia. now destruct (v =? Qceiling hi).
Qed.

(** A brute-force counter shows that correct counters exist for every finite problem. *)
Definition holds_b (f : lfile) (x : list Z) : bool :=
  forallb (fun i => let r := nth i (frows f) [] in
     if in_dec Nat.eq_dec (S i) (flin f) then rowval r x =? 0 else 0 <=? rowval r x) (seq 0 (length (frows f))).
Lemma holds_b_ok f x : holds_b f x = true <-> file_holds f x.
Proof.
  unfold holds_b, file_holds. rewrite forallb_forall. split.
  - intros H i r E. assert (L : (i < length (frows f))%nat) by (apply nth_error_Some; congruence).
    specialize (H i). rewrite (nth_error_nth _ _ _ E) in H. cbv zeta in H.
    destruct (in_dec Nat.eq_dec (S i) (flin f)); [apply Z.eqb_eq|apply Z.leb_le]; apply H, in_seq; lia.
  - intros H i Hi. apply in_seq in Hi. cbv zeta. specialize (H i (nth i (frows f) [])). rewrite (nth_error_nth' _ []) in H by lia.
    specialize (H eq_refl). destruct (in_dec Nat.eq_dec (S i) (flin f)); [now apply Z.eqb_eq|now apply Z.leb_le].
Qed.
Definition brute_count (pts : list (list Z)) (f : lfile) : Z := Z.of_nat (length (filter (holds_b f) pts)).
Lemma brute_count_ok n m q pts : finite_ip m q n pts -> counts_correctly n (brute_count pts) m q.
Proof.
  intros [ND HI] f L HS NL HL. unfold brute_count. f_equal. apply Nat.le_antisymm; apply NoDup_incl_length.
  - now apply NoDup_filter.
  - intros x Hx. apply filter_In in Hx as [Hx Hb]. apply HL. split; [now apply HI in Hx as [? _]|now apply holds_b_ok].
  - exact NL.
  - intros x Hx. apply HL in Hx as [A B]. apply filter_In. split; [now apply HI, HS|now apply holds_b_ok].
Qed.

(** Minimise x over 1 <= x <= 2: the user's cost is [1], the code is called with [-1]. *)
Definition seg : list (list Z) := [[2; -1]; [-1; 1]].
Lemma seg_finite : finite_ip [] seg 1 [[1]; [2]].
Proof.
  split.
  - constructor; [cbn; intros [H|[]]; discriminate|]. constructor; [intros []|constructor].
  - intros x. unfold ip_point, seg. split.
    + intros [<-|[<-|[]]]; split; auto; split; auto; repeat constructor; cbn; lia.
    + intros (L & _ & H). destruct x as [|x [|? ?]]; try discriminate. rewrite Forall_forall in H.
      pose proof (H [2; -1] (or_introl eq_refl)) as H1. pose proof (H [-1; 1] (or_intror (or_introl eq_refl))) as H3. cbn [rowval zdot] in H1, H3. assert (x = 1 \/ x = 2) as [->| ->] by lia; cbn; auto.
Qed.
Lemma min_sign_witness : exists count pts cost lo hi fuel a,
  counts_correctly 1 count [] seg /\ finite_ip [] seg 1 pts /\ lp_bounds [] seg 1 (map Z.opp cost) lo hi /\
  binary_search count [] seg (map Z.opp cost) fuel lo hi true = Ok a /\
  is_min_value [] seg 1 cost 1 /\ printed a = -1.
Proof.
  exists (brute_count [[1]; [2]]), [[1]; [2]], [1], (inject_Z (-2)), (inject_Z (-1)), 5%nat. eexists.
  split; [apply brute_count_ok, seg_finite|]. split; [exact seg_finite|]. split; [|split; [reflexivity|split; [|reflexivity]]].
  - split; [unfold Qle; cbn; lia|]. intros x Hx. apply seg_finite in Hx as [<-|[<-|[]]]; cbn; unfold Qle; cbn; lia.
  - split; [exists [1]; split; [apply seg_finite; cbn; auto|reflexivity]|]. intros x Hx. apply seg_finite in Hx as [<-|[<-|[]]]; cbn; lia.
Qed.

(** An infeasible problem is not reported as such: 2x = 1, 0 <= x <= 1. *)
Definition infeas : list (list Z) := [[1; -1]; [0; 1]].
Lemma infeasible_witness : exists count lo hi fuel a,
  counts_correctly 1 count [[1; -2]] infeas /\ finite_ip [[1; -2]] infeas 1 [] /\
  binary_search count [[1; -2]] infeas [1] fuel lo hi false = Ok a /\ number a = 0 /\ printed a = 0 + 1.
Proof.
  assert (F : finite_ip [[1; -2]] infeas 1 []).
  { split; [constructor|]. intros x. split; [intros []|]. intros (L & H & _). destruct x as [|x [|? ?]]; try discriminate.
    inversion H as [|? ? H1 _]; subst. cbn [rowval zdot] in H1. lia. }
  exists (brute_count []), (1 # 2)%Q, (1 # 2)%Q, 5%nat. eexists.
  split; [now apply brute_count_ok|]. split; [exact F|]. split; [reflexivity|]. split; reflexivity.
Qed.
