From Verif Require Import Common TrieSpec TrieProofs Block BlockSpec.
Open Scope Z_scope.

Section BlockP.
Context {T : Type}.
Variable tadd tmul : T -> T -> T.
Variable tdef : T.
Variable B : nat.
Hypothesis HB : B <> O.
Notation bsum := (bsum T). Notation block := (list Z * list T)%type.

Lemma match_at_ok : forall exps data base x, length x = length exps ->
  (forall j, (j < length x)%nat -> nth_error data (base + j) = nth_error x j) ->
  match_at data base exps = Ok (same_exps x exps).
Proof.
  induction exps as [|e exps IH]; intros data base [|y x] L H; try discriminate; [reflexivity|].
  cbn [match_at same_exps]. pose proof (H O ltac:(cbn; lia)) as H0. rewrite Nat.add_0_r in H0. rewrite H0. cbn [nth_error].
  destruct (y =? e); [|reflexivity]. cbn [andb]. injection L as L. apply IH; auto.
  intros j Hj. specialize (H (S j) ltac:(cbn; lia)). rewrite <- Nat.add_succ_comm in H. exact H.
Qed.
Lemma write_at_ok : forall exps data base, (base + length exps <= length data)%nat ->
  exists d, write_at data base exps = Ok d /\ length d = length data /\
    (forall j, (j < length exps)%nat -> nth_error d (base + j) = nth_error exps j) /\
    (forall k, (k < base \/ base + length exps <= k)%nat -> nth_error d k = nth_error data k).
Proof.
  induction exps as [|e exps IH]; intros data base L; cbn [length] in *.
  - exists data. cbn. repeat split; auto. intros j Hj; lia.
  - cbn [write_at]. destruct (Nat.ltb_spec base (length data)) as [_|]; [|lia].
    destruct (IH (upd data base e) (S base)) as (d & -> & A & C & D); [rewrite length_upd; lia|].
    rewrite length_upd in A. exists d. split; auto. split; auto. split.
    + intros [|j] Hj; cbn [nth_error].
      * rewrite Nat.add_0_r, D by lia. apply nth_error_upd_eq. lia.
      * rewrite <- Nat.add_succ_comm. apply C. lia.
    + intros k Hk. rewrite D by lia. apply nth_error_upd_neq. lia.
Qed.
Lemma read_at_ok : forall x data base, (forall j, (j < length x)%nat -> nth_error data (base + j) = nth_error x j) ->
  read_at data base (length x) = Ok x.
Proof.
  induction x as [|y x IH]; intros data base H; [reflexivity|]. cbn [length read_at].
  pose proof (H O ltac:(cbn; lia)) as H0. rewrite Nat.add_0_r in H0. rewrite H0. cbn [nth_error].
  rewrite IH; [reflexivity|]. intros j Hj. specialize (H (S j) ltac:(cbn; lia)). rewrite <- Nat.add_succ_comm in H. exact H.
Qed.

(** the cell of term [i] holds (c, x) *)
Definition cell (v : nat) (bs : list block) (i : nat) (c : T) (x : list Z) : Prop :=
  exists b, nth_error bs (i / B) = Some b /\ nth_error (snd b) (i mod B) = Some c /\
    forall j, (j < v)%nat -> nth_error (fst b) ((i mod B) * v + j) = nth_error x j.
Definition rep (v : nat) (m : bsum) (L : list (T * list Z)) : Prop :=
  b_vars m = v /\ b_terms m = length L /\
  length (b_blocks m) = ((length L + (B - 1)) / B)%nat /\
  (forall b, In b (b_blocks m) -> length (fst b) = (v * B)%nat /\ length (snd b) = B) /\
  Forall (fun p => length (snd p) = v) L /\
  (forall i c x, nth_error L i = Some (c, x) -> cell v (b_blocks m) i c x).

Lemma div_next i : ((S i) / B = if (S i) mod B =? 0 then S (i / B) else i / B)%nat.
Proof.
  pose proof (Nat.div_mod i B HB) as E. pose proof (Nat.mod_upper_bound i B HB) as M.
  destruct (Nat.eq_dec (i mod B) (B - 1)) as [H|H].
  - assert (E2 : S i = (B * S (i / B) + 0)%nat) by (rewrite Nat.mul_succ_r; lia).
    assert (H1 : ((S i) mod B = O)%nat) by (symmetry; eapply Nat.mod_unique; [|exact E2]; lia).
    assert (H2 : ((S i) / B = S (i / B))%nat) by (symmetry; eapply Nat.div_unique; [|exact E2]; lia).
    now rewrite H1, H2.
  - assert (E2 : S i = (B * (i / B) + S (i mod B))%nat) by lia.
    assert (H1 : ((S i) mod B = S (i mod B))%nat) by (symmetry; eapply Nat.mod_unique; [|exact E2]; lia).
    assert (H2 : ((S i) / B = (i / B))%nat) by (symmetry; eapply Nat.div_unique; [|exact E2]; lia).
    now rewrite H1, H2.
Qed.
Lemma mod_next i : ((S i) mod B = if (S i) mod B =? 0 then O else S (i mod B))%nat.
Proof.
  pose proof (Nat.div_mod i B HB) as E. pose proof (Nat.mod_upper_bound i B HB) as M.
  destruct (Nat.eqb_spec ((S i) mod B) 0) as [H|H]; auto.
  destruct (Nat.eq_dec (i mod B) (B - 1)) as [H3|H3].
  - exfalso. apply H. assert (E2 : S i = (B * S (i / B) + 0)%nat) by (rewrite Nat.mul_succ_r; lia).
    symmetry; eapply Nat.mod_unique; [|exact E2]; lia.
  - assert (E2 : S i = (B * (i / B) + S (i mod B))%nat) by lia.
    symmetry; eapply Nat.mod_unique; [|exact E2]; lia.
Qed.

Definition start_ptr (i : nat) : nat := match i with O => O | S k => (k / B)%nat end.
Lemma ptr_step i : (if (0 <? i)%nat && (i mod B =? 0)%nat then S (start_ptr i) else start_ptr i) = (i / B)%nat.
Proof.
  destruct i as [|k].
  - cbn [Nat.ltb Nat.leb andb start_ptr]. symmetry. now apply Nat.div_0_l.
  - cbn [start_ptr]. change (0 <? S k)%nat with true. cbn [andb]. rewrite (div_next k). reflexivity.
Qed.

(** position of the first term with these exponents *)
Fixpoint position (L : list (T * list Z)) (x : list Z) : option nat :=
  match L with [] => None | (c, y) :: L' => if same_exps y x then Some O else match position L' x with Some k => Some (S k) | None => None end end.

Lemma search_ok v bs exps : length exps = v -> forall L i,
  Forall (fun p => length (snd p) = v) L -> (forall k c x, nth_error L k = Some (c, x) -> cell v bs (i + k) c x) -> L <> [] ->
  search B (length L) i (start_ptr i) v bs exps =
    Ok (match position L exps with Some k => (((i + k) / B)%nat, Some (i + k)%nat) | None => (start_ptr (i + length L), None) end).
Proof.
  intros He. induction L as [|[c x] L IH]; intros i HL HC HN; [congruence|].
  cbn [length search]. rewrite ptr_step.
  pose proof (HC O c x eq_refl) as (b & E1 & E2 & E3). rewrite Nat.add_0_r in E1, E3. rewrite E1.
  pose proof (Forall_inv HL) as HX. cbn in HX.
  rewrite (match_at_ok exps (fst b) _ x); [|congruence|intros j Hj; apply E3; lia].
  cbn [bind position]. destruct (same_exps x exps); [rewrite Nat.add_0_r; reflexivity|].
  destruct L as [|q L].
  - cbn [search length position]. do 2 f_equal. rewrite Nat.add_1_r. reflexivity.
  - replace (i / B)%nat with (start_ptr (S i)) by reflexivity.
    rewrite IH; [|exact (Forall_inv_tail HL)| |discriminate].
    + destruct (position (q :: L) exps) as [k|]; [rewrite <- Nat.add_succ_comm; reflexivity|].
      do 2 f_equal. cbn [length]. f_equal. lia.
    + intros k c1 x1 Hk. rewrite Nat.add_succ_comm. apply HC. exact Hk.
Qed.

Lemma position_none_add L c x : position L x = None -> add_term tadd L c x = L ++ [(c, x)].
Proof.
  induction L as [|[c0 x0] L IH]; cbn; auto. destruct (same_exps x0 x); [discriminate|].
  destruct (position L x); [discriminate|]. intros _. now rewrite IH.
Qed.
Lemma position_some_add L c x k : position L x = Some k ->
  exists c0 x0, nth_error L k = Some (c0, x0) /\ (k < length L)%nat /\ add_term tadd L c x = upd L k (tadd c0 c, x0).
Proof.
  revert k; induction L as [|[c0 x0] L IH]; cbn [position add_term]; intros k H; [discriminate|].
  destruct (same_exps x0 x).
  - injection H as <-. exists c0, x0. cbn. repeat split; auto. lia.
  - destruct (position L x) as [j|]; [|discriminate]. injection H as <-.
    destruct (IH j eq_refl) as (c1 & x1 & A & C & D). exists c1, x1. cbn. rewrite D. repeat split; auto. lia.
Qed.

Lemma cell_index i j : (i / B = j / B -> i mod B = j mod B -> i = j)%nat.
Proof. intros H H0. rewrite (Nat.div_mod i B HB), (Nat.div_mod j B HB). congruence. Qed.

Lemma ceil_eq n : (0 < n)%nat -> ((n + (B - 1)) / B = S ((n - 1) / B))%nat.
Proof.
  intros H. replace (n + (B - 1))%nat with ((n - 1) + 1 * B)%nat by lia. rewrite Nat.div_add by auto. lia.
Qed.

(** writing the new term into cell [length L] of a block list that already has the block *)
Lemma store_ok v m L bs p c x : b_vars m = v -> b_terms m = length L -> p = (length L / B)%nat ->
  length bs = S (length L / B)%nat ->
  (forall b, In b bs -> length (fst b) = (v * B)%nat /\ length (snd b) = B) ->
  Forall (fun p => length (snd p) = v) L -> length x = v ->
  (forall i c x, nth_error L i = Some (c, x) -> cell v bs i c x) ->
  exists m', store_term B m bs p c x = Ok m' /\ rep v m' (L ++ [(c, x)]).
Proof.
  intros Hv Ht -> Hl HA HL Hx HC. set (n := length L) in *. unfold store_term. cbv zeta. rewrite Ht, Hv.
  destruct (nth_error bs (n / B)) as [b|] eqn:Eb; [|apply nth_error_None in Eb; lia].
  destruct (HA b (nth_error_In _ _ Eb)) as [LB1 LB2].
  assert (MB : (n mod B < B)%nat) by (apply Nat.mod_upper_bound; auto).
  destruct (write_at_ok x (fst b) (n mod B * v)) as (d & -> & D1 & D2 & D3); [rewrite LB1, Hx; nia|].
  cbn [bind]. rewrite LB2. destruct (Nat.ltb_spec (n mod B) B); [|lia].
  eexists; split; [reflexivity|]. refine (conj _ (conj _ (conj _ (conj _ (conj _ _))))); cbn [b_vars b_terms b_blocks].
  - reflexivity.
  - rewrite app_length. cbn. lia.
  - rewrite length_upd, app_length. cbn [length]. fold n. rewrite ceil_eq by lia. replace (n + 1 - 1)%nat with n by lia. exact Hl.
  - intros b' Hin. apply In_nth_error in Hin as (k & Hk). destruct (Nat.eq_dec k (n / B)) as [->|Hne].
    + rewrite nth_error_upd_eq in Hk by lia. injection Hk as <-. cbn. rewrite length_upd. split; congruence.
    + rewrite nth_error_upd_neq in Hk by auto. apply HA. eapply nth_error_In; eauto.
  - apply Forall_app. split; auto.
  - intros i c1 x1 Hi. destruct (Nat.eq_dec i n) as [->|Hne].
    + subst n. rewrite nth_error_app2, Nat.sub_diag in Hi by lia. cbn in Hi. injection Hi as <- <-.
      exists (d, upd (snd b) (length L mod B) c). split; [apply nth_error_upd_eq; lia|]. cbn [fst snd]. split; [apply nth_error_upd_eq; lia|].
      intros j Hj. apply D2. lia.
    + assert (Hin : (i < n)%nat).
      { assert (nth_error (L ++ [(c, x)]) i <> None) by congruence. apply nth_error_Some in H0. rewrite app_length in H0. cbn in H0. fold n in H0. lia. }
      rewrite nth_error_app1 in Hi by exact Hin. destruct (HC i c1 x1 Hi) as (b1 & F1 & F2 & F3).
      destruct (Nat.eq_dec (i / B) (n / B)) as [E|E].
      * assert (NM : (i mod B <> n mod B)%nat) by (intros E'; apply Hne; now apply cell_index).
        assert (b1 = b) by (rewrite E in F1; congruence). subst b1.
        exists (d, upd (snd b) (n mod B) c). rewrite E. split; [apply nth_error_upd_eq; lia|]. cbn [fst snd].
        split; [rewrite nth_error_upd_neq by auto; exact F2|].
        intros j Hj. rewrite D3; [now apply F3|]. destruct (Nat.lt_ge_cases (i mod B) (n mod B)); [left|right]; nia.
      * exists b1. split; [rewrite nth_error_upd_neq by auto; exact F1|]. auto.
Qed.

Lemma block_insert_ok v m L c x : length x = v -> rep v m L ->
  exists m', block_insert tadd tdef B m c x = Ok m' /\ rep v m' (add_term tadd L c x).
Proof.
  intros Hx (Hv & Ht & Hl & HA & HL & HC). unfold block_insert. rewrite Ht.
  destruct L as [|q L0].
  - cbn [length Nat.ltb Nat.leb add_term].
    destruct (store_ok v m [] [new_block tdef B (b_vars m)] 0 c x) as (m' & E & R); auto.
    + cbn [length]. now rewrite Nat.div_0_l.
    + cbn [length]. now rewrite Nat.div_0_l.
    + intros b [<-|[]]. cbn. rewrite !repeat_length, Hv. auto.
    + intros i c1 x1 H. destruct i; discriminate.
    + exists m'. auto.
  - set (L := q :: L0) in *. assert (NE : L <> []) by discriminate.
    assert (LP : (0 < length L)%nat) by (subst L; cbn; lia).
    destruct (Nat.ltb_spec 0 (length L)) as [_|]; [|lia].
    change 0%nat with (start_ptr 0) at 2. rewrite Hv.
    rewrite (search_ok v (b_blocks m) x Hx L 0 HL HC NE). cbn [bind Nat.add].
    rewrite ceil_eq in Hl by auto.
    destruct (position L x) as [k|] eqn:EP.
    + destruct (position_some_add L c x k EP) as (c0 & x0 & A & A2 & ->).
      destruct (HC k c0 x0 A) as (b & F1 & F2 & F3). rewrite F1, F2.
      eexists; split; [reflexivity|]. refine (conj _ (conj _ (conj _ (conj _ (conj _ _))))); cbn [b_vars b_terms b_blocks].
      * auto.
      * now rewrite length_upd.
      * rewrite !length_upd. rewrite ceil_eq by auto. exact Hl.
      * intros b' Hin. apply In_nth_error in Hin as (k' & Hk). destruct (Nat.eq_dec k' (k / B)) as [->|Hne].
        { rewrite nth_error_upd_eq in Hk by (apply nth_error_Some; congruence). injection Hk as <-. cbn. rewrite length_upd.
          apply HA. eapply nth_error_In; eauto. }
        { rewrite nth_error_upd_neq in Hk by auto. apply HA. eapply nth_error_In; eauto. }
      * apply Forall_upd; auto. cbn. rewrite Forall_forall in HL. apply (HL (c0, x0)). eapply nth_error_In; eauto.
      * intros i c1 x1 Hi. destruct (Nat.eq_dec i k) as [->|Hne].
        { rewrite nth_error_upd_eq in Hi by auto. injection Hi as <- <-.
          exists (fst b, upd (snd b) (k mod B) (tadd c0 c)). split; [apply nth_error_upd_eq; apply nth_error_Some; congruence|].
          cbn [fst snd]. split; [apply nth_error_upd_eq; apply nth_error_Some; congruence|auto]. }
        { rewrite nth_error_upd_neq in Hi by auto. destruct (HC i c1 x1 Hi) as (b1 & G1 & G2 & G3).
          destruct (Nat.eq_dec (i / B) (k / B)) as [E|E].
          - assert (NM : (i mod B <> k mod B)%nat) by (intros E'; apply Hne; now apply cell_index).
            assert (b1 = b) by (rewrite E in G1; congruence). subst b1.
            exists (fst b, upd (snd b) (k mod B) (tadd c0 c)). rewrite E.
            split; [apply nth_error_upd_eq; apply nth_error_Some; congruence|]. cbn [fst snd].
            split; [rewrite nth_error_upd_neq by auto; exact G2|auto].
          - exists b1. split; [rewrite nth_error_upd_neq by auto; exact G1|auto]. }
    + rewrite (position_none_add L c x EP).
      assert (SP : start_ptr (length L) = ((length L - 1) / B)%nat) by (subst L; cbn [length start_ptr]; f_equal; lia).
      rewrite SP. pose proof (div_next (length L - 1)) as DN. replace (S (length L - 1)) with (length L) in DN by lia.
      destruct (Nat.eqb_spec (length L mod B) 0) as [E0|E0].
      * apply store_ok; auto.
        { rewrite app_length, firstn_length, Hl, DN. cbn [length]. lia. }
        { intros b Hin. apply in_app_iff in Hin as [Hin|[<-|[]]].
          - apply HA. rewrite <- (firstn_skipn (S ((length L - 1) / B)) (b_blocks m)). apply in_app_iff; auto.
          - cbn. rewrite !repeat_length. auto. }
        { intros i c1 x1 Hi. destruct (HC i c1 x1 Hi) as (b1 & G1 & G2 & G3). exists b1. split; auto.
          rewrite firstn_all2 by lia. rewrite nth_error_app1; [exact G1|]. apply nth_error_Some. congruence. }
      * apply store_ok; auto. now rewrite DN.
Qed.

Lemma block_insert_all_ok v : forall l m L, Forall (fun p => length (snd p) = v) l -> rep v m L ->
  exists m', block_insert_all tadd tdef B l m = Ok m' /\ rep v m' (fold_left (fun acc p => add_term tadd acc (fst p) (snd p)) l L).
Proof.
  induction l as [|[c x] l IH]; intros m L H R; [exists m; auto|].
  inversion H; subst. cbn [block_insert_all fold_left fst snd].
  destruct (block_insert_ok _ m L c x eq_refl R) as (m1 & E & R1). cbn in R1. rewrite E. cbn [bind]. apply IH; auto.
Qed.

Lemma rep_new v : rep v (new_bsum v) [].
Proof.
  refine (conj _ (conj _ (conj _ (conj _ (conj _ _))))); cbn; auto.
  - now rewrite Nat.div_small by lia.
  - intros b [].
  - intros i c x Hi. destruct i; discriminate.
Qed.

(** iteration *)
Definition it_at (i : nat) : biter :=
  match i with O => bi_begin | S k => mkBI i (S (k mod B)) (k / B)%nat end.
Lemma bi_next_full fuel (m : bsum) t bl p b0 : nth_error (b_blocks m) p = Some b0 -> t <> b_terms m -> (B <= bl)%nat ->
  bi_next B (S fuel) m (mkBI t bl p) = bi_next B fuel m (mkBI t 0 (S p)).
Proof.
  intros H H1 H2. cbn [bi_next bi_ptr bi_term bi_block]. rewrite H.
  destruct (Nat.eqb_spec t (b_terms m)); [congruence|]. destruct (Nat.ltb_spec bl B); [lia|]. reflexivity.
Qed.
Lemma bi_next_ok v m L i : rep v m L -> L <> [] -> (i <= length L)%nat ->
  match nth_error L i with
  | Some t => bi_next B 2 m (it_at i) = Ok (it_at (S i), Some t)
  | None => exists it, bi_next B 2 m (it_at i) = Ok (it, None)
  end.
Proof.
  intros (Hv & Ht & Hl & HA & HL & HC) NE Hi.
  assert (LP : (0 < length L)%nat) by (destruct L; [congruence|cbn; lia]).
  rewrite ceil_eq in Hl by auto.
  assert (EQ : forall i, bi_ptr (it_at i) = start_ptr i /\ bi_term (it_at i) = i) by (intros [|k]; split; reflexivity).
  destruct (EQ i) as [P1 P2].
  assert (Hp : (start_ptr i < length (b_blocks m))%nat).
  { rewrite Hl. destruct i as [|k]; cbn [start_ptr]; [lia|]. assert ((k / B <= (length L - 1) / B)%nat) by (apply Nat.div_le_mono; lia). lia. }
  destruct (nth_error L i) as [[c x]|] eqn:Ei.
  - assert (Hin : (i < length L)%nat) by (apply nth_error_Some; congruence).
    destruct (HC i c x Ei) as (b & E1 & E2 & E3).
    assert (LX : length x = v).
    { rewrite Forall_forall in HL. apply (HL (c, x)). eapply nth_error_In; eauto. }
    assert (RD : forall o, o = (i mod B)%nat -> read_at (fst b) (v * o) v = Ok x).
    { intros o ->. rewrite <- LX at 2. rewrite Nat.mul_comm. apply read_at_ok. intros j Hj. apply E3. lia. }
    assert (ST : forall fuel, bi_next B (S fuel) m (mkBI i (i mod B)%nat (i / B)%nat) = Ok (it_at (S i), Some (c, x))).
    { intros fuel. cbn [bi_next bi_ptr bi_term bi_block]. rewrite E1, Ht.
      destruct (Nat.eqb_spec i (length L)); [lia|].
      destruct (Nat.ltb_spec (i mod B) B) as [_|HH]; [|pose proof (Nat.mod_upper_bound i B HB); lia].
      rewrite E2, Hv, RD by auto. reflexivity. }
    destruct i as [|k].
    + cbn [it_at]. unfold bi_begin. specialize (ST 1%nat). rewrite Nat.div_0_l, Nat.mod_0_l in ST by auto. exact ST.
    + cbn [it_at]. pose proof (div_next k) as DN. pose proof (mod_next k) as MN.
      destruct (Nat.eqb_spec (S k mod B) 0) as [E0|E0].
      * assert (KB : S (k mod B)%nat = B).
        { pose proof (Nat.div_mod k B HB) as D1. pose proof (Nat.div_mod (S k) B HB) as D2. rewrite E0, DN, Nat.mul_succ_r in D2. lia. }
        cbn [start_ptr] in Hp. destruct (nth_error (b_blocks m) (k / B)) as [b0|] eqn:Eb0; [|apply nth_error_None in Eb0; lia].
        rewrite (bi_next_full _ m (S k) _ _ b0 Eb0) by lia.
        replace (mkBI (S k) 0 (S (k / B)%nat)) with (mkBI (S k) (S k mod B)%nat (S k / B)%nat) by (rewrite DN, E0; reflexivity).
        exact (ST O).
      * rewrite <- MN, <- DN. apply ST.
  - apply nth_error_None in Ei. assert (i = length L) by lia. subst i. exists (it_at (length L)).
    cbn [bi_next]. rewrite P1, P2. destruct (nth_error (b_blocks m) (start_ptr (length L))) as [b0|] eqn:Eb0; [|reflexivity].
    rewrite Ht, Nat.eqb_refl. reflexivity.
Qed.

Lemma skipn_nth {A} (l : list A) i : skipn i l = match nth_error l i with Some a => a :: skipn (S i) l | None => [] end.
Proof. revert i; induction l as [|h l IH]; intros [|i]; cbn; auto. apply IH. Qed.

Lemma bi_drain_ok v m L : rep v m L -> L <> [] -> forall n i, (i <= length L)%nat -> (length L - i < n)%nat ->
  bi_drain B n m (it_at i) = Ok (skipn i L).
Proof.
  intros R NE. induction n as [|n IH]; intros i Hi Hn; [lia|]. cbn [bi_drain].
  pose proof (bi_next_ok v m L i R NE Hi) as H. rewrite skipn_nth. destruct (nth_error L i) as [t|] eqn:E.
  - assert ((i < length L)%nat) by (apply nth_error_Some; congruence).
    rewrite H. cbn [bind]. rewrite IH by lia. reflexivity.
  - destruct H as (it & ->). reflexivity.
Qed.

Lemma block_terms_ok v m L : rep v m L -> block_terms B m = Ok L.
Proof.
  intros R. destruct L as [|q L].
  - destruct R as (Hv & Ht & Hl & _). unfold block_terms. rewrite Ht. cbn.
    cbn in Hl. rewrite Nat.div_small in Hl by lia. destruct (b_blocks m); [reflexivity|discriminate].
  - unfold block_terms. assert (R2 := R). destruct R2 as (_ & Ht & _). rewrite Ht.
    change bi_begin with (it_at 0). rewrite (bi_drain_ok v m (q :: L) R); [reflexivity|discriminate|lia|lia].
Qed.

Theorem block_storage v l : Forall (fun p => length (snd p) = v) l ->
  exists m, block_insert_all tadd tdef B l (new_bsum v) = Ok m /\
    b_terms m = length (add_terms tadd l) /\ block_terms B m = Ok (add_terms tadd l).
Proof.
  intros H. destruct (block_insert_all_ok v l (new_bsum v) [] H (rep_new v)) as (m & E & R).
  exists m. split; auto. split; [apply R|]. eapply block_terms_ok; eauto.
Qed.

(** The product only ever uses the first term of the first factor. *)
Lemma bmul_outer_nil l1 mn mx m : bmul_outer tadd tmul tdef B l1 [] mn mx m = Ok m.
Proof. induction l1; cbn; auto. Qed.
Theorem block_multiply_first_row a l1 l2 mn mx m :
  block_multiply tadd tmul tdef B (a :: l1) l2 mn mx m = bmul_inner tadd tmul tdef B a l2 mn mx m.
Proof.
  unfold block_multiply. cbn [bmul_outer]. destruct (bmul_inner tadd tmul tdef B a l2 mn mx m); cbn [bind]; auto.
  apply bmul_outer_nil.
Qed.
(** ... and that row is right. *)
Lemma box_sum_spec : forall v a b mn mx, length a = v -> length b = v -> length mn = v -> length mx = v ->
  box_sum a b mn mx = if in_box mn mx (vadd a b) then Some (vadd a b) else None.
Proof.
  clear tadd tmul tdef HB B. induction v as [|v IH]; intros [|x a] [|y b] [|l mn] [|h mx] A1 A2 A3 A4; try discriminate; [reflexivity|].
  cbn [box_sum vadd in_box]. injection A1 as A1; injection A2 as A2; injection A3 as A3; injection A4 as A4.
  destruct (Z.ltb_spec (x + y) l); destruct (Z.ltb_spec h (x + y)); cbn [orb];
    destruct (Z.leb_spec l (x + y)); destruct (Z.leb_spec (x + y) h); try lia; cbn [andb]; auto.
  rewrite (IH a b mn mx) by auto. destruct (in_box mn mx (vadd a b)); reflexivity.
Qed.
Lemma bmul_inner_rows v a mn mx : length (snd a) = v -> length mn = v -> length mx = v ->
  forall l2 m, Forall (fun p => length (snd p) = v) l2 ->
  bmul_inner tadd tmul tdef B a l2 mn mx m = block_insert_all tadd tdef B (row_products tmul a l2 mn mx) m.
Proof.
  intros Ha Hmn Hmx. induction l2 as [|b l2 IH]; intros m H; [reflexivity|]. cbn [bmul_inner row_products].
  pose proof (Forall_inv H) as Hb. apply Forall_inv_tail in H. cbv beta in Hb.
  rewrite (box_sum_spec v) by auto. destruct (in_box mn mx (vadd (snd a) (snd b))).
  - cbn [app block_insert_all]. destruct (block_insert tadd tdef B m (tmul (fst a) (fst b)) (vadd (snd a) (snd b))); cbn [bind]; auto.
  - cbn [app bind]. auto.
Qed.
Lemma vadd_length : forall a b : list Z, length a = length b -> length (vadd a b) = length a.
Proof. clear tadd tmul tdef HB B. induction a as [|x a IH]; intros [|y b] E; cbn in *; try discriminate; auto. Qed.
Theorem block_multiply_single v a l1 l2 mn mx : length (snd a) = v -> length mn = v -> length mx = v ->
  Forall (fun p => length (snd p) = v) l2 ->
  exists m, block_multiply tadd tmul tdef B (a :: l1) l2 mn mx (new_bsum v) = Ok m /\
    block_terms B m = Ok (add_terms tadd (row_products tmul a l2 mn mx)).
Proof.
  intros Ha Hmn Hmx H. rewrite block_multiply_first_row, (bmul_inner_rows v) by auto.
  destruct (block_storage v (row_products tmul a l2 mn mx)) as (m & E & _ & R).
  - clear Hmn Hmx. induction H as [|b l2 Hb _ IH]; cbn [row_products]; [constructor|]. apply Forall_app. split; auto.
    destruct (in_box _ _ _); constructor; auto. cbn [snd]. rewrite vadd_length; congruence.
  - exists m. auto.
Qed.
End BlockP.
