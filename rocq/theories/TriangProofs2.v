(** The lower facets of the lifted cone. *)
From Coq Require Import QArith Qfield Lqa.
From Verif Require Import Common ZMat Det DetProofs PipedSpec Piped PipedProofs PipedProofs3 ConeSpec CountSpec BrionLinear BrionProofs4 BrionProofs5 Triang TriangSpec TriangProofs.
Open Scope Q_scope.

Definition up (t : Q) (x : nat -> Q) : nat -> Q := fun k => match k with O => 0 | S O => t | S (S j) => x j end.
Definition low (a : nat -> Q) : nat -> Q := fun k => a (S (S k)).
Lemma form_up n a t x : form (2 + n) a (up t x) == a 1%nat * t + form n (low a) x.
Proof. unfold form. rewrite sumq_split. rewrite (sumq_ext n (fun k => a (2 + k)%nat * up t x (2 + k)%nat) (fun k => low a k * x k)) by (intros; reflexivity). cbn [sumq up]. ring. Qed.
Lemma pairing_up n a h r : pairing (2 + n) a (0%Z :: h :: r) == a 1%nat * inject_Z h + pairing n (low a) r.
Proof.
  unfold pairing. rewrite sumq_split. rewrite (sumq_ext n (fun k => a (2 + k)%nat * zpoint (0%Z :: h :: r) (2 + k)%nat) (fun k => low a k * zpoint r k)) by (intros; reflexivity).
  cbn [sumq]. unfold zpoint at 1 2. cbn [nth]. change (inject_Z 0) with 0. ring.
Qed.
(** ** Selection of the rays of a facet *)
Lemma select_acc rays : forall set acc, fold_left (fun acc (p : list Z * bool) => if snd p then fst p :: acc else acc) (combine rays set) acc =
  rev (map fst (filter (fun p => snd p) (combine rays set))) ++ acc.
Proof.
  induction rays as [|r rays IH]; intros [|b set] acc; try reflexivity. cbn [combine fold_left filter snd fst map]. destruct b; cbn [map fst rev]; rewrite IH; [rewrite <- app_assoc; reflexivity|reflexivity].
Qed.
Lemma select_eq rays set : cone_from_ray_set rays set = rev (map fst (filter (fun p => snd p) (combine rays set))).
Proof. unfold cone_from_ray_set. now rewrite select_acc, app_nil_r. Qed.
Lemma select_in rays : forall set r, In r (cone_from_ray_set rays set) <-> exists j, (j < length rays)%nat /\ nth j rays [] = r /\ nth j set false = true.
Proof.
  intros set r. rewrite select_eq, <- in_rev. revert set. induction rays as [|s rays IH]; intros set.
  - split; [intros []|intros (j & Hj & _); cbn in Hj; lia].
  - destruct set as [|b set].
    + split; [intros []|intros ([|j] & _ & _ & H); discriminate H].
    + cbn [combine filter snd]. assert (T : In r (map fst (filter (fun p => snd p) (combine rays set))) <-> exists j, (S j < length (s :: rays))%nat /\ nth (S j) (s :: rays) [] = r /\ nth (S j) (b :: set) false = true).
      { rewrite IH. cbn [length nth]. split; intros (j & Hj & E); exists j; (split; [lia|exact E]). }
      destruct b; cbn [map fst In].
      * rewrite T. split.
        -- intros [<-|(j & H)]; [exists 0%nat; cbn; repeat split; lia|exists (S j); exact H].
        -- intros ([|j] & H1 & H2 & H3); [left; exact H2|right; exists j; auto].
      * rewrite T. split; [intros (j & H); exists (S j); exact H|]. intros ([|j] & H1 & H2 & H3); [discriminate H3|exists j; auto].
Qed.
Lemma select_card rays : forall set, length set = S (length rays) -> nth (length rays) set false = false -> length (cone_from_ray_set rays set) = set_card set.
Proof.
  intros set. rewrite select_eq, rev_length, map_length. revert set. induction rays as [|r rays IH]; intros set L N.
  - destruct set as [|b [|]]; try discriminate L. cbn in N. subst b. reflexivity.
  - destruct set as [|b set]; [discriminate L|]. cbn [length nth] in *. cbn [combine filter snd set_card]. unfold set_card in *. cbn [filter]. injection L as L. destruct b; cbn [length]; rewrite IH by auto; reflexivity.
Qed.
Lemma lifted_length n hs V : length hs = length V -> length (lifted n hs V) = S (length V).
Proof. intros L. unfold lifted. rewrite app_length, map_length, combine_length, L, Nat.min_id. cbn. lia. Qed.
Lemma lifted_dim n hs V : length hs = length V -> Forall (fun r => length r = n) V -> Forall (fun g => length g = (2 + n)%nat) (lifted n hs V).
Proof.
  intros L F. apply Forall_app. split; [|constructor; [cbn; now rewrite repeat_length|constructor]]. apply Forall_forall. intros g Hg. apply in_map_iff in Hg. destruct Hg as ([h r] & <- & Hp).
  apply in_combine_r in Hp. rewrite Forall_forall in F. cbn [length]. rewrite firstn_length, (F r Hp). lia.
Qed.
Lemma lifted_nth n hs V j : length hs = length V -> Forall (fun r => length r = n) V -> (j < length V)%nat -> nth j (lifted n hs V) [] = 0%Z :: nth j hs 0%Z :: nth j V [].
Proof.
  intros L F Hj. unfold lifted. rewrite app_nth1 by (rewrite map_length, combine_length; lia).
  set (f := fun p : Z * list Z => let '(h, r) := p in 0%Z :: h :: firstn n r). rewrite (nth_indep _ [] (f (0%Z, []))) by (rewrite map_length, combine_length; lia). rewrite (map_nth f). rewrite combine_nth by auto. unfold f.
  rewrite Forall_forall in F. rewrite firstn_all2; [reflexivity|]. rewrite (F (nth j V [])); [lia|apply nth_In; lia].
Qed.
Lemma lifted_last n hs V : length hs = length V -> nth (length V) (lifted n hs V) [] = 0%Z :: 1%Z :: repeat 0%Z n.
Proof. intros L. unfold lifted. rewrite app_nth2 by (rewrite map_length, combine_length; lia). rewrite map_length, combine_length, L, Nat.min_id, Nat.sub_diag. reflexivity. Qed.
Lemma argmax (P : nat -> bool) (f : nat -> Q) N : (exists i, (i < N)%nat /\ P i = true) -> exists i, (i < N)%nat /\ P i = true /\ forall j, (j < N)%nat -> P j = true -> f j <= f i.
Proof.
  induction N as [|N IH]; intros (i & Hi & Pi); [lia|]. destruct (P N) eqn:PN.
  - destruct (existsb P (seq 0 N)) eqn:E.
    + apply existsb_exists in E. destruct E as (i' & Hi' & Pi'). apply in_seq in Hi'. destruct IH as (m & Hm & Pm & Mm); [exists i'; split; [lia|exact Pi']|].
      destruct (Qlt_le_dec (f m) (f N)) as [Lt|Le].
      * exists N. split; [lia|]. split; [exact PN|]. intros j Hj Pj. destruct (Nat.eq_dec j N) as [->|]; [lra|]. specialize (Mm j ltac:(lia) Pj). lra.
      * exists m. split; [lia|]. split; [exact Pm|]. intros j Hj Pj. destruct (Nat.eq_dec j N) as [->|]; [exact Le|]. apply Mm; auto; lia.
    + exists N. split; [lia|]. split; [exact PN|]. intros j Hj Pj. destruct (Nat.eq_dec j N) as [->|]; [lra|]. exfalso. assert (existsb P (seq 0 N) = true) by (apply existsb_exists; exists j; split; [apply in_seq; lia|exact Pj]). congruence.
  - assert (i <> N) by congruence. destruct IH as (m & Hm & Pm & Mm); [exists i; split; [lia|exact Pi]|]. exists m. split; [lia|]. split; [exact Pm|]. intros j Hj Pj. assert (j <> N) by congruence. apply Mm; auto; lia.
Qed.

Section Lower.
  Context (n : nat) (V : list (list Z)) (hs : list Z) (fs : list (bool * list bool)).
  Context (Lh : length hs = length V) (Fv : Forall (fun r => length r = n) V) (Hh : Forall (fun h => (0 <= h)%Z) hs).
  Context (D : describes (2 + n) (lifted n hs V) fs) (Sp : spans n V).
  Definition entry (i : nat) := nth i fs (true, []).
  Definition lower (i : nat) : bool := negb (fst (entry i)) && negb (nth (length V) (snd (entry i)) false).
  Definition piece (i : nat) : list (list Z) := cone_from_ray_set V (snd (entry i)).
  Lemma zero_last (y : nat -> Q) : pairing n y (repeat 0%Z n) == 0.
  Proof. unfold pairing. rewrite (sumq_ext n _ (fun _ => 0)), sumq_0; [reflexivity|]. intros k _. unfold zpoint. rewrite nth_repeat. change (inject_Z 0) with 0. ring. Qed.
  Lemma gens_in g : In g (lifted n hs V) <-> g = 0%Z :: 1%Z :: repeat 0%Z n \/ exists j, (j < length V)%nat /\ g = 0%Z :: nth j hs 0%Z :: nth j V [].
  Proof.
    split.
    - intros Hg. destruct (In_nth _ _ [] Hg) as (j & Hj & <-). rewrite lifted_length in Hj by exact Lh. destruct (Nat.eq_dec j (length V)) as [->|N]; [left; now apply lifted_last|right].
      exists j. split; [lia|]. apply lifted_nth; auto; lia.
    - intros [->|(j & Hj & ->)].
      + rewrite <- (lifted_last n hs V Lh). apply nth_In. rewrite lifted_length by exact Lh. lia.
      + rewrite <- (lifted_nth n hs V j Lh Fv Hj). apply nth_In. rewrite lifted_length by exact Lh. lia.
  Qed.
  Lemma vertical a : pairing (2 + n) a (0%Z :: 1%Z :: repeat 0%Z n) == a 1%nat.
  Proof. rewrite pairing_up, zero_last. change (inject_Z 1) with 1. ring. Qed.
  Lemma hs_pos j : (0 <= nth j hs 0)%Z.
  Proof. destruct (nth_in_or_default j hs 0%Z) as [H|H]; [rewrite Forall_forall in Hh; now apply Hh|lia]. Qed.
  Lemma inject_le0 z : (0 <= z)%Z -> 0 <= inject_Z z.
  Proof. intros H. change 0 with (inject_Z 0). now rewrite <- Zle_Qle. Qed.
  (** Everything in the lifted cone is above. *)
  Lemma above t x : in_gen (2 + n) (lifted n hs V) (up t x) -> 0 <= t.
  Proof.
    rewrite gen_iff. intros (L & H & E). specialize (E 1%nat ltac:(lia)). cbn [up] in E. rewrite E. clear E. induction L as [|p L IH]; cbn [mix]; [lra|].
    assert (0 <= mix L 1) by (apply IH; intros q Hq; apply H; now right). destruct (H p (or_introl eq_refl)) as [Hc Hg]. assert (0 <= zpoint (snd p) 1).
    { apply gens_in in Hg. destruct Hg as [->|(j & _ & ->)]; unfold zpoint; cbn [nth]; [change (inject_Z 1) with 1; lra|]. apply inject_le0, hs_pos. }
    pose proof (Qmult_le_0_compat _ _ Hc H1). lra.
  Qed.
  Theorem lower_facets :
    (forall i, (i < length fs)%nat -> lower i = true -> incl (piece i) V /\ spans n (piece i) /\ length (piece i) = set_card (snd (entry i))) /\
    (forall x, in_gen n V x -> exists i, (i < length fs)%nat /\ lower i = true /\ in_gen n (piece i) x) /\
    (forall i j, (i < length fs)%nat -> (j < length fs)%nat -> lower i = true -> lower j = true -> i <> j -> separated n (piece i) (piece j)).
  Proof.
    destruct D as (a & D1 & D2 & D3 & D4 & D5 & D6 & D7). cbv zeta in *. fold entry in *.
    assert (LW : forall i, (i < length fs)%nat -> lower i = true -> ((i < length fs)%nat /\ fst (entry i) = false) /\ 0 < a i 1%nat).
    { intros i Hi Hl. unfold lower in Hl. apply andb_true_iff in Hl. destruct Hl as [H1 H2]. apply negb_true_iff in H1. apply negb_true_iff in H2. assert (Fa : (i < length fs)%nat /\ fst (entry i) = false) by auto. split; [exact Fa|].
      assert (Iv : In (0%Z :: 1%Z :: repeat 0%Z n) (lifted n hs V)) by (apply gens_in; now left). pose proof (D2 i _ Fa Iv) as P. rewrite vertical in P. destruct (Qlt_le_dec 0 (a i 1%nat)) as [Q0|Q0]; [exact Q0|exfalso].
      assert (E : pairing (2 + n) (a i) (nth (length V) (lifted n hs V) []) == 0) by (rewrite lifted_last by exact Lh; rewrite vertical; lra). apply (D5 i (length V) Fa) in E; [unfold entry in H2; congruence|rewrite lifted_length by exact Lh; lia]. }
    assert (NL : forall i, (i < length fs)%nat -> fst (entry i) = false -> lower i = false -> a i 1%nat == 0).
    { intros i Hi Fi Hl. unfold lower in Hl. rewrite Fi in Hl. cbn [negb andb] in Hl. apply negb_false_iff in Hl. apply (D5 i (length V) (conj Hi Fi)) in Hl; [|rewrite lifted_length by exact Lh; lia]. rewrite lifted_last, vertical in Hl by exact Lh. exact Hl. }
    assert (PI : forall i r, (i < length fs)%nat -> lower i = true -> In r (piece i) <-> exists j, (j < length V)%nat /\ nth j V [] = r /\ a i 1%nat * inject_Z (nth j hs 0%Z) + pairing n (low (a i)) r == 0).
    { intros i r Hi Hl. destruct (LW i Hi Hl) as [Fa _]. unfold piece. rewrite select_in. split; intros (j & Hj & Er & H); exists j; (split; [exact Hj|]); (split; [exact Er|]).
      - apply (D5 i j Fa) in H; [|rewrite lifted_length by exact Lh; lia]. rewrite lifted_nth, pairing_up, Er in H by auto. exact H.
      - apply (D5 i j Fa); [rewrite lifted_length by exact Lh; lia|]. rewrite lifted_nth, pairing_up, Er by auto. exact H. }
    assert (Pos : forall i j, (i < length fs)%nat -> lower i = true -> (j < length V)%nat -> 0 <= a i 1%nat * inject_Z (nth j hs 0%Z) + pairing n (low (a i)) (nth j V [])).
    { intros i j Hi Hl Hj. destruct (LW i Hi Hl) as [Fa _]. rewrite <- pairing_up. apply (D2 i _ Fa). apply gens_in. right. exists j. auto. }
    split; [|split].
    - (* spanning *)
      intros i Hi Hl. destruct (LW i Hi Hl) as [Fa Ap]. split; [|split].
      + intros r Hr. apply (PI i r Hi Hl) in Hr. destruct Hr as (j & Hj & <- & _). now apply nth_In.
      + intros y Hy. destruct (D6 i (up 0 y) Fa) as (c & Hc).
        { intros g Hg E. apply gens_in in Hg. destruct Hg as [->|(j & Hj & ->)].
          - rewrite vertical in E. lra.
          - rewrite pairing_up in E |- *. cbn [up]. rewrite Qmult_0_l, Qplus_0_l. apply (Hy (nth j V [])). apply (PI i _ Hi Hl). exists j. auto. }
        assert (C0 : c == 0).
        { specialize (Hc (0%Z :: 1%Z :: repeat 0%Z n) ltac:(apply gens_in; now left)). rewrite !vertical in Hc. cbn [up] in Hc. symmetry in Hc. apply Qmult_integral in Hc. destruct Hc; [assumption|lra]. }
        apply Sp. intros r Hr. destruct (In_nth _ _ [] Hr) as (j & Hj & <-). specialize (Hc (0%Z :: nth j hs 0%Z :: nth j V []) ltac:(apply gens_in; right; exists j; auto)). rewrite C0, pairing_up in Hc. cbn [up] in Hc. change (low (up 0 y)) with y in Hc. lra.
      + apply select_card.
        * unfold entry. rewrite D4 by exact Hi. apply lifted_length, Lh.
        * unfold lower in Hl. apply andb_true_iff in Hl. destruct Hl as [_ H2]. now apply negb_true_iff in H2.
    - (* covering *)
      intros x Gx.
      (* some point above x *)
      assert (T0 : exists t0, in_gen (2 + n) (lifted n hs V) (up t0 x)).
      { destruct Gx as (b & B & X). exists (sumq (length V) (fun k => b k * inject_Z (nth k hs 0%Z))). apply gen_iff. exists (map (fun k => (b k, 0%Z :: nth k hs 0%Z :: nth k V [])) (seq 0 (length V))). split.
        - intros p Hp. apply in_map_iff in Hp. destruct Hp as (k & <- & Hk). apply in_seq in Hk. cbn [fst snd]. split; [apply B; lia|apply gens_in; right; exists k; split; [lia|reflexivity]].
        - intros i Hi. rewrite mix_seq. cbn [fst snd]. destruct i as [|[|i]]; cbn [up]; unfold zpoint; cbn [nth].
          + rewrite (sumq_ext _ _ (fun _ => 0)), sumq_0; [reflexivity|]. intros. change (inject_Z 0) with 0. ring.
          + apply sumq_ext. intros. reflexivity.
          + rewrite (X i ltac:(lia)). apply sumq_ext. intros. reflexivity. }
      destruct T0 as (t0 & G0).
      assert (VA : forall i, (i < length fs)%nat -> fst (entry i) = false -> 0 <= a i 1%nat * t0 + form n (low (a i)) x).
      { intros i Hi Fi. rewrite <- form_up. apply gen_iff in G0. destruct G0 as (L & H & E). rewrite (form_ext _ _ _ (mix L)) by exact E. rewrite form_mix. apply weigh_pos; intros p Hp; [now apply H|]. apply (D2 i); [split; auto|now apply H]. }
      assert (VE : forall i, (i < length fs)%nat -> fst (entry i) = true -> a i 1%nat == 0 /\ form n (low (a i)) x == 0).
      { intros i Hi Fi. assert (A0 : a i 1%nat == 0) by (rewrite <- vertical; apply (D1 i); auto; apply gens_in; now left). split; [exact A0|].
        assert (E : form (2 + n) (a i) (up t0 x) == 0); [|rewrite form_up, A0 in E; lra]. apply gen_iff in G0. destruct G0 as (L & H & E). rewrite (form_ext _ _ _ (mix L)) by exact E. rewrite form_mix. clear E. induction L as [|p L IH]; cbn [weigh]; [reflexivity|].
        rewrite IH by (intros q Hq; apply H; now right). rewrite (D1 i (snd p) Hi Fi) by (apply H; now left). ring. }
      (* if no facet is lower, the cone has points arbitrarily low *)
      assert (Gt : forall t, (forall i, (i < length fs)%nat -> lower i = true -> 0 <= a i 1%nat * t + form n (low (a i)) x) -> in_gen (2 + n) (lifted n hs V) (up t x)).
      { intros t Ht. apply D3.
        - intros i Hi Fi. destruct (VE i Hi Fi) as [E1 E2]. change (form (2 + n) (a i) (up t x) == 0). rewrite form_up, E1, E2. ring.
        - intros i [Hi Fi]. change (0 <= form (2 + n) (a i) (up t x)). rewrite form_up. destruct (lower i) eqn:El; [now apply Ht|]. pose proof (NL i Hi Fi El) as E0. pose proof (VA i Hi Fi) as H0. rewrite E0 in H0 |- *. lra. }
      assert (Ex : exists i, (i < length fs)%nat /\ lower i = true).
      { destruct (existsb lower (seq 0 (length fs))) eqn:E.
        - apply existsb_exists in E. destruct E as (i & Hi & H). apply in_seq in Hi. exists i. split; [lia|exact H].
        - exfalso. assert (G1 : in_gen (2 + n) (lifted n hs V) (up (-1) x)); [|apply above in G1; lra]. apply Gt. intros i Hi Hl. exfalso. assert (existsb lower (seq 0 (length fs)) = true) by (apply existsb_exists; exists i; split; [apply in_seq; lia|exact Hl]). congruence. }
      destruct (argmax lower (fun i => - form n (low (a i)) x * / a i 1%nat) (length fs) Ex) as (i & Hi & Hl & Mx). destruct (LW i Hi Hl) as [Fa Ap].
      set (t := - form n (low (a i)) x * / a i 1%nat) in *.
      assert (G1 : in_gen (2 + n) (lifted n hs V) (up t x)).
      { apply Gt. intros j Hj Hlj. destruct (LW j Hj Hlj) as [_ Aj]. specialize (Mx j Hj Hlj). cbv beta in Mx. set (u := - form n (low (a j)) x * / a j 1%nat) in *. assert (E : form n (low (a j)) x == - (a j 1%nat * u)) by (unfold u; field; lra). rewrite E. nra. }
      exists i. split; [exact Hi|]. split; [exact Hl|]. apply gen_iff in G1. destruct G1 as (L & H & E).
      assert (W0 : weigh (2 + n) (a i) L == 0).
      { rewrite <- form_mix, <- (form_ext _ _ _ _ E), form_up. unfold t. field. lra. }
      pose proof (weigh_zero (2 + n) (a i) L (fun p Hp => proj1 (H p Hp)) (fun p Hp => D2 i (snd p) Fa (proj2 (H p Hp))) W0) as Wz.
      (* drop the rays with coefficient zero *)
      apply gen_iff. exists (map (fun p => (fst p, tl (tl (snd p)))) (filter (fun p => negb (Qeq_bool (fst p) 0)) L)). split.
      + intros p Hp. apply in_map_iff in Hp. destruct Hp as (q & <- & Hq). apply filter_In in Hq. destruct Hq as [Hq Nq]. apply negb_true_iff in Nq. cbn [fst snd]. destruct (H q Hq) as [Cq Gq]. split; [exact Cq|].
        destruct (Wz q Hq) as [Z0|Z0]; [apply Qeq_bool_iff in Z0; congruence|]. apply gens_in in Gq. destruct Gq as [Eq|(j & Hj & Eq)]; rewrite Eq in *; [rewrite vertical in Z0; lra|]. rewrite pairing_up in Z0. cbn [tl]. apply (PI i _ Hi Hl). exists j. auto.
      + intros k Hk. specialize (E (S (S k)) ltac:(lia)). cbn [up] in E. rewrite E. clear -H Wz. induction L as [|p L IH]; [reflexivity|]. cbn [filter mix].
        specialize (IH (fun q Hq => H q (or_intror Hq)) (fun q Hq => Wz q (or_intror Hq))). destruct (Qeq_bool (fst p) 0) eqn:B; cbn [negb map mix fst snd].
        * apply Qeq_bool_iff in B. rewrite B, IH. ring.
        * rewrite IH. unfold zpoint. destruct (snd p) as [|u [|v r]]; cbn [nth tl]; [destruct k|destruct k|]; cbn [nth]; reflexivity.
    - (* separation *)
      intros i j Hi Hj Li Lj N. destruct (LW i Hi Li) as [Fi Ai]. destruct (LW j Hj Lj) as [Fj Aj].
      exists (fun k => low (a j) k * / a j 1%nat - low (a i) k * / a i 1%nat).
      assert (Pw : forall r, pairing n (fun k => low (a j) k * / a j 1%nat - low (a i) k * / a i 1%nat) r == / a j 1%nat * pairing n (low (a j)) r - / a i 1%nat * pairing n (low (a i)) r).
      { intros r. unfold pairing. setoid_replace (/ a j 1%nat * sumq n (fun k => low (a j) k * zpoint r k) - / a i 1%nat * sumq n (fun k => low (a i) k * zpoint r k)) with (/ a j 1%nat * sumq n (fun k => low (a j) k * zpoint r k) + (- / a i 1%nat) * sumq n (fun k => low (a i) k * zpoint r k)) by ring.
        rewrite <- !sumq_scal, <- sumq_add. apply sumq_ext. intros. ring. }
      split; [|split].
      + (* not zero *)
        destruct (existsb (fun k => negb (Qeq_bool (low (a j) k * / a j 1%nat - low (a i) k * / a i 1%nat) 0)) (seq 0 n)) eqn:Eb.
        * apply existsb_exists in Eb. destruct Eb as (k & Hk & Nk). apply in_seq in Hk. exists k. split; [lia|]. intros Z0. apply Qeq_bool_iff in Z0. rewrite Z0 in Nk. discriminate.
        * exfalso. apply N. apply (D7 i j Fi Fj). exists (a i 1%nat * / a j 1%nat). split; [apply Qmult_lt_0_compat; [exact Ai|now apply Qinv_lt_0_compat]|].
          assert (Z0 : forall r, / a j 1%nat * pairing n (low (a j)) r - / a i 1%nat * pairing n (low (a i)) r == 0).
          { intros r. rewrite <- Pw. unfold pairing. rewrite (sumq_ext n _ (fun _ => 0)), sumq_0; [reflexivity|]. intros k Hk. destruct (Qeq_bool (low (a j) k * / a j 1%nat - low (a i) k * / a i 1%nat) 0) eqn:B; [apply Qeq_bool_iff in B; rewrite B; ring|].
            exfalso. assert (existsb (fun k => negb (Qeq_bool (low (a j) k * / a j 1%nat - low (a i) k * / a i 1%nat) 0)) (seq 0 n) = true) by (apply existsb_exists; exists k; split; [apply in_seq; lia|now rewrite B]). congruence. }
          assert (Sc : forall r, pairing n (low (a i)) r == a i 1%nat * / a j 1%nat * pairing n (low (a j)) r).
          { intros r. specialize (Z0 r). assert (E : / a i 1%nat * pairing n (low (a i)) r == / a j 1%nat * pairing n (low (a j)) r) by lra. setoid_replace (pairing n (low (a i)) r) with (a i 1%nat * (/ a i 1%nat * pairing n (low (a i)) r)) by (field; lra). rewrite E. ring. }
          intros g Hg. apply gens_in in Hg. destruct Hg as [->|(l & Hl & ->)]; rewrite !pairing_up.
          -- rewrite (Sc (repeat 0%Z n)). change (inject_Z 1) with 1. field. lra.
          -- rewrite (Sc (nth l V [])). field. lra.
      + intros r Hr. apply (PI i r Hi Li) in Hr. destruct Hr as (l & Hl & <- & E). pose proof (Pos j l Hj Lj Hl) as P. rewrite Pw. set (h := inject_Z (nth l hs 0%Z)) in *. set (p := pairing n (low (a i)) (nth l V [])) in *. set (q := pairing n (low (a j)) (nth l V [])) in *.
        assert (E1 : / a i 1%nat * p == - h) by (assert (E2 : p == - (a i 1%nat * h)) by lra; rewrite E2; field; lra).
        assert (E3 : / a j 1%nat * q == / a j 1%nat * (a j 1%nat * h + q) - h) by (field; lra). rewrite E1, E3. pose proof (Qinv_lt_0_compat _ Aj) as IJ. pose proof (Qmult_le_0_compat (/ a j 1%nat) _ ltac:(lra) P). lra.
      + intros r Hr. apply (PI j r Hj Lj) in Hr. destruct Hr as (l & Hl & <- & E). pose proof (Pos i l Hi Li Hl) as P. rewrite Pw. set (h := inject_Z (nth l hs 0%Z)) in *. set (p := pairing n (low (a i)) (nth l V [])) in *. set (q := pairing n (low (a j)) (nth l V [])) in *.
        assert (E1 : / a j 1%nat * q == - h) by (assert (E2 : q == - (a j 1%nat * h)) by lra; rewrite E2; field; lra).
        assert (E3 : / a i 1%nat * p == / a i 1%nat * (a i 1%nat * h + p) - h) by (field; lra). rewrite E1, E3. pose proof (Qinv_lt_0_compat _ Ai) as IJ. pose proof (Qmult_le_0_compat (/ a i 1%nat) _ ltac:(lra) P). lra.
  Qed.
End Lower.
