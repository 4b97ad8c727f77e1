(** The answer of 4ti2 describes the lifted cone; the recursion. *)
From Coq Require Import QArith Qfield Lqa.
From Verif Require Import OmegaProofs3 EulerProofs Common Util UtilSpec UtilProofs HermiteProofs ZMat Det DetProofs PipedSpec Piped PipedProofs PipedProofs3 ConeSpec CountSpec BrionLinear BrionProofs4 BrionProofs5 Triang TriangSpec TriangProofs TriangProofs2 TriangProofs3 TriangProofs4 VertexConesSpec Dualize DualizeSpec DualizeProofs Tri4ti2 Tri4ti2Spec.
Open Scope Q_scope.

Lemma small_step (p q : list Z -> Q) W : (forall g, In g W -> p g <= 0) -> (forall g, In g W -> p g == 0 -> q g == 0) ->
  exists e, 0 < e /\ forall g, In g W -> p g + e * q g <= 0 /\ p g - e * q g <= 0.
Proof.
  induction W as [|g W IH]; intros A B; [exists 1; split; [lra|intros g []]|].
  destruct IH as (e & He & H); [intros; apply A; now right|intros; apply B; [now right|assumption]|].
  assert (A0 := A g (or_introl eq_refl)). assert (B0 := B g (or_introl eq_refl)). clear A B.
  assert (Sh : forall e' x y, 0 < e' -> e' <= e -> x + e * y <= 0 /\ x - e * y <= 0 -> x + e' * y <= 0 /\ x - e' * y <= 0).
  { intros e' x y P L (X1 & X2). destruct (Qlt_le_dec y 0) as [Y|Y]; split; nra. }
  destruct (Qlt_le_dec (p g) 0) as [L|L].
  - assert (G : exists e1, 0 < e1 /\ forall e', 0 < e' -> e' <= e1 -> p g + e' * q g <= 0 /\ p g - e' * q g <= 0).
    { destruct (Qlt_le_dec 0 (q g)) as [Y|Y]; [|destruct (Qlt_le_dec (q g) 0) as [Y'|Y']].
      - exists (- p g * / q g). assert (I := Qinv_lt_0_compat _ Y). split; [nra|]. intros e' P Le. assert (E : - p g * / q g * q g == - p g) by (field; lra). split; nra.
      - exists (- p g * / (- q g)). assert (I := Qinv_lt_0_compat (- q g) ltac:(lra)). split; [nra|]. intros e' P Le. assert (E : - p g * / (- q g) * (- q g) == - p g) by (field; lra). split; nra.
      - exists 1. split; [lra|]. intros e' P Le. assert (E : q g == 0) by lra. rewrite E. split; lra. }
    destruct G as (e1 & P1 & G). destruct (Qlt_le_dec e e1) as [C|C].
    + exists e. split; [exact He|]. intros h [<-|Hh]; [apply G; lra|now apply H].
    + exists e1. split; [exact P1|]. intros h [<-|Hh]; [apply G; lra|apply Sh; auto].
  - assert (E : p g == 0) by lra. specialize (B0 E). exists e. split; [exact He|]. intros h [<-|Hh]; [rewrite E, B0; split; lra|now apply H].
Qed.

Lemma sumq_front n f : sumq (S n) f == f 0%nat + sumq n (fun k => f (S k)).
Proof. change (S n) with (1 + n)%nat. rewrite sumq_split. assert (E : sumq 1 f == f 0%nat) by (cbn [sumq]; ring). rewrite E. reflexivity. Qed.
Section Bridge.
  Context (n : nat) (V : list (list Z)) (hs : list Z) (Lh : length hs = length V) (Fv : Forall (fun r => length r = n) V) (Sp : spans n V).
  Let W := lifted_rays n hs V.
  Let m := length V.
  Lemma W_length : length W = S m.
  Proof. unfold W, lifted_rays. rewrite app_length, map_length, combine_length, Lh, Nat.min_id. cbn. unfold m. lia. Qed.
  Lemma W_lifted : Triang.lifted n hs V = map (cons 0%Z) W.
  Proof.
    unfold Triang.lifted, W, lifted_rays. rewrite map_app, map_map. f_equal. apply map_ext. now intros (h, r).
  Qed.
  Lemma W_dim : Forall (fun g => length g = S n) W.
  Proof.
    assert (D := lifted_dim n hs V Lh Fv). rewrite W_lifted in D. rewrite Forall_forall in D |- *. intros g Hg. specialize (D (0%Z :: g) (in_map _ _ _ Hg)). cbn [length] in D. lia.
  Qed.
  Lemma pairing_cons a g : pairing (2 + n) a (0%Z :: g) == pairing (S n) (fun k => a (S k)) g.
  Proof.
    unfold pairing. change (2 + n)%nat with (1 + S n)%nat. rewrite sumq_split. rewrite (sumq_ext (S n) (fun k => a (1 + k)%nat * zpoint (0%Z :: g) (1 + k)%nat) (fun k => a (S k) * zpoint g k)) by (intros; reflexivity).
    assert (E : sumq 1 (fun k => a k * zpoint (0%Z :: g) k) == 0); [|rewrite E; ring]. cbn [sumq]. change (zpoint (0%Z :: g) 0) with (inject_Z 0). change (inject_Z 0) with 0. ring.
  Qed.
  Lemma W_in g : In g W <-> g = 1%Z :: repeat 0%Z n \/ exists j, (j < length V)%nat /\ g = nth j hs 0%Z :: nth j V [].
  Proof.
    assert (G := gens_in n V hs Lh Fv (0%Z :: g)). rewrite W_lifted in G. split.
    - intros H. destruct (proj1 G (in_map _ _ _ H)) as [E|(j & Hj & E)]; injection E as ->; [now left|right; now exists j].
    - intros H. assert (I : In (0%Z :: g) (map (cons 0%Z) W)) by (apply G; destruct H as [->|(j & Hj & ->)]; [now left|right; now exists j]). apply in_map_iff in I as (g' & E & I). now injection E as <-.
  Qed.
  Lemma W_pairing y h r : pairing (S n) y (h :: r) == y 0%nat * inject_Z h + pairing n (fun k => y (S k)) r.
  Proof.
    unfold pairing. change (S n) with (1 + n)%nat. rewrite sumq_split. rewrite (sumq_ext n (fun k => y (1 + k)%nat * zpoint (h :: r) (1 + k)%nat) (fun k => y (S k) * zpoint r k)) by (intros; reflexivity).
    assert (E : sumq 1 (fun k => y k * zpoint (h :: r) k) == y 0%nat * inject_Z h); [|rewrite E; ring]. cbn [sumq]. change (zpoint (h :: r) 0) with (inject_Z h). ring.
  Qed.
  Lemma W_spans : spans (S n) W.
  Proof.
    intros y H. assert (Y0 : y 0%nat == 0).
    { specialize (H (1%Z :: repeat 0%Z n) (proj2 (W_in _) (or_introl eq_refl))). rewrite W_pairing, zero_last in H. change (inject_Z 1) with 1 in H. lra. }
    assert (Y1 : forall k, (k < n)%nat -> y (S k) == 0).
    { apply Sp. intros r Hr. destruct (In_nth _ _ [] Hr) as (j & Hj & <-). specialize (H (nth j hs 0%Z :: nth j V []) (proj2 (W_in _) (or_intror (ex_intro _ j (conj Hj eq_refl))))). rewrite W_pairing, Y0 in H. lra. }
    intros [|k] Hk; [exact Y0|apply Y1; lia].
  Qed.
  Context (facets sub : list (list Z)).
  Context (RC : ray_contract (fun _ _ _ => (facets, sub)) (Dualize.lifted W) (S n + length W) (repeat true (length W) ++ repeat false (S n))%list).
  Let u (i : nat) : nat -> Q := last_of W (zpoint (nth i facets [])).
  Definition sides : list (bool * list bool) := (true, repeat true (S m)) :: map (zero_slacks m) facets.
  Definition normal (i : nat) : nat -> Q := match i with O => fun k => match k with O => 1 | _ => 0 end | S i => fun k => match k with O => 0 | S k => - u i k end end.
  Lemma no_subspace : sub = [].
  Proof. destruct RC as (R1 & _). apply R1. exact (spans_pointed (S n) W W_spans). Qed.
  Lemma u_in i : (i < length facets)%nat -> LC (S n) W (zpoint (nth i facets [])) /\ extreme (below (S n) W) (S n) (u i).
  Proof.
    intros Hi. destruct RC as (_ & R2). destruct (R2 (spans_pointed (S n) W W_spans)) as (A & _). destruct (A (nth i facets []) (nth_In facets [] Hi)) as (_ & X). split; [exact (proj1 X)|exact (extreme_down (S n) W _ X)].
  Qed.
  Lemma u_slack i j : (i < length facets)%nat -> (j < S m)%nat -> zpoint (nth i facets []) j == - pairing (S n) (u i) (nth j W []).
  Proof. intros Hi Hj. destruct (u_in i Hi) as (L & _). apply in_LC with (i := j) in L; [|rewrite W_length; exact Hj]. exact (proj1 L). Qed.
  Lemma normal_pairing i g : pairing (2 + n) (normal (S i)) (0%Z :: g) == - pairing (S n) (u i) g.
  Proof. rewrite pairing_cons. unfold pairing. cbn [normal]. rewrite (sumq_ext (S n) _ (fun k => (-1) * (u i k * zpoint g k))) by (intros; ring). rewrite sumq_scal. ring. Qed.
  Lemma side_S i : (S i < length sides)%nat -> (i < length facets)%nat /\ nth (S i) sides (true, []) = zero_slacks m (nth i facets []).
  Proof.
    intros H. cbn [sides length] in H. rewrite map_length in H. split; [lia|]. cbn [sides nth]. rewrite (nth_indep _ (true, []) (zero_slacks m [])) by (rewrite map_length; lia). exact (map_nth (zero_slacks m) facets [] i).
  Qed.
  Theorem answer_describes : describes (2 + n) (Triang.lifted n hs V) sides.
  Proof.
    rewrite W_lifted. exists normal. cbv zeta. assert (PT := spans_pointed (S n) W W_spans). destruct RC as (_ & R2). destruct (R2 PT) as (_ & _ & Gn & Un). clear R2.
    assert (Fac : forall i, (i < length sides)%nat /\ fst (nth i sides (true, [])) = false -> exists k, i = S k /\ (k < length facets)%nat /\ nth i sides (true, []) = zero_slacks m (nth k facets [])).
    { intros [|i] (Hi & Fi); [discriminate Fi|]. destruct (side_S i Hi) as (A & B). exists i. auto. }
    assert (Gin : forall g, In g (map (cons 0%Z) W) <-> exists w, In w W /\ g = 0%Z :: w) by (intros g; rewrite in_map_iff; split; [intros (w & <- & H); now exists w|intros (w & H & ->); now exists w]).
    split; [|split; [|split; [|split; [|split; [|split]]]]].
    - intros [|i] g Hi Fi Hg; [|destruct (side_S i Hi) as (_ & B); rewrite B in Fi; discriminate Fi]. apply Gin in Hg as (w & _ & ->). rewrite pairing_cons. unfold pairing. cbn [normal]. rewrite (sumq_ext (S n) _ (fun _ => 0)) by (intros; ring). apply sumq_0.
    - intros i g Fi Hg. apply Fac in Fi as (k & -> & Hk & _). apply Gin in Hg as (w & Hw & ->). rewrite normal_pairing. destruct (u_in k Hk) as (_ & (B & _)). specialize (B w Hw). unfold pairing. lra.
    - intros x E H. assert (E0 : x 0%nat == 0).
      { specialize (E 0%nat ltac:(cbn; lia) eq_refl). cbn [normal] in E. change (2 + n)%nat with (S (S n)) in E. rewrite (sumq_front (S n)) in E. rewrite (sumq_ext (S n) _ (fun _ => 0)) in E by (intros; ring). rewrite sumq_0 in E. lra. }
      assert (G : in_gen (S n) W (fun k => x (S k))).
      { apply farkas. intros y By. destruct (Gn _ (DualizeProofs.up_in (S n) W y By)) as (w & Wp & We).
        assert (Y : forall k, (k < S n)%nat -> y k == sumq (length facets) (fun i => w i * u i k)).
        { intros k Hk. rewrite <- (up_last (S n) W y k). unfold last_of at 1. rewrite (We (length W + k)%nat) by lia. reflexivity. }
        rewrite (sumq_ext (S n) _ (fun k => sumq (length facets) (fun i => w i * (x (S k) * u i k)))) by (intros k Hk; rewrite (Y k Hk), <- sumq_scal; apply sumq_ext; intros; ring).
        rewrite sumq_swap. apply sumq_nonpos. intros i Hi. rewrite sumq_scal. specialize (Wp i Hi).
        assert (Si : (S i < length sides)%nat) by (cbn [sides length]; rewrite map_length; lia). assert (Fi : fst (nth (S i) sides (true, [])) = false) by (rewrite (proj2 (side_S i Si)); reflexivity). specialize (H (S i) (conj Si Fi)).
        change (2 + n)%nat with (S (S n)) in H. rewrite (sumq_front (S n)) in H. cbn [normal] in H. rewrite (sumq_ext (S n) _ (fun k => (-1) * (x (S k) * u i k))) in H by (intros; ring). rewrite sumq_scal in H. nra. }
      apply gen_iff in G as (L & HL & EL). apply gen_iff. exists (map (fun p : Q * list Z => (fst p, 0%Z :: snd p)) L). split.
      + intros p Hp. apply in_map_iff in Hp as (q & <- & Hq). cbn [fst snd]. destruct (HL q Hq) as (A & B). split; [exact A|]. apply Gin. now exists (snd q).
      + intros [|i] Hi.
        * rewrite E0. clear. induction L as [|p L IH]; [reflexivity|]. cbn [map mix fst snd]. rewrite <- IH. unfold zpoint. cbn [nth]. change (inject_Z 0) with 0. ring.
        * rewrite (EL i ltac:(lia)). clear. induction L as [|p L IH]; [reflexivity|]. cbn [map mix fst snd]. rewrite <- IH. unfold zpoint. cbn [nth]. reflexivity.
    - intros [|i] Hi; [cbn [sides nth snd]; rewrite (map_length (cons 0%Z) W), W_length; apply repeat_length|]. destruct (side_S i Hi) as (_ & ->). unfold zero_slacks. cbn [snd]. rewrite !map_length, seq_length, W_length. reflexivity.
    - intros i j Fi Hj. apply Fac in Fi as (k & -> & Hk & ->). rewrite map_length, W_length in Hj. unfold zero_slacks. cbn [snd]. rewrite nth_map_seq by exact Hj.
      rewrite (nth_indep (map (cons 0%Z) W) [] (0%Z :: [])) by (rewrite map_length, W_length; exact Hj). rewrite (map_nth (cons 0%Z) W [] j), normal_pairing, <- (u_slack k j Hk Hj). unfold zpoint. rewrite Z.eqb_eq. split; [intros ->; reflexivity|]. intros E. exact (proj1 (inject_Z_injective _ 0%Z) E).
    - intros i y Fi H. apply Fac in Fi as (k & -> & Hk & _). destruct (u_in k Hk) as (_ & (B & _ & X)). set (y' := fun j => y (S j)).
      destruct (small_step (fun g => pairing (S n) (u k) g) (fun g => pairing (S n) y' g) W) as (e & He & St).
      + intros g Hg. exact (B g Hg).
      + intros g Hg E. unfold y'. rewrite <- pairing_cons. apply H; [apply Gin; now exists g|]. rewrite normal_pairing, E. reflexivity.
      + assert (Lin : forall s g, pairing (S n) (fun j => (1 # 2) * u k j + s * y' j) g == (1 # 2) * pairing (S n) (u k) g + s * pairing (S n) y' g).
        { intros s g. unfold pairing. rewrite <- !sumq_scal, <- sumq_add. apply sumq_ext. intros; ring. }
        destruct (X (fun j => (1 # 2) * u k j + (e * (1 # 2)) * y' j) (fun j => (1 # 2) * u k j + (- e * (1 # 2)) * y' j)) as (q & Hq).
        * intros g Hg. change (pairing (S n) (fun j => (1 # 2) * u k j + (e * (1 # 2)) * y' j) g <= 0). rewrite Lin. destruct (St g Hg). lra.
        * intros g Hg. change (pairing (S n) (fun j => (1 # 2) * u k j + (- e * (1 # 2)) * y' j) g <= 0). rewrite Lin. destruct (St g Hg). lra.
        * intros j _. ring.
        * exists (- ((2 * q - 1) * / e)). intros g Hg. apply Gin in Hg as (w & Hw & ->). rewrite normal_pairing, pairing_cons. change (fun k0 => y (S k0)) with y'.
          assert (P : pairing (S n) y' w == (2 * q - 1) * / e * pairing (S n) (u k) w); [|rewrite P; ring]. unfold pairing. rewrite <- sumq_scal. apply sumq_ext. intros j Hj. specialize (Hq j Hj). assert (E : e * y' j == (2 * q - 1) * u k j) by lra.
          setoid_replace (y' j) with (/ e * (e * y' j)) by (field; lra). rewrite E. ring.
    - intros i j Fi Fj (c & Hc & H). apply Fac in Fi as (k & -> & Hk & _). apply Fac in Fj as (l & -> & Hl & _). f_equal.
      assert (U : forall t, (t < S n)%nat -> u k t == c * u l t).
      { assert (Z0 : forall t, (t < S n)%nat -> u k t - c * u l t == 0).
        { apply W_spans. intros w Hw. specialize (H (0%Z :: w) ltac:(apply Gin; now exists w)). rewrite !normal_pairing in H. unfold pairing in *. rewrite (sumq_ext (S n) _ (fun t => u k t * zpoint w t + (- c) * (u l t * zpoint w t))) by (intros; ring). rewrite sumq_add, sumq_scal. lra. }
        intros t Ht. specialize (Z0 t Ht). lra. }
      assert (All : forall t, (t < S n + length W)%nat -> zpoint (nth k facets []) t == c * zpoint (nth l facets []) t).
      { intros t Ht. rewrite (LC_up (S n) W _ (proj1 (u_in k Hk)) t Ht), (LC_up (S n) W _ (proj1 (u_in l Hl)) t Ht). apply up_scal; [exact U|exact Ht]. }
      destruct (Nat.lt_trichotomy k l) as [L|[L|L]]; [exfalso; exact (Un k l c L Hl Hc All)|exact L|]. exfalso. apply (Un l k (/ c) L Hk (Qinv_lt_0_compat _ Hc)). intros t Ht. rewrite (All t Ht). field. lra.
  Qed.
End Bridge.

Lemma piece_shorter n V hs fs i : length hs = length V -> Forall (fun r => length r = n) V -> describes (2 + n) (Triang.lifted n hs V) fs -> (i < length fs)%nat -> lower V fs i = true ->
  ~ linear_heights n V hs -> (set_card (snd (entry fs i)) < length V)%nat.
Proof.
  intros Lh Fv D Hi Hl NL. destruct (lower_form n V hs fs i Lh Fv D Hi Hl) as (L & y & H). rewrite card_seq, L, seq_S, filter_app, app_length. cbn [plus filter].
  unfold lower in Hl. apply andb_true_iff in Hl. destruct Hl as [_ H2]. apply negb_true_iff in H2. rewrite H2. cbn [length]. rewrite Nat.add_0_r.
  apply Nat.nle_gt. intros Le. apply NL. exists y. intros j Hj. apply (H j Hj). revert j Hj Le. clear. set (f := fun j => nth j (snd (entry fs i)) false). intros j Hj Le. change (f j = true).
  assert (G : forall l, (length l <= length (filter f l))%nat -> forall x, In x l -> f x = true).
  { clear. assert (FL : forall l, (length (filter f l) <= length l)%nat) by (induction l as [|x l IH]; cbn [filter length]; [lia|destruct (f x); cbn [length]; lia]).
      induction l as [|x l IH]; intros Le y []; cbn [filter length] in Le; assert (B := FL l); destruct (f x) eqn:E; cbn [length] in Le; try lia; [now subst|apply IH; [lia|assumption]]. }
  apply (G (seq 0 (length V))); [now rewrite seq_length|apply in_seq; lia].
Qed.

Section Run4.
  Context (F : ray_oracle) (dep : list (list Z) -> list Z -> bool) (rnd : Z -> Z) (maxh : Z) (ns : bool) (n : nat) (rs : nat -> Z).
  Context (OC : oracle_contract F) (HR : double_rounding rnd) (HM : (1 <= maxh <= INT_MAX)%Z) (RS : forall k, (0 <= rs k < 2 ^ 31)%Z).
  Lemma heights4_ok h V k : nonneg_heights h -> exists hs k1, draw_heights4 rnd maxh h V rs k = Ok (hs, k1) /\ length hs = length V /\ Forall (fun h => (0 <= h)%Z) hs.
  Proof.
    intros NN. revert k. induction V as [|r V IH]; intros k; cbn [draw_heights4]; [exists [], k; auto|].
    assert (H : exists v k1, height4 rnd maxh h r rs k = Ok (v, k1) /\ (0 <= v)%Z).
    { destruct h as [b|p|sp]; cbn [height4].
      - destruct (heights_ok rnd maxh rs HR HM RS b [r] k) as (hs & k1 & E & L & P). cbn [draw_heights] in E. destruct (height rnd maxh b r rs k) as [(v, k2)|e]; [|discriminate E]. cbn [bind] in E. injection E as <- <-. exists v, k2. split; [reflexivity|]. now inversion P.
      - destruct (random_int_range rnd 0 99 (rs k) HR (RS k) eq_refl eq_refl ltac:(lia) ltac:(unfold INT_MAX; lia)) as (v & E & B). rewrite E. cbn [bind]. eexists _, _. split; [reflexivity|]. destruct (v <? p)%Z; lia.
      - eexists _, _. split; [reflexivity|]. destruct (find _ sp) as [s|] eqn:E; [|lia]. apply find_some in E as (I & _). exact (NN s I). }
    destruct H as (v & k1 & E & P). rewrite E. cbn [bind]. destruct (IH k1) as (hs & k2 & E2 & L & Fh). rewrite E2. cbn [bind]. exists (v :: hs), k2. split; [reflexivity|]. split; [cbn; lia|constructor; auto].
  Qed.
  (** A cone passed on although it need not be simplicial: its heights were all the same or linear. *)
  Definition flat (C : list (list Z)) : Prop := exists h hs k k', draw_heights4 rnd maxh h C rs k = Ok (hs, k') /\ (same_heights hs = true \/ dep C hs = true).
  Definition good4 (fine : list (list Z) -> Prop) (V : list (list Z)) (Cs : list (list (list Z))) : Prop :=
    (forall C, In C Cs -> incl C V /\ spans n C /\ (ns = false -> fine C)) /\ (forall x, in_gen n V x -> exists C, In C Cs /\ in_gen n C x) /\ pairwise (separated n) Cs.
  Lemma walk_ok4 (fine : list (list Z) -> Prop) rec V fs (pc := piece V fs) (lo := lower V fs) :
    (forall C, length C = n -> fine C) ->
    (forall i, (i < length fs)%nat -> lo i = true -> incl (pc i) V /\ spans n (pc i) /\ length (pc i) = set_card (snd (entry fs i))) ->
    (forall i j, (i < length fs)%nat -> (j < length fs)%nat -> lo i = true -> lo j = true -> i <> j -> separated n (pc i) (pc j)) ->
    (forall i k cs k1, (i < length fs)%nat -> lo i = true -> (n < set_card (snd (entry fs i)))%nat -> rec (pc i) k = Ok (cs, k1) -> good4 fine (pc i) cs) ->
    forall is k Cs k1, NoDup is -> (forall i, In i is -> (i < length fs)%nat) -> walk rec ns n V (map (entry fs) is) k = Ok (Cs, k1) ->
    (forall C, In C Cs -> exists i, In i is /\ lo i = true /\ incl C (pc i) /\ spans n C /\ (ns = false -> fine C)) /\
    (forall i x, In i is -> lo i = true -> in_gen n (pc i) x -> exists C, In C Cs /\ in_gen n C x) /\ pairwise (separated n) Cs.
  Proof.
    intros FI P1 P2 R. induction is as [|i is IH]; intros k Cs k1 ND Hi H; cbn [map walk] in H.
    - injection H as <- <-. split; [intros C []|]. split; [intros i x []|exact I].
    - inversion ND as [|i' is' Ni ND']; subst. destruct (entry fs i) as [eq set] eqn:Ei.
      assert (Skip : lo i = false -> forall Cs k1, walk rec ns n V (map (entry fs) is) k = Ok (Cs, k1) ->
        (forall C, In C Cs -> exists j, In j (i :: is) /\ lo j = true /\ incl C (pc j) /\ spans n C /\ (ns = false -> fine C)) /\
        (forall j x, In j (i :: is) -> lo j = true -> in_gen n (pc j) x -> exists C, In C Cs /\ in_gen n C x) /\ pairwise (separated n) Cs).
      { intros L0 Cs' k' H'. destruct (IH k Cs' k' ND' (fun j Hj => Hi j (or_intror Hj)) H') as (A1 & A2 & A3). split; [|split; [|exact A3]].
        - intros C HC. destruct (A1 C HC) as (j & Hj & B). exists j. split; [now right|exact B].
        - intros j x [->|Hj] Lj G; [congruence|]. apply (A2 j x Hj Lj G). }
      destruct eq; [apply (Skip ltac:(unfold lo, lower; now rewrite Ei) _ _ H)|].
      destruct (nth (length V) set false) eqn:Es; [apply (Skip ltac:(unfold lo, lower; rewrite Ei; cbn [fst snd negb andb]; now rewrite Es) _ _ H)|].
      assert (Lo : lo i = true) by (unfold lo, lower; rewrite Ei; cbn [fst snd negb andb]; now rewrite Es).
      assert (Hi0 : (i < length fs)%nat) by (apply Hi; now left). destruct (P1 i Hi0 Lo) as (I1 & S1 & C1). assert (R0 := fun k cs k1 => R i k cs k1 Hi0 Lo). rewrite Ei in C1, R0. cbn [snd] in C1, R0.
      assert (Ec : cone_from_ray_set V set = pc i) by (unfold pc, piece; now rewrite Ei). rewrite Ec in H. clear Skip.
      assert (Fin : forall cs, good4 fine (pc i) cs -> forall k2 ds k3, walk rec ns n V (map (entry fs) is) k2 = Ok (ds, k3) ->
        (forall C, In C (cs ++ ds) -> exists j, In j (i :: is) /\ lo j = true /\ incl C (pc j) /\ spans n C /\ (ns = false -> fine C)) /\
        (forall j x, In j (i :: is) -> lo j = true -> in_gen n (pc j) x -> exists C, In C (cs ++ ds) /\ in_gen n C x) /\ pairwise (separated n) (cs ++ ds)).
      { intros cs (G1 & G2 & G3) k2 ds k3 H2. destruct (IH k2 ds k3 ND' (fun j Hj => Hi j (or_intror Hj)) H2) as (A1 & A2 & A3). split; [|split].
        - intros C HC. apply in_app_iff in HC. destruct HC as [HC|HC].
          + exists i. destruct (G1 C HC) as (B1 & B2 & B3). split; [now left|]. auto.
          + destruct (A1 C HC) as (j & Hj & B). exists j. split; [now right|exact B].
        - intros j x [<-|Hj] Lj G.
          + destruct (G2 x G) as (C & HC & B). exists C. split; [apply in_app_iff; now left|exact B].
          + destruct (A2 j x Hj Lj G) as (C & HC & B). exists C. split; [apply in_app_iff; now right|exact B].
        - apply pairwise_app; auto. intros C C' HC HC'. destruct (G1 C HC) as (B1 & _ & _). destruct (A1 C' HC') as (j & Hj & Lj & B2 & _).
          apply (separated_incl n (pc i) (pc j)); auto. apply P2; auto; [apply Hi; now right|]. intros ->. contradiction. }
      destruct ((n <? set_card set)%nat && negb ns) eqn:E1.
      + apply andb_true_iff in E1 as (E1 & _). apply Nat.ltb_lt in E1. destruct (rec (pc i) k) as [[cs k2]|] eqn:Er; [|discriminate H]. cbn [bind] in H. destruct (walk rec ns n V (map (entry fs) is) k2) as [[ds k3]|] eqn:Ew; [|discriminate H]. cbn [bind] in H. injection H as <- <-.
        apply (Fin cs (R0 k cs k2 E1 Er) k2 ds k3 Ew).
      + destruct (Nat.ltb_spec (set_card set) n) as [Lt|Ge]; [discriminate H|]. destruct (walk rec ns n V (map (entry fs) is) k) as [[ds k3]|] eqn:Ew; [|discriminate H]. cbn [bind] in H. injection H as <- <-.
        apply (Fin [pc i]) with (k2 := k) (k3 := k3); [|exact Ew]. split; [|split].
        * intros C [<-|[]]. split; [apply incl_refl|]. split; [exact S1|]. intros N. apply FI. rewrite N in E1. rewrite C1. cbn [negb] in E1. rewrite andb_true_r in E1. apply Nat.ltb_ge in E1. lia.
        * intros x G. exists (pc i). split; [now left|exact G].
        * cbn [pairwise]. split; [intros y []|exact I].
  Qed.
  Lemma single_good4 (fine : list (list Z) -> Prop) V : spans n V -> (ns = false -> fine V) -> good4 fine V [V].
  Proof. intros Sp L. split; [intros C [<-|[]]; split; [apply incl_refl|auto]|]. split; [intros x G; exists V; split; [now left|exact G]|cbn; split; auto; intros y []]. Qed.
  (** One level. *)
  Lemma level (fine : list (list Z) -> Prop) fuel h V k Cs k1 : nonneg_heights h -> Forall (fun r => length r = n) V -> spans n V ->
    (forall C, length C = n -> fine C) ->
    (forall hs k', draw_heights4 rnd maxh h V rs k = Ok (hs, k') -> same_heights hs = true \/ dep V hs = true -> ns = false -> fine V) ->
    (forall hs k' fs, draw_heights4 rnd maxh h V rs k = Ok (hs, k') -> describes (2 + n) (Triang.lifted n hs V) fs -> same_heights hs = false -> dep V hs = false ->
      forall i k2 cs k3, (i < length fs)%nat -> lower V fs i = true -> (n < set_card (snd (entry fs i)))%nat -> incl (piece V fs i) V -> spans n (piece V fs i) ->
      triangulate_4ti2 F dep rnd maxh ns n rs fuel (Basic RandomHeights) (piece V fs i) k2 = Ok (cs, k3) -> good4 fine (piece V fs i) cs) ->
    triangulate_4ti2 F dep rnd maxh ns n rs (S fuel) h V k = Ok (Cs, k1) -> good4 fine V Cs.
  Proof.
    intros NN FV Sp FI FL R H. cbn [triangulate_4ti2] in H. destruct (heights4_ok h V k NN) as (hs & k2 & Eh & Lh & Fh). rewrite Eh in H, FL, R. cbn [bind] in H.
    specialize (FL hs k2 eq_refl). specialize (R hs k2).
    destruct (same_heights hs) eqn:Es; [injection H as <- <-; apply single_good4; auto|]. destruct (existsb _ V); [discriminate H|]. destruct (dep V hs) eqn:Ed; [injection H as <- <-; apply single_good4; auto|].
    destruct (F _ _ _) as [(facets, sub)|] eqn:EF; [|discriminate H].
    assert (RC := OC (S n) (lifted_rays n hs V) (facets, sub) (W_dim n V hs Lh FV)). cbv zeta in RC. rewrite (W_length n V hs Lh) in RC. specialize (RC EF). rewrite <- (W_length n V hs Lh) in RC.
    assert (S0 := no_subspace n V hs Lh FV Sp facets sub RC). subst sub. cbn [length] in H. rewrite Nat.sub_0_r in H.
    assert (D := answer_describes n V hs Lh FV Sp facets [] RC). set (fs := sides V facets) in *.
    change (walk (triangulate_4ti2 F dep rnd maxh ns n rs fuel (Basic RandomHeights)) ns n V fs k2 = Ok (Cs, k1)) in H.
    destruct (lower_facets n V hs fs Lh FV Fh D Sp) as (P1 & P2 & P3). rewrite <- (entries fs) in H.
    destruct (walk_ok4 fine _ V fs FI P1 P3 (fun i k0 cs k3 Hi Hl Hc E => R fs eq_refl D eq_refl eq_refl i k0 cs k3 Hi Hl Hc (proj1 (P1 i Hi Hl)) (proj1 (proj2 (P1 i Hi Hl))) E) (seq 0 (length fs)) k2 Cs k1 (seq_NoDup _ _) ltac:(intros i Hi; apply in_seq in Hi; lia) H) as (A1 & A2 & A3).
    split; [|split; [|exact A3]].
    - intros C HC. destruct (A1 C HC) as (i & Hi & Hl & I1 & S1 & N1). apply in_seq in Hi. split; [|auto]. intros r Hr. apply (proj1 (P1 i ltac:(lia) Hl)), I1, Hr.
    - intros x G. destruct (P2 x G) as (i & Hi & Hl & Gi). apply (A2 i x); auto. apply in_seq. lia.
  Qed.
  Definition simple_or_flat (C : list (list Z)) : Prop := length C = n \/ flat C.
  Lemma run_ok4 fuel : forall h V k Cs k1, nonneg_heights h -> Forall (fun r => length r = n) V -> spans n V -> triangulate_4ti2 F dep rnd maxh ns n rs fuel h V k = Ok (Cs, k1) -> good4 simple_or_flat V Cs.
  Proof.
    induction fuel as [|fuel IH]; intros h V k Cs k1 NN FV Sp H; [discriminate H|]. eapply level; eauto.
    - intros C L. now left.
    - intros hs k' E S0 _. right. exists h, hs, k, k'. auto.
    - intros hs k' fs Eh D Es Ed i k2 cs k3 Hi Hl Hc I1 S1 E. apply (IH (Basic RandomHeights) (piece V fs i) k2 cs k3); auto; [exact Logic.I|]. rewrite Forall_forall in FV |- *. intros r Hr. apply FV, I1, Hr.
  Qed.
  (** The recursion ends: the pieces have fewer rays. *)
  Lemma walk_total (rec : list (list Z) -> nat -> outcome (list (list (list Z)) * nat)) V fs (pc := piece V fs) (lo := lower V fs) (bad : Prop) :
    (forall i, (i < length fs)%nat -> lo i = true -> spans n (pc i) /\ length (pc i) = set_card (snd (entry fs i))) ->
    (forall i k, (i < length fs)%nat -> lo i = true -> (exists r, rec (pc i) k = Ok r) \/ bad /\ rec (pc i) k = Err Exited) ->
    forall is k, (forall i, In i is -> (i < length fs)%nat) -> (exists r, walk rec ns n V (map (entry fs) is) k = Ok r) \/ bad /\ walk rec ns n V (map (entry fs) is) k = Err Exited.
  Proof.
    intros P1 R. induction is as [|i is IH]; intros k Hi; cbn [map walk]; [left; eexists; reflexivity|]. destruct (entry fs i) as [eq set] eqn:Ei. assert (IH' := fun k => IH k (fun j Hj => Hi j (or_intror Hj))). clear IH.
    destruct eq; [apply IH'|]. destruct (nth (length V) set false) eqn:Es; [apply IH'|].
    assert (Lo : lo i = true) by (unfold lo, lower; rewrite Ei; cbn [fst snd negb andb]; now rewrite Es).
    assert (Hi0 : (i < length fs)%nat) by (apply Hi; now left). destruct (P1 i Hi0 Lo) as (S1 & C1). rewrite Ei in C1. cbn [snd] in C1.
    assert (Ec : cone_from_ray_set V set = pc i) by (unfold pc, piece; now rewrite Ei). rewrite Ec. destruct ((n <? set_card set)%nat && negb ns) eqn:E1.
    - destruct (R i k Hi0 Lo) as [((cs, k2) & E)|(B & E)]; rewrite E; cbn [bind]; [|now right]. destruct (IH' k2) as [((ds, k3) & E2)|(B & E2)]; rewrite E2; cbn [bind]; [left; eexists; reflexivity|now right].
    - destruct (Nat.ltb_spec (set_card set) n) as [Lt|Ge]; [exfalso; pose proof (spans_enough n _ S1); lia|]. destruct (IH' k) as [((ds, k3) & E2)|(B & E2)]; rewrite E2; cbn [bind]; [left; eexists; reflexivity|now right].
  Qed.
  Context (RK : rank_contract n dep).
  Lemma run_total fuel : forall h V k, nonneg_heights h -> Forall (fun r => length r = n) V -> spans n V -> (length V < fuel)%nat ->
    (exists r, triangulate_4ti2 F dep rnd maxh ns n rs fuel h V k = Ok r) \/ (exists A d s, F A d s = None) /\ triangulate_4ti2 F dep rnd maxh ns n rs fuel h V k = Err Exited.
  Proof.
    induction fuel as [|fuel IH]; intros h V k NN FV Sp Lf; [lia|]. cbn [triangulate_4ti2]. destruct (heights4_ok h V k NN) as (hs & k2 & Eh & Lh & Fh). rewrite Eh. cbn [bind].
    destruct (same_heights hs); [left; eexists; reflexivity|].
    assert (E0 : existsb (fun r => (length r <? n)%nat) V = false).
    { destruct (existsb _ V) eqn:E; [|reflexivity]. apply existsb_exists in E. destruct E as (r & Hr & L). apply Nat.ltb_lt in L. rewrite Forall_forall in FV. rewrite (FV r Hr) in L. lia. }
    rewrite E0. destruct (dep V hs) eqn:Ed; [left; eexists; reflexivity|]. assert (NL : ~ linear_heights n V hs) by (intros L; apply (RK V hs FV Lh) in L; congruence).
    destruct (F _ _ _) as [(facets, sub)|] eqn:EF; [|right; split; [eexists _, _, _; exact EF|reflexivity]].
    assert (RC := OC (S n) (lifted_rays n hs V) (facets, sub) (W_dim n V hs Lh FV)). cbv zeta in RC. rewrite (W_length n V hs Lh) in RC. specialize (RC EF). rewrite <- (W_length n V hs Lh) in RC.
    assert (S0 := no_subspace n V hs Lh FV Sp facets sub RC). subst sub. cbn [length]. rewrite Nat.sub_0_r.
    assert (D := answer_describes n V hs Lh FV Sp facets [] RC). set (fs := sides V facets) in *.
    change (walk (triangulate_4ti2 F dep rnd maxh ns n rs fuel (Basic RandomHeights)) ns n V (map (zero_slacks (length V)) facets) k2) with (walk (triangulate_4ti2 F dep rnd maxh ns n rs fuel (Basic RandomHeights)) ns n V fs k2).
    destruct (lower_facets n V hs fs Lh FV Fh D Sp) as (P1 & P2 & P3). rewrite <- (entries fs).
    apply (walk_total _ V fs (exists A d s, F A d s = None)); [intros i Hi Hl; apply (P1 i Hi Hl)| |intros i Hi; apply in_seq in Hi; lia].
    intros i k3 Hi Hl. destruct (P1 i Hi Hl) as (I1 & S1 & C1). assert (Sh := piece_shorter n V hs fs i Lh FV D Hi Hl NL).
    apply (IH (Basic RandomHeights) (piece V fs i) k3); [exact Logic.I| |exact S1|unfold piece in *; lia]. rewrite Forall_forall in FV |- *. intros r Hr. apply FV, I1, Hr.
  Qed.
  Lemma run_generic fuel h V k hs k1 Cs k2 : nonneg_heights h -> Forall (fun r => length r = n) V -> spans n V -> draw_heights4 rnd maxh h V rs k = Ok (hs, k1) -> generic_heights n V hs -> same_heights hs = false ->
    triangulate_4ti2 F dep rnd maxh ns n rs fuel h V k = Ok (Cs, k2) -> good4 (fun C => length C = n) V Cs.
  Proof.
    intros NN FV Sp Eh G Es H. destruct fuel as [|fuel]; [discriminate H|]. assert (Lh : length hs = length V) by (destruct (heights4_ok h V k NN) as (hs' & k' & E & L & _); congruence).
    eapply level; eauto.
    - intros hs' k' E [S0|S0] _; [congruence|]. assert (hs' = hs) by congruence. subst hs'. apply (RK V hs FV Lh) in S0 as (y & Hy). specialize (G y). assert (E1 : filter (fun j => Qeq_bool (inject_Z (nth j hs 0%Z)) (pairing n y (nth j V []))) (seq 0 (length V)) = seq 0 (length V)).
      { assert (K : forall l, (forall j, In j l -> (j < length V)%nat) -> filter (fun j => Qeq_bool (inject_Z (nth j hs 0%Z)) (pairing n y (nth j V []))) l = l).
        { induction l as [|j l IHl]; intros B; [reflexivity|]. cbn [filter]. rewrite (proj2 (Qeq_bool_iff _ _) (Hy j (B j (or_introl eq_refl)))). f_equal. apply IHl. intros i Hi. apply B. now right. }
        apply K. intros j Hj. apply in_seq in Hj. lia. }
      rewrite E1, seq_length in G. pose proof (spans_enough n V Sp). lia.
    - intros hs' k' fs E D _ _ i k3 cs k4 Hi Hl Hc _ _ _. assert (hs' = hs) by congruence. subst hs'. pose proof (generic_card n V hs fs i Lh FV D Hi Hl G). lia.
  Qed.
End Run4.

(** The rank test by elimination: it meets rank_contract. *)
Definition columns (n : nat) (V : list (list Z)) : list (list Z) := map (fun k => map (fun r => nth k r 0%Z) V) (seq 0 n).
Definition rank_test (n : nat) (V : list (list Z)) (hs : list Z) : bool := EulerProofs.satb (length V) (gen_rows (length V) (with_lines [] (columns n V))) (zpoint hs).
Lemma columns_at n V k j : (k < n)%nat -> (j < length V)%nat -> nth j (nth k (columns n V) []) 0%Z = nth k (nth j V []) 0%Z.
Proof.
  intros Hk Hj. unfold columns. rewrite nth_map_seq by exact Hk. rewrite (nth_indep _ 0%Z (nth k [] 0%Z)) by (rewrite map_length; exact Hj). exact (map_nth (fun r => nth k r 0%Z) V [] j).
Qed.
Lemma rank_test_ok n : rank_contract n (rank_test n).
Proof.
  intros V hs _ _. unfold rank_test. rewrite gen_ok. assert (Lc : length (columns n V) = n) by (unfold columns; now rewrite map_length, seq_length).
  assert (L2 : length (with_lines [] (columns n V)) = (n + n)%nat) by (unfold with_lines; cbn [app]; rewrite app_length, map_length, Lc; lia).
  assert (Sp : forall a j, (j < length V)%nat -> sumq (length (with_lines [] (columns n V))) (fun k => a k * inject_Z (vat (with_lines [] (columns n V)) k j)) == pairing n (fun k => a k - a (n + k)%nat) (nth j V [])).
  { intros a j Hj. rewrite L2, sumq_split. unfold pairing. rewrite <- sumq_add. apply sumq_ext. intros k Hk. unfold vat, with_lines. cbn [app]. rewrite app_nth1 by lia. rewrite app_nth2 by lia. rewrite Lc. replace (n + k - n)%nat with k by lia.
    rewrite (nth_indep (map (map Z.opp) (columns n V)) [] (map Z.opp [])) by (rewrite map_length; lia). rewrite (map_nth (map Z.opp) (columns n V) [] k). change 0%Z with (Z.opp 0) at 2. rewrite (map_nth Z.opp), columns_at by assumption. rewrite inject_Z_opp. unfold zpoint. ring. }
  split.
  - intros (a & _ & E). exists (fun k => a k - a (n + k)%nat). intros j Hj. rewrite <- (Sp a j Hj). exact (E j Hj).
  - intros (y & H). exists (fun k => if (k <? n)%nat then (if Qle_bool 0 (y k) then y k else 0) else (if Qle_bool 0 (y (k - n)%nat) then 0 else - y (k - n)%nat)). split.
    + intros k _. destruct (k <? n)%nat; [destruct (Qle_bool 0 (y k)) eqn:B; [now apply Qle_bool_iff|lra]|]. destruct (Qle_bool 0 (y (k - n)%nat)) eqn:B; [lra|]. destruct (Qlt_le_dec (y (k - n)%nat) 0) as [L|L]; [lra|]. apply Qle_bool_iff in L. congruence.
    + intros j Hj. rewrite Sp by exact Hj. change (zpoint hs j) with (inject_Z (nth j hs 0%Z)). rewrite (H j Hj). apply sumq_ext. intros k Hk. apply Nat.ltb_lt in Hk as E. rewrite E. replace (n + k <? n)%nat with false by (symmetry; apply Nat.ltb_ge; lia). replace (n + k - n)%nat with k by lia.
      destruct (Qle_bool 0 (y k)); ring.
Qed.
(** Extreme rays, once the rays generate a cone. *)
Lemma comb_in A d s N (w : nat -> Q) (r : nat -> nat -> Q) : (forall i, (i < N)%nat -> 0 <= w i) -> (forall i, (i < N)%nat -> in_signed_cone A d s (r i)) -> in_signed_cone A d s (fun k => sumq N (fun i => w i * r i k)).
Proof.
  intros Hw Hr. split.
  - intros a Ha. rewrite (sumq_ext d _ (fun k => sumq N (fun i => w i * (inject_Z (nth k a 0%Z) * r i k)))) by (intros k _; rewrite <- sumq_scal; apply sumq_ext; intros; ring).
    rewrite sumq_swap, (sumq_ext N _ (fun _ => 0)), sumq_0; [reflexivity|]. intros i Hi. rewrite sumq_scal. destruct (Hr i Hi) as (E & _). rewrite (E a Ha). ring.
  - intros k Hk Sk. rewrite <- (sumq_0 N). apply sumq_le. intros i Hi. destruct (Hr i Hi) as (_ & P). specialize (P k Hk Sk). specialize (Hw i Hi). nra.
Qed.
Lemma extreme_from_gen A d s rays z : (forall i, (i < length rays)%nat -> in_signed_cone A d s (zpoint (nth i rays []))) ->
  (forall i, (i < length rays)%nat -> exists k, (k < d)%nat /\ nth k s false = true /\ 0 < zpoint (nth i rays []) k) ->
  (exists w, (forall i, (i < length rays)%nat -> 0 <= w i) /\ forall k, (k < d)%nat -> z k == sumq (length rays) (fun i => w i * zpoint (nth i rays []) k)) ->
  extreme (in_signed_cone A d s) d z -> exists r q, In r rays /\ 0 < q /\ forall k, (k < d)%nat -> z k == q * zpoint r k.
Proof.
  intros Hr Hp (w & Hw & E) ((_ & Pz) & N & X). destruct (existsb (fun i => negb (Qle_bool (w i) 0)) (seq 0 (length rays))) eqn:B.
  - apply existsb_exists in B as (i & Hi & B). apply in_seq in Hi. apply negb_true_iff in B. assert (W0 : 0 < w i) by (destruct (Qlt_le_dec 0 (w i)) as [L|L]; [exact L|apply Qle_bool_iff in L; congruence]).
    assert (I : (i < length rays)%nat) by lia. destruct (X (fun k => sumq (length rays) (fun l => (if Nat.eqb l i then w l else 0) * zpoint (nth l rays []) k)) (fun k => sumq (length rays) (fun l => (if Nat.eqb l i then 0 else w l) * zpoint (nth l rays []) k))) as (q & Hq).
    + apply comb_in; [|exact Hr]. intros l Hl. destruct (Nat.eqb l i); [now apply Hw|lra].
    + apply comb_in; [|exact Hr]. intros l Hl. destruct (Nat.eqb l i); [lra|now apply Hw].
    + intros k Hk. rewrite (E k Hk), <- sumq_add. apply sumq_ext. intros l _. destruct (Nat.eqb l i); ring.
    + assert (G : forall k, (k < d)%nat -> w i * zpoint (nth i rays []) k == q * z k).
      { intros k Hk. rewrite <- (Hq k Hk). rewrite (sumq_single (length rays) _ i I); [rewrite Nat.eqb_refl; reflexivity|]. intros l Hl Nl. apply Nat.eqb_neq in Nl. rewrite Nl. ring. }
      destruct (Hp i I) as (k0 & Hk0 & Sk & P0). specialize (Pz k0 Hk0 Sk). assert (G0 := G k0 Hk0). assert (Q0 : 0 < q) by (destruct (Qlt_le_dec 0 q) as [L|L]; [exact L|exfalso; nra]).
      exists (nth i rays []), (w i * / q). split; [now apply nth_In|]. split; [apply Qmult_lt_0_compat; [exact W0|now apply Qinv_lt_0_compat]|]. intros k Hk. setoid_replace (w i * / q * zpoint (nth i rays []) k) with (/ q * (w i * zpoint (nth i rays []) k)) by (field; lra). rewrite (G k Hk). field. lra.
  - exfalso. apply N. intros k Hk. rewrite (E k Hk), (sumq_ext _ _ (fun _ => 0)), sumq_0; [reflexivity|]. intros i Hi. assert (w i == 0); [|rewrite H; ring]. specialize (Hw i Hi). destruct (Qlt_le_dec 0 (w i)) as [L|L]; [|lra]. exfalso.
    assert (T : existsb (fun i => negb (Qle_bool (w i) 0)) (seq 0 (length rays)) = true); [|congruence]. apply existsb_exists. exists i. split; [apply in_seq; lia|]. apply negb_true_iff. destruct (Qle_bool (w i) 0) eqn:B2; [|reflexivity]. apply Qle_bool_iff in B2. lra.
Qed.
