(** Brion's theorem, part 1: indicator functions of polyhedra. *)
From Coq Require Import QArith Qabs Qminmax Lqa.
From Verif Require Import Common ZMat PipedSpec PipedProofs PipedProofs3 ConeSpec CountSpec BrionLinear.
Open Scope Z_scope.

Definition lsum (l : list Z) : Z := fold_right Z.add 0 l.
Lemma lsum_app l l' : lsum (l ++ l') = lsum l + lsum l'.
Proof. induction l as [|x l IH]; cbn [app lsum fold_right]; [reflexivity|]. unfold lsum in *. cbn [fold_right]. rewrite IH. lia. Qed.
Lemma lsum_cons x l : lsum (x :: l) = x + lsum l.
Proof. reflexivity. Qed.
Notation rows_t := (list (list Z)).
Definition ev (f : rows_t -> Z) (L : list (Z * rows_t)) : Z := lsum (map (fun t => fst t * f (snd t)) L).
Lemma ev_app f L L' : ev f (L ++ L') = ev f L + ev f L'.
Proof. unfold ev. rewrite map_app. apply lsum_app. Qed.
Lemma ev_cons f t L : ev f (t :: L) = fst t * f (snd t) + ev f L.
Proof. reflexivity. Qed.
Lemma ev_scale f c L : ev f (map (fun t => (c * fst t, snd t)) L) = c * ev f L.
Proof. induction L as [|t L IH]; [cbn; lia|]. cbn [map]. rewrite !ev_cons, IH. cbn [fst snd]. ring. Qed.
Definition b2z (b : bool) : Z := if b then 1 else 0.
Definition full_ind (b : list Z -> bool) (T : rows_t) : Z := b2z (forallb b T).
Definition neg_ind (b : list Z -> bool) (A B : rows_t) : Z := b2z (forallb (fun c => negb (b c)) A && forallb b B).

Lemma ev_guard b a L : ev (full_ind b) (map (fun t => (fst t, a :: snd t)) L) = b2z (b a) * ev (full_ind b) L.
Proof.
  induction L as [|t L IH]; [cbn; lia|]. cbn [map]. rewrite !ev_cons, IH. cbn [fst snd]. unfold full_ind. cbn [forallb]. destruct (b a); cbn [andb b2z]; ring.
Qed.
Fixpoint alt (k : nat) : Z := match k with O => 1 | S k' => - alt k' end.
Lemma alt_sq k : alt k * alt k = 1.
Proof. induction k; cbn [alt]; lia. Qed.
(** Inclusion and exclusion: the product over A and B in terms of shorter products. *)
Lemma incl_excl B : forall A, exists L, (forall t, In t L -> incl (snd t) (A ++ B) /\ (length (snd t) < length A + length B)%nat) /\
  forall b, full_ind b (A ++ B) = alt (length A) * neg_ind b A B + ev (full_ind b) L.
Proof.
  induction A as [|a A (L&HL&E)].
  - exists []. split; [intros t []|]. intros b. unfold full_ind, neg_ind, ev. cbn [app length forallb andb alt map lsum fold_right]. lia.
  - exists (map (fun t => (fst t, a :: snd t)) L ++ [(1, A ++ B)] ++ map (fun t => (-1 * fst t, snd t)) L). split.
    + intros t I. apply in_app_iff in I. destruct I as [I|I]; [|apply in_app_iff in I; destruct I as [[<-|[]]|I]].
      * apply in_map_iff in I. destruct I as (u&<-&I). apply HL in I. destruct I as (I1&I2). cbn [snd length app]. split; [|lia]. intros x [<-|X]; [left; reflexivity|right; apply I1, X].
      * cbn [snd]. split; [apply incl_tl, incl_refl|rewrite app_length; cbn [length]; lia].
      * apply in_map_iff in I. destruct I as (u&<-&I). apply HL in I. destruct I as (I1&I2). cbn [snd length app]. split; [apply incl_tl, I1|lia].
    + intros b. rewrite !ev_app, ev_guard, ev_scale, ev_cons. cbn [fst snd]. change (ev (full_ind b) []) with 0.
      replace (full_ind b ((a :: A) ++ B)) with (b2z (b a) * full_ind b (A ++ B)) by (unfold full_ind; cbn [app forallb]; destruct (b a); cbn [andb b2z]; ring).
      cbn [length alt]. rewrite (E b). pose proof (alt_sq (length A)) as Q1.
      assert (NN : neg_ind b (a :: A) B = (1 - b2z (b a)) * neg_ind b A B) by (unfold neg_ind; cbn [forallb]; destruct (b a); cbn [negb andb b2z]; ring).
      rewrite NN. ring.
Qed.

(** ** Polyhedra *)
Section Dim.
Variable n : nat.
Definition okb (x : nat -> Q) (c : list Z) : bool := Qle_bool 0 (slack n c x).
Definition lin (c : list Z) : nat -> Z := fun k => nth (S k) c 0.
Lemma slack_lin c x : (slack n c x == inject_Z (nth 0 c 0%Z) + qdot n (lin c) x)%Q.
Proof. reflexivity. Qed.

Notation prs := (list (Z * list Z)).
Definition qcomb (l : prs) (x : nat -> Q) : Q := fold_right (fun t s => inject_Z (fst t) * slack n (snd t) x + s)%Q 0%Q l.
Definition ccomb (l : prs) : Z := lsum (map (fun t => fst t * nth 0 (snd t) 0) l).
Lemma qcomb_rel (l : prs) x : (forall i, (i < n)%nat -> lsum (map (fun t => fst t * lin (snd t) i) l) = 0) -> (qcomb l x == inject_Z (ccomb l))%Q.
Proof.
  intros H.
  assert (G : (qcomb l x == inject_Z (ccomb l) + sumq n (fun i => x i * inject_Z (lsum (map (fun t => fst t * lin (snd t) i)%Z l))))%Q).
  { clear H. induction l as [|t l IH]; cbn [qcomb fold_right map].
    - unfold ccomb, lsum. cbn [map fold_right]. rewrite (sumq_ext n _ (fun _ => 0%Q)) by (intros; change (inject_Z 0) with 0%Q; ring). rewrite sumq_0. reflexivity.
    - fold (qcomb l x). rewrite IH. unfold ccomb. cbn [map]. rewrite lsum_cons, inject_Z_plus, inject_Z_mult. unfold slack.
      rewrite Qmult_plus_distr_r, <- sumq_scal.
      rewrite (sumq_ext n (fun i => x i * inject_Z (lsum (fst t * lin (snd t) i :: map (fun t0 => fst t0 * lin (snd t0) i) l)%Z))%Q
        (fun i => (inject_Z (fst t) * (x i * inject_Z (nth (S i) (snd t) 0%Z)) + x i * inject_Z (lsum (map (fun t0 => fst t0 * lin (snd t0) i)%Z l)))%Q)).
      + rewrite sumq_add. ring.
      + intros i _. rewrite lsum_cons, inject_Z_plus, inject_Z_mult. unfold lin. ring. }
  rewrite G, (sumq_ext n _ (fun _ => 0%Q)), sumq_0; [ring|]. intros i Hi. rewrite H by exact Hi. change (inject_Z 0) with 0%Q. ring.
Qed.
Definition posp (t : Z * list Z) : bool := 0 <? fst t.
Lemma okb_true x c : okb x c = true <-> (0 <= slack n c x)%Q.
Proof. apply Qle_bool_iff. Qed.
Lemma okb_false x c : okb x c = false <-> (slack n c x < 0)%Q.
Proof. rewrite <- Bool.not_true_iff_false, okb_true. split; [apply Qnot_le_lt|intros H H'; lra]. Qed.
Lemma mul_neg k s : 0 < k -> (s < 0)%Q -> (inject_Z k * s < 0)%Q.
Proof. intros Hk Hs. assert (0 < inject_Z k)%Q by (change 0%Q with (inject_Z 0); rewrite <- Zlt_Qlt; exact Hk). nra. Qed.
Lemma mul_np k s : k <= 0 -> (0 <= s)%Q -> (inject_Z k * s <= 0)%Q.
Proof. intros Hk Hs. assert (inject_Z k <= 0)%Q by (change 0%Q with (inject_Z 0); rewrite <- Zle_Qle; exact Hk). nra. Qed.
Lemma qcomb_neg l x : (forall t, In t l -> if posp t then (slack n (snd t) x < 0)%Q else (0 <= slack n (snd t) x)%Q) ->
  (qcomb l x <= 0)%Q /\ ((exists t, In t l /\ posp t = true) -> (qcomb l x < 0)%Q).
Proof.
  induction l as [|t l IH]; intros H; [split; [apply Qle_refl|intros (t&[]&_)]|]. destruct (IH (fun u I => H u (or_intror I))) as (A&B). pose proof (H t (or_introl eq_refl)) as Ht.
  cbn [qcomb fold_right]. fold (qcomb l x). unfold posp in *. destruct (Z.ltb_spec 0 (fst t)) as [P|P].
  - pose proof (mul_neg _ _ P Ht). split; [lra|intros _; lra].
  - pose proof (mul_np _ _ P Ht). split; [lra|]. intros (u&[->|I]&Pu); [lia|]. specialize (B (ex_intro _ u (conj I Pu))). lra.
Qed.
Lemma forallb_filter (b : list Z -> bool) (p : Z * list Z -> bool) l : forallb b (map snd l) = forallb b (map snd (filter p l) ++ map snd (filter (fun t => negb (p t)) l)).
Proof.
  rewrite forallb_app. induction l as [|t l IH]; [reflexivity|]. cbn [map forallb filter]. rewrite IH. destruct (p t); cbn [negb map forallb]; destruct (b (snd t)); cbn [andb]; auto.
  symmetry. apply Bool.andb_false_r.
Qed.
Lemma filter_len (p : Z * list Z -> bool) l : (length (map snd (filter p l)) + length (map snd (filter (fun t => negb (p t)) l)) = length l)%nat.
Proof. rewrite !map_length. induction l as [|t l IH]; [reflexivity|]. cbn [filter length]. destruct (p t); cbn [negb length]; lia. Qed.

Definition good (rows : rows_t) (L : list (Z * rows_t)) : Prop :=
  (forall t, In t L -> incl (snd t) rows /\ independent n (map lin (snd t))) /\
  forall x, full_ind (okb x) rows = ev (full_ind (okb x)) L.
Lemma refine rows L : (forall t, In t L -> incl (snd t) rows /\ exists L', good (snd t) L') ->
  exists M, (forall t, In t M -> incl (snd t) rows /\ independent n (map lin (snd t))) /\ forall x, ev (full_ind (okb x)) L = ev (full_ind (okb x)) M.
Proof.
  induction L as [|t L IH]; intros H; [exists []; split; [intros t []|reflexivity]|].
  destruct (IH (fun u I => H u (or_intror I))) as (M&M1&M2). destruct (H t (or_introl eq_refl)) as (I&L'&G1&G2).
  exists (map (fun u => (fst t * fst u, snd u)) L' ++ M). split.
  - intros u Iu. apply in_app_iff in Iu. destruct Iu as [Iu|Iu]; [|apply M1, Iu]. apply in_map_iff in Iu. destruct Iu as (w&<-&Iw). cbn [snd]. destruct (G1 w Iw) as (W1&W2). split; [|exact W2]. intros c Hc. apply I, W1, Hc.
  - intros x. rewrite ev_cons, ev_app, ev_scale, M2, G2. reflexivity.
Qed.
(** The two ways in which a relation shortens the description. *)
Lemma reduce m (IH : forall rows, (length rows < m)%nat -> exists L, good rows L) (l : prs) : (length l <= m)%nat ->
  (forall i, (i < n)%nat -> lsum (map (fun t => fst t * lin (snd t) i) l) = 0) ->
  (0 <= ccomb l /\ (exists t, In t l /\ posp t = true) \/ ccomb l < 0 /\ (forall t, In t l -> 0 <= fst t)) -> exists L, good (map snd l) L.
Proof.
  intros Hm R [(C0&Ex)|(C0&Nn)].
  - set (A := map snd (filter posp l)). set (B := map snd (filter (fun t => negb (posp t)) l)).
    destruct (incl_excl B A) as (L&HL&E). pose proof (filter_len posp l) as FL. fold A B in FL.
    assert (IncA : incl (A ++ B) (map snd l)).
    { intros c Hc. apply in_app_iff in Hc. unfold A, B in Hc. rewrite !in_map_iff in Hc. apply in_map_iff. destruct Hc as [(t&T1&T2)|(t&T1&T2)]; apply filter_In in T2; exists t; tauto. }
    destruct (refine (map snd l) L) as (M&M1&M2).
    { intros t It. destruct (HL t It) as (I1&I2). split; [intros c Hc; apply IncA, I1, Hc|]. apply IH. lia. }
    exists M. split; [exact M1|]. intros x. rewrite <- M2. unfold full_ind at 1. rewrite (forallb_filter (okb x) posp l). fold A B. change (b2z (forallb (okb x) (A ++ B))) with (full_ind (okb x) (A ++ B)).
    rewrite (E (okb x)). assert (N0 : neg_ind (okb x) A B = 0); [|rewrite N0; lia].
    unfold neg_ind. destruct (forallb _ A && forallb _ B) eqn:FB; [|reflexivity]. exfalso. apply Bool.andb_true_iff in FB. destruct FB as (FA&FB). rewrite forallb_forall in FA, FB.
    destruct (qcomb_neg l x) as (_&Neg).
    { intros t It. destruct (posp t) eqn:Pt.
      - apply okb_false. apply Bool.negb_true_iff. apply FA. unfold A. apply in_map, filter_In. auto.
      - apply okb_true, FB. unfold B. apply in_map, filter_In. rewrite Pt. auto. }
    specialize (Neg Ex). rewrite (qcomb_rel l x R) in Neg. change 0%Q with (inject_Z 0) in Neg. rewrite <- Zlt_Qlt in Neg. lia.
  - exists []. split; [intros t []|]. intros x. unfold full_ind. destruct (forallb (okb x) (map snd l)) eqn:F; [|reflexivity]. exfalso. rewrite forallb_forall in F.
    assert (P : (0 <= qcomb l x)%Q).
    { clear R C0 Hm. induction l as [|t l IHl]; [apply Qle_refl|]. cbn [qcomb fold_right]. fold (qcomb l x).
      assert (0 <= qcomb l x)%Q by (apply IHl; [intros u Iu; apply Nn; right; exact Iu|intros c Hc; apply F; right; exact Hc]).
      assert (0 <= slack n (snd t) x)%Q by (apply okb_true, F; left; reflexivity). assert (0 <= inject_Z (fst t))%Q by (change 0%Q with (inject_Z 0); rewrite <- Zle_Qle; apply Nn; left; reflexivity). nra. }
    rewrite (qcomb_rel l x R) in P. change 0%Q with (inject_Z 0) in P. rewrite <- Zle_Qle in P. lia.
Qed.
Lemma lsum_zsum (f : nat -> Z) m : lsum (map f (seq 0 m)) = zsum m f.
Proof. induction m as [|m IH]; [reflexivity|]. rewrite seq_S, map_app, lsum_app, IH. cbn [map zsum Nat.add]. rewrite lsum_cons. change (lsum []) with 0. lia. Qed.
Lemma lsum_opp (f : Z * list Z -> Z) l : lsum (map (fun t => - f t) l) = - lsum (map f l).
Proof. induction l as [|t l IH]; [reflexivity|]. cbn [map]. rewrite !lsum_cons, IH. lia. Qed.
Lemma some_pos (l : prs) : (exists t, In t l /\ posp t = true) \/ (forall t, In t l -> fst t <= 0).
Proof.
  induction l as [|t l IH]; [right; intros t []|]. destruct (posp t) eqn:P; [left; exists t; split; [left; reflexivity|exact P]|]. destruct IH as [(u&U1&U2)|IH]; [left; exists u; split; [right; exact U1|exact U2]|right].
  intros u [<-|Iu]; [unfold posp in P; apply Z.ltb_ge in P; exact P|apply IH, Iu].
Qed.
Theorem simplicial_combination : forall m rows, (length rows <= m)%nat -> exists L, good rows L.
Proof.
  induction m as [m IHm] using lt_wf_ind. intros rows Hm.
  destruct (independent_dec n (map lin rows)) as [I|(ks&(k0&Hk0&N0)&R)].
  - exists [(1, rows)]. split; [intros t [<-|[]]; split; [apply incl_refl|exact I]|]. intros x. rewrite ev_cons. cbn [fst snd]. change (ev (full_ind (okb x)) []) with 0. lia.
  - rewrite map_length in Hk0. set (l := map (fun k => (ks k, nth k rows [])) (seq 0 (length rows))).
    assert (Sl : map snd l = rows).
    { unfold l. rewrite map_map. cbn [snd]. apply (nth_ext _ _ [] []); [rewrite map_length, seq_length; reflexivity|]. intros k Hk. rewrite map_length, seq_length in Hk.
      rewrite (nth_indep _ [] (nth 0 rows [])) by (rewrite map_length, seq_length; exact Hk). rewrite (map_nth (fun k => nth k rows [])), seq_nth by exact Hk. reflexivity. }
    assert (Ll : length l = length rows) by (unfold l; rewrite map_length, seq_length; reflexivity).
    assert (Rl : forall i, (i < n)%nat -> lsum (map (fun t => fst t * lin (snd t) i) l) = 0).
    { intros i Hi. unfold l. rewrite map_map. cbn [fst snd]. rewrite lsum_zsum, <- (R i Hi), map_length. apply zsum_ext. intros k Hk. f_equal.
      rewrite (nth_indep _ (fun _ => 0) (lin [])) by (rewrite map_length; exact Hk). rewrite map_nth. reflexivity. }
    set (l' := map (fun t => (- fst t, snd t)) l).
    assert (Sl' : map snd l' = rows) by (unfold l'; rewrite map_map; exact Sl).
    assert (Rl' : forall i, (i < n)%nat -> lsum (map (fun t => fst t * lin (snd t) i) l') = 0).
    { intros i Hi. unfold l'. rewrite map_map. cbn [fst snd]. rewrite (map_ext _ (fun t => - (fst t * lin (snd t) i))) by (intros; ring). rewrite lsum_opp, Rl by exact Hi. reflexivity. }
    assert (Cl' : ccomb l' = - ccomb l).
    { unfold l', ccomb. rewrite map_map. cbn [fst snd]. rewrite (map_ext _ (fun t => - (fst t * nth 0 (snd t) 0))) by (intros; ring). apply lsum_opp. }
    assert (I0 : In (ks k0, nth k0 rows []) l) by (unfold l; apply in_map_iff; exists k0; split; [reflexivity|apply in_seq; lia]).
    assert (IH : forall rs, (length rs < length rows)%nat -> exists L, good rs L) by (intros rs Hr; apply (IHm (length rs)); lia).
    assert (Dec : (exists t, In t l /\ posp t = true) \/ (forall t, In t l -> fst t <= 0)).
    { apply some_pos. }
    assert (Dec' : (exists t, In t l' /\ posp t = true) \/ (forall t, In t l' -> fst t <= 0)).
    { apply some_pos. }
    assert (Opp : forall t, In t l' -> In (- fst t, snd t) l) by (intros t It; unfold l' in It; apply in_map_iff in It; destruct It as ((a&c)&<-&It); cbn [fst snd]; rewrite Z.opp_involutive; exact It).
    assert (Opp' : forall t, In t l -> In (- fst t, snd t) l') by (intros t It; unfold l'; apply in_map_iff; exists t; auto).
    destruct (Z.lt_trichotomy (ccomb l) 0) as [C0|[C0|C0]].
    + destruct Dec' as [E|E].
      * rewrite <- Sl'. apply (reduce (length rows) IH); [unfold l'; rewrite map_length; lia|exact Rl'|left; split; [lia|exact E]].
      * rewrite <- Sl. apply (reduce (length rows) IH); [lia|exact Rl|right; split; [exact C0|]]. intros t It. specialize (E _ (Opp' t It)). cbn [fst] in E. lia.
    + destruct Dec as [E|E].
      * rewrite <- Sl. apply (reduce (length rows) IH); [lia|exact Rl|left; split; [lia|exact E]].
      * rewrite <- Sl'. apply (reduce (length rows) IH); [unfold l'; rewrite map_length; lia|exact Rl'|left; split; [lia|]]. exists (- ks k0, nth k0 rows []). split; [apply (Opp' _ I0)|].
        specialize (E _ I0). cbn [fst] in E. unfold posp. cbn [fst]. apply Z.ltb_lt. lia.
    + destruct Dec as [E|E].
      * rewrite <- Sl. apply (reduce (length rows) IH); [lia|exact Rl|left; split; [lia|exact E]].
      * rewrite <- Sl'. apply (reduce (length rows) IH); [unfold l'; rewrite map_length; lia|exact Rl'|right; split; [lia|]]. intros t It. specialize (E _ (Opp t It)). cbn [fst] in E. lia.
Qed.

(** ** Tangent cones of the pieces *)
Definition tanb (p x : nat -> Q) (c : list Z) : bool := okb p c && (negb (Qeq_bool (slack n c p) 0) || okb x c).
Lemma slack_ext c x y : same_point n x y -> (slack n c x == slack n c y)%Q.
Proof. intros H. unfold slack. rewrite (sumq_ext n _ (fun k => y k * inject_Z (nth (S k) c 0%Z))%Q); [reflexivity|]. intros k Hk. rewrite (H k Hk). reflexivity. Qed.
Lemma slack_line c p x e : (slack n c (fun k => p k + e * (x k - p k)) == slack n c p + e * (slack n c x - slack n c p))%Q.
Proof.
  unfold slack. setoid_replace (sumq n (fun k => (p k + e * (x k - p k)) * inject_Z (nth (S k) c 0%Z)))%Q
    with (sumq n (fun k => p k * inject_Z (nth (S k) c 0%Z)) + (e * sumq n (fun k => x k * inject_Z (nth (S k) c 0%Z)) + (- e) * sumq n (fun k => p k * inject_Z (nth (S k) c 0%Z))))%Q; [ring|].
  rewrite <- !sumq_scal, <- !sumq_add. apply sumq_ext. intros k _. ring.
Qed.
Lemma div_bound f a d : (0 < d -> f <= a / d -> f * d <= a)%Q.
Proof. intros D F. assert (E : (a / d * d == a)%Q) by (field; lra). nra. Qed.
Lemma small_step (a b : Q) : exists e, (0 < e)%Q /\ forall f, (0 < f <= e)%Q -> Qle_bool 0 (a + f * (b - a)) = Qle_bool 0 a && (negb (Qeq_bool a 0) || Qle_bool 0 b).
Proof.
  assert (B : forall q : Q, Qle_bool 0 q = true <-> (0 <= q)%Q) by (intros; apply Qle_bool_iff).
  assert (BF : forall q : Q, (q < 0)%Q -> Qle_bool 0 q = false) by (intros q Hq; apply Bool.not_true_iff_false; rewrite B; intros H; lra).
  destruct (Q_dec a 0) as [[L|L]|E].
  - (* a < 0 *) exists ((- a) / (2 * (Qabs.Qabs (b - a) + 1)))%Q. assert (D : (0 < 2 * (Qabs.Qabs (b - a) + 1))%Q) by (pose proof (Qabs.Qabs_nonneg (b - a)); lra). split; [apply Qlt_shift_div_l; [exact D|lra]|].
    intros f (F0&F1). rewrite (BF a L). cbn [andb]. apply BF. apply (div_bound _ _ _ D) in F1. pose proof (Qabs.Qle_Qabs (b - a)). nra.
  - exists (a / (2 * (Qabs.Qabs (b - a) + 1)))%Q. assert (D : (0 < 2 * (Qabs.Qabs (b - a) + 1))%Q) by (pose proof (Qabs.Qabs_nonneg (b - a)); lra). split; [apply Qlt_shift_div_l; [exact D|lra]|].
    intros f (F0&F1). rewrite (proj2 (B a)) by lra. replace (Qeq_bool a 0) with false by (symmetry; apply Bool.not_true_iff_false; rewrite Qeq_bool_iff; lra). cbn [andb orb negb].
    apply B. apply (div_bound _ _ _ D) in F1. pose proof (Qabs.Qle_Qabs (- (b - a))) as Q1. rewrite Qabs.Qabs_opp in Q1. nra.
  - exists 1%Q. split; [lra|]. intros f (F0&F1). rewrite (proj2 (B a)) by lra. rewrite (proj2 (Qeq_bool_iff a 0) E). cbn [andb orb negb].
    destruct (Qle_bool 0 b) eqn:Eb; [apply B in Eb; apply B; nra|]. apply BF. apply Bool.not_true_iff_false in Eb. rewrite B in Eb. apply Qnot_le_lt in Eb. nra.
Qed.
Lemma small_steps p x : forall rows, exists e, (0 < e)%Q /\ forall f, (0 < f <= e)%Q -> forall c, In c rows -> okb (fun k => p k + f * (x k - p k))%Q c = tanb p x c.
Proof.
  induction rows as [|c rows (e&E0&E1)]; [exists 1%Q; split; [lra|intros f _ c []]|].
  destruct (small_step (slack n c p) (slack n c x)) as (e'&E0'&E1').
  exists (Qminmax.Qmin e e'). pose proof (Qminmax.Q.le_min_l e e') as L1. pose proof (Qminmax.Q.le_min_r e e') as L2. split; [apply Qminmax.Q.min_glb_lt; assumption|].
  intros f (F0&F1) d [<-|Id]; [|apply E1; [split; [exact F0|lra]|exact Id]].
  unfold okb at 1, tanb, okb. rewrite <- (E1' f) by (split; [exact F0|lra]). rewrite slack_line. reflexivity.
Qed.
Lemma good_tangent rows L : good rows L -> forall p x, full_ind (tanb p x) rows = ev (full_ind (tanb p x)) L.
Proof.
  intros (G1&G2) p x. destruct (small_steps p x rows) as (e&E0&E1). pose proof (E1 e (conj E0 (Qle_refl e))) as E.
  assert (X : forall T, incl T rows -> full_ind (tanb p x) T = full_ind (okb (fun k => p k + e * (x k - p k))%Q) T).
  { intros T I. unfold full_ind. f_equal. induction T as [|c T IH]; [reflexivity|]. cbn [forallb]. rewrite IH by (intros d Hd; apply I; right; exact Hd). rewrite E by (apply I; left; reflexivity). reflexivity. }
  rewrite (X rows (incl_refl rows)), G2. unfold ev. f_equal. apply map_ext_in. intros t It. destruct (G1 t It) as (I&_). rewrite (X _ I). reflexivity.
Qed.
End Dim.
