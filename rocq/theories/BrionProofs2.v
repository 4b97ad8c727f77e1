(** Brion's theorem, part 2: lattice functions modulo functions with a period. *)
From Coq Require Import QArith Lqa.
From Verif Require Import Common ZMat PipedSpec PipedProofs PipedProofs3 ConeSpec ExpSpec ExpProofs3 CountSpec BrionLinear BrionProofs.
Open Scope Z_scope.

Definition vsub (x r : list Z) : list Z := vadd x (map Z.opp r).
Lemma vsub_len n x r : length x = n -> length r = n -> length (vsub x r) = n.
Proof. intros Hx Hr. unfold vsub. rewrite vadd_len; [exact Hx|rewrite map_length; lia]. Qed.
Lemma vsub_nth x r k : length x = length r -> nth k (vsub x r) 0 = nth k x 0 - nth k r 0.
Proof. intros H. unfold vsub. rewrite vadd_nth by (rewrite map_length; exact H). change 0 with (- 0) at 2. rewrite map_nth. lia. Qed.
Lemma vsub_comm x r s : vsub (vsub x r) s = vsub (vsub x s) r.
Proof.
  unfold vsub. revert r s. induction x as [|a x IH]; intros [|b r] [|c s]; cbn [map vadd]; try reflexivity. rewrite IH. f_equal. lia.
Qed.

Notation lfun := (list Z -> Z).
Definition diff (r : list Z) (F : lfun) : lfun := fun x => F x - F (vsub x r).
Definition diffs (rs : list (list Z)) (F : lfun) : lfun := fold_right diff F rs.
Definition eqn (n : nat) (F G : lfun) : Prop := forall x, length x = n -> F x = G x.
Definition lens (n : nat) (rs : list (list Z)) : Prop := forall r, In r rs -> length r = n.
Lemma diff_ext n r F G : length r = n -> eqn n F G -> eqn n (diff r F) (diff r G).
Proof. intros Hr H x Hx. unfold diff. rewrite !H; [reflexivity|now apply vsub_len|exact Hx]. Qed.
Lemma diffs_ext n rs F G : lens n rs -> eqn n F G -> eqn n (diffs rs F) (diffs rs G).
Proof.
  intros L H. induction rs as [|r rs IH]; [exact H|]. cbn [diffs fold_right]. apply diff_ext; [apply L; left; reflexivity|apply IH; intros s Hs; apply L; right; exact Hs].
Qed.
Lemma diffs_cons r rs F x : diffs (r :: rs) F x = diffs rs F x - diffs rs F (vsub x r).
Proof. reflexivity. Qed.
Lemma diffs_add rs F G x : diffs rs (fun y => F y + G y) x = diffs rs F x + diffs rs G x.
Proof. revert x. induction rs as [|r rs IH]; intros x; [reflexivity|]. rewrite !diffs_cons, !IH. lia. Qed.
Lemma diffs_scale rs c F x : diffs rs (fun y => c * F y) x = c * diffs rs F x.
Proof. revert x. induction rs as [|r rs IH]; intros x; [reflexivity|]. rewrite !diffs_cons, !IH. ring. Qed.
Lemma diffs_zero rs x : diffs rs (fun _ => 0) x = 0.
Proof. revert x. induction rs as [|r rs IH]; intros x; [reflexivity|]. rewrite !diffs_cons, !IH. reflexivity. Qed.
Lemma diffs_app rs rs' F : diffs (rs ++ rs') F = diffs rs (diffs rs' F).
Proof. unfold diffs. apply fold_right_app. Qed.
Lemma diff_comm r s F x : diff r (diff s F) x = diff s (diff r F) x.
Proof. unfold diff. rewrite (vsub_comm x r s). lia. Qed.
Lemma diff_diffs r rs F x : diff r (diffs rs F) x = diffs rs (diff r F) x.
Proof.
  revert x. induction rs as [|s rs IH]; intros x; [reflexivity|]. cbn [diffs fold_right]. fold (diffs rs F) (diffs rs (diff r F)). rewrite diff_comm. unfold diff at 1 3. rewrite !IH. reflexivity.
Qed.
Lemma diffs_comm rs rs' F x : diffs rs (diffs rs' F) x = diffs rs' (diffs rs F) x.
Proof.
  revert x. induction rs as [|r rs IH]; intros x; [reflexivity|]. cbn [diffs fold_right]. fold (diffs rs (diffs rs' F)) (diffs rs F). rewrite <- diff_diffs. unfold diff. rewrite !IH. reflexivity.
Qed.

Definition nz (n : nat) (r : list Z) : Prop := length r = n /\ exists k, (k < n)%nat /\ nth k r 0 <> 0.
Definition negl (n : nat) (F : lfun) : Prop := exists rs, Forall (nz n) rs /\ eqn n (diffs rs F) (fun _ => 0).
Lemma nz_lens n rs : Forall (nz n) rs -> lens n rs.
Proof. intros H r Hr. rewrite Forall_forall in H. apply (H r Hr). Qed.
Lemma negl_ext n F G : eqn n F G -> negl n F -> negl n G.
Proof. intros E (rs&H&K). exists rs. split; [exact H|]. intros x Hx. rewrite <- (diffs_ext n rs F G (nz_lens n rs H) E x Hx). apply K, Hx. Qed.
Lemma negl_zero n : negl n (fun _ => 0).
Proof. exists []. split; [constructor|intros x _; reflexivity]. Qed.
Lemma negl_add n F G : negl n F -> negl n G -> negl n (fun x => F x + G x).
Proof.
  intros (rs&H&K) (rs'&H'&K'). exists (rs ++ rs'). split; [apply Forall_app; auto|]. intros x Hx. rewrite diffs_add.
  rewrite !diffs_app. rewrite (diffs_comm rs rs' F). rewrite (diffs_ext n rs' _ _ (nz_lens n _ H') K x Hx), (diffs_ext n rs _ _ (nz_lens n _ H) K' x Hx), !diffs_zero. reflexivity.
Qed.
Lemma negl_scale n c F : negl n F -> negl n (fun x => c * F x).
Proof. intros (rs&H&K). exists rs. split; [exact H|]. intros x Hx. rewrite diffs_scale, (K x Hx). ring. Qed.
Lemma negl_lsum {A} n (f : A -> lfun) (l : list A) : (forall a, In a l -> negl n (f a)) -> negl n (fun x => lsum (map (fun a => f a x) l)).
Proof.
  induction l as [|a l IH]; intros H; [apply negl_zero|]. apply (negl_ext n (fun x => f a x + lsum (map (fun a => f a x) l))); [intros x _; reflexivity|].
  apply negl_add; [apply H; left; reflexivity|apply IH; intros b Hb; apply H; right; exact Hb].
Qed.
Lemma negl_period n r F : nz n r -> (forall x, length x = n -> F (vsub x r) = F x) -> negl n F.
Proof. intros H P. exists [r]. split; [constructor; [exact H|constructor]|]. intros x Hx. cbn [diffs fold_right]. unfold diff. rewrite P by exact Hx. lia. Qed.

(** Functions with finite support that are negligible vanish. *)
Definition finite_support (n : nat) (F : lfun) : Prop := exists K, forall x, length x = n -> F x <> 0 -> In x K.
Lemma coord_bound (K : list (list Z)) k : exists B, forall x, In x K -> Z.abs (nth k x 0) <= B.
Proof.
  induction K as [|x K (B&IH)]; [exists 0; intros x []|]. exists (Z.max B (Z.abs (nth k x 0))). intros y [<-|Iy]; [lia|]. specialize (IH y Iy). lia.
Qed.
Lemma diff_support n r F : length r = n -> finite_support n F -> finite_support n (diff r F).
Proof.
  intros Hr (K&HK). exists (K ++ map (fun x => vadd x r) K). intros x Hx N. apply in_app_iff. destruct (Z.eq_dec (F x) 0) as [E|E]; [|left; apply HK; assumption]. right.
  apply in_map_iff. exists (vsub x r). split.
  - apply (nth_ext _ _ 0 0); [rewrite vadd_len; rewrite (vsub_len n); auto; lia|]. intros k _. rewrite vadd_nth by (rewrite (vsub_len n); auto). rewrite vsub_nth by lia. lia.
  - apply HK; [apply vsub_len; assumption|]. intros E'. apply N. unfold diff. lia.
Qed.
Lemma diff_inj n r F : nz n r -> finite_support n F -> eqn n (diff r F) (fun _ => 0) -> eqn n F (fun _ => 0).
Proof.
  intros (Lr&k&Hk&Nk) (K&HK) E x Hx. destruct (Z.eq_dec (F x) 0) as [E0|N0]; [exact E0|]. exfalso. destruct (coord_bound K k) as (B&HB).
  assert (It : forall m, exists y, length y = n /\ F y <> 0 /\ nth k y 0 = nth k x 0 - Z.of_nat m * nth k r 0).
  { induction m as [|m (y&Ly&Ny&Ey)]; [exists x; split; [exact Hx|]; split; [exact N0|lia]|]. exists (vsub y r). split; [now apply vsub_len|]. split.
    - specialize (E y Ly). unfold diff in E. cbv beta in E. lia.
    - rewrite vsub_nth by lia. rewrite Ey. lia. }
  destruct (It (Z.to_nat (B + Z.abs (nth k x 0) + 1))) as (y&Ly&Ny&Ey). specialize (HB y (HK y Ly Ny)). assert (0 <= B) by lia. rewrite Z2Nat.id in Ey by lia. nia.
Qed.
Lemma negl_finite n F : negl n F -> finite_support n F -> eqn n F (fun _ => 0).
Proof.
  intros (rs&H&K). revert F K. induction rs as [|r rs IH]; intros F K S0; [exact K|]. inversion H as [|? ? H1 H2]; subst.
  assert (K' : eqn n (diffs rs (diff r F)) (fun _ => 0)) by (intros x Hx; rewrite <- diff_diffs; apply (K x Hx)).
  apply (diff_inj n r F H1 S0). apply (IH H2 _ K'). apply diff_support; [apply H1|exact S0].
Qed.

(** ** Brion's theorem *)
Section Dim.
Variable n : nat.
Definition Ind (T : rows_t) : lfun := fun x => full_ind (okb n (zpoint x)) T.
Definition Tind (T : rows_t) (p : nat -> Q) : lfun := fun x => full_ind (tanb n p (zpoint x)) T.
Definition ilist (r : nat -> Z) : list Z := map r (seq 0 n).
Lemma ilist_nth r k : (k < n)%nat -> nth k (ilist r) 0 = r k.
Proof. intros H. unfold ilist. rewrite (nth_indep _ 0 (r 0%nat)) by (rewrite map_length, seq_length; exact H). rewrite map_nth, seq_nth by exact H. reflexivity. Qed.
Lemma ilist_nz r : nonzero_upto n r -> nz n (ilist r).
Proof. intros (k&Hk&N). split; [unfold ilist; rewrite map_length, seq_length; reflexivity|]. exists k. split; [exact Hk|]. rewrite ilist_nth by exact Hk. exact N. Qed.
Lemma slack_shift c x r : length x = n -> (qdot n (lin c) (ivec r) == 0)%Q -> (slack n c (zpoint (vsub x (ilist r))) == slack n c (zpoint x))%Q.
Proof.
  intros Hx K. unfold slack. rewrite (sumq_ext n (fun k => zpoint (vsub x (ilist r)) k * inject_Z (nth (S k) c 0%Z))%Q
    (fun k => zpoint x k * inject_Z (nth (S k) c 0%Z) + (-1) * (ivec r k * inject_Z (lin c k)))%Q).
  - rewrite sumq_add, sumq_scal. unfold qdot in K. rewrite K. ring.
  - intros k Hk. unfold zpoint, ivec, lin. rewrite vsub_nth by (unfold ilist; rewrite map_length, seq_length; exact Hx). rewrite ilist_nth by exact Hk.
    unfold Z.sub. rewrite inject_Z_plus, inject_Z_opp. ring.
Qed.
Lemma qle_eq (a b : Q) : (a == b)%Q -> Qle_bool 0 a = Qle_bool 0 b.
Proof. intros H. rewrite H. reflexivity. Qed.
Lemma tind_negl T p r : nonzero_upto n r -> (forall c, In c T -> (slack n c p == 0)%Q -> (qdot n (lin c) (ivec r) == 0)%Q) -> negl n (Tind T p).
Proof.
  intros N K. apply (negl_period n (ilist r)); [apply ilist_nz, N|]. intros x Hx. unfold Tind, full_ind. f_equal.
  induction T as [|c T IH]; [reflexivity|]. cbn [forallb]. rewrite IH by (intros d Hd; apply K; right; exact Hd). f_equal. unfold tanb. f_equal.
  destruct (Qeq_bool (slack n c p) 0) eqn:E; cbn [negb orb]; [|reflexivity]. apply Qeq_bool_iff in E. unfold okb. apply qle_eq, slack_shift; [exact Hx|]. apply K; [left; reflexivity|exact E].
Qed.
Lemma ind_negl T r : nonzero_upto n r -> (forall c, In c T -> (qdot n (lin c) (ivec r) == 0)%Q) -> negl n (Ind T).
Proof.
  intros N K. apply (negl_period n (ilist r)); [apply ilist_nz, N|]. intros x Hx. unfold Ind, full_ind. f_equal.
  induction T as [|c T IH]; [reflexivity|]. cbn [forallb]. rewrite IH by (intros d Hd; apply K; right; exact Hd). f_equal. unfold okb. apply qle_eq, slack_shift; [exact Hx|]. apply K; left; reflexivity.
Qed.
Lemma kills_map T y : kills n (map lin T) y <-> forall c, In c T -> (qdot n (lin c) y == 0)%Q.
Proof.
  unfold kills. split; [intros H c Hc; apply H, in_map, Hc|]. intros H a Ha. apply in_map_iff in Ha. destruct Ha as (c&<-&Hc). apply H, Hc.
Qed.
(** The apex of n independent rows. *)
Definition hom (c : list Z) : nat -> Z := fun k => if (k <? n)%nat then lin c k else nth 0 c 0.
Lemma apex T : length T = n -> independent n (map lin T) -> exists p, forall c, In c T -> (slack n c p == 0)%Q.
Proof.
  intros L I. destruct (kernel_few (S n) (map hom T)) as (r&(k&Hk&Nk)&K); [rewrite map_length; lia|].
  assert (E : forall c, In c T -> (qdot n (lin c) (ivec r) + inject_Z (r n) * inject_Z (nth 0 c 0%Z) == 0)%Q).
  { intros c Hc. specialize (K (hom c) (in_map _ _ _ Hc)). unfold qdot in K. cbn [sumq] in K. unfold hom in K at 2. rewrite Nat.ltb_irrefl in K. rewrite <- K. unfold qdot, ivec. f_equiv. apply sumq_ext. intros i Hi. unfold hom. rewrite (proj2 (Nat.ltb_lt i n) Hi). reflexivity. }
  destruct (Z.eq_dec (r n) 0) as [Z0|N0].
  - exfalso. assert (Kn : forall i, (i < n)%nat -> (ivec r i == 0)%Q).
    { apply (independent_trivial n (map lin T)); [rewrite map_length; exact L|exact I|]. apply kills_map. intros c Hc. specialize (E c Hc). rewrite Z0 in E. change (inject_Z 0) with 0%Q in E. lra. }
    destruct (Nat.eq_dec k n) as [->|Nn]; [contradiction|]. apply Nk. specialize (Kn k ltac:(lia)). unfold ivec in Kn. apply inject_Z_injective. exact Kn.
  - exists (fun i => ivec r i / inject_Z (r n))%Q. intros c Hc. specialize (E c Hc). pose proof (inject_nz _ N0) as NQ. unfold slack.
    rewrite (sumq_ext n _ (fun i => (/ inject_Z (r n)) * (ivec r i * inject_Z (lin c i)))%Q) by (intros i _; unfold lin, Qdiv; ring). rewrite sumq_scal. fold (qdot n (lin c) (ivec r)).
    setoid_replace (qdot n (lin c) (ivec r)) with (- (inject_Z (r n) * inject_Z (nth 0 c 0%Z)))%Q by lra. field. exact NQ.
Qed.
Lemma slack_diff c p q : (slack n c p - slack n c q == qdot n (lin c) (fun k => p k - q k))%Q.
Proof.
  unfold slack, qdot, lin. setoid_replace (sumq n (fun k => (p k - q k) * inject_Z (nth (S k) c 0%Z)))%Q with (sumq n (fun k => p k * inject_Z (nth (S k) c 0%Z)) + (-1) * sumq n (fun k => q k * inject_Z (nth (S k) c 0%Z)))%Q; [ring|].
  rewrite <- sumq_scal, <- sumq_add. apply sumq_ext. intros k _. ring.
Qed.
Definition active (p : nat -> Q) (c : list Z) : bool := Qeq_bool (slack n c p) 0.
Lemma filter_shorter {A} (f : A -> bool) l : forallb f l = false -> (length (filter f l) < length l)%nat.
Proof.
  induction l as [|a l IH]; [discriminate|]. cbn [forallb filter length]. destruct (f a); cbn [andb length]; [intros H; specialize (IH H); lia|intros _]. clear.
  induction l as [|b l IH]; [cbn; lia|]. cbn [filter length]. destruct (f b); cbn [length]; lia.
Qed.
Lemma piece T : independent n (map lin T) ->
  (exists p0, (forall x, length x = n -> Tind T p0 x = Ind T x) /\ forall p, ~ same_point n p p0 -> negl n (Tind T p)) \/
  (negl n (Ind T) /\ forall p, negl n (Tind T p)).
Proof.
  intros I. pose proof (independent_le n _ I) as L. rewrite map_length in L. destruct (Nat.eq_dec (length T) n) as [E|N].
  - left. destruct (apex T E I) as (p0&H0). exists p0. split.
    + intros x _. unfold Tind, Ind, full_ind. f_equal. revert H0. clear. intros H0. induction T as [|c T IH]; [reflexivity|]. cbn [forallb]. rewrite IH by (intros d Hd; apply H0; right; exact Hd). f_equal.
      specialize (H0 c (or_introl eq_refl)). unfold tanb. rewrite (proj2 (Qeq_bool_iff _ _) H0). cbn [negb orb]. rewrite (proj2 (okb_true n p0 c)) by (rewrite H0; apply Qle_refl). reflexivity.
    + intros p Np. destruct (forallb (active p) T) eqn:F.
      * exfalso. apply Np. rewrite forallb_forall in F.
        assert (K : forall k, (k < n)%nat -> (p k - p0 k == 0)%Q).
        { apply (independent_trivial n (map lin T)); [rewrite map_length; exact E|exact I|]. apply kills_map. intros c Hc. rewrite <- slack_diff. specialize (F c Hc). apply Qeq_bool_iff in F. rewrite F, (H0 c Hc). reflexivity. }
        intros k Hk. specialize (K k Hk). lra.
      * destruct (kernel_few n (map lin (filter (active p) T))) as (r&Nr&Kr); [rewrite map_length; pose proof (filter_shorter _ _ F); lia|].
        apply (tind_negl T p r Nr). intros c Hc Sc. apply (proj1 (kills_map _ _) Kr). apply filter_In. split; [exact Hc|]. apply Qeq_bool_iff, Sc.
  - right. destruct (kernel_few n (map lin T)) as (r&Nr&Kr); [rewrite map_length; lia|]. pose proof (proj1 (kills_map _ _) Kr) as Kc. split; [apply (ind_negl T r Nr Kc)|].
    intros p. apply (tind_negl T p r Nr). intros c Hc _. apply Kc, Hc.
Qed.

(** Points in a form with decidable equality. *)
Definition cpt (p : nat -> Q) : list Q := map (fun k => Qred (p k)) (seq 0 n).
Definition pt (l : list Q) : nat -> Q := fun k => nth k l 0%Q.
Lemma cpt_nth p k : (k < n)%nat -> nth k (cpt p) 0%Q = Qred (p k).
Proof. intros H. unfold cpt. rewrite (nth_indep _ 0%Q (Qred (p 0%nat))) by (rewrite map_length, seq_length; exact H). rewrite (map_nth (fun k => Qred (p k))), seq_nth by exact H. reflexivity. Qed.
Lemma pt_cpt p : same_point n (pt (cpt p)) p.
Proof. intros k Hk. unfold pt. rewrite cpt_nth by exact Hk. apply Qred_correct. Qed.
Lemma cpt_eq p q : cpt p = cpt q <-> same_point n p q.
Proof.
  split.
  - intros E k Hk. rewrite <- (pt_cpt p k Hk), E. apply (pt_cpt q k Hk).
  - intros H. unfold cpt. apply map_ext_in. intros k Hk. apply in_seq in Hk. apply Qred_complete, H. lia.
Qed.
Lemma same_sym p q : same_point n p q -> same_point n q p.
Proof. intros H k Hk. symmetry. apply H, Hk. Qed.
Lemma same_trans p q r : same_point n p q -> same_point n q r -> same_point n p r.
Proof. intros H H' k Hk. rewrite (H k Hk). apply H', Hk. Qed.
Lemma q_dec (a b : Q) : {a = b} + {a <> b}.
Proof. decide equality; [apply Pos.eq_dec|apply Z.eq_dec]. Qed.
Lemma tanb_same p q x c : same_point n p q -> tanb n p x c = tanb n q x c.
Proof. intros H. unfold tanb, okb. rewrite (slack_ext n c p q H). reflexivity. Qed.
Lemma tind_same T p q x : same_point n p q -> Tind T p x = Tind T q x.
Proof. intros H. unfold Tind, full_ind. f_equal. induction T as [|c T IH]; [reflexivity|]. cbn [forallb]. rewrite IH, (tanb_same p q _ c H). reflexivity. Qed.

Lemma one_term (f : list Q -> lfun) (q0 : list Q) : forall S0, NoDup S0 -> In q0 S0 -> (forall q, In q S0 -> q <> q0 -> negl n (f q)) ->
  negl n (fun x => lsum (map (fun q => f q x) S0) - f q0 x).
Proof.
  induction S0 as [|q S0 IH]; intros D I H; [destruct I|]. inversion D as [|? ? Nq D']; subst. destruct I as [->|I].
  - apply (negl_ext n (fun x => lsum (map (fun q => f q x) S0))); [intros x _; cbn [map]; rewrite lsum_cons; lia|]. apply negl_lsum. intros q Hq. apply H; [right; exact Hq|]. intros ->. contradiction.
  - apply (negl_ext n (fun x => f q x + (lsum (map (fun q => f q x) S0) - f q0 x))); [intros x _; cbn [map]; rewrite lsum_cons; lia|]. apply negl_add; [apply H; [left; reflexivity|intros ->; contradiction]|].
    apply IH; [exact D'|exact I|]. intros q' Hq'. apply H. right. exact Hq'.
Qed.
Lemma lsum_swap {A B} (f : A -> B -> Z) la lb : lsum (map (fun a => lsum (map (fun b => f a b) lb)) la) = lsum (map (fun b => lsum (map (fun a => f a b) la)) lb).
Proof.
  induction la as [|a la IH]; cbn [map].
  - change (lsum []) with 0. induction lb as [|b lb IHb]; [reflexivity|]. cbn [map]. rewrite lsum_cons, <- IHb. reflexivity.
  - rewrite lsum_cons, IH. clear. induction lb as [|b lb IHb]; [reflexivity|]. cbn [map]. rewrite !lsum_cons. lia.
Qed.
Lemma lsum_scale {A} c (f : A -> Z) l : lsum (map (fun a => c * f a) l) = c * lsum (map f l).
Proof. induction l as [|a l IH]; [cbn; lia|]. cbn [map]. rewrite !lsum_cons, IH. ring. Qed.
Lemma lsum_ext {A} (f g : A -> Z) l : (forall a, In a l -> f a = g a) -> lsum (map f l) = lsum (map g l).
Proof. intros H. f_equal. apply map_ext_in, H. Qed.

Theorem brion_lattice : forall rows vs,
  NoDup (map cpt vs) -> (forall v, In v vs -> is_vertex n rows v) -> (forall v, is_vertex n rows v -> exists w, In w vs /\ same_point n v w) ->
  negl n (fun x => Ind rows x - lsum (map (fun v => Tind rows v x) vs)).
Proof.
  intros rows vs D V A. destruct (simplicial_combination n (length rows) rows (le_n _)) as (L&G). pose proof (good_tangent n rows L G) as GT. destruct G as (G1&G2).
  assert (exists Ps, forall t, In t L ->
     (exists p0, In p0 Ps /\ (forall x, length x = n -> Tind (snd t) p0 x = Ind (snd t) x) /\ forall p, ~ same_point n p p0 -> negl n (Tind (snd t) p)) \/
     (negl n (Ind (snd t)) /\ forall p, negl n (Tind (snd t) p))) as (Ps&HP).
  { clear GT G2. induction L as [|t L IH]; [exists []; intros t []|]. destruct IH as (Ps&HP); [intros u Hu; apply G1; right; exact Hu|]. destruct (piece (snd t) (proj2 (G1 t (or_introl eq_refl)))) as [(p0&P1&P2)|Ng].
    - exists (p0 :: Ps). intros u [<-|Hu]; [left; exists p0; split; [left; reflexivity|auto]|]. destruct (HP u Hu) as [(p1&I1&Q1)|H]; [left; exists p1; split; [right; exact I1|exact Q1]|right; exact H].
    - exists Ps. intros u [<-|Hu]; [right; exact Ng|apply HP, Hu]. }
  set (dec := list_eq_dec q_dec). set (Cv := map cpt vs). set (W := filter (fun q => if in_dec dec q Cv then false else true) (nodup dec (map cpt Ps))). set (S0 := Cv ++ W).
  assert (DS : NoDup S0).
  { unfold S0, W. revert D. fold Cv. generalize Cv as C. intros C. pose proof (NoDup_nodup dec (map cpt Ps)) as DN. revert DN. generalize (nodup dec (map cpt Ps)) as M. intros M DN DC.
    assert (DW : NoDup (filter (fun q => if in_dec dec q C then false else true) M)) by (apply NoDup_filter, DN).
    assert (DJ : forall q, In q C -> In q (filter (fun q => if in_dec dec q C then false else true) M) -> False) by (intros q I1 I2; apply filter_In in I2; destruct I2 as (_&I2); destruct (in_dec dec q C); [discriminate|contradiction]).
    revert DW DJ. generalize (filter (fun q => if in_dec dec q C then false else true) M). intros N DN' DJ. induction C as [|q C IH]; [exact DN'|]. inversion DC; subst. cbn [app]. constructor.
    - rewrite in_app_iff. intros [I|I]; [contradiction|]. apply (DJ q); [left; reflexivity|exact I].
    - apply IH; [assumption|]. intros q' I1 I2. apply (DJ q'); [right; exact I1|exact I2]. }
  assert (SP : forall p, In p Ps -> In (cpt p) S0).
  { intros p Hp. unfold S0. apply in_app_iff. destruct (in_dec dec (cpt p) Cv) as [I|N]; [left; exact I|right]. unfold W. apply filter_In. split; [apply nodup_In, in_map, Hp|]. destruct (in_dec dec (cpt p) Cv); [contradiction|reflexivity]. }
  (* every piece *)
  assert (N1 : forall t, In t L -> negl n (fun x => Ind (snd t) x - lsum (map (fun q => Tind (snd t) (pt q) x) S0))).
  { intros t Ht. destruct (HP t Ht) as [(p0&I0&E0&N0)|(NI&NT)].
    - pose proof (one_term (fun q => Tind (snd t) (pt q)) (cpt p0) S0 DS (SP p0 I0)) as O. assert (OH : forall q, In q S0 -> q <> cpt p0 -> negl n (Tind (snd t) (pt q))).
      { intros q Hq Nq. apply N0. intros Sm. apply Nq. assert (Cq : q = cpt (pt q)).
        { unfold S0 in Hq. apply in_app_iff in Hq. assert (exists p, q = cpt p) as (p&->) by (destruct Hq as [Hq|Hq]; [unfold Cv in Hq|unfold W in Hq; apply filter_In in Hq; destruct Hq as (Hq&_); apply nodup_In in Hq]; apply in_map_iff in Hq; destruct Hq as (p&<-&_); exists p; reflexivity).
          apply cpt_eq. apply same_sym, pt_cpt. }
        rewrite Cq. apply cpt_eq, Sm. }
      specialize (O OH). apply (negl_scale n (-1)) in O. eapply negl_ext; [|exact O]. intros x Hx. cbv beta. rewrite (tind_same (snd t) (pt (cpt p0)) p0 x (pt_cpt p0)), E0 by exact Hx. ring.
    - apply (negl_ext n (fun x => Ind (snd t) x + (-1) * lsum (map (fun q => Tind (snd t) (pt q) x) S0))); [intros x _; ring|]. apply negl_add; [exact NI|]. apply negl_scale, negl_lsum. intros q _. apply NT. }
  (* points that are not vertices *)
  assert (N2 : forall q, In q W -> negl n (Tind rows (pt q))).
  { intros q Hq. destruct (forallb (okb n (pt q)) rows) eqn:F.
    - rewrite forallb_forall in F. destruct (kernel_dec n (map lin (filter (active (pt q)) rows))) as [(r&Nr&Kr)|K].
      + apply (tind_negl rows (pt q) r Nr). intros c Hc Sc. apply (proj1 (kills_map _ _) Kr). apply filter_In. split; [exact Hc|]. apply Qeq_bool_iff, Sc.
      + exfalso. destruct (A (pt q)) as (w&Iw&Sw).
        { split; [intros c Hc; apply okb_true, F, Hc|]. intros y Hy. apply K. apply kills_map. intros c Hc. apply filter_In in Hc. destruct Hc as (Hc&Ac). apply (Hy c Hc). apply Qeq_bool_iff, Ac. }
        unfold W in Hq. apply filter_In in Hq. destruct Hq as (Hq&Hn). destruct (in_dec dec q Cv) as [|Nq]; [discriminate|]. apply Nq. apply nodup_In in Hq. apply in_map_iff in Hq. destruct Hq as (p&<-&_).
        unfold Cv. replace (cpt p) with (cpt w); [apply in_map, Iw|]. apply cpt_eq. apply same_sym. apply (same_trans _ (pt (cpt p))); [apply same_sym, pt_cpt|exact Sw].
    - apply (negl_ext n (fun _ => 0)); [|apply negl_zero]. intros x Hx. unfold Tind, full_ind. replace (forallb (tanb n (pt q) (zpoint x)) rows) with false; [reflexivity|]. symmetry.
      revert F. clear. induction rows as [|c T IH]; [discriminate|]. cbn [forallb]. unfold tanb at 1. destruct (okb n (pt q) c); cbn [andb]; [|reflexivity]. intros F. rewrite (IH F). apply Bool.andb_false_r. }
  apply (negl_ext n (fun x => lsum (map (fun t => fst t * (Ind (snd t) x - lsum (map (fun q => Tind (snd t) (pt q) x) S0))) L) + lsum (map (fun q => Tind rows (pt q) x) W))).
  - intros x Hx.
    assert (E1 : Ind rows x = lsum (map (fun t => fst t * Ind (snd t) x) L)) by (unfold Ind; rewrite (G2 (zpoint x)); reflexivity).
    assert (E2 : forall p, Tind rows p x = lsum (map (fun t => fst t * Tind (snd t) p x) L)) by (intros p; unfold Tind; rewrite (GT p (zpoint x)); reflexivity).
    assert (E3 : lsum (map (fun q => Tind rows (pt q) x) S0) = lsum (map (fun t => fst t * lsum (map (fun q => Tind (snd t) (pt q) x) S0)) L)).
    { rewrite (lsum_ext _ (fun q => lsum (map (fun t => fst t * Tind (snd t) (pt q) x) L)) S0) by (intros; apply E2). rewrite lsum_swap. apply lsum_ext. intros t _. apply lsum_scale. }
    assert (E4 : lsum (map (fun q => Tind rows (pt q) x) S0) = lsum (map (fun v => Tind rows v x) vs) + lsum (map (fun q => Tind rows (pt q) x) W)).
    { unfold S0. rewrite map_app, lsum_app. f_equal. unfold Cv. rewrite map_map. apply lsum_ext. intros v _. apply tind_same, pt_cpt. }
    assert (E5 : lsum (map (fun t => fst t * (Ind (snd t) x - lsum (map (fun q => Tind (snd t) (pt q) x) S0))) L) =
      lsum (map (fun t => fst t * Ind (snd t) x) L) - lsum (map (fun t => fst t * lsum (map (fun q => Tind (snd t) (pt q) x) S0)) L)).
    { clear. induction L as [|t L IH]; [reflexivity|]. cbn [map]. rewrite !lsum_cons, IH. ring. }
    rewrite E5, <- E1, <- E3, E4. lia.
  - apply negl_add; [|apply negl_lsum; exact N2]. apply (negl_lsum n (fun t x => fst t * (Ind (snd t) x - lsum (map (fun q => Tind (snd t) (pt q) x) S0)))). intros t Ht. apply negl_scale, N1, Ht.
Qed.
End Dim.
