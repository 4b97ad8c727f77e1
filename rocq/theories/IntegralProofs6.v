(** Lawrence's sum of a run is the integral over the polytope. *)
From Coq Require Import QArith Qabs Qfield Lqa Qpower Permutation.
From Verif Require Import Common Rational RationalSpec Trie Integ IntegSpec ZMat Hermite Det DetProofs Piped PipedSpec ConeSpec CountSpec IntegralSpec IntegMath IntegProofs5 Series DecompProofs ExpSpec ExpProofs2 Perturb PerturbSpec PerturbProofs3 PerturbProofs4 PerturbProofs6 LimitProofs IntegralProofs3 IntegralProofs5.
Open Scope Q_scope.

Definition resize (n : nat) (e : list Z) : list Z := map (fun i => nth i e 0%Z) (seq 0 n).
Lemma resize_dot e : forall r, dot (resize (length r) e) r = dot e r.
Proof.
  intros r. unfold resize. rewrite <- !zdot_dot. revert e. induction r as [|x r IH]; intros e.
  - cbn [length seq map]. rewrite !zdot_dot. destruct e; reflexivity.
  - cbn [length seq map]. rewrite <- seq_shift, map_map, !zdot_dot. destruct e as [|y e]; cbn [nth dot].
    + specialize (IH []). rewrite !zdot_dot in IH. rewrite (map_ext _ (fun i => nth i [] 0%Z)) by (intros [|i]; reflexivity). rewrite IH. cbn. lia.
    + f_equal. rewrite <- !zdot_dot. apply IH.
Qed.
Lemma resize_len n e : length (resize n e) = n.
Proof. unfold resize. now rewrite map_length, seq_length. Qed.
Lemma zfact_q m : inject_Z (zfact m) == qfact m.
Proof. induction m as [|m IH]; [reflexivity|]. change (zfact (S m)) with (Z.of_nat (S m) * zfact m)%Z. cbn [qfact]. rewrite inject_Z_mult, IH. reflexivity. Qed.
Section Polytope.
Context (n : nat) (rows : list (list Z)) (vs : list (list Z)) (tri : list Z -> list (list (list Z))).
Context (Hn : n <> O) (LR : forall c, In c rows -> length c = S n) (BD : bounded n rows) (LV : forall v, In v vs -> length v = n).
Context (AV : all_vertices n rows (map zpoint vs)) (SP : forall v, In v vs -> splits_tangent_cone n rows v (tri v)).
Notation cones := (flat_map (fun v => map (pair v) (tri v)) vs).
Lemma tends_integral B l m I : (forall x, in_polyhedron n rows x -> forall k, (k < n)%nat -> - inject_Z B <= x k <= inject_Z B) ->
  tends (fun k => riemann_sum n l m k (lattice n rows B k)) I -> is_integral n rows l m I.
Proof.
  intros HB T eps He. destruct (T eps He) as (K & K1 & HK). exists K. split; [exact K1|]. intros k Hk. exists (lattice n rows B k). split; [apply lattice_ok; [exact HB|lia]|auto].
Qed.
Lemma cone_rows c : In c cones -> In (fst c) vs /\ length (snd c) = n /\ Forall (fun r => length r = n) (snd c).
Proof. intros H. destruct (cones_in n rows vs tri SP c H) as (A & _ & B & _ & C). auto. Qed.
Lemma cone_sum_head l e m : qsum (fun c => weight n c * term (n + m) l e c) cones == cone_sum n m l e cones.
Proof.
  unfold cone_sum. rewrite sum_over_qsum. apply qsum_ext. intros c Hc. unfold weight, term. rewrite (Nat.add_comm m n).
  replace (det n (ray_matrix (snd c))) with (det n (ent (snd c))); [reflexivity|]. rewrite <- (det_tr n (ent (snd c))). apply det_ext. intros i j _ _. reflexivity.
Qed.
Lemma polytope_form l e m : (1 <= m)%nat -> length l = n -> (forall c, In c cones -> dot l (fst c) = 0%Z \/ forall r, In r (snd c) -> dot l r = 0%Z -> dot e r <> 0%Z) ->
  is_integral n rows l m (sign n * (qfact m / qfact (n + m)) * cone_sum n m l e cones).
Proof.
  intros Hm Ll UB. destruct BD as (B & HB). apply (tends_integral B); [exact HB|].
  apply (tends_eq _ (head n m * qsum (fun c => weight n c * term (n + m) l (resize n e) c) cones)).
  - unfold head. apply Qmult_comp; [reflexivity|]. rewrite <- cone_sum_head. apply qsum_ext. intros c Hc. apply Qmult_comp; [reflexivity|].
    destruct (cone_rows c Hc) as (Hv & _ & F). assert (RD : dot (resize n e) (fst c) = dot e (fst c)) by (rewrite <- (LV _ Hv); apply resize_dot). unfold term. rewrite RD.
    rewrite (map_ext_in _ (fun r => (dot l r, dot e r))); [reflexivity|]. intros r Hr. rewrite Forall_forall in F. f_equal. rewrite <- (F r Hr). apply resize_dot.
  - apply (lawrence_limit n rows vs tri ltac:(lia) LR LV AV SP (lattice n rows B) (lattice_ok n rows B HB) l (resize n e) m Hm Ll (resize_len n e)).
    intros c Hc. destruct (UB c Hc) as [E|N]; [now left|]. right. intros r Hr E. destruct (cone_rows c Hc) as (_ & _ & F). rewrite Forall_forall in F. specialize (N r Hr E). rewrite <- (F r Hr). now rewrite resize_dot.
Qed.
Lemma polytope_run fuel rs cs ts ans : Permutation (map cone_of cs) cones -> cs <> [] -> ts <> [] -> Forall (term_ok n) ts ->
  integral_lawrence fuel n rs cs ts = Ok ans ->
  exists Is, lowest_terms ans /\ Forall2 (fun t I => is_integral n rows (t_exps t) (Z.to_nat (t_deg t)) I) ts Is /\
    value ans == sum_over (fun p => value (t_coef (fst p)) * (snd p / inject_Z (zfact (Z.to_nat (t_deg (fst p)))))) (combine ts Is).
Proof.
  intros P NC NT TO E.
  assert (INC : forall c, In c cs -> In (cone_of c) cones) by (intros c Hc; apply (Permutation_in _ P); now apply in_map).
  destruct (lawrence_run fuel n rs cs ts Hn) as [(ans' & es & H1 & H2 & H3 & H4)|(H1 & _)]; [|exact NT|exact TO| |congruence].
  { split; [exact NC|]. apply Forall_forall. intros c Hc. destruct (cone_rows _ (INC c Hc)) as (_ & A & B). split; assumption. }
  rewrite E in H1. injection H1 as <-.
  assert (IN' : forall c, In c cones -> exists d, In d cs /\ cone_of d = c) by (intros c Hc; apply (Permutation_in _ (Permutation_sym P)), in_map_iff in Hc as (d & <- & Hd); eauto).
  clear E. exists (map (fun p => sign n * (qfact (Z.to_nat (t_deg (fst p))) / qfact (n + Z.to_nat (t_deg (fst p)))) * cone_sum n (Z.to_nat (t_deg (fst p))) (t_exps (fst p)) (snd p) cones) (combine ts es)).
  split; [exact H2|]. split.
  - clear H4 NT. induction H3 as [|t e ts es UB H3 IH]; cbn [combine map]; [constructor|]. constructor; [|apply IH; exact (Forall_inv_tail TO)].
    cbn [fst snd]. destruct (Forall_inv TO) as ((T1 & T2) & T3 & T4). apply polytope_form; [lia|exact T4|]. intros c Hc. destruct (IN' c Hc) as (d & Hd & <-). rewrite Forall_forall in UB. specialize (UB d Hd).
    unfold blocked in UB. cbn [cone_of fst snd]. destruct (Z.eq_dec (dot (t_exps t) (pc_vertex d)) 0) as [E|E]; [now left|]. right. intros r Hr E0 E1. apply UB. split; [now rewrite dot_comm|]. eauto.
  - rewrite H4, !sum_over_qsum. clear H4 NT. induction H3 as [|t e ts es UB H3 IH]; cbn [combine map qsum fst snd]; [reflexivity|]. rewrite IH by exact (Forall_inv_tail TO). apply Qplus_comp; [|reflexivity].
    unfold form_value. apply Qmult_comp; [reflexivity|]. set (m := Z.to_nat (t_deg t)).
    assert (CS : cone_sum n m (t_exps t) e (map cone_of cs) == cone_sum n m (t_exps t) e cones) by (unfold cone_sum; rewrite !sum_over_qsum; now apply qsum_perm).
    rewrite CS. change (inject_Z (zfact (n + m))) with (inject_Z (zfact (n + m))). pose proof (qfact_nz m). pose proof (qfact_nz (n + m)). rewrite !zfact_q. field. split; assumption.
Qed.
End Polytope.
