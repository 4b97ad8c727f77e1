(** Generating functions of simplicial cones as operators on lattice functions. *)
From Coq Require Import QArith Lqa.
From Verif Require Import Common ZMat Hermite HermiteProofs RatVec RatVecSpec Piped PipedSpec PipedProofs PipedProofs3 PipedProofs4 ConeSpec ConeProofs ExpSpec ExpProofs3 ExpProofs4 CountSpec BarvinokProofs2 BrionLinear BrionProofs BrionProofs2.
Open Scope Z_scope.

(** ** Polynomials as operators *)
Definition act (p : gpoly) (F : lfun) : lfun := fun x => lsum (map (fun a => fst a * F (vsub x (snd a))) p).
Lemma act_cons a p F x : act (a :: p) F x = fst a * F (vsub x (snd a)) + act p F x.
Proof. reflexivity. Qed.
Lemma act_app p q F x : act (p ++ q) F x = act p F x + act q F x.
Proof. unfold act. rewrite map_app. apply lsum_app. Qed.
Lemma act_ext n p F G : wfp n p -> eqn n F G -> eqn n (act p F) (act p G).
Proof. intros W H x Hx. unfold act. apply lsum_ext. intros a Ha. rewrite H; [reflexivity|]. unfold wfp in W. rewrite Forall_forall in W. apply vsub_len; [exact Hx|apply W, Ha]. Qed.
Lemma gcoeff_cons a p v : gcoeff (a :: p) v = (if list_eq_dec Z.eq_dec (snd a) v then fst a else 0) + gcoeff p v.
Proof. cbn [gcoeff]. destruct (list_eq_dec Z.eq_dec (snd a) v); lia. Qed.
Lemma gcoeff_app p q v : gcoeff (p ++ q) v = gcoeff p v + gcoeff q v.
Proof. induction p as [|a p IH]; [reflexivity|]. cbn [app]. rewrite !gcoeff_cons, IH. lia. Qed.
Lemma gcoeff_scale c p v : gcoeff (gscale c p) v = c * gcoeff p v.
Proof. induction p as [|a p IH]; [cbn; lia|]. cbn [gscale map]. fold (gscale c p). rewrite !gcoeff_cons, IH. cbn [fst snd]. destruct (list_eq_dec Z.eq_dec (snd a) v); lia. Qed.
Lemma vadd_vsub n a b x : length a = n -> length b = n -> length x = n -> vadd a b = x <-> b = vsub x a.
Proof.
  intros Ha Hb Hx. split; intros E; subst.
  - apply (nth_ext _ _ 0 0); [rewrite (vsub_len (length a)); auto|]. intros k _. rewrite vsub_nth by lia. rewrite vadd_nth by lia. lia.
  - apply (nth_ext _ _ 0 0); [rewrite vadd_len by (rewrite (vsub_len (length a)); auto); lia|]. intros k _. rewrite vadd_nth by (rewrite (vsub_len (length a)); auto). rewrite vsub_nth by lia. lia.
Qed.
Lemma vadd_comm a b : vadd a b = vadd b a.
Proof. revert b. induction a as [|x a IH]; intros [|y b]; cbn [vadd]; [reflexivity|reflexivity|reflexivity|]. rewrite IH. f_equal. lia. Qed.
Lemma gcoeff_shift n c v q x : length v = n -> wfp n q -> length x = n -> gcoeff (map (fun b => (c * fst b, vadd v (snd b))) q) x = c * gcoeff q (vsub x v).
Proof.
  intros Hv W Hx. induction q as [|b q IH]; [cbn; lia|]. cbn [map]. rewrite !gcoeff_cons, IH by exact (Forall_inv_tail W). cbn [fst snd]. pose proof (vadd_vsub n v (snd b) x Hv (Forall_inv W) Hx) as I.
  destruct (list_eq_dec Z.eq_dec (vadd v (snd b)) x), (list_eq_dec Z.eq_dec (snd b) (vsub x v)); try tauto; lia.
Qed.
Lemma gcoeff_mul n p q x : wfp n p -> wfp n q -> length x = n -> gcoeff (gmul p q) x = act p (gcoeff q) x.
Proof.
  intros Wp Wq Hx. induction p as [|a p IH]; [reflexivity|]. unfold gmul. cbn [flat_map]. fold (gmul p q). rewrite gcoeff_app, act_cons, IH by exact (Forall_inv_tail Wp). f_equal. apply (gcoeff_shift n); [exact (Forall_inv Wp)|exact Wq|exact Hx].
Qed.
Lemma act_gcoeff_comm n p q x : wfp n p -> wfp n q -> length x = n -> act p (gcoeff q) x = act q (gcoeff p) x.
Proof.
  intros Wp Wq Hx. induction p as [|a p IH].
  - unfold act. cbn [map]. change (lsum []) with 0. induction q as [|b q IHq]; [reflexivity|]. cbn [map]. rewrite lsum_cons, <- IHq by exact (Forall_inv_tail Wq). cbn [gcoeff]. lia.
  - rewrite act_cons, IH by exact (Forall_inv_tail Wp). pose proof (Forall_inv Wp) as Ha. cbv beta in Ha. clear IH. induction q as [|b q IHq]; [cbn; lia|]. pose proof (Forall_inv Wq) as Hb. cbv beta in Hb. rewrite !act_cons, !gcoeff_cons. specialize (IHq (Forall_inv_tail Wq)).
    assert (I : snd a = vsub x (snd b) <-> snd b = vsub x (snd a)) by (rewrite <- !(vadd_vsub n) by auto; rewrite (vadd_comm (snd a)); reflexivity).
    destruct (list_eq_dec Z.eq_dec (snd b) (vsub x (snd a))), (list_eq_dec Z.eq_dec (snd a) (vsub x (snd b))); try tauto; lia.
Qed.
Lemma vsub_vadd n x a b : length x = n -> length a = n -> length b = n -> vsub x (vadd a b) = vsub (vsub x a) b.
Proof.
  intros Hx Ha Hb. assert (Lab : length (vadd a b) = n) by (rewrite vadd_len; lia). assert (Lxa : length (vsub x a) = n) by now apply vsub_len.
  apply (nth_ext _ _ 0 0); [rewrite (vsub_len n x (vadd a b)), (vsub_len n (vsub x a) b) by assumption; reflexivity|]. intros k _. rewrite !vsub_nth by lia. rewrite vadd_nth by lia. lia.
Qed.
Lemma act_mul n p q F x : wfp n p -> wfp n q -> length x = n -> act (gmul p q) F x = act p (act q F) x.
Proof.
  intros Wp Wq Hx. induction p as [|a p IH]; [reflexivity|]. unfold gmul. cbn [flat_map]. fold (gmul p q). rewrite act_app, act_cons, IH by exact (Forall_inv_tail Wp). f_equal.
  pose proof (Forall_inv Wp) as Ha. cbv beta in Ha. clear IH. induction q as [|b q IHq]; [cbn; lia|]. cbn [map]. rewrite !act_cons, IHq by exact (Forall_inv_tail Wq). cbn [fst snd]. pose proof (Forall_inv Wq) as Hb. cbv beta in Hb. rewrite (vsub_vadd n) by auto. ring.
Qed.
Lemma vsub_zero n x : length x = n -> vsub x (repeat 0 n) = x.
Proof. intros Hx. apply (nth_ext _ _ 0 0); [rewrite (vsub_len n); auto; now rewrite repeat_length|]. intros k _. rewrite vsub_nth by now rewrite repeat_length. rewrite nth_repeat. lia. Qed.
Lemma act_one n F x : length x = n -> act (gone n) F x = F x.
Proof. intros Hx. unfold act, gone. cbn [map fst snd]. rewrite lsum_cons, vsub_zero by exact Hx. change (lsum []) with 0. lia. Qed.
Lemma act_denom n rays F : Forall (fun r => length r = n) rays -> eqn n (act (gdenom n rays) F) (diffs rays F).
Proof.
  induction rays as [|r rays IH]; intros W x Hx; [apply act_one, Hx|]. cbn [gdenom fold_right]. fold (gdenom n rays).
  rewrite (act_mul n) by (first [exact Hx|apply gdenom_wf; exact (Forall_inv_tail W)|repeat constructor; cbn [snd]; [apply repeat_length|exact (Forall_inv W)]]).
  rewrite !act_cons. cbn [fst snd]. rewrite vsub_zero by exact Hx. unfold act at 3. cbn [map]. change (lsum []) with 0. rewrite diffs_cons, !IH; [lia|exact (Forall_inv_tail W)|apply vsub_len; [exact Hx|exact (Forall_inv W)]|exact (Forall_inv_tail W)|exact Hx].
Qed.

(** ** Sums of cones *)
Definition total (cs : list (gcone * lfun)) : lfun := fun x => lsum (map (fun c => fst (fst (fst c)) * snd c x) cs).
Definition matches (n : nat) (c : gcone * lfun) : Prop := gc_ok n (fst c) /\ eqn n (diffs (snd (fst (fst c))) (snd c)) (gcoeff (gpoints (snd (fst c)))).
Lemma matches_ok n cs : Forall (matches n) cs -> Forall (gc_ok n) (map fst cs).
Proof. intros H. apply Forall_map. revert H. apply Forall_impl. intros c (H&_). exact H. Qed.
Lemma all_rays_cons c cs : all_rays (c :: cs) = snd (fst c) ++ all_rays cs.
Proof. reflexivity. Qed.
Lemma all_rays_len n cs : Forall (gc_ok n) cs -> Forall (fun r => length r = n) (all_rays cs).
Proof. induction 1 as [|c cs (_&H&_) F IH]; [constructor|]. rewrite all_rays_cons. apply Forall_app. auto. Qed.
Lemma grational_cons n coef rays pts cs : grational n ((coef, rays, pts) :: cs) =
  (gmul (gscale coef (gpoints pts)) (snd (grational n cs)) ++ gmul (fst (grational n cs)) (gdenom n rays), gmul (gdenom n rays) (snd (grational n cs))).
Proof. reflexivity. Qed.
Lemma act_den n cs F : Forall (gc_ok n) cs -> eqn n (act (snd (grational n cs)) F) (diffs (all_rays cs) F).
Proof.
  induction cs as [|[[coef rays] pts] cs IH]; intros W x Hx; [apply act_one, Hx|]. rewrite grational_cons. cbn [snd]. destruct (Forall_inv W) as (_&WR&_). cbn [fst snd] in WR.
  pose proof (Forall_inv_tail W) as WT. rewrite (act_mul n); [|apply gdenom_wf, WR|apply (grational_wf n cs WT)|exact Hx]. rewrite all_rays_cons, diffs_app. cbn [fst snd].
  rewrite (act_denom n rays _ WR x Hx). apply (diffs_ext n rays); [intros r Hr; rewrite Forall_forall in WR; apply WR, Hr|apply IH, WT|exact Hx].
Qed.
Lemma num_coeff n cs : Forall (matches n) cs -> eqn n (gcoeff (fst (grational n (map fst cs)))) (diffs (all_rays (map fst cs)) (total cs)).
Proof.
  induction cs as [|[[[coef rays] pts] F] cs IH]; intros M x Hx; [cbn; reflexivity|]. cbn [map fst]. rewrite grational_cons. cbn [fst]. destruct (Forall_inv M) as (G0&E0). cbn [fst snd] in G0, E0. destruct G0 as (_&WR&WP). cbn [fst snd] in WR, WP.
  pose proof (Forall_inv_tail M) as MT. pose proof (matches_ok n cs MT) as GT. destruct (grational_wf n (map fst cs) GT) as (WN&WD).
  assert (WS : wfp n (gscale coef (gpoints pts))) by (apply gscale_wf, gpoints_wf, WP). pose proof (gdenom_wf n rays WR) as WG.
  rewrite gcoeff_app, !(gcoeff_mul n) by assumption. rewrite (act_gcoeff_comm n _ _ x WS WD Hx), (act_gcoeff_comm n _ _ x WN WG Hx).
  rewrite (act_den n (map fst cs) _ GT x Hx), (act_denom n rays _ WR x Hx).
  assert (LR : lens n rays) by (intros r Hr; rewrite Forall_forall in WR; apply WR, Hr).
  assert (LA : lens n (all_rays (map fst cs))) by (intros r Hr; pose proof (all_rays_len n _ GT) as A; rewrite Forall_forall in A; apply A, Hr).
  rewrite (diffs_ext n rays _ _ LR (IH MT) x Hx). rewrite all_rays_cons, diffs_app. cbn [fst snd].
  rewrite (diffs_ext n _ _ (fun y => coef * diffs rays F y) LA) by (first [exact Hx|intros y Hy; rewrite gcoeff_scale, (E0 y Hy); reflexivity]). rewrite diffs_scale.
  assert (LL : lens n (rays ++ all_rays (map fst cs))) by (intros r Hr; apply in_app_iff in Hr; destruct Hr; auto).
  rewrite <- !diffs_app. rewrite (diffs_ext n (rays ++ all_rays (map fst cs)) (total (((coef, rays, pts), F) :: cs)) (fun y => coef * F y + total cs y) LL) by (first [exact Hx|intros y _; reflexivity]).
  rewrite diffs_add, diffs_scale. f_equal. f_equal. rewrite !diffs_app. apply diffs_comm.
Qed.
Lemma diffs_negl n rs F : lens n rs -> negl n F -> negl n (diffs rs F).
Proof. intros L (ss&H&K). exists ss. split; [exact H|]. intros x Hx. rewrite diffs_comm, (diffs_ext n rs _ _ L K x Hx). apply diffs_zero. Qed.
Lemma gcoeff_finite n p : finite_support n (gcoeff p).
Proof.
  exists (map snd p). intros x _ N. induction p as [|a p IH]; [cbn in N; lia|]. rewrite gcoeff_cons in N. cbn [map]. destruct (list_eq_dec Z.eq_dec (snd a) x); [left; assumption|right; apply IH; lia].
Qed.
Lemma finite_sub n F G : finite_support n F -> finite_support n G -> finite_support n (fun x => F x - G x).
Proof. intros (K&HK) (K'&HK'). exists (K ++ K'). intros x Hx N. apply in_app_iff. destruct (Z.eq_dec (F x) 0); [right; apply HK'; [exact Hx|lia]|left; apply HK; assumption]. Qed.
Lemma finite_ext n F G : eqn n F G -> finite_support n F -> finite_support n G.
Proof. intros E (K&HK). exists K. intros x Hx N. apply HK; [exact Hx|]. rewrite (E x Hx). exact N. Qed.
Lemma gcoeff_len n p x : wfp n p -> length x <> n -> gcoeff p x = 0.
Proof. induction 1 as [|a p H F IH]; intros N; [reflexivity|]. rewrite gcoeff_cons, IH by exact N. destruct (list_eq_dec Z.eq_dec (snd a) x) as [E|E]; [subst x; contradiction|reflexivity]. Qed.
(** A negligible difference is none. *)
Theorem generates_from_negl n cs points : Forall (matches n) cs -> Forall (fun p => length p = n) points ->
  negl n (fun x => gcoeff (gpoints points) x - total cs x) -> generates n (map fst cs) points.
Proof.
  intros M W N v. pose proof (matches_ok n cs M) as G. destruct (grational_wf n _ G) as (WN&WD). pose proof (gpoints_wf n points W) as WP.
  destruct (Nat.eq_dec (length v) n) as [L|L]; [|rewrite !(gcoeff_len n); auto; apply gmul_wf; assumption].
  assert (LA : lens n (all_rays (map fst cs))) by (intros r Hr; pose proof (all_rays_len n _ G) as A; rewrite Forall_forall in A; apply A, Hr).
  assert (E1 : eqn n (gcoeff (gmul (gpoints points) (snd (grational n (map fst cs))))) (diffs (all_rays (map fst cs)) (gcoeff (gpoints points)))).
  { intros x Hx. rewrite (gcoeff_mul n) by assumption. rewrite (act_gcoeff_comm n) by assumption. apply act_den; assumption. }
  pose proof (num_coeff n cs M) as E2. pose proof (diffs_negl n _ _ LA N) as N2.
  assert (E3 : eqn n (diffs (all_rays (map fst cs)) (fun x => gcoeff (gpoints points) x - total cs x)) (fun x => gcoeff (gmul (gpoints points) (snd (grational n (map fst cs)))) x - gcoeff (fst (grational n (map fst cs))) x)).
  { intros x Hx. rewrite E1, E2 by exact Hx. rewrite (diffs_ext n _ _ (fun y => gcoeff (gpoints points) y + (-1) * total cs y) LA) by (first [exact Hx|intros y _; ring]). rewrite diffs_add, diffs_scale. ring. }
  pose proof (negl_ext n _ _ E3 N2) as N3. pose proof (negl_finite n _ N3 (finite_sub n _ _ (gcoeff_finite n _) (gcoeff_finite n _)) v L) as Z0. cbv beta in Z0. lia.
Qed.

(** ** One simplicial cone *)
Section Cone.
Variables (n : nat) (rays : list (list Z)) (lam : list Z -> nat -> Q).
Hypothesis Lr : length rays = n.
Hypothesis Wr : forall k, (k < n)%nat -> length (nth k rays []) = n.
Hypothesis Sh : forall x k i, length x = n -> (k < n)%nat -> (i < n)%nat -> (lam (vsub x (nth k rays [])) i == lam x i - (if Nat.eqb i k then 1 else 0))%Q.
Definition upb (k i : nat) (x : list Z) : bool := Qle_bool 0 (lam x i) && ((i <? k)%nat || negb (Qle_bool 1 (lam x i))).
Definition stage (k : nat) : lfun := fun x => b2z (forallb (fun i => upb k i x) (seq 0 n)).
Lemma forallb_ext_in (f g : nat -> bool) l : (forall i, In i l -> f i = g i) -> forallb f l = forallb g l.
Proof. induction l as [|a l IH]; intros H; [reflexivity|]. cbn [forallb]. rewrite (H a (or_introl eq_refl)), IH by (intros i Hi; apply H; right; exact Hi). reflexivity. Qed.
Lemma stage_step k : (k < n)%nat -> eqn n (diff (nth k rays []) (stage (S k))) (stage k).
Proof.
  intros Hk x Hx. unfold diff, stage.
  assert (Sp : forall f : nat -> bool, forallb f (seq 0 n) = f k && forallb (fun i => Nat.eqb i k || f i) (seq 0 n)).
  { intros f. apply Bool.eq_iff_eq_true. rewrite Bool.andb_true_iff, !forallb_forall. split.
    - intros H. split; [apply H, in_seq; lia|]. intros i Hi. rewrite (H i Hi). apply Bool.orb_true_r.
    - intros (H&K) i Hi. specialize (K i Hi). destruct (Nat.eqb_spec i k) as [E|N]; [rewrite E; exact H|exact K]. }
  rewrite (Sp (fun i => upb (S k) i x)), (Sp (fun i => upb (S k) i (vsub x (nth k rays [])))), (Sp (fun i => upb k i x)).
  assert (E1 : forallb (fun i => Nat.eqb i k || upb (S k) i x) (seq 0 n) = forallb (fun i => Nat.eqb i k || upb k i x) (seq 0 n)).
  { apply forallb_ext_in. intros i Hi. destruct (Nat.eqb_spec i k) as [E|N]; [reflexivity|]. cbn [orb]. unfold upb. f_equal. f_equal. destruct (Nat.ltb_spec i (S k)), (Nat.ltb_spec i k); try reflexivity; lia. }
  assert (E2 : forallb (fun i => Nat.eqb i k || upb (S k) i (vsub x (nth k rays []))) (seq 0 n) = forallb (fun i => Nat.eqb i k || upb k i x) (seq 0 n)).
  { rewrite <- E1. apply forallb_ext_in. intros i Hi. apply in_seq in Hi. destruct (Nat.eqb_spec i k) as [E|N]; [reflexivity|]. cbn [orb]. unfold upb.
    assert (V : (lam (vsub x (nth k rays [])) i == lam x i)%Q) by (rewrite Sh by (first [exact Hx|lia]); rewrite (proj2 (Nat.eqb_neq i k) N); ring). rewrite V. reflexivity. }
  rewrite E1, E2. destruct (forallb (fun i => Nat.eqb i k || upb k i x) (seq 0 n)); [|rewrite !Bool.andb_false_r; reflexivity]. rewrite !Bool.andb_true_r. unfold upb.
  assert (V : (lam (vsub x (nth k rays [])) k == lam x k - 1)%Q) by (rewrite Sh by (first [exact Hx|lia]); rewrite Nat.eqb_refl; reflexivity). rewrite V.
  rewrite (proj2 (Nat.ltb_lt k (S k))) by lia. rewrite (proj2 (Nat.ltb_ge k k)) by lia. cbn [orb]. rewrite !Bool.andb_true_r.
  assert (B1 : Qle_bool 0 (lam x k - 1) = Qle_bool 1 (lam x k)) by (apply Bool.eq_iff_eq_true; rewrite !Qle_bool_iff; split; intros; lra). rewrite B1.
  destruct (Qle_bool 1 (lam x k)) eqn:B2; cbn [negb].
  - apply Qle_bool_iff in B2. rewrite (proj2 (Qle_bool_iff 0 (lam x k))) by lra. reflexivity.
  - rewrite Bool.andb_true_r. cbn [b2z]. destruct (Qle_bool 0 (lam x k)); reflexivity.
Qed.
Lemma skipn_cons_nth (l : list (list Z)) k : (k < length l)%nat -> skipn k l = nth k l [] :: skipn (S k) l.
Proof. revert k. induction l as [|a l IH]; intros [|k] H; cbn [length] in H; try lia; [reflexivity|]. cbn [skipn nth]. apply IH. lia. Qed.
Lemma stages m : (m <= n)%nat -> eqn n (diffs (skipn (n - m) rays) (stage n)) (stage (n - m)).
Proof.
  induction m as [|m IH]; intros Hm x Hx.
  - rewrite Nat.sub_0_r, <- Lr, skipn_all. reflexivity.
  - rewrite (skipn_cons_nth rays (n - S m)) by lia. replace (S (n - S m))%nat with (n - m)%nat by lia. change (diffs (nth (n - S m) rays [] :: skipn (n - m) rays) (stage n) x) with (diff (nth (n - S m) rays []) (diffs (skipn (n - m) rays) (stage n)) x).
    rewrite (diff_ext n _ _ (stage (n - m)) (Wr (n - S m)%nat ltac:(lia)) (IH ltac:(lia)) x Hx). replace (n - m)%nat with (S (n - S m)) by lia. apply stage_step; [lia|exact Hx].
Qed.
Lemma cone_diffs : eqn n (diffs rays (stage n)) (stage 0).
Proof. intros x Hx. pose proof (stages n (le_n n) x Hx) as H. rewrite Nat.sub_diag in H. exact H. Qed.
End Cone.
Lemma gcoeff_points ps x : NoDup ps -> gcoeff (gpoints ps) x = b2z (if in_dec (list_eq_dec Z.eq_dec) x ps then true else false).
Proof.
  induction ps as [|p ps IH]; intros D; [reflexivity|]. inversion D as [|? ? N D']; subst. cbn [gpoints map]. fold (gpoints ps). rewrite gcoeff_cons, IH by exact D'. cbn [fst snd].
  destruct (list_eq_dec Z.eq_dec p x) as [->|E].
  - destruct (in_dec _ x ps); [contradiction|]. destruct (in_dec _ x (x :: ps)) as [|K]; [reflexivity|]. exfalso. apply K. left. reflexivity.
  - destruct (in_dec _ x ps) as [I|I], (in_dec _ x (p :: ps)) as [J|J]; try reflexivity; exfalso; [apply J; right; exact I|destruct J; [contradiction|tauto]].
Qed.
Definition clam (n : nat) (c : scone) (v : nat -> Q) (x : list Z) (i : nat) : Q := (- phi n c (fun k => zpoint x k - v k) i / inject_Z (nth i (s_divs c) 0%Z))%Q.
Theorem cone_matches n c v (pts : list (list Z)) : cone_ok n c -> NoDup pts -> (forall x, In x pts <-> in_parallelepiped n v (s_rays c) x) ->
  eqn n (diffs (s_rays c) (fun x => b2z (ind n (coord v) (zpoint x) c))) (gcoeff (gpoints pts)).
Proof.
  intros OK ND HP. pose proof OK as (NV&_). destruct NV as (LN&FN).
  assert (Dp : forall i, (i < n)%nat -> (0 < inject_Z (nth i (s_divs c) 0%Z))%Q) by (intros i Hi; exact (c_dlq n c OK i Hi)).
  assert (Cl : forall x i, (i < n)%nat -> (inject_Z (nth i (s_divs c) 0%Z) * clam n c (coord v) x i == phi n c (coord v) i - phi n c (zpoint x) i)%Q).
  { intros x i Hi. unfold clam. rewrite phi_sub. specialize (Dp i Hi). field. lra. }
  assert (Wr : forall k, (k < n)%nat -> length (nth k (s_rays c) []) = n) by (intros k Hk; rewrite Forall_forall in FN; apply FN, nth_In; lia).
  assert (Sh : forall x k i, length x = n -> (k < n)%nat -> (i < n)%nat -> (clam n c (coord v) (vsub x (nth k (s_rays c) [])) i == clam n c (coord v) x i - (if Nat.eqb i k then 1 else 0))%Q).
  { intros x k i Hx Hk Hi. specialize (Dp i Hi). apply (Qmult_inj_l _ _ (inject_Z (nth i (s_divs c) 0%Z))); [lra|]. rewrite Cl by exact Hi.
    setoid_replace (inject_Z (nth i (s_divs c) 0%Z) * (clam n c (coord v) x i - (if Nat.eqb i k then 1 else 0)))%Q with ((phi n c (coord v) i - phi n c (zpoint x) i) - inject_Z (nth i (s_divs c) 0%Z) * (if Nat.eqb i k then 1 else 0))%Q by (rewrite <- Cl by exact Hi; ring).
    assert (PR : (phi n c (zpoint (nth k (s_rays c) [])) i == - (inject_Z (nth i (s_divs c) 0%Z) * (if Nat.eqb i k then 1 else 0)))%Q).
    { rewrite phi_zpoint. pose proof (c_pair n c OK k i Hk Hi) as P. unfold ent in P at 1. rewrite P. rewrite Nat.eqb_sym. destruct (Nat.eqb i k); [rewrite inject_Z_opp; ring|change (inject_Z 0) with 0%Q; ring]. }
    rewrite (phi_ext n c (zpoint (vsub x (nth k (s_rays c) []))) (fun j => zpoint x j - zpoint (nth k (s_rays c) []) j)%Q).
    - rewrite phi_sub, PR. ring.
    - intros j _. unfold zpoint. rewrite vsub_nth by (rewrite Wr by exact Hk; exact Hx). unfold Z.sub. rewrite inject_Z_plus, inject_Z_opp. ring. }
  intros x Hx. pose proof (cone_diffs n (s_rays c) (clam n c (coord v)) LN Wr Sh x Hx) as CD.
  rewrite (diffs_ext n (s_rays c) _ (stage n (clam n c (coord v)) n)); [rewrite CD| |..].
  - rewrite gcoeff_points by exact ND. unfold stage. f_equal. apply Bool.eq_iff_eq_true. rewrite forallb_forall.
    assert (I : (forall i, In i (seq 0 n) -> upb (clam n c (coord v)) 0 i x = true) <-> in_parallelepiped n v (s_rays c) x).
    { unfold upb. split.
      - intros H. split; [exact Hx|]. exists (clam n c (coord v) x). split.
        + intros i Hi. specialize (H i ltac:(apply in_seq; lia)). apply Bool.andb_true_iff in H. destruct H as (H1&H2). apply Qle_bool_iff in H1. split; [exact H1|]. rewrite (proj2 (Nat.ltb_ge i 0)) in H2 by lia. cbn [orb] in H2. apply Bool.negb_true_iff in H2. apply Qnot_le_lt. intros H3. apply Qle_bool_iff in H3. congruence.
        + intros i Hi. pose proof (comb_self n c OK (fun k => zpoint x k - coord v k)%Q i Hi) as C. cbv beta in C. unfold clam. rewrite <- C. unfold zpoint. ring.
      - intros (_&mu&M1&M2) i Hi. apply in_seq in Hi. assert (Hi' : (i < n)%nat) by lia.
        assert (C : combination n (s_rays c) mu (fun k => zpoint x k - coord v k)%Q) by (intros k Hk; cbv beta; unfold zpoint; rewrite (M2 k Hk); ring).
        pose proof (comb_coord n c OK mu _ i C Hi') as E. specialize (Dp i Hi'). assert (V : (clam n c (coord v) x i == mu i)%Q) by (unfold clam; rewrite <- E; field; lra).
        destruct (M1 i Hi') as (A1&A2). rewrite V. rewrite (proj2 (Qle_bool_iff 0 (mu i)) A1). cbn [andb]. rewrite (proj2 (Nat.ltb_ge i 0)) by lia. cbn [orb]. apply Bool.negb_true_iff, Bool.not_true_iff_false. rewrite Qle_bool_iff. lra. }
    rewrite I, <- HP. destruct (in_dec (list_eq_dec Z.eq_dec) x pts); split; intros; auto; discriminate.
  - intros r Hr. rewrite Forall_forall in FN. apply FN, Hr.
  - intros y Hy. unfold stage, ind. f_equal. apply forallb_ext_in. intros i Hi. apply in_seq in Hi. unfold upb. rewrite (proj2 (Nat.ltb_lt i n)) by lia. cbn [orb]. rewrite Bool.andb_true_r.
    apply Bool.eq_iff_eq_true. rewrite !Qle_bool_iff. specialize (Dp i ltac:(lia)). pose proof (Cl y i ltac:(lia)) as C. split; intros H; [|nra]. apply Qnot_lt_le. intros L. nra.
  - exact Hx.
Qed.
