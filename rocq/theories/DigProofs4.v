(** From the cones to their expansions. *)
From Coq Require Import Permutation.
From Verif Require Import Common ExpSpec ExpProofs3 BrionProofs BrionProofs2 BrionProofs3 TrieProofs DigHeap DigHeapProofs Dig DigProofs DigProofs2 DigProofs3.
Open Scope Z_scope.

Definition cone_ok (n : nat) (c : dcone) : Prop :=
  (dc_coef c = 1 \/ dc_coef c = -1) /\ (length (dc_rays c) <= n)%nat /\ Forall (fun r => length r = n) (dc_rays c) /\ length (dc_point c) = n.
Definition gcone_of (c : dcone) : gcone := (dc_coef c, dc_rays c, [dc_point c]).
Definition R_of (cost : list Z) (c : dcone) : list (list Z) := map (fun p => flip cost (nth (snd p) (dc_rays c) [])) (sorted_of cost c).
Definition a_of (cost : list Z) (c : dcone) : list Z := shift_of cost (dc_rays c) (dc_point c).
Definition exp_of (cost : list Z) (c : dcone) : lfun := expansion cost (a_of cost c) (R_of cost c).

Lemma map_nth_seq' {A B} (f : A -> B) (l : list A) d : map (fun i => f (nth i l d)) (seq 0 (length l)) = map f l.
Proof.
  apply (nth_ext _ _ (f d) (f d)); [rewrite !map_length, seq_length; reflexivity|]. intros i Hi. rewrite map_length, seq_length in Hi.
  rewrite map_nth. rewrite (nth_indep _ (f d) (f (nth 0 l d))) by (rewrite map_length, seq_length; exact Hi). rewrite (map_nth (fun i => f (nth i l d))), seq_nth by exact Hi. reflexivity.
Qed.
Lemma sorted_snd cost c : Permutation (map snd (sorted_of cost c)) (seq 0 (dim_of c)).
Proof.
  unfold sorted_of. rewrite (Permutation_map snd (sort_perm _)). rewrite map_length. fold (dim_of c). rewrite (proj2 (combine_fst (map (value_of cost) (dc_rays c)) (seq 0 (dim_of c)) ltac:(rewrite map_length, seq_length; reflexivity))). apply Permutation_refl.
Qed.
Lemma R_perm cost c : Permutation (R_of cost c) (map (flip cost) (dc_rays c)).
Proof.
  unfold R_of. rewrite <- (map_map snd (fun i => flip cost (nth i (dc_rays c) []))). rewrite (Permutation_map _ (sorted_snd cost c)). unfold dim_of. rewrite map_nth_seq'. apply Permutation_refl.
Qed.
Lemma combine_seq_in {A} (l : list A) d : forall k x i, In (x, i) (combine l (seq k (length l))) -> (k <= i)%nat /\ (i - k < length l)%nat /\ nth (i - k) l d = x.
Proof.
  induction l as [|y l IH]; intros k x i H; [destruct H|]. cbn [length seq combine] in H. destruct H as [E|H].
  - injection E as <- <-. rewrite Nat.sub_diag. cbn [nth length]. split; [lia|split; [lia|reflexivity]].
  - apply IH in H. destruct H as (H1&H2&H3). cbn [length]. replace (i - k)%nat with (S (i - S k)) by lia. cbn [nth]. split; [lia|split; [lia|exact H3]].
Qed.
Lemma value_flip cost r : value_of cost r = idot cost (flip cost r).
Proof. unfold value_of, flip. destruct (0 <? idot cost r); [rewrite idot_opp|]; reflexivity. Qed.
Lemma ss_R cost c : ss_of cost c = map (idot cost) (R_of cost c).
Proof.
  unfold ss_of, R_of. rewrite map_map. apply map_ext_in. intros (s, i) H. unfold sorted_of in H. apply (Permutation_in _ (sort_perm _)) in H. rewrite map_length in H. rewrite <- (map_length (value_of cost)) in H.
  apply (combine_seq_in _ (value_of cost [])) in H. destruct H as (_&_&E). rewrite Nat.sub_0_r, map_nth in E. cbn [fst snd]. rewrite <- E. apply value_flip.
Qed.
Lemma R_len cost c : length (R_of cost c) = dim_of c.
Proof. rewrite (Permutation_length (R_perm cost c)), map_length. reflexivity. Qed.
Lemma R_down n cost c : cone_ok n c -> generic cost c -> Forall (down n cost) (R_of cost c).
Proof.
  intros (_&_&F&_) (_&G). apply (Permutation_Forall (Permutation_sym (R_perm cost c))). apply Forall_map. rewrite Forall_forall in *. intros r Hr. apply flip_down; [apply F, Hr|apply G, Hr].
Qed.
Lemma R_lens n cost c : cone_ok n c -> Forall (fun r => length r = n) (R_of cost c).
Proof. intros (_&_&F&_). apply (Permutation_Forall (Permutation_sym (R_perm cost c))). apply Forall_map. revert F. apply Forall_impl. intros r. apply flip_len. Qed.
Lemma a_len n cost c : cone_ok n c -> length (a_of cost c) = n.
Proof. intros (_&_&F&L). apply shift_len; assumption. Qed.
Lemma numer_a n cost c : cone_ok n c -> numer_of cost c = idot cost (a_of cost c).
Proof. intros (_&_&F&L). unfold numer_of, a_of. rewrite (shift_dot n) by assumption. rewrite idot_comm. reflexivity. Qed.

(** ** The integral points of a level *)
Lemma vminus_vsub u : forall v, vminus u v = vsub u v.
Proof. unfold vsub. induction u as [|x u IH]; intros [|y v]; cbn [vminus map vadd]; try reflexivity. rewrite IH. reflexivity. Qed.
Lemma shift_point_of cost rays : forall p, shift_point rays (map (sign_of cost) rays) p = shift_of cost rays p.
Proof.
  induction rays as [|r rays IH]; intros p; [reflexivity|]. cbn [map shift_point shift_of]. rewrite IH, vminus_vsub. unfold sign_of. destruct (0 <? idot cost r); reflexivity.
Qed.
Lemma nth_map0' (f : Z -> Z) l k : f 0 = 0 -> nth k (map f l) 0 = f (nth k l 0).
Proof. intros H. rewrite <- (map_nth f), H. reflexivity. Qed.
Lemma move_nth n cost rays : Forall (fun r => length r = n) rays -> forall j srt v p, length p = n ->
  length (move_point rays (map (sign_of cost) rays) j srt v p) = n /\
  forall k, nth k (move_point rays (map (sign_of cost) rays) j srt v p) 0 = nth k p 0 + lsum (map (fun i => coefficient_of i srt v * nth k (flip cost (nth (i - j) rays [])) 0) (seq j (length rays))).
Proof.
  induction 1 as [|r rays Lr F IH]; intros j srt v p Lp.
  - split; [exact Lp|]. intros k. cbn [map move_point length seq]. cbn [lsum fold_right]. lia.
  - cbn [map move_point length seq]. rewrite vminus_vsub. set (p1 := vsub p (map (fun x => sign_of cost r * x * coefficient_of j srt v) r)). assert (L1 : length p1 = n) by (apply vsub_len; [exact Lp|rewrite map_length; exact Lr]).
    destruct (IH (S j) srt v p1 L1) as (I1&I2). split; [exact I1|]. intros k. rewrite I2, lsum_cons. unfold p1. rewrite vsub_nth by (rewrite map_length; lia). rewrite nth_map0' by ring. rewrite Nat.sub_diag. change (nth 0 (r :: rays) []) with r.
    assert (Ef : nth k (flip cost r) 0 = - sign_of cost r * nth k r 0) by (unfold flip, sign_of; destruct (0 <? idot cost r); [rewrite nth_map0' by reflexivity|]; lia). rewrite Ef.
    rewrite (map_ext_in (fun i => coefficient_of i srt v * nth k (flip cost (nth (i - S j) rays [])) 0) (fun i => coefficient_of i srt v * nth k (flip cost (nth (i - j) (r :: rays) [])) 0)); [ring|].
    intros i Hi. apply in_seq in Hi. replace (i - j)%nat with (S (i - S j)) by lia. reflexivity.
Qed.
Lemma lsum_perm l l' : Permutation l l' -> lsum l = lsum l'.
Proof. induction 1; rewrite ?lsum_cons; try lia; reflexivity. Qed.
Lemma coef_sum_sorted (f : nat -> Z) srt : NoDup (map snd srt) -> forall v, length v = length srt ->
  lsum (map (fun i => coefficient_of i srt v * f i) (map snd srt)) = lsum (map (fun q => snd q * f (snd (fst q))) (combine srt v)).
Proof.
  induction srt as [|[s i] srt IH]; intros ND v Lv; [reflexivity|]. destruct v as [|x v]; [discriminate Lv|]. cbn [map snd length] in *. inversion ND as [|? ? N1 N2]; subst. cbn [combine map fst snd]. rewrite !lsum_cons. cbn [coefficient_of fst snd]. rewrite Nat.eqb_refl. f_equal.
  rewrite <- (IH N2 v ltac:(lia)). apply lsum_ext. intros k Hk. cbn [coefficient_of]. destruct (Nat.eqb_spec i k) as [<-|]; [contradiction|reflexivity].
Qed.
Lemma point_nth n a : length a = n -> forall (srt : list (Z * nat)) (g : nat -> list Z), Forall (fun r => length r = n) (map (fun p => g (snd p)) srt) -> forall v, length v = length srt ->
  forall k, nth k (point_of a (map (fun p => g (snd p)) srt) v) 0 = nth k a 0 + lsum (map (fun q => snd q * nth k (g (snd (fst q))) 0) (combine srt v)).
Proof.
  intros La srt g. induction srt as [|p srt IH]; intros F v Lv k.
  - destruct v; cbn [map point_of combine lsum fold_right]; lia.
  - destruct v as [|x v]; [discriminate Lv|]. cbn [map] in F. pose proof (Forall_inv F) as L0. pose proof (Forall_inv_tail F) as F'. cbv beta in L0. cbn [map point_of combine length] in *. rewrite lsum_cons. cbn [fst snd].
    rewrite vadd_nth by (rewrite (point_len n) by assumption; rewrite map_length; lia). rewrite IH by (first [exact F'|lia]). rewrite nth_map0' by ring. ring.
Qed.
Lemma integral_point_of n cost c e ci v : cone_ok n c -> generic cost c -> cstate cost c e ci -> length v = dim_of c -> integral_point ci v = point_of (a_of cost c) (R_of cost c) v.
Proof.
  intros Ok0 G (S1&_&_&S4&S5&_) Lv. unfold integral_point. rewrite S1, S4, S5. rewrite shift_point_of. fold (a_of cost c). pose proof (a_len n cost c Ok0) as La. pose proof Ok0 as (_&_&F&_).
  destruct (move_nth n cost (dc_rays c) F 0 (sorted_of cost c) v (a_of cost c) La) as (Lm&Nm). apply (vec_ext n); [exact Lm|apply point_len; [exact La|apply R_lens, Ok0]|]. intros k _. rewrite Nm. unfold R_of.
  assert (Ls : length (sorted_of cost c) = dim_of c) by (rewrite <- (R_len cost c); unfold R_of; rewrite map_length; reflexivity).
  rewrite (point_nth n (a_of cost c) La (sorted_of cost c) (fun i => flip cost (nth i (dc_rays c) []))); [|apply (R_lens n cost c Ok0)|lia]. f_equal.
  rewrite <- (coef_sum_sorted (fun i => nth k (flip cost (nth i (dc_rays c) [])) 0) (sorted_of cost c)).
  - apply lsum_perm. rewrite (Permutation_map _ (sorted_snd cost c)). unfold dim_of. apply Permutation_refl'. apply map_ext. intros i. rewrite Nat.sub_0_r. reflexivity.
  - apply (Permutation_NoDup (Permutation_sym (sorted_snd cost c))), seq_NoDup.
  - lia.
Qed.

(** ** The expansions add up to the points *)
Lemma above_ext n cost F G : eqn n F G -> bounded_above n cost F -> bounded_above n cost G.
Proof. intros E (K&H). exists K. intros x Hx Hk. rewrite <- E by exact Hx. apply H; assumption. Qed.
Lemma above_add n cost F G : bounded_above n cost F -> bounded_above n cost G -> bounded_above n cost (fun x => F x + G x).
Proof. intros (K&H) (K'&H'). exists (Z.max K K'). intros x Hx Hk. rewrite H, H' by (first [exact Hx|lia]). reflexivity. Qed.
Lemma above_scale n cost k F : bounded_above n cost F -> bounded_above n cost (fun x => k * F x).
Proof. intros (K&H). exists K. intros x Hx Hk. rewrite H by assumption. lia. Qed.
Lemma above_finite n cost F : finite_support n F -> bounded_above n cost F.
Proof.
  intros (S0&H). assert (exists K, forall x, In x S0 -> idot cost x <= K) as (K&HK).
  { clear H. induction S0 as [|y S0 (K&IH)]; [exists 0; intros x []|]. exists (Z.max K (idot cost y)). intros x [<-|Hx]; [lia|]. specialize (IH x Hx). lia. }
  exists K. intros x Hx Hk. destruct (Z.eq_dec (F x) 0) as [E|N]; [exact E|]. specialize (HK x (H x Hx N)). lia.
Qed.
Definition entry_of (cost : list Z) (c : dcone) : gcone * lfun := (gcone_of c, fun x => flips cost (dc_rays c) * exp_of cost c x).
Lemma entry_matches n cost c : cone_ok n c -> generic cost c -> matches n (entry_of cost c).
Proof.
  intros Ok0 G. pose proof Ok0 as (_&Ll&F&Lp). split; [split; [exact Ll|split; [exact F|constructor; [exact Lp|constructor]]]|]. cbn [entry_of gcone_of fst snd].
  assert (E1 : eqn n (diffs (map (flip cost) (dc_rays c)) (exp_of cost c)) (fun x => 1 * delta (shift_of cost (dc_rays c) (dc_point c)) x)).
  { intros y Hy. rewrite <- (diffs_perm _ _ (R_perm cost c)). unfold exp_of. rewrite (expansion_diffs n cost (a_of cost c) (a_len n cost c Ok0) (R_of cost c) (R_down n cost c Ok0 G) y Hy). fold (a_of cost c). unfold delta. destruct (vec_eqb y _); reflexivity. }
  intros x Hx. rewrite diffs_scale. rewrite (flip_diffs n cost (dc_rays c) F (dc_point c) (exp_of cost c) 1 Lp E1 x Hx).
  assert (E : delta (dc_point c) x = gcoeff (gpoints [dc_point c]) x).
  { unfold delta, vec_eqb. cbn [gpoints map gcoeff fst snd]. destruct (list_eq_dec Z.eq_dec x (dc_point c)), (list_eq_dec Z.eq_dec (dc_point c) x); try reflexivity; congruence. }
  rewrite E. destruct (flips_unit cost (dc_rays c)) as [-> | ->]; ring.
Qed.
Lemma exp_above n cost c : cone_ok n c -> generic cost c -> bounded_above n cost (exp_of cost c).
Proof. intros Ok0 G. exists (idot cost (a_of cost c)). intros x Hx Hk. apply (expansion_vanish n); [apply (a_len n); exact Ok0|apply R_down; assumption|exact Hx|exact Hk]. Qed.
Theorem expansions_total n cost cs points : Forall (cone_ok n) cs -> Forall (generic cost) cs -> Forall (fun p => length p = n) points -> generates n (map gcone_of cs) points ->
  forall x, length x = n -> lsum (map (fun c => sgn_of cost c * exp_of cost c x) cs) = gcoeff (gpoints points) x.
Proof.
  intros Fo Fg Lp Gen. set (es := map (entry_of cost) cs). assert (Em : map fst es = map gcone_of cs) by (unfold es; rewrite map_map; reflexivity).
  assert (M : Forall (matches n) es) by (unfold es; apply Forall_map; rewrite Forall_forall in *; intros c Hc; apply entry_matches; auto).
  assert (Et : forall x, total es x = lsum (map (fun c => sgn_of cost c * exp_of cost c x) cs)).
  { intros x. unfold total, es. rewrite map_map. apply lsum_ext. intros c _. unfold entry_of, gcone_of, sgn_of. cbn [fst snd]. ring. }
  pose proof (matches_ok n es M) as Gok. destruct (grational_wf n _ Gok) as (WN&WD). pose proof (gpoints_wf n points Lp) as WP.
  assert (LA : lens n (all_rays (map fst es))) by (intros r Hr; pose proof (all_rays_len n _ Gok) as A; rewrite Forall_forall in A; apply A, Hr).
  assert (E0 : eqn n (fun x => total es x + (-1) * gcoeff (gpoints points) x) (fun _ => 0)).
  { apply (diffs_above_inj n cost (all_rays (map fst es))).
    - apply Forall_forall. intros r Hr. split; [apply LA, Hr|]. rewrite Em in Hr. unfold all_rays in Hr. apply in_flat_map in Hr. destruct Hr as (g&Hg&Hr). apply in_map_iff in Hg. destruct Hg as (c&<-&Hc). cbn [gcone_of fst snd] in Hr. rewrite Forall_forall in Fg. destruct (Fg c Hc) as (_&G). rewrite Forall_forall in G. apply G, Hr.
    - apply above_add; [|apply above_scale, above_finite, gcoeff_finite]. apply (above_ext n cost (fun x => lsum (map (fun c => sgn_of cost c * exp_of cost c x) cs))); [intros x _; symmetry; apply Et|].
      clear - Fo Fg. induction cs as [|c cs IH]; [exists 0; intros x _ _; reflexivity|]. apply (above_ext n cost (fun x => sgn_of cost c * exp_of cost c x + lsum (map (fun c => sgn_of cost c * exp_of cost c x) cs))); [intros x _; reflexivity|].
      apply above_add; [apply above_scale, exp_above; [exact (Forall_inv Fo)|exact (Forall_inv Fg)]|apply IH; [exact (Forall_inv_tail Fo)|exact (Forall_inv_tail Fg)]].
    - intros x Hx. rewrite diffs_add, diffs_scale. rewrite <- (num_coeff n es M x Hx). rewrite <- (act_den n (map fst es) (gcoeff (gpoints points)) Gok x Hx). rewrite <- (act_gcoeff_comm n (gpoints points) _ x WP WD Hx).
      rewrite <- (gcoeff_mul n) by assumption. rewrite Em. rewrite (Gen x). ring. }
  intros x Hx. specialize (E0 x Hx). cbv beta in E0. rewrite <- Et. lia.
Qed.
