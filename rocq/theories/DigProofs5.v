(** The main loop of SolveIP. *)
From Coq Require Import Permutation.
From Verif Require Import Common ExpSpec ExpProofs3 BrionProofs BrionProofs2 BrionProofs3 TrieProofs DigHeap DigHeapProofs Dig DigProofs DigProofs2 DigProofs3 DigProofs4.
Open Scope Z_scope.

(** ** Counting *)
Lemma fmap_len {A B} (f : A -> B) (p : B -> bool) l : length (filter p (map f l)) = length (filter (fun x => p (f x)) l).
Proof. induction l as [|x l IH]; [reflexivity|]. cbn [map filter]. destruct (p (f x)); cbn [length]; now rewrite IH. Qed.
Lemma fext_len {A} (p q : A -> bool) l : (forall x, In x l -> p x = q x) -> length (filter p l) = length (filter q l).
Proof. intros H. f_equal. apply filter_ext_in, H. Qed.
Lemma lz {A} (f : A -> Z) l : (forall x, In x l -> f x = 0) -> lsum (map f l) = 0.
Proof. induction l as [|x l IH]; intros H; [reflexivity|]. cbn [map]. rewrite lsum_cons, IH, (H x (or_introl eq_refl)) by (intros y Hy; apply H; now right). lia. Qed.
Definition times (x : list Z) (l : list (list Z)) : Z := Z.of_nat (length (filter (fun p => vec_eqb p x) l)).
Lemma times_cons x p l : times x (p :: l) = delta x p + times x l.
Proof. unfold times, delta. cbn [filter]. destruct (vec_eqb p x); cbn [length]; lia. Qed.
Lemma gcoeff_times points x : gcoeff (gpoints points) x = times x points.
Proof.
  induction points as [|p l IH]; [reflexivity|]. rewrite times_cons, <- IH. cbn [gpoints map gcoeff fst snd]. unfold delta, vec_eqb. destruct (list_eq_dec Z.eq_dec p x); reflexivity.
Qed.
Lemma delta_sum X p : NoDup X -> lsum (map (fun x => delta x p) X) = if existsb (vec_eqb p) X then 1 else 0.
Proof.
  induction 1 as [|x X N ND IH]; [reflexivity|]. cbn [map existsb]. rewrite lsum_cons, IH. unfold delta at 1. destruct (vec_eqb p x) eqn:E; cbn [orb]; [|lia].
  apply vec_eqb_true in E. subst p. destruct (existsb (vec_eqb x) X) eqn:E2; [apply exists_vec in E2; contradiction|reflexivity].
Qed.
Lemma times_sum X l : NoDup X -> lsum (map (fun x => times x l) X) = Z.of_nat (length (filter (fun p => existsb (vec_eqb p) X) l)).
Proof.
  intros ND. induction l as [|p l IH]; [apply lz; reflexivity|]. rewrite (lsum_ext _ (fun x => delta x p + times x l)) by (intros; apply times_cons).
  assert (lsum_plus : forall (f g : list Z -> Z) m, lsum (map (fun x => f x + g x) m) = lsum (map f m) + lsum (map g m)) by (intros f g m; induction m as [|y m IHm]; [reflexivity|]; cbn [map]; rewrite !lsum_cons, IHm; lia).
  rewrite lsum_plus, IH, delta_sum by exact ND. cbn [filter]. destruct (existsb (vec_eqb p) X); cbn [length]; lia.
Qed.
Lemma hits_times a R x L : Z.of_nat (length (hits a R x L)) = times x (map (point_of a R) L).
Proof. unfold hits, times. rewrite fmap_len. reflexivity. Qed.
Lemma times_pos x l : times x l <> 0 <-> In x l.
Proof.
  unfold times. split.
  - intros H. destruct (filter (fun p => vec_eqb p x) l) as [|y t] eqn:E; [cbn in H; lia|]. assert (K : In y (filter (fun p => vec_eqb p x) l)) by (rewrite E; now left). apply filter_In in K. destruct K as (K1&K2). apply vec_eqb_true in K2. now subst.
  - intros H. assert (K : In x (filter (fun p => vec_eqb p x) l)) by (apply filter_In; split; [exact H|now apply vec_eqb_true]). destruct (filter _ l); [destruct K|cbn [length]; lia].
Qed.
Lemma lsum_nz {A} (f : A -> Z) l : lsum (map f l) <> 0 -> exists x, In x l /\ f x <> 0.
Proof.
  induction l as [|x l IH]; intros H; [cbn in H; lia|]. cbn [map] in H. rewrite lsum_cons in H. destruct (Z.eq_dec (f x) 0) as [E|N]; [|exists x; split; [now left|exact N]].
  destruct IH as (y&Hy&Ny); [lia|]. exists y. split; [now right|exact Ny].
Qed.

Lemma coef_sum_eq (g : cinfo -> Z) l : (forall ci, In ci l -> ci_coef ci = g ci) -> coef_sum l = lsum (map g l).
Proof. induction l as [|ci l IH]; intros H; [reflexivity|]. cbn [map]. rewrite lsum_cons, <- IH, <- H by (first [now left|intros c Hc; apply H; now right]). reflexivity. Qed.

(** ** One cone *)
Lemma exp_rep n cost c x : cone_ok n c -> generic cost c -> length x = n -> exp_of cost c x <> 0 ->
  exists v, wv (dim_of c) v /\ idot (ss_of cost c) v = idot cost x - numer_of cost c /\ point_of (a_of cost c) (R_of cost c) v = x.
Proof.
  intros Ok0 G Hx N. unfold exp_of, expansion in N. rewrite (reps_vecs n) in N by (first [apply (a_len n); exact Ok0|apply (R_lens n); exact Ok0|exact Hx]). rewrite hits_times in N. apply times_pos in N. apply in_map_iff in N. destruct N as (v&E&Hv). apply in_vecs in Hv. destruct Hv as (Lv&Nv). rewrite R_len in Lv, Nv.
  exists v. split; [|split; [|exact E]].
  - split; [exact Lv|]. intros i. destruct (Nat.lt_ge_cases i (dim_of c)) as [H|H]; [apply Nv, H|]. rewrite nth_overflow by lia. lia.
  - rewrite ss_R, <- E, (point_dot n) by (first [apply (a_len n); exact Ok0|apply (R_lens n); exact Ok0]). rewrite (numer_a n) by exact Ok0. lia.
Qed.
Lemma exp_level n cost c e ci x : cone_ok n c -> generic cost c -> cstate cost c e ci -> length x = n -> idot cost x = ci_cur ci ->
  exp_of cost c x = times x (map (integral_point ci) (ci_level ci)).
Proof.
  intros Ok0 G St Hx Ex. pose proof St as (_&_&_&_&_&_&S7&S8&_). unfold exp_of. pose proof S8 as S8'. rewrite ss_R in S8'. rewrite <- (R_len cost c) in S8'.
  rewrite (expansion_level n cost (a_of cost c) (a_len n cost c Ok0) (R_of cost c) (ci_level ci) e x (R_down n cost c Ok0 G)); [|rewrite R_len; unfold dim_of; destruct G as (G&_); destruct (dc_rays c); [congruence|discriminate]|exact S8'|exact Hx|rewrite <- (numer_a n) by exact Ok0; lia].
  rewrite hits_times. f_equal. apply map_ext_in. intros v Hv. symmetry. apply (integral_point_of n cost c e); try assumption. destruct S8 as (_&S8). apply S8 in Hv. apply Hv.
Qed.
Lemma level_dot n cost c e ci v : cone_ok n c -> generic cost c -> cstate cost c e ci -> In v (ci_level ci) -> idot cost (integral_point ci v) = ci_cur ci /\ length (integral_point ci v) = n.
Proof.
  intros Ok0 G St Hv. pose proof St as (_&_&_&_&_&_&S7&(_&S8)&_). apply S8 in Hv. destruct Hv as ((Lv&_)&Ev).
  rewrite (integral_point_of n cost c e) by assumption. rewrite (point_dot n) by (first [apply (a_len n); exact Ok0|apply (R_lens n); exact Ok0]). rewrite <- ss_R, <- (numer_a n) by exact Ok0. split; [lia|]. apply point_len; [apply (a_len n); exact Ok0|apply (R_lens n); exact Ok0].
Qed.

(** ** The heap of the cones *)
Section Loop.
Context (n : nat) (cost : list Z) (cs : list dcone) (points : list (list Z)).
Context (Fo : Forall (cone_ok n) cs) (Fg : Forall (generic cost) cs) (Lp : Forall (fun p => length p = n) points) (Gen : generates n (map gcone_of cs) points).
(** every term of the expansion of the cone that is below T has been reached at most by the current level *)
Definition fine (T : Z) (ci : cinfo) : Prop :=
  In (ci_cone ci) cs /\ exists e, cstate cost (ci_cone ci) e ci /\ ci_cur ci < T /\
  forall v, wv (dim_of (ci_cone ci)) v -> numer_of cost (ci_cone ci) + idot (ss_of cost (ci_cone ci)) v < T -> idot (ss_of cost (ci_cone ci)) v <= e.
Definition loop_inv (T : Z) (l : list cinfo) : Prop := Permutation (map ci_cone l) cs /\ Forall (fine T) l /\ forall p, In p points -> idot cost p < T.

Lemma fine_ok T ci : fine T ci -> cone_ok n (ci_cone ci) /\ generic cost (ci_cone ci).
Proof. intros (I0&_). rewrite Forall_forall in Fo, Fg. split; [apply Fo, I0|apply Fg, I0]. Qed.
Lemma fine_below T ci x : fine T ci -> length x = n -> idot cost x < T -> exp_of cost (ci_cone ci) x <> 0 -> idot cost x <= ci_cur ci.
Proof.
  intros Fi Hx Hd N. destruct (fine_ok T ci Fi) as (O1&G1). destruct Fi as (_&e&St&_&H). destruct (exp_rep n cost _ x O1 G1 Hx N) as (v&W&Ev&_). pose proof St as (_&_&_&_&_&_&S7&_). specialize (H v W). lia.
Qed.
Lemma sgn_unit c : cone_ok n c -> sgn_of cost c = 1 \/ sgn_of cost c = -1.
Proof. intros ([H|H]&_); unfold sgn_of; rewrite H; destruct (flips_unit cost (dc_rays c)) as [-> | ->]; auto. Qed.
Lemma fine_zero T t ci x : fine T ci -> t < T -> ci_cur ci <= t -> length x = n -> idot cost x = t -> ci_cur ci <> t -> exp_of cost (ci_cone ci) x = 0.
Proof.
  intros Fi Ht Hc Hx Ex Ne. destruct (Z.eq_dec (exp_of cost (ci_cone ci) x) 0) as [|N]; [assumption|]. exfalso. pose proof (fine_below T ci x Fi Hx ltac:(lia) N). lia.
Qed.
Lemma total_infos l x : Permutation (map ci_cone l) cs -> length x = n -> lsum (map (fun ci => sgn_of cost (ci_cone ci) * exp_of cost (ci_cone ci) x) l) = times x points.
Proof.
  intros P Hx. rewrite <- gcoeff_times, <- (expansions_total n cost cs points Fo Fg Lp Gen x Hx). rewrite <- (lsum_perm _ _ (Permutation_map (fun c => sgn_of cost c * exp_of cost c x) P)). rewrite map_map. reflexivity.
Qed.
Lemma points_below T t l : loop_inv T l -> t < T -> (forall ci, In ci l -> ci_cur ci <= t) -> forall p, In p points -> idot cost p <= t.
Proof.
  intros (P&F&B) Ht Hc p Hp. pose proof Lp as Lp'. rewrite Forall_forall in Lp'. pose proof (Lp' p Hp) as Hl. assert (N : times p points <> 0) by (now apply times_pos). rewrite <- (total_infos l p P Hl) in N. apply lsum_nz in N. destruct N as (ci&Hci&N).
  rewrite Forall_forall in F. pose proof (fine_below T ci p (F ci Hci) Hl (B p Hp) ltac:(intros E; rewrite E in N; lia)). specialize (Hc ci Hci). lia.
Qed.
Definition level_points (ci : cinfo) : list (list Z) := map (integral_point ci) (ci_level ci).
Lemma point_reached T t l : loop_inv T l -> t < T -> (forall ci, In ci l -> ci_cur ci <= t) -> forall p, In p points -> idot cost p = t ->
  exists ci, In ci l /\ ci_cur ci = t /\ In p (level_points ci).
Proof.
  intros (P&F&B) Ht Hc p Hp Ep. pose proof Lp as Lp'. rewrite Forall_forall in Lp'. pose proof (Lp' p Hp) as Hl. assert (N : times p points <> 0) by (now apply times_pos). rewrite <- (total_infos l p P Hl) in N. apply lsum_nz in N. destruct N as (ci&Hci&N).
  rewrite Forall_forall in F. pose proof (F ci Hci) as Fi. assert (N1 : exp_of cost (ci_cone ci) p <> 0) by (intros E; rewrite E in N; lia). pose proof (fine_below T ci p Fi Hl (B p Hp) N1). specialize (Hc ci Hci). exists ci. split; [exact Hci|]. split; [lia|].
  destruct (fine_ok T ci Fi) as (O1&G1). destruct Fi as (_&e&St&_&_). rewrite (exp_level n cost _ e ci p O1 G1 St Hl) in N1 by lia. now apply times_pos in N1.
Qed.
Lemma count_level T t popped rest0 : loop_inv T (popped ++ rest0) -> t < T -> (forall ci, In ci popped -> ci_cur ci = t) -> (forall ci, In ci rest0 -> ci_cur ci < t) ->
  coef_sum popped = Z.of_nat (length (filter (fun p => idot cost p =? t) points)).
Proof.
  intros LI Ht Hp Hr. pose proof LI as (P&F&B). set (X := nodup (list_eq_dec Z.eq_dec) (filter (fun p => idot cost p =? t) points ++ flat_map level_points popped)).
  assert (ND : NoDup X) by apply NoDup_nodup.
  assert (IX : forall x, In x X <-> In x (filter (fun p => idot cost p =? t) points) \/ In x (flat_map level_points popped)) by (intros x; unfold X; rewrite nodup_In; apply in_app_iff).
  rewrite Forall_forall in F. pose proof Lp as Lp'. rewrite Forall_forall in Lp'.
  assert (HX : forall x, In x X -> length x = n /\ idot cost x = t).
  { intros x Hx. apply IX in Hx. destruct Hx as [Hx|Hx]; [apply filter_In in Hx; destruct Hx as (H1&H2); apply Z.eqb_eq in H2; split; [apply Lp', H1|exact H2]|]. apply in_flat_map in Hx. destruct Hx as (ci&Hci&Hx). unfold level_points in Hx. apply in_map_iff in Hx. destruct Hx as (v&<-&Hv).
    pose proof (F ci ltac:(apply in_app_iff; now left)) as Fi. destruct (fine_ok T ci Fi) as (O1&G1). destruct Fi as (_&e&St&_&_). destruct (level_dot n cost _ e ci v O1 G1 St Hv) as (D&L). split; [exact L|]. rewrite D. apply Hp, Hci. }
  transitivity (lsum (map (fun x => times x points) X)).
  - rewrite (lsum_ext (fun x => times x points) (fun x => lsum (map (fun ci => sgn_of cost (ci_cone ci) * exp_of cost (ci_cone ci) x) (popped ++ rest0)))) by (intros x Hx; symmetry; apply (total_infos _ x P), HX, Hx).
    rewrite lsum_swap, map_app, lsum_app. rewrite (lz _ rest0); [|intros ci Hci; apply lz; intros x Hx; destruct (HX x Hx) as (Lx&Dx); pose proof (Hr ci Hci); rewrite (fine_zero T t ci x) by (first [apply F, in_app_iff; now right|lia]); lia].
    rewrite Z.add_0_r. assert (HS : forall ci, In ci popped -> ci_coef ci = lsum (map (fun x => sgn_of cost (ci_cone ci) * exp_of cost (ci_cone ci) x) X)).
    { intros ci Hci. rewrite lsum_scale. pose proof (F ci ltac:(apply in_app_iff; now left)) as Fi. destruct (fine_ok T ci Fi) as (O1&G1). pose proof Fi as (_&e&St&_&_). pose proof St as (_&_&_&_&_&_&_&_&_&_&SC). rewrite SC. f_equal.
      rewrite (lsum_ext _ (fun x => times x (level_points ci))) by (intros x Hx; destruct (HX x Hx) as (Lx&Dx); apply (exp_level n cost _ e); try assumption; rewrite Dx; symmetry; apply Hp, Hci).
      rewrite times_sum by exact ND. f_equal. unfold level_points. rewrite fmap_len. rewrite (fext_len _ (fun _ => true)); [clear; induction (ci_level ci) as [|v l IH]; [reflexivity|cbn [filter length]; now rewrite <- IH]|].
      intros v Hv. apply exists_vec, IX. right. apply in_flat_map. exists ci. split; [exact Hci|]. now apply in_map. }
    apply coef_sum_eq. intros ci Hci. apply HS, Hci.
  - rewrite times_sum by exact ND. f_equal. apply fext_len. intros p Ip. destruct (existsb (vec_eqb p) X) eqn:E.
    + apply exists_vec in E. symmetry. apply Z.eqb_eq. apply (HX p E).
    + symmetry. apply Z.eqb_neq. intros K. assert (existsb (vec_eqb p) X = true); [|congruence]. apply exists_vec, IX. left. apply filter_In. split; [exact Ip|now apply Z.eqb_eq].
Qed.

(** ** Popping *)
Lemma pop_equal_ok k : forall fuel h, valid cone_key h -> (forall ci, In ci (hvalues h) -> ci_cur ci <= k) -> (length (hvalues h) < fuel)%nat ->
  exists l h', pop_equal fuel k h = Ok (l, h') /\ valid cone_key h' /\ Permutation (hvalues h) (l ++ hvalues h') /\ (forall ci, In ci l -> ci_cur ci = k) /\ forall ci, In ci (hvalues h') -> ci_cur ci < k.
Proof.
  induction fuel as [|f IH]; intros h V M Hf; [lia|]. cbn [pop_equal]. destruct (pop_ok cone_key h V) as [(E&Ep)|(x&h1&Ep&V1&P1&M1&Rx)].
  - destruct (check_top cone_key k h) eqn:CT; [apply check_top_ok in CT; destruct CT as (y&Ry&_); apply root_in in Ry; unfold hvalues in E; rewrite E in Ry; destruct Ry|].
    exists [], h. split; [reflexivity|]. split; [exact V|]. split; [apply Permutation_refl|]. split; [intros ci []|]. rewrite E. intros ci [].
  - destruct (check_top cone_key k h) eqn:CT.
    + apply check_top_ok in CT. destruct CT as (y&Ry&Ky). rewrite Rx in Ry. injection Ry as <-. rewrite Ep. cbn [bind]. pose proof (Permutation_length P1) as PL. cbn [length] in PL. destruct (IH h1 V1) as (l&h'&E1&V'&P'&A&Bl); [intros ci Hci; apply M, (Permutation_in _ (Permutation_sym P1)); now right|lia|].
      rewrite E1. cbn [bind]. exists (x :: l), h'. split; [reflexivity|]. split; [exact V'|]. split; [rewrite P1, P'; apply Permutation_refl|]. split; [intros ci [<-|Hci]; [exact Ky|apply A, Hci]|exact Bl].
    + exists [], h. split; [reflexivity|]. split; [exact V|]. split; [apply Permutation_refl|]. split; [intros ci []|]. intros ci Hci. specialize (M1 ci Hci). specialize (M x (root_in _ _ Rx)). unfold cone_key in M1. assert (ci_cur x <> k); [|lia]. intros K. assert (check_top cone_key k h = true); [|congruence]. apply check_top_ok. exists x. split; [exact Rx|exact K].
Qed.
(** ** Digging *)
Lemma fine_next T ci e ci' : In (ci_cone ci) cs -> cstate cost (ci_cone ci) e ci -> ci_cur ci < T -> (exists e', e' < e /\ none_between (dim_of (ci_cone ci)) (ss_of cost (ci_cone ci)) e' e /\ cstate cost (ci_cone ci) e' ci') -> ci_cone ci' = ci_cone ci /\ fine (ci_cur ci) ci'.
Proof.
  intros I0 (_&_&_&_&_&_&S7&_) Hc (e'&He&NB&St'). pose proof St' as (C1&_&_&_&_&_&C7&_). split; [exact C1|]. unfold fine. rewrite C1. split; [exact I0|]. exists e'. split; [exact St'|]. split; [lia|].
  intros v W Hv. apply NB; [exact W|lia].
Qed.
Lemma dig_all_ok T fuel : forall l h h', Forall (fine T) l -> valid cone_key h -> dig_all fuel l h = Ok h' ->
  valid cone_key h' /\ exists l', Permutation (hvalues h') (l' ++ hvalues h) /\ map ci_cone l' = map ci_cone l /\ Forall2 (fun ci ci' => fine (ci_cur ci) ci') l l'.
Proof.
  induction l as [|ci l IH]; intros h h' F V E; cbn [dig_all] in E.
  - injection E as <-. split; [exact V|]. exists []. split; [apply Permutation_refl|]. split; [reflexivity|constructor].
  - pose proof (Forall_inv F) as F0. pose proof (Forall_inv_tail F) as F1. destruct (fine_ok T ci F0) as (O1&G1). destruct F0 as (I0&e&St&Hc&_). destruct (next_term fuel ci) as [ci'|] eqn:En; [|discriminate E]. cbn [bind] in E. pose proof (next_ok cost _ e ci fuel ci' G1 (sgn_unit _ O1) St En) as Nx. destruct (fine_next T ci e ci' I0 St Hc Nx) as (C1&F').
    destruct (add_ok cone_key ci' h V) as (h1&E1&V1&P1). rewrite E1 in E. cbn [bind] in E. destruct (IH h1 h' F1 V1 E) as (V'&l'&P'&M'&F2). split; [exact V'|]. exists (ci' :: l'). split; [rewrite P', P1; symmetry; apply Permutation_middle|]. split; [cbn [map]; now rewrite C1, M'|]. constructor; assumption.
Qed.
Lemma dig_all_total T : forall l h, Forall (fine T) l -> valid cone_key h -> exists f0 h', forall f, (f0 <= f)%nat -> dig_all f l h = Ok h'.
Proof.
  induction l as [|ci l IH]; intros h F V; [exists 0%nat, h; reflexivity|]. pose proof (Forall_inv F) as F0. pose proof (Forall_inv_tail F) as F1. destruct (fine_ok T ci F0) as (O1&G1). destruct F0 as (I0&e&St&Hc&_).
  destruct (next_total cost _ e ci G1 (sgn_unit _ O1) St) as (f1&ci'&N1). destruct (add_ok cone_key ci' h V) as (h1&E1&V1&P1). destruct (IH h1 F1 V1) as (f2&h'&N2). exists (Nat.max f1 f2), h'. intros f Hf. cbn [dig_all]. rewrite N1 by lia. cbn [bind]. rewrite E1. cbn [bind]. apply N2. lia.
Qed.
Lemma fine_lower T t ci : fine T ci -> t < T -> ci_cur ci < t -> fine t ci.
Proof. intros (I0&e&St&Hc&H) Ht Hl. split; [exact I0|]. exists e. split; [exact St|]. split; [exact Hl|]. intros v W Hv. apply H; [exact W|lia]. Qed.
Lemma loop_step T h ci h1 : valid cone_key h -> loop_inv T (hvalues h) -> pop_heap cone_key h = Ok (Some (ci, h1)) ->
  exists l h2, pop_equal (S (length (values (h_root h1)))) (ci_cur ci) h1 = Ok (l, h2) /\ valid cone_key h2 /\ loop_inv T ((ci :: l) ++ hvalues h2) /\ ci_cur ci < T /\
    (forall c, In c (ci :: l) -> ci_cur c = ci_cur ci) /\ (forall c, In c (hvalues h2) -> ci_cur c < ci_cur ci).
Proof.
  intros V LI Ep. destruct (pop_ok cone_key h V) as [(E&Ep')|(x&h1'&Ep'&V1&P1&M1&Rx)]; rewrite Ep in Ep'; [discriminate Ep'|]. injection Ep' as <- <-.
  destruct (pop_equal_ok (ci_cur ci) (S (length (values (h_root h1)))) h1 V1) as (l&h2&E2&V2&P2&A&Bl); [intros c Hc; apply M1, (Permutation_in _ (Permutation_sym P1)); now right|unfold hvalues; lia|].
  exists l, h2. split; [exact E2|]. split; [exact V2|]. assert (PP : Permutation (hvalues h) ((ci :: l) ++ hvalues h2)) by (rewrite P1, P2; apply Permutation_refl). destruct LI as (P&F&B). split; [|split; [|split; [|exact Bl]]].
  - split; [rewrite <- (Permutation_map ci_cone PP); exact P|]. split; [apply (Permutation_Forall PP); exact F|exact B].
  - rewrite Forall_forall in F. destruct (F ci (Permutation_in _ (Permutation_sym P1) (or_introl eq_refl))) as (_&e&_&H&_). exact H.
  - intros c [<-|Hc]; [reflexivity|apply A, Hc].
Qed.
Lemma loop_dug T t h2 popped fuel h' : valid cone_key h2 -> loop_inv T (popped ++ hvalues h2) -> t < T -> (forall c, In c popped -> ci_cur c = t) -> (forall c, In c (hvalues h2) -> ci_cur c < t) ->
  coef_sum popped = 0 -> dig_all fuel popped h2 = Ok h' -> valid cone_key h' /\ loop_inv t (hvalues h').
Proof.
  intros V2 LI Ht Hp Hr C0 E. pose proof LI as (P&F&B). apply Forall_app in F. destruct F as (F1&F2). destruct (dig_all_ok T fuel popped h2 h' F1 V2 E) as (V'&l'&P'&M'&FF). split; [exact V'|]. split; [|split].
  - rewrite (Permutation_map ci_cone P'), map_app, M', <- map_app. exact P.
  - apply (Permutation_Forall (Permutation_sym P')). apply Forall_app. split.
    + clear -FF Hp. induction FF as [|ci ci' l l' H FF IH]; [constructor|]. constructor; [rewrite <- (Hp ci (or_introl eq_refl)); exact H|apply IH; intros c Hc; apply Hp; now right].
    + rewrite Forall_forall in *. intros c Hc. apply (fine_lower T); [apply F2, Hc|exact Ht|apply Hr, Hc].
  - intros p Hpt. pose proof (points_below T t _ LI Ht ltac:(intros c Hc; apply in_app_iff in Hc; destruct Hc as [Hc|Hc]; [rewrite (Hp c Hc); lia|specialize (Hr c Hc); lia]) p Hpt).
    pose proof (count_level T t popped (hvalues h2) LI Ht Hp Hr) as CL. rewrite C0 in CL. destruct (Z.eq_dec (idot cost p) t) as [E1|]; [|lia]. exfalso. assert (K : In p (filter (fun p => idot cost p =? t) points)) by (apply filter_In; split; [exact Hpt|now apply Z.eqb_eq]). destruct (filter _ points); [destruct K|cbn [length] in CL; lia].
Qed.
(** ** The loop *)
Context (matrix : list (list Z)) (Desc : forall x, length x = n -> (In x points <-> feasible matrix x = true)).
Definition optimal (x : list Z) (k : Z) : Prop := In x points /\ (forall y, In y points -> idot cost y <= idot cost x) /\ k = Z.of_nat (length (filter (fun p => idot cost p =? idot cost x) points)).
Lemma loop_found T t popped h2 : loop_inv T (popped ++ hvalues h2) -> t < T -> (forall c, In c popped -> ci_cur c = t) -> (forall c, In c (hvalues h2) -> ci_cur c < t) -> coef_sum popped <> 0 ->
  exists x, find (feasible matrix) (candidates popped) = Some x /\ optimal x (coef_sum popped).
Proof.
  intros LI Ht Hp Hr C0. pose proof LI as (P&F&B). rewrite (count_level T t popped (hvalues h2) LI Ht Hp Hr) in *. assert (Hle : forall c, In c (popped ++ hvalues h2) -> ci_cur c <= t) by (intros c Hc; apply in_app_iff in Hc; destruct Hc as [Hc|Hc]; [rewrite (Hp c Hc); lia|specialize (Hr c Hc); lia]).
  assert (CI : forall x, In x (candidates popped) <-> exists ci, In ci popped /\ In x (level_points ci)) by (intros x; unfold candidates; rewrite <- in_rev; apply in_flat_map).
  destruct (filter (fun p => idot cost p =? t) points) as [|p ps] eqn:EF; [cbn [length] in C0; lia|]. assert (K : In p (filter (fun p => idot cost p =? t) points)) by (rewrite EF; now left). apply filter_In in K. destruct K as (Ip&Ep). apply Z.eqb_eq in Ep.
  destruct (point_reached T t _ LI Ht Hle p Ip Ep) as (ci&Ici&Cci&Lci). apply in_app_iff in Ici. destruct Ici as [Ici|Ici]; [|specialize (Hr ci Ici); lia].
  pose proof Lp as Lp'. rewrite Forall_forall in Lp', F.
  destruct (find (feasible matrix) (candidates popped)) as [x|] eqn:EX.
  - exists x. split; [reflexivity|]. apply find_some in EX. destruct EX as (Ix&Fx). apply CI in Ix. destruct Ix as (cx&Icx&Lx). unfold level_points in Lx. apply in_map_iff in Lx. destruct Lx as (v&<-&Hv).
    pose proof (F cx ltac:(apply in_app_iff; now left)) as Fi. destruct (fine_ok T cx Fi) as (O1&G1). destruct Fi as (_&e&St&_&_). destruct (level_dot n cost _ e cx v O1 G1 St Hv) as (D&L). rewrite (Hp cx Icx) in D. split; [apply Desc; assumption|]. rewrite D. split; [intros y Hy; apply (points_below T t _ LI Ht Hle y Hy)|]. rewrite EF. reflexivity.
  - exfalso. pose proof (find_none _ _ EX p ltac:(apply CI; exists ci; split; assumption)) as K. apply Desc in Ip; [congruence|apply Lp', Ip].
Qed.
Theorem dig_loop_sound : forall fuel T h x k, valid cone_key h -> loop_inv T (hvalues h) -> dig_loop fuel matrix h = Ok (x, k) -> optimal x k.
Proof.
  induction fuel as [|f IH]; intros T h x k V LI E; [discriminate E|]. cbn [dig_loop] in E. destruct (pop_heap cone_key h) as [[(ci, h1)|]|] eqn:Ep; cbn [bind] in E; try discriminate E.
  destruct (loop_step T h ci h1 V LI Ep) as (l&h2&E2&V2&LI2&Ht&Hp&Hr). rewrite E2 in E. cbn [bind] in E. destruct (coef_sum (ci :: l) =? 0) eqn:C0.
  - apply Z.eqb_eq in C0. destruct (dig_all f (ci :: l) h2) as [h'|] eqn:Ed; [|discriminate E]. cbn [bind] in E. destruct (loop_dug T (ci_cur ci) h2 (ci :: l) f h' V2 LI2 Ht Hp Hr C0 Ed) as (V'&LI'). apply (IH _ h' x k V' LI' E).
  - apply Z.eqb_neq in C0. destruct (loop_found T (ci_cur ci) (ci :: l) h2 LI2 Ht Hp Hr C0) as (y&Ey&Oy). rewrite Ey in E. injection E as <- <-. exact Oy.
Qed.
Theorem dig_loop_total : forall p, In p points -> forall m T h, (Z.to_nat (T - idot cost p) <= m)%nat -> valid cone_key h -> loop_inv T (hvalues h) -> exists f0 x k, optimal x k /\ forall f, (f0 <= f)%nat -> dig_loop f matrix h = Ok (x, k).
Proof.
  intros p Ip. induction m as [|m IH]; intros T h Hm V LI; pose proof LI as (P&F&B); pose proof (B p Ip); [lia|].
  destruct (pop_ok cone_key h V) as [(E&Ep)|(ci&h1&Ep&V1&P1&M1&Rx)].
  - exfalso. assert (N : times p points <> 0) by now apply times_pos. rewrite <- (total_infos (hvalues h) p P) in N by (pose proof Lp as Lp'; rewrite Forall_forall in Lp'; apply Lp', Ip). rewrite E in N. cbn in N. lia.
  - destruct (loop_step T h ci h1 V LI Ep) as (l&h2&E2&V2&LI2&Ht&Hp&Hr). destruct (Z.eq_dec (coef_sum (ci :: l)) 0) as [C0|C0].
    + pose proof LI2 as (_&F2&_). apply Forall_app in F2. destruct (dig_all_total T (ci :: l) h2 (proj1 F2) V2) as (f1&h'&Ed). destruct (loop_dug T (ci_cur ci) h2 (ci :: l) f1 h' V2 LI2 Ht Hp Hr C0 (Ed f1 (le_n _))) as (V'&LI').
      destruct (IH (ci_cur ci) h') as (f2&x&k&Ox&Ef); [lia|exact V'|exact LI'|]. exists (S (Nat.max f1 f2)), x, k. split; [exact Ox|]. intros f Hf. destruct f as [|f]; [lia|]. cbn [dig_loop]. rewrite Ep. cbn [bind]. rewrite E2. cbn [bind]. rewrite C0, Z.eqb_refl. rewrite Ed by lia. cbn [bind]. apply Ef. lia.
    + destruct (loop_found T (ci_cur ci) (ci :: l) h2 LI2 Ht Hp Hr C0) as (y&Ey&Oy). exists 1%nat, y, (coef_sum (ci :: l)). split; [exact Oy|]. intros f Hf. destruct f as [|f]; [lia|]. cbn [dig_loop]. rewrite Ep. cbn [bind]. rewrite E2. cbn [bind]. rewrite (proj2 (Z.eqb_neq _ _) C0), Ey. reflexivity.
Qed.
End Loop.

(** ** The start *)
Lemma infos_ok cost cs : Forall (fun c => dc_rays c <> []) cs -> exists l, infos cost cs = Ok l /\
  existsb ci_zero l = existsb (fun c => existsb (fun r => idot cost r =? 0) (dc_rays c)) cs /\ Forall2 (fun c ci => generic cost c -> cstate cost c 0 ci) cs l.
Proof.
  induction 1 as [|c cs N F (l&E&Z0&F2)]; [exists []; split; [reflexivity|split; [reflexivity|constructor]]|]. destruct (new_info_flag cost c N) as (ci&E1&Z1&S1). exists (ci :: l). split; [cbn [infos]; rewrite E1; cbn [bind]; rewrite E; reflexivity|]. split; [cbn [existsb]; now rewrite Z1, Z0|]. constructor; assumption.
Qed.
Lemma generic_flag cost cs : Forall (fun c => dc_rays c <> []) cs -> (existsb (fun c => existsb (fun r => idot cost r =? 0) (dc_rays c)) cs = false <-> Forall (generic cost) cs).
Proof.
  induction 1 as [|c cs N F IH]; [split; [constructor|reflexivity]|]. cbn [existsb]. rewrite Bool.orb_false_iff, IH. split.
  - intros (H1&H2). constructor; [|exact H2]. split; [exact N|]. apply Forall_forall. intros r Hr E. assert (K : existsb (fun r => idot cost r =? 0) (dc_rays c) = true) by (apply existsb_exists; exists r; split; [exact Hr|now apply Z.eqb_eq]). congruence.
  - intros H. split; [|exact (Forall_inv_tail H)]. pose proof (Forall_inv H) as (_&G). destruct (existsb _ (dc_rays c)) eqn:E; [|reflexivity]. apply existsb_exists in E. destruct E as (r&Hr&E). apply Z.eqb_eq in E. rewrite Forall_forall in G. destruct (G r Hr E).
Qed.
Lemma add_cones_all l h : add_cones l h = add_all cone_key l h.
Proof. revert h. induction l as [|x l IH]; intros h; [reflexivity|]. cbn [add_cones add_all]. destruct (add_heap cone_key x h); [apply IH|reflexivity]. Qed.
Lemma max_above (f : list Z -> Z) l : exists T, forall p, In p l -> f p < T.
Proof. induction l as [|p l (T&H)]; [exists 0; intros p []|]. exists (Z.max T (f p + 1)). intros q [<-|Hq]; [lia|]. specialize (H q Hq). lia. Qed.
Lemma max_above' (f : cinfo -> Z) l : exists T, forall p, In p l -> f p < T.
Proof. induction l as [|p l (T&H)]; [exists 0; intros p []|]. exists (Z.max T (f p + 1)). intros q [<-|Hq]; [lia|]. specialize (H q Hq). lia. Qed.
Lemma start_ok n cost cs points l : Forall (cone_ok n) cs -> Forall (generic cost) cs -> Forall2 (fun c ci => generic cost c -> cstate cost c 0 ci) cs l ->
  exists h T, add_cones l empty_heap = Ok h /\ valid cone_key h /\ loop_inv cost cs points T (hvalues h).
Proof.
  intros Fo Fg F2. destruct (add_all_ok cone_key l empty_heap (empty_valid cone_key)) as (h&E&V&P). cbn [hvalues empty_heap h_root values] in P. rewrite app_nil_r in P.
  destruct (max_above (idot cost) points) as (T1&H1). destruct (max_above' ci_cur l) as (T2&H2). exists h, (Z.max T1 T2). split; [rewrite add_cones_all; exact E|]. split; [exact V|].
  assert (F3 : Forall2 (fun c ci => ci_cone ci = c /\ cstate cost c 0 ci) cs l).
  { clear -Fg F2. induction F2 as [|c ci cs l H F2 IH]; [constructor|]. constructor; [|apply IH; exact (Forall_inv_tail Fg)]. pose proof (H (Forall_inv Fg)) as S0. split; [apply S0|exact S0]. }
  split; [|split].
  - rewrite (Permutation_map ci_cone P). replace (map ci_cone l) with cs; [apply Permutation_refl|]. clear -F3. induction F3 as [|c ci cs l (H&_) F3 IH]; [reflexivity|]. cbn [map]. now rewrite H, IH at 1.
  - apply (Permutation_Forall (Permutation_sym P)). apply Forall_forall. intros ci Hci. pose proof (H2 ci Hci) as Hc. assert (K : exists c, In c cs /\ ci_cone ci = c /\ cstate cost c 0 ci).
    { clear -F3 Hci. induction F3 as [|c ci0 cs l H F3 IH]; [destruct Hci|]. destruct Hci as [->|Hci]; [exists c; split; [now left|exact H]|]. destruct (IH Hci) as (c'&H1&H'). exists c'. split; [now right|exact H']. }
    destruct K as (c&Hc1&Ec&St). unfold fine. rewrite Ec. split; [exact Hc1|]. exists 0. split; [exact St|]. split; [lia|]. intros v W _. rewrite Forall_forall in Fg. apply (sd_neg _ _ v (generic_sd cost c (Fg c Hc1)) W).
  - intros p Hp. specialize (H1 p Hp). lia.
Qed.
Lemma prepare_ok n rnd given cs points : Forall (cone_ok n) cs -> Forall (fun c => dc_rays c <> []) cs -> forall fuel k cost used h, prepare fuel n rnd k given cost cs = Ok (used, h) ->
  Forall (generic used) cs /\ valid cone_key h /\ (exists T, loop_inv used cs points T (hvalues h)) /\
  (used = cost \/ exists j, (k <= j)%nat /\ used = perturb_with (perturb_factor n cs) given (rnd j)) /\ (Forall (generic cost) cs -> used = cost).
Proof.
  intros Fo Fn. induction fuel as [|f IH]; intros k cost used h E; [discriminate E|]. cbn [prepare] in E. destruct (infos_ok cost cs Fn) as (l&El&Z0&F2). rewrite El in E. cbn [bind] in E. destruct (existsb ci_zero l) eqn:EZ.
  - destruct (IH _ _ _ _ E) as (G&V&LI&[U|(j&Hj&U)]&_).
    + split; [exact G|]. split; [exact V|]. split; [exact LI|]. split; [right; exists k; split; [lia|exact U]|]. intros Gc. apply (generic_flag cost cs Fn) in Gc. congruence.
    + split; [exact G|]. split; [exact V|]. split; [exact LI|]. split; [right; exists j; split; [lia|exact U]|]. intros Gc. apply (generic_flag cost cs Fn) in Gc. congruence.
  - symmetry in Z0. apply (generic_flag cost cs Fn) in Z0. destruct (start_ok n cost cs points l Fo Z0 F2) as (h'&T&Ea&V&LI). rewrite Ea in E. cbn [bind] in E. injection E as <- <-. split; [exact Z0|]. split; [exact V|]. split; [exists T; exact LI|]. split; [now left|reflexivity].
Qed.
Lemma prepare_total n rnd given cs points cost : Forall (cone_ok n) cs -> Forall (generic cost) cs -> exists h T, valid cone_key h /\ loop_inv cost cs points T (hvalues h) /\ forall fuel k, (1 <= fuel)%nat -> prepare fuel n rnd k given cost cs = Ok (cost, h).
Proof.
  intros Fo Fg. assert (Fn : Forall (fun c => dc_rays c <> []) cs) by (revert Fg; apply Forall_impl; intros c (N&_); exact N). destruct (infos_ok cost cs Fn) as (l&El&Z0&F2). destruct (start_ok n cost cs points l Fo Fg F2) as (h&T&Ea&V&LI). exists h, T. split; [exact V|]. split; [exact LI|].
  intros fuel k Hf. destruct fuel as [|f]; [lia|]. cbn [prepare]. rewrite El. cbn [bind]. rewrite Z0, (proj2 (generic_flag cost cs Fn) Fg). rewrite Ea. reflexivity.
Qed.
Theorem solve_sound n cs points matrix given : Forall (cone_ok n) cs -> Forall (fun c => dc_rays c <> []) cs -> Forall (fun p => length p = n) points -> generates n (map gcone_of cs) points ->
  (forall x, length x = n -> (In x points <-> feasible matrix x = true)) -> forall fuel rnd x k used, solve_ip fuel rnd cs matrix given n = Ok (x, k, used) ->
  optimal used points x k /\ (used = given \/ exists j, used = perturb_with (perturb_factor n cs) given (rnd j)) /\ (Forall (generic given) cs -> used = given).
Proof.
  intros Fo Fn Lp Gen Desc fuel rnd x k used E. unfold solve_ip in E. destruct (prepare fuel n rnd 0 given given cs) as [(u, h)|] eqn:Ep; [|discriminate E]. cbn [bind] in E. destruct (dig_loop fuel matrix h) as [(x', k')|] eqn:Ed; [|discriminate E]. cbn [bind] in E. injection E as <- <- <-.
  destruct (prepare_ok n rnd given cs points Fo Fn fuel 0 given u h Ep) as (G&V&(T&LI)&U&Ug). split; [exact (dig_loop_sound n u cs points Fo G Lp Gen matrix Desc fuel T h x' k' V LI Ed)|]. split; [|exact Ug]. destruct U as [U|(j&_&U)]; [now left|right; now exists j].
Qed.
Theorem solve_total n cs points matrix cost : Forall (cone_ok n) cs -> Forall (generic cost) cs -> Forall (fun p => length p = n) points -> points <> [] -> generates n (map gcone_of cs) points ->
  (forall x, length x = n -> (In x points <-> feasible matrix x = true)) -> forall rnd, exists f0 x k, optimal cost points x k /\ forall fuel, (f0 <= fuel)%nat -> solve_ip fuel rnd cs matrix cost n = Ok (x, k, cost).
Proof.
  intros Fo Fg Lp Np Gen Desc rnd. destruct (prepare_total n rnd cost cs points cost Fo Fg) as (h&T&V&LI&Ep). destruct points as [|p ps] eqn:E0; [congruence|]. rewrite <- E0 in *. assert (Ip : In p points) by (rewrite E0; now left).
  destruct (dig_loop_total n cost cs points Fo Fg Lp Gen matrix Desc p Ip _ T h (le_n _) V LI) as (f0&x&k&Ox&Ef). exists (S f0), x, k. split; [exact Ox|]. intros fuel Hf. unfold solve_ip. rewrite Ep by lia. cbn [bind]. rewrite Ef by lia. reflexivity.
Qed.
