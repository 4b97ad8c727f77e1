(** The series after the substitution. *)
From Coq Require Import QArith Qfield Qpower Lqa Permutation.
From Verif Require Import Common ExpSpec ExpProofs3 GenFunSpec BrionProofs BrionProofs2 BrionProofs3 GenFunProofs2 DigProofs4 TrivialSubstSpec.
Open Scope Z_scope.

Definition pi (n : nat) (v : list Z) : list Z := [height n v].
Definition push (n : nat) (p : gpoly) : gpoly := map (fun a => (fst a, pi n (snd a))) p.
Lemma height_vadd n a b : (0 < n)%nat -> length a = n -> length b = n -> height n (vadd a b) = height n a + height n b.
Proof. intros N A B. unfold height. rewrite vadd_nth by lia. lia. Qed.
Lemma push_app n p q : push n (p ++ q) = push n p ++ push n q.
Proof. apply map_app. Qed.
Lemma push_gmul n p q : (0 < n)%nat -> wfp n p -> wfp n q -> push n (gmul p q) = gmul (push n p) (push n q).
Proof.
  intros N Wp Wq. induction Wp as [|a p Ha Wp IH]; [reflexivity|]. change (gmul (a :: p) q) with (map (fun b => (fst a * fst b, vadd (snd a) (snd b))) q ++ gmul p q). rewrite push_app, IH. change (push n (a :: p)) with ((fst a, pi n (snd a)) :: push n p).
  change (gmul ((fst a, pi n (snd a)) :: push n p) (push n q)) with (map (fun b => (fst a * fst b, vadd (pi n (snd a)) (snd b))) (push n q) ++ gmul (push n p) (push n q)). f_equal. unfold push. rewrite !map_map. apply map_ext_in. intros b Hb. cbn [fst snd]. f_equal. unfold wfp in Wq. rewrite Forall_forall in Wq. unfold pi. cbn [vadd]. f_equal. apply height_vadd; [exact N|exact Ha|apply Wq, Hb].
Qed.
Lemma push_gone n : (0 < n)%nat -> push n (gone n) = gone 1.
Proof. intros N. unfold push, gone, pi, height. cbn [map fst snd repeat]. now rewrite nth_repeat. Qed.
Lemma push_gdenom n rays : (0 < n)%nat -> Forall (fun r => length r = n) rays -> push n (gdenom n rays) = gdenom 1 (map (fun r => [height n r]) rays).
Proof.
  intros N. induction 1 as [|r rays Hr F IH]; [now apply push_gone|]. cbn [map]. unfold gdenom in *. cbn [fold_right]. rewrite push_gmul; [|exact N| |apply (gdenom_wf n rays F)].
  - rewrite IH. f_equal. unfold push, pi, height. cbn [map fst snd repeat]. now rewrite nth_repeat.
  - repeat constructor; cbn [snd]; [apply repeat_length|exact Hr].
Qed.
Definition wf_cone (n : nat) (c : Z * list (list Z) * list (list Z)) : Prop := Forall (fun r => length r = n) (snd (fst c)) /\ Forall (fun p => length p = n) (snd c).
Lemma wf_points n k pts : Forall (fun p => length p = n) pts -> wfp n (gscale k (gpoints pts)).
Proof. intros F. unfold wfp, gscale, gpoints. rewrite map_map. apply Forall_map. revert F. apply Forall_impl. auto. Qed.
Lemma wf_rational n cs : Forall (wf_cone n) cs -> wfp n (fst (grational n cs)) /\ wfp n (snd (grational n cs)).
Proof.
  induction 1 as [|[[k rays] pts] cs [WR WP] F [I1 I2]].
  - split; [constructor|]. repeat constructor. cbn. apply repeat_length.
  - rewrite grational_cons. cbn [fst snd] in *. split; [apply Forall_app; split|]; apply gmul_wf; auto using wf_points, gdenom_wf.
Qed.
Lemma push_rational n cs : (0 < n)%nat -> Forall (wf_cone n) cs -> grational 1 (projected n cs) = (push n (fst (grational n cs)), push n (snd (grational n cs))).
Proof.
  intros N F. induction F as [|[[k rays] pts] cs [WR WP] F IH].
  - cbn [grational projected map fold_right fst snd]. now rewrite push_gone.
  - cbn [projected map fst snd]. fold (projected n cs). rewrite !grational_cons, IH. cbn [fst snd] in *. destruct (wf_rational n cs F) as [W1 W2]. rewrite push_app, !push_gmul by auto using wf_points, gdenom_wf. rewrite !push_gdenom by assumption. f_equal. f_equal. f_equal. unfold push, gscale, gpoints. rewrite !map_map. reflexivity.
Qed.
Definition off (x a : list Z) : list Z := vadd x (map Z.opp a).
Lemma off_len n x a : length x = n -> length a = n -> length (off x a) = n.
Proof. intros X A. unfold off. rewrite vadd_len; [exact X|now rewrite map_length; lia]. Qed.
Lemma off_nth n x a k : length x = n -> length a = n -> nth k (off x a) 0 = nth k x 0 - nth k a 0.
Proof.
  intros X A. unfold off. rewrite vadd_nth by (rewrite map_length; lia). change 0 with (Z.opp 0) at 2. rewrite map_nth. lia.
Qed.
Lemma off_vadd n x a : length x = n -> length a = n -> off (vadd a x) a = x.
Proof.
  intros X A. assert (L : length (vadd a x) = n) by (rewrite vadd_len; lia). apply (nth_ext _ _ 0 0); [rewrite (off_len n); auto|]. intros k _. rewrite (off_nth n) by auto. rewrite vadd_nth by lia. lia.
Qed.
Lemma vadd_off n x a : length x = n -> length a = n -> vadd a (off x a) = x.
Proof.
  intros X A. pose proof (off_len n x a X A) as L. apply (nth_ext _ _ 0 0); [rewrite vadd_len; lia|]. intros k _. rewrite vadd_nth by lia. rewrite (off_nth n) by auto. lia.
Qed.
Lemma sum_part (F : list Z -> Z) A B : NoDup A -> NoDup B -> (forall x, In x A -> In x B) -> (forall x, In x B -> ~ In x A -> F x = 0) -> lsum (map F B) = lsum (map F A).
Proof.
  intros NA NB AB Z0. revert B NB AB Z0. induction A as [|a A IH]; intros B NB AB Z0.
  - cbn. induction B as [|b B IHB]; [reflexivity|]. cbn [map]. rewrite lsum_cons, (Z0 b) by (cbn; auto). rewrite IHB; [reflexivity|now inversion NB|intros x []|intros x Hx _; apply Z0; cbn; auto].
  - inversion NA as [|? ? Na NA']; subst. destruct (in_split a B (AB a (or_introl eq_refl))) as (B1 & B2 & ->). rewrite <- (lsum_perm (map F (a :: B1 ++ B2))) by (apply Permutation_map, Permutation_middle). cbn [map]. rewrite !lsum_cons. f_equal. pose proof (NoDup_remove_1 _ _ _ NB) as ND. pose proof (NoDup_remove_2 _ _ _ NB) as NI. apply IH; [exact NA'|exact ND| |].
    + intros x Hx. specialize (AB x (or_intror Hx)). apply in_app_iff in AB. apply in_app_iff. destruct AB as [?|[<-|?]]; tauto.
    + intros x Hx NX. apply Z0; [apply in_app_iff in Hx; apply in_app_iff; cbn; tauto|]. intros [<-|?]; tauto.
Qed.
Lemma lsum_fold {A} (f : A -> Z) l : lsum (map f l) = fold_right (fun x s => f x + s) 0 l.
Proof. induction l as [|a l IH]; [reflexivity|]. cbn [map fold_right]. now rewrite lsum_cons, IH. Qed.
Definition dec := list_eq_dec Z.eq_dec.
Section Series.
Context (n : nat) (Hn : (0 < n)%nat) (F : list Z -> Z) (level : Z -> list (list Z)) (HL : levels n F level).
(** The points of height k that matter. *)
Definition window (k : Z) (D N : gpoly) : list (list Z) :=
  nodup dec (flat_map (fun a => map (vadd (snd a)) (level (k - height n (snd a)))) D ++ filter (fun v => height n v =? k) (map snd N)).
Lemma window_at k D N x : wfp n D -> wfp n N -> In x (window k D N) -> length x = n /\ height n x = k.
Proof using Hn HL.
  intros WD WN H. unfold wfp in *. rewrite Forall_forall in WD, WN. unfold window in H. rewrite nodup_In, in_app_iff in H. destruct H as [H|H].
  - apply in_flat_map in H as (a & Ha & H). apply in_map_iff in H as (y & <- & Hy). apply HL in Hy as (Ly & Ky & _). specialize (WD a Ha). cbv beta in WD. split; [rewrite vadd_len; lia|]. rewrite height_vadd by assumption. lia.
  - apply filter_In in H as [H E]. apply Z.eqb_eq in E. apply in_map_iff in H as (a & <- & Ha). split; [exact (WN a Ha)|exact E].
Qed.
Lemma window_shift k D N a : wfp n D -> wfp n N -> In a D -> lsum (map (fun x => F (off x (snd a))) (window k D N)) = lsum (map F (level (k - height n (snd a)))).
Proof using Hn HL.
  intros WD WN Ha. pose proof WD as WD'. unfold wfp in WD'. rewrite Forall_forall in WD'. pose proof (WD' a Ha) as La. cbv beta in La. rewrite <- (map_map (fun x => off x (snd a)) F). destruct (HL (k - height n (snd a))) as [ND HI]. apply sum_part.
  - exact ND.
  - assert (G : forall l, NoDup l -> (forall x, In x l -> length x = n) -> NoDup (map (fun x => off x (snd a)) l)).
    { induction 1 as [|x l Nx Nl IH]; intros LL; [constructor|]. cbn [map]. constructor; [|apply IH; intros; apply LL; now right]. intros H. apply in_map_iff in H as (y & E & Hy). apply Nx. rewrite <- (vadd_off n x (snd a)), <- E, (vadd_off n y (snd a)); auto; apply LL; cbn; auto. }
    apply G; [apply NoDup_nodup|]. intros x Hx. apply (window_at k D N x WD WN Hx).
  - intros x Hx. pose proof (proj1 (HI x) Hx) as (Lx & Kx & _). apply in_map_iff. exists (vadd (snd a) x). split; [now apply (off_vadd n)|]. unfold window. rewrite nodup_In, in_app_iff. left. apply in_flat_map. exists a. split; [exact Ha|]. now apply in_map.
  - intros y Hy Ny. apply in_map_iff in Hy as (x & <- & Hx). destruct (window_at k D N x WD WN Hx) as [Lx Kx]. destruct (Z.eq_dec (F (off x (snd a))) 0) as [E|E]; [exact E|]. exfalso. apply Ny, HI. split; [now apply off_len|]. split; [|exact E]. unfold height in *. rewrite (off_nth n) by assumption. lia.
Qed.
Lemma window_count k D N a : wfp n D -> wfp n N -> In a N -> lsum (map (fun x => if dec (snd a) x then fst a else 0) (window k D N)) = if dec (pi n (snd a)) [k] then fst a else 0.
Proof using Hn HL.
  intros WD WN Ha. destruct (dec (pi n (snd a)) [k]) as [E|E].
  - injection E as E. rewrite (sum_part _ [snd a]).
    + cbn. destruct (dec (snd a) (snd a)); [lia|congruence].
    + repeat constructor. intros [].
    + apply NoDup_nodup.
    + intros x [<-|[]]. unfold window. rewrite nodup_In, in_app_iff. right. apply filter_In. split; [now apply in_map|]. now apply Z.eqb_eq.
    + intros x _ NX. destruct (dec (snd a) x) as [<-|]; [|reflexivity]. exfalso. apply NX. now left.
  - rewrite (sum_part _ []); [reflexivity|constructor|apply NoDup_nodup|intros x []|]. intros x Hx _. destruct (dec (snd a) x) as [<-|]; [|reflexivity]. exfalso. apply E. unfold pi. f_equal. apply (window_at k D N _ WD WN Hx).
Qed.
Lemma gcoeff_lsum p v : gcoeff p v = lsum (map (fun a => if dec (snd a) v then fst a else 0) p).
Proof. induction p as [|a p IH]; [reflexivity|]. rewrite gcoeff_cons, IH. cbn [map]. now rewrite lsum_cons. Qed.
Lemma times_lsum p G v : times_series p G v = lsum (map (fun a => fst a * G (off v (snd a))) p).
Proof. unfold times_series, off. now rewrite lsum_fold. Qed.
Lemma level_lsum v : level_sum F level v = lsum (map F (level (nth 0 v 0))).
Proof. unfold level_sum. now rewrite lsum_fold. Qed.
Lemma push_series D N : wfp n D -> wfp n N -> (forall x, length x = n -> times_series D F x = gcoeff N x) ->
  forall y, length y = 1%nat -> times_series (push n D) (level_sum F level) y = gcoeff (push n N) y.
Proof using Hn HL.
  intros WD WN H y Ly. destruct y as [|k [|]]; try discriminate.
  transitivity (lsum (map (fun x => times_series D F x) (window k D N))).
  - rewrite times_lsum. unfold push. rewrite map_map. cbn [fst snd]. transitivity (lsum (map (fun a => lsum (map (fun x => fst a * F (off x (snd a))) (window k D N))) D)).
    + apply lsum_ext. intros a Ha. rewrite lsum_scale. apply f_equal. rewrite (window_shift k D N a WD WN Ha), level_lsum. apply (f_equal (fun j => lsum (map F (level j)))).   unfold off, pi. cbn. lia.
    + rewrite lsum_swap. apply lsum_ext. intros x _. now rewrite times_lsum.
  - transitivity (lsum (map (fun x => gcoeff N x) (window k D N))).
    + apply lsum_ext. intros x Hx. apply H. apply (window_at k D N x WD WN Hx).
    + rewrite gcoeff_lsum. unfold push. rewrite map_map. cbn [fst snd]. transitivity (lsum (map (fun x => lsum (map (fun a => if dec (snd a) x then fst a else 0) N)) (window k D N))); [apply lsum_ext; intros x _; apply gcoeff_lsum|]. rewrite lsum_swap. apply lsum_ext. intros a Ha. now apply window_count.
Qed.
End Series.
Lemma series_projected n cs F level : (0 < n)%nat -> Forall (wf_cone n) cs -> levels n F level -> expands n cs F -> expands 1 (projected n cs) (level_sum F level).
Proof.
  intros N WF HL EX y Ly. rewrite (push_rational n cs N WF). cbn [fst snd]. destruct (wf_rational n cs WF) as [W1 W2]. exact (push_series n N F level HL _ _ W2 W1 EX y Ly).
Qed.
(** The values. *)
Lemma at_last_shift n q k : (at_last (S (S n)) q (S k) = at_last (S n) q k)%Q.
Proof. unfold at_last. replace (S (S n) - 1)%nat with (S (S n - 1)) by lia. reflexivity. Qed.
Lemma Qone_power e : (1 ^ e == 1)%Q.
Proof. apply Qpower_1. Qed.
Lemma monomial_last n v q : length v = S n -> (monomial (at_last (S n) q) v == q ^ height (S n) v)%Q.
Proof.
  revert v. induction n as [|n IH]; intros [|e v] L; try discriminate.
  - destruct v; [|discriminate]. cbn. ring.
  - cbn [length] in L. injection L as L. cbn [monomial]. change (at_last (S (S n)) q 0%nat) with 1%Q. rewrite Qone_power, Qmult_1_l. specialize (IH v L). assert (E : (monomial (fun k => at_last (S (S n)) q (S k)) v == monomial (at_last (S n) q) v)%Q).
    { apply monomial_ext. intros k _. rewrite at_last_shift. reflexivity. }
    rewrite E, IH. unfold height. replace (S (S n) - 1)%nat with (S (S n - 1)) by lia. reflexivity.
Qed.
