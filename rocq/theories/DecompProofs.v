From Coq Require Import QArith Qfield Qpower Permutation Morphisms.
From Verif Require Import Common Rational RationalSpec RationalProofs Trie TrieSpec TrieProofs TrieProofs2 Integ IntegSpec IntegMath IntegProofs IntegProofs3 IntegProofs4.
Open Scope Q_scope.

(** ** Finite differences of polynomial functions *)
Fixpoint lead (N : nat) (c : Q) (f : Q -> Q) : Prop :=
  match N with
  | O => forall y, f y == c
  | S N' => exists g r, lead N' c g /\ forall y, f y == y * g y + r
  end.
Lemma lead_ext N : forall c c' f f', c == c' -> (forall y, f y == f' y) -> lead N c f -> lead N c' f'.
Proof.
  induction N as [|N IH]; cbn [lead]; intros c c' f f' Ec Ef H.
  - intros y. rewrite <- Ef, H. exact Ec.
  - destruct H as (g & r & L & E). exists g, r. split.
    + apply (IH c c' g g Ec); [reflexivity|exact L].
    + intros y. rewrite <- Ef. apply E.
Qed.
Lemma lead_add N : forall c d f g, lead N c f -> lead N d g -> lead N (c + d) (fun y => f y + g y).
Proof.
  induction N as [|N IH]; cbn [lead]; intros c d f g Hf Hg.
  - intros y. rewrite Hf, Hg. reflexivity.
  - destruct Hf as (f' & r & Lf & Ef), Hg as (g' & r' & Lg & Eg). exists (fun y => f' y + g' y), (r + r'). split; [now apply IH|].
    intros y. rewrite Ef, Eg. ring.
Qed.
Lemma lead_scale N h : forall c f, lead N c f -> lead N (h * c) (fun y => h * f y).
Proof.
  induction N as [|N IH]; cbn [lead]; intros c f Hf.
  - intros y. rewrite Hf. reflexivity.
  - destruct Hf as (f' & r & Lf & Ef). exists (fun y => h * f' y), (h * r). split; [now apply IH|]. intros y. rewrite Ef. ring.
Qed.
Lemma lead_lower N : forall c f, lead N c f -> lead (S N) 0 f.
Proof.
  induction N as [|N IH]; intros c f Hf.
  - cbn [lead] in Hf. exists (fun _ => 0), c. split; [intros y; reflexivity|]. intros y. rewrite Hf. ring.
  - destruct Hf as (f' & r & Lf & Ef). exists f', r. split; [now apply (IH c)|exact Ef].
Qed.
Lemma lead_const N : forall r, lead (S N) 0 (fun _ => r).
Proof.
  induction N as [|N IH]; intros r; exists (fun _ => 0), r; (split; [|intros y; ring]); [intros y; reflexivity|apply IH].
Qed.
Lemma lead_shift N h : forall c f, lead N c f -> lead N c (fun y => f (y + h)).
Proof.
  induction N as [|N IH]; intros c f Hf.
  - intros y. apply Hf.
  - destruct Hf as (f' & r & Lf & Ef). pose proof (IH _ _ Lf) as L1.
    assert (L2 : lead (S N) c (fun y => y * f' (y + h))) by (exists (fun y => f' (y + h)), 0; split; [exact L1|intros; ring]).
    assert (L3 : lead (S N) 0 (fun y => h * f' (y + h) + r)).
    { apply (lead_ext (S N) (0 + 0) 0 (fun y => h * f' (y + h) + r)); [ring|intros; reflexivity|].
      apply (lead_add (S N) 0 0 (fun y => h * f' (y + h)) (fun _ => r)).
      - apply (lead_lower N (h * c)). now apply lead_scale.
      - apply lead_const. }
    apply (lead_ext (S N) (c + 0) c (fun y => y * f' (y + h) + (h * f' (y + h) + r))); [ring| |now apply lead_add].
    intros y. rewrite Ef. ring.
Qed.
Definition diff (h : Q) (f : Q -> Q) : Q -> Q := fun y => f (y + h) - f y.
Lemma lead_diff h : forall N c f, lead (S N) c f -> lead N (inject_Z (Z.of_nat (S N)) * h * c) (diff h f).
Proof.
  induction N as [|N IH]; intros c f (g & r & Lg & Eg).
  - cbn [lead] in Lg. intros y. unfold diff. rewrite !Eg, !Lg. change (inject_Z (Z.of_nat 1)) with 1. ring.
  - pose proof (IH c g Lg) as L1.
    assert (L2 : lead (S N) (inject_Z (Z.of_nat (S N)) * h * c) (fun y => y * diff h g y)) by (exists (diff h g), 0; split; [exact L1|intros; ring]).
    assert (L3 : lead (S N) (h * c) (fun y => h * g (y + h))) by (apply lead_scale, lead_shift, Lg).
    apply (lead_ext (S N) (inject_Z (Z.of_nat (S N)) * h * c + h * c) (inject_Z (Z.of_nat (S (S N))) * h * c) (fun y => y * diff h g y + h * g (y + h))); [| |now apply lead_add].
    + rewrite (Nat2Z.inj_succ (S N)). unfold Z.succ. rewrite inject_Z_plus. change (inject_Z 1) with 1. ring.
    + intros y. unfold diff. rewrite !Eg. ring.
Qed.
Lemma lead_zero_diff h c f : lead 0 c f -> lead 0 0 (diff h f).
Proof. cbn [lead]. intros H y. unfold diff. rewrite !H. ring. Qed.
Fixpoint diffn (M : nat) (h : Q) (f : Q -> Q) : Q -> Q := match M with O => f | S M' => diffn M' h (diff h f) end.
(** falling factorial (N+M)!/N! *)
Fixpoint rising (M N : nat) : Z := match M with O => 1%Z | S M' => (Z.of_nat (N + M) * rising M' N)%Z end.
Lemma lead_diffn h : forall M N c f, lead (M + N) c f -> lead N (inject_Z (rising M N) * h ^ Z.of_nat M * c) (diffn M h f).
Proof.
  induction M as [|M IH]; intros N c f H; cbn [diffn rising].
  - apply (lead_ext N c _ f f); [|reflexivity|exact H]. change (inject_Z 1) with 1. cbn. ring.
  - cbn [Nat.add] in H. apply (lead_diff h) in H. apply IH in H.
    eapply lead_ext; [|reflexivity|exact H]. rewrite inject_Z_mult. rewrite (Nat2Z.inj_succ M). unfold Z.succ. rewrite Qpower_plus' by lia.
    replace (S (M + N))%nat with (N + S M)%nat by lia. change (h ^ 1) with h. ring.
Qed.
Lemma rising_fact : forall M N, (rising M N * zfact N = zfact (N + M))%Z.
Proof.
  induction M as [|M IH]; intros N; cbn [rising]; [rewrite Nat.add_0_r; lia|].
  replace (N + S M)%nat with (S (N + M)) by lia. cbn [zfact]. rewrite <- IH. ring.
Qed.
Lemma lead_pow N : lead N 1 (fun y => y ^ Z.of_nat N).
Proof.
  induction N as [|N IH]; [intros y; reflexivity|]. exists (fun y => y ^ Z.of_nat N), 0. split; auto. intros y.
  rewrite Nat2Z.inj_succ. unfold Z.succ. rewrite Qpower_plus' by lia. change (y ^ 1) with y. ring.
Qed.
(** diffn of a lower degree vanishes *)
Lemma lead_up k : forall N c f, lead N c f -> lead (S (k + N)) 0 f.
Proof. induction k as [|k IH]; intros N c f H; cbn [Nat.add]; [now apply (lead_lower N c)|]. apply (lead_lower (S (k + N)) 0). now apply (IH N c). Qed.

(** closed form *)
Definition sgn (k : nat) : Z := if Nat.odd k then (-1)%Z else 1%Z.
Lemma sgn_S k : sgn (S k) = (- sgn k)%Z.
Proof. unfold sgn. rewrite Nat.odd_succ, <- Nat.negb_odd. destruct (Nat.odd k); reflexivity. Qed.
Definition wt (m c : nat) : Z := (sgn (m - c) * binom m c)%Z.
Lemma wt_S m c : (S c <= m)%nat -> (wt (S m) (S c) = wt m c - wt m (S c))%Z.
Proof.
  intros H. unfold wt. cbn [Nat.sub binom]. replace (m - c)%nat with (S (m - S c)) by lia. rewrite sgn_S. ring.
Qed.
Lemma wt_S0 m : (wt (S m) 0 = - wt m 0)%Z.
Proof. unfold wt. rewrite !Nat.sub_0_r, sgn_S, !binom_0. ring. Qed.
Lemma wt_diag m : wt m m = 1%Z.
Proof. unfold wt. rewrite Nat.sub_diag, binom_diag. reflexivity. Qed.
Lemma qsum_app {A} (f : A -> Q) l r : qsum f (l ++ r) == qsum f l + qsum f r.
Proof. induction l as [|a l IH]; cbn [qsum app]; [ring|]. rewrite IH. ring. Qed.
Lemma qsum_map {A B} (g : A -> B) (f : B -> Q) l : qsum f (map g l) = qsum (fun a => f (g a)) l.
Proof. induction l as [|a l IH]; cbn [qsum map]; [reflexivity|]. now rewrite IH. Qed.
Lemma qsum_seq_S (f : nat -> Q) n : qsum f (seq 0 (S n)) == qsum f (seq 0 n) + f n.
Proof. rewrite seq_S, qsum_app. cbn [qsum Nat.add]. ring. Qed.
Lemma qsum_seq_head (f : nat -> Q) n : qsum f (seq 0 (S n)) = f O + qsum (fun c => f (S c)) (seq 0 n).
Proof. cbn [seq qsum]. now rewrite <- seq_shift, qsum_map. Qed.
Lemma qsum_scale {A} c (f : A -> Q) l : qsum (fun a => c * f a) l == c * qsum f l.
Proof. induction l as [|a l IH]; cbn [qsum]; [ring|]. rewrite IH. ring. Qed.
Lemma qsum_minus {A} (f g : A -> Q) l : qsum (fun a => f a - g a) l == qsum f l - qsum g l.
Proof. induction l as [|a l IH]; cbn [qsum]; [ring|]. rewrite IH. ring. Qed.
Lemma qsum_plus {A} (f g : A -> Q) l : qsum (fun a => f a + g a) l == qsum f l + qsum g l.
Proof. induction l as [|a l IH]; cbn [qsum]; [ring|]. rewrite IH. ring. Qed.

Lemma injZ_sub a b : inject_Z (a - b) == inject_Z a - inject_Z b.
Proof. unfold Z.sub. rewrite inject_Z_plus, inject_Z_opp. ring. Qed.
(** summation by parts: sums of w_{m+1}(c) a_c are sums of w_m(c) (a_{c+1} - a_c) *)
Lemma wt_sum (a : nat -> Q) m :
  qsum (fun c => inject_Z (wt (S m) c) * a c) (seq 0 (S (S m))) == qsum (fun c => inject_Z (wt m c) * (a (S c) - a c)) (seq 0 (S m)).
Proof.
  rewrite (qsum_ext (fun c => inject_Z (wt m c) * (a (S c) - a c)) (fun c => inject_Z (wt m c) * a (S c) - inject_Z (wt m c) * a c)) by (intros; ring).
  rewrite qsum_minus. rewrite qsum_seq_head. rewrite (qsum_seq_head (fun c => inject_Z (wt m c) * a c)).
  rewrite (qsum_seq_S (fun c => inject_Z (wt (S m) (S c)) * a (S c))). rewrite (qsum_seq_S (fun c => inject_Z (wt m c) * a (S c))).
  rewrite (qsum_ext (fun c => inject_Z (wt (S m) (S c)) * a (S c)) (fun c => inject_Z (wt m c) * a (S c) - inject_Z (wt m (S c)) * a (S c))).
  - rewrite qsum_minus, wt_S0, !wt_diag, inject_Z_opp. ring.
  - intros c Hc. apply in_seq in Hc. rewrite wt_S by lia. rewrite injZ_sub. ring.
Qed.
Definition respects (f : Q -> Q) := forall y z, y == z -> f y == f z.
Lemma diff_respects h f : respects f -> respects (diff h f).
Proof. intros H y z E. unfold diff. rewrite (H _ _ E), (H (y + h) (z + h)) by now rewrite E. reflexivity. Qed.
Lemma diffn_respects h : forall M f, respects f -> respects (diffn M h f).
Proof. induction M; cbn [diffn]; intros f H; auto. now apply IHM, diff_respects. Qed.
Lemma diffn_closed h : forall M f, respects f -> forall y, diffn M h f y == qsum (fun c => inject_Z (wt M c) * f (y + inject_Z (Z.of_nat c) * h)) (seq 0 (S M)).
Proof.
  induction M as [|M IH]; intros f Hf y; cbn [diffn].
  - cbn [seq qsum]. change (inject_Z (wt 0 0)) with 1. rewrite (Hf (y + inject_Z (Z.of_nat 0) * h) y); [ring|]. change (inject_Z (Z.of_nat 0)) with 0. ring.
  - rewrite IH by now apply diff_respects. rewrite (wt_sum (fun c => f (y + inject_Z (Z.of_nat c) * h))). apply qsum_ext. intros c _.
    unfold diff. rewrite (Hf (y + inject_Z (Z.of_nat c) * h + h) (y + inject_Z (Z.of_nat (S c)) * h)); [reflexivity|].
    rewrite Nat2Z.inj_succ. unfold Z.succ. rewrite inject_Z_plus. change (inject_Z 1) with 1. ring.
Qed.

(** ** several variables *)
Fixpoint enum (M : list nat) : list (list nat) :=
  match M with [] => [[]] | m :: Ms => flat_map (fun r => map (fun c => c :: r) (seq 0 (S m))) (enum Ms) end.
Fixpoint wts (M p : list nat) : Z := match M, p with m :: Ms, c :: ps => (wt m c * wts Ms ps)%Z | _, _ => 1%Z end.
Definition zs (p : list nat) : list Z := map Z.of_nat p.
Fixpoint diffs (M : list nat) (x : list Q) (f : Q -> Q) : Q -> Q :=
  match M, x with m :: Ms, h :: xs => diffs Ms xs (diffn m h f) | _, _ => f end.
Lemma qsum_flat {A B} (g : A -> list B) (f : B -> Q) l : qsum f (flat_map g l) == qsum (fun a => qsum f (g a)) l.
Proof. induction l as [|a l IH]; cbn [qsum flat_map]; [reflexivity|]. rewrite qsum_app, IH. reflexivity. Qed.
Lemma diffs_closed : forall M x f, length M = length x -> respects f -> forall y,
  diffs M x f y == qsum (fun p => inject_Z (wts M p) * f (y + qdot (zs p) x)) (enum M).
Proof.
  induction M as [|m Ms IH]; intros [|h xs] f L Hf y; cbn [length] in L; try discriminate; cbn [diffs enum].
  - cbn [qsum wts zs map qdot]. change (inject_Z 1) with 1. rewrite (Hf (y + 0) y) by ring. ring.
  - rewrite IH by (try lia; now apply diffn_respects). rewrite qsum_flat. apply qsum_ext. intros r _. rewrite qsum_map.
    rewrite diffn_closed by auto. rewrite <- qsum_scale. apply qsum_ext. intros c _. cbn [wts zs map qdot]. fold (zs r). rewrite inject_Z_mult.
    rewrite (Hf (y + qdot (zs r) xs + inject_Z (Z.of_nat c) * h) (y + (inject_Z (Z.of_nat c) * h + qdot (zs r) xs))) by ring. ring.
Qed.
Definition total (M : list nat) : nat := fold_right Nat.add O M.
Lemma lead_diffs : forall M x f c N, length M = length x -> lead (total M + N) c f ->
  exists R, lead N (R * qmono (zs M) x * c) (diffs M x f) /\ R * inject_Z (zfact N) == inject_Z (zfact (total M + N)).
Proof.
  induction M as [|m Ms IH]; intros [|h xs] f c N L Hf; cbn [length] in L; try discriminate; cbn [diffs total fold_right].
  - exists 1. split; [|cbn [Nat.add]; ring]. apply (lead_ext N c _ f f); [cbn [zs map qmono]; ring|reflexivity|exact Hf].
  - cbn [total fold_right] in Hf. fold (total Ms) in *. rewrite <- Nat.add_assoc in Hf. apply (lead_diffn h) in Hf.
    destruct (IH xs _ _ N ltac:(lia) Hf) as (R & LR & ER). exists (R * inject_Z (rising m (total Ms + N))). split.
    + eapply lead_ext; [|reflexivity|exact LR]. cbn [zs map qmono]. fold (zs Ms). ring.
    + transitivity (inject_Z (rising m (total Ms + N)) * (R * inject_Z (zfact N))); [ring|]. rewrite ER, <- inject_Z_mult, rising_fact.
      replace (total Ms + N + m)%nat with (m + total Ms + N)%nat by lia. reflexivity.
Qed.
Theorem polarization M x : length M = length x ->
  qsum (fun p => inject_Z (wts M p) * qdot (zs p) x ^ Z.of_nat (total M)) (enum M) == inject_Z (zfact (total M)) * qmono (zs M) x.
Proof.
  intros L. pose proof (lead_pow (total M)) as H0. rewrite <- (Nat.add_0_r (total M)) in H0 at 1.
  destruct (lead_diffs M x _ 1 0 L H0) as (R & LR & ER). pose proof (LR 0) as LR'. cbn [lead] in LR. clear LR'. specialize (LR 0).
  rewrite diffs_closed in LR by (auto; intros y z E; now rewrite E).
  rewrite (qsum_ext _ (fun p => inject_Z (wts M p) * (0 + qdot (zs p) x) ^ Z.of_nat (total M))).
  - rewrite LR. rewrite Nat.add_0_r in ER. rewrite <- ER. change (inject_Z (zfact 0)) with 1. ring.
  - intros p _. rewrite Qplus_0_l. reflexivity.
Qed.
