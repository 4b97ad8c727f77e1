From Coq Require Import QArith Qround Qpower.
From Verif Require Import Common Rational RationalSpec RationalProofs RatFun Periodic PeriodicSpec.
Open Scope Q_scope.

(** Canonical constants everywhere. *)
Fixpoint canon (f : pf) : Prop :=
  match f with Num r | Frac r => lowest_terms r | Node _ l r => canon l /\ canon r end.
Definition means (f : pf) (g : Q -> Q) : Prop := canon f /\ forall t, pvalue f t == g t.
Lemma floor_int z : Qfloor (value (mkRat z 1)) = z.
Proof. unfold value; cbn [num den Z.to_pos]. apply Qfloor_Z. Qed.
Lemma fracpart_comp x y : x == y -> fracpart x == fracpart y.
Proof. intros H. unfold fracpart. rewrite (Qfloor_comp _ _ H). now rewrite H. Qed.

Lemma padd_ok f g u v : means f u -> means g v -> means (padd f g) (fun t => u t + v t).
Proof.
  intros [Cf Vf] [Cg Vg]. destruct f, g; cbn [padd canon] in *; (split; [cbn [canon]; auto; now apply rat_add_ok|]); intros t; cbn [pvalue];
  rewrite <- ?(Vf t), <- ?(Vg t); cbn [pvalue]; try reflexivity. now apply rat_add_ok.
Qed.
Lemma psub_ok f g u v : means f u -> means g v -> means (psub f g) (fun t => u t - v t).
Proof.
  intros [Cf Vf] [Cg Vg]. destruct f, g; cbn [psub canon] in *; (split; [cbn [canon]; auto; now apply rat_sub_ok|]); intros t; cbn [pvalue];
  rewrite <- ?(Vf t), <- ?(Vg t); cbn [pvalue]; try reflexivity. now apply rat_sub_ok.
Qed.
Lemma pmul_ok f g u v : means f u -> means g v -> means (pmul f g) (fun t => u t * v t).
Proof.
  intros [Cf Vf] [Cg Vg]. destruct f, g; cbn [pmul canon] in *; (split; [cbn [canon]; auto; now apply rat_mul_ok|]); intros t; cbn [pvalue];
  rewrite <- ?(Vf t), <- ?(Vg t); cbn [pvalue]; try reflexivity. now apply rat_mul_ok.
Qed.
Lemma pscale_ok f d u q : means f u -> lowest_terms d -> value d == q -> means (pscale f d) (fun t => u t * q).
Proof.
  intros [Cf Vf] Ld Vd. destruct f; cbn [pscale canon] in *; (split; [cbn [canon]; auto; now apply rat_mul_ok|]); intros t; cbn [pvalue];
  rewrite <- (Vf t), <- Vd; cbn [pvalue]; try reflexivity. now apply rat_mul_ok.
Qed.
Lemma pdivz_ok f z u : means f u -> (z <> 0)%Z -> means (pdivz f z) (fun t => u t / inject_Z z).
Proof.
  intros [Cf Vf] Hz. unfold pdivz. destruct (Z.eqb_spec z 1) as [->|N].
  - split; auto. intros t. rewrite Vf. change (inject_Z 1) with 1. field.
  - pose proof (rat_int_ok z) as [Lz Vz].
    destruct f; cbn [canon] in *; (split; [cbn [canon]; auto; now apply rat_divz_ok|]); intros t; cbn [pvalue];
    rewrite <- (Vf t); cbn [pvalue]; rewrite ?Vz; try reflexivity. now apply rat_divz_ok.
Qed.
Lemma ppow_ok f p u : means f u -> (0 <= p)%Z -> exists g, ppow f p = Ok g /\ means g (fun t => u t ^ p).
Proof.
  intros [Cf Vf] Hp. unfold ppow. destruct (Z.eqb_spec p 0) as [->|N].
  - eexists. split; [reflexivity|]. split; [apply rat_int_ok|]. intros t. reflexivity.
  - pose proof (rat_int_ok p) as [Lp Vp]. destruct f as [r|r|o l r]; cbn [canon] in *.
    + destruct (rat_pow_ok r p Cf (or_introl Hp)) as (x & E & L & V). rewrite E. eexists. split; [reflexivity|]. split; [exact L|].
      intros t. cbn [pvalue]. rewrite V, <- (Vf t). reflexivity.
    + eexists. split; [reflexivity|]. split; [cbn; auto|]. intros t. cbn [pvalue]. rewrite floor_int, <- (Vf t). reflexivity.
    + eexists. split; [reflexivity|]. split; [cbn; auto|]. intros t. cbn [pvalue]. rewrite floor_int, <- (Vf t). cbn [pvalue]. reflexivity.
Qed.
Definition prel (s : pstore) (q : qfstore) := forall i, means (s i) (q i).
Lemma prel_set s q i f u : prel s q -> means f u -> prel (pset s i f) (qfset q i u).
Proof. intros R M k. unfold pset, qfset. destruct (Nat.eqb k i); auto. Qed.
Lemma pstep_ok s q o q' : prel s q -> pspec_step q o = Some q' -> exists s', pstep s o = Ok s' /\ prel s' q'.
Proof.
  intros R E. destruct o as [i n d|i n d|i j|i j|i j|i j|i n d|i z|i p]; cbn [pspec_step pstep] in *.
  - destruct (Z.eqb_spec d 0); [discriminate|]. injection E as <-. eexists; split; [reflexivity|]. apply prel_set; auto. destruct (rat_make_ok n d) as [L V]; auto. now split.
  - destruct (Z.eqb_spec d 0); [discriminate|]. injection E as <-. eexists; split; [reflexivity|]. apply prel_set; auto. destruct (rat_make_ok n d) as [L V]; auto. split; auto.
    intros t. cbn [pvalue]. apply fracpart_comp. now rewrite V.
  - injection E as <-. eexists; split; [reflexivity|]. apply prel_set; auto.
  - injection E as <-. eexists; split; [reflexivity|]. apply prel_set; auto. now apply padd_ok.
  - injection E as <-. eexists; split; [reflexivity|]. apply prel_set; auto. now apply psub_ok.
  - injection E as <-. eexists; split; [reflexivity|]. apply prel_set; auto. now apply pmul_ok.
  - destruct (Z.eqb_spec d 0); [discriminate|]. injection E as <-. eexists; split; [reflexivity|]. apply prel_set; auto. destruct (rat_make_ok n d) as [L V]; auto. now apply pscale_ok.
  - destruct (Z.eqb_spec z 0); [discriminate|]. injection E as <-. eexists; split; [reflexivity|]. apply prel_set; auto. now apply pdivz_ok.
  - destruct (Z.ltb_spec p 0); [discriminate|]. injection E as <-. destruct (ppow_ok _ p _ (R i) ltac:(lia)) as (g & G & M). rewrite G. eexists; split; [reflexivity|]. now apply prel_set.
Qed.
Lemma prun_ok p : forall s q q', prel s q -> pspec_run q p = Some q' -> exists s', prun s p = Ok s' /\ prel s' q'.
Proof.
  induction p as [|o p IH]; intros s q q' R E; cbn [pspec_run prun] in *.
  - injection E as <-. now exists s.
  - destruct (pspec_step q o) as [q1|] eqn:E1; [|discriminate]. destruct (pstep_ok _ _ _ _ R E1) as (s1 & S1 & R1). rewrite S1. cbn [bind]. eauto.
Qed.
Lemma pinit_ok : prel pinit qfinit.
Proof. intros i. split; [apply rat_int_ok|]. intros t. reflexivity. Qed.
Theorem periodic_exact p q : pspec_run qfinit p = Some q -> exists s, prun pinit p = Ok s /\ forall i t, pvalue (s i) t == q i t.
Proof. intros E. destruct (prun_ok p _ _ _ pinit_ok E) as (s & S & R). exists s. split; auto. intros i t. apply R. Qed.
Lemma rat_eqb_z_ok a z : lowest_terms a -> (rat_eqb_z a z = true <-> value a == inject_Z z).
Proof.
  intros L. unfold rat_eqb_z. destruct (rat_int_ok z) as [Lz Vz]. split.
  - intros H. apply andb_prop in H as [H1 H2]. apply Z.eqb_eq in H1, H2. destruct a as [n d]; cbn [num den] in *. subst. exact Vz.
  - intros H. assert (a = mkRat z 1) as -> by (apply lowest_terms_unique; auto; now rewrite Vz). cbn. now rewrite Z.eqb_refl.
Qed.
Theorem periodic_equality p q s i x : pspec_run qfinit p = Some q -> prun pinit p = Ok s -> pis (s i) x = true -> forall t, q i t == inject_Z x.
Proof.
  intros E S H t. destruct (prun_ok p _ _ _ pinit_ok E) as (s' & S' & R). rewrite S in S'. injection S' as <-. destruct (R i) as [C V]. rewrite <- V.
  destruct (s i) as [r|r|o l r]; cbn [pis canon pvalue] in *; try discriminate. now apply rat_eqb_z_ok.
Qed.
(** ** Fallback *)
Definition fmeans (f : option pf) (u : Q -> Q) : Prop := match f with None => forall t, u t == 0 | Some g => means g u end.
Definition frel (s : fstore) (q : qfstore) := forall i, fmeans (s i) (q i).
Definition alive (l : list nat) (s : fstore) := forall i, In i l -> s i <> None.
Lemma known_In l i : known l i = true <-> In i l.
Proof. unfold known. rewrite existsb_exists. split; [intros (x & H & E); apply Nat.eqb_eq in E; now subst|intros H; exists i; split; auto; apply Nat.eqb_refl]. Qed.
Lemma frel_set s q i f u : frel s q -> means f u -> frel (fset s i (Some f)) (qfset q i u).
Proof. intros R M k. unfold fset, qfset. destruct (Nat.eqb k i); auto. Qed.
Lemma alive_set l s i f : alive l s -> alive (i :: l) (fset s i (Some f)) /\ alive l (fset s i (Some f)).
Proof. intros A. split; intros k H; unfold fset; destruct (Nat.eqb_spec k i); try discriminate; [destruct H; [congruence|now apply A]|now apply A]. Qed.
Lemma alive_set1 l s i f : alive l s -> alive (i :: l) (fset s i (Some f)).
Proof. apply alive_set. Qed.
Lemma alive_set2 l s i f : alive l s -> alive l (fset s i (Some f)).
Proof. apply alive_set. Qed.
Lemma means_Qeq f u v : means f u -> (forall t, u t == v t) -> means f v.
Proof. intros [C V] E. split; auto. intros t. rewrite V. apply E. Qed.
Lemma fget l s q i : alive l s -> frel s q -> known l i = true -> exists f, s i = Some f /\ means f (q i).
Proof. intros A R K. apply known_In in K. pose proof (A i K) as N. pose proof (R i) as M. destruct (s i) as [f|]; [|congruence]. now exists f. Qed.
Lemma frun_ok p : forall l s q q', alive l s -> frel s q -> initialised l p = true -> pspec_run q p = Some q' -> exists s', frun s p = Ok s' /\ frel s' q'.
Proof.
  induction p as [|o p IH]; intros l s q q' A R I E; cbn [pspec_run frun] in *.
  - injection E as <-. now exists s.
  - destruct (pspec_step q o) as [q1|] eqn:E1; [|discriminate].
    assert (G : exists l' i f, fstep s o = Ok (fset s i (Some f)) /\ frel (fset s i (Some f)) q1 /\ alive l' (fset s i (Some f)) /\ initialised l' p = true).
    { destruct o as [i n d|i n d|i j|i j|i j|i j|i n d|i z|i e]; cbn [pspec_step fstep initialised] in *.
      - destruct (Z.eqb_spec d 0); [discriminate|]. injection E1 as <-. destruct (rat_make_ok n d) as [L V]; auto.
        exists (i :: l), i. eexists. split; [reflexivity|]. split; [apply frel_set; auto; now split|]. split; auto; solve [apply alive_set1; assumption|apply alive_set2; assumption].
      - destruct (Z.eqb_spec d 0); [discriminate|]. injection E1 as <-. destruct (rat_make_ok n d) as [L V]; auto.
        exists (i :: l), i. eexists. split; [reflexivity|]. split; [apply frel_set; auto; split; auto; intros t; apply fracpart_comp; now rewrite V|]. split; auto; solve [apply alive_set1; assumption|apply alive_set2; assumption].
      - apply andb_prop in I as [K I]. injection E1 as <-. destruct (fget _ _ _ _ A R K) as (f & F & M). rewrite F. exists (i :: l), i, f. split; [reflexivity|]. split; [now apply frel_set|]. split; auto; solve [apply alive_set1; assumption|apply alive_set2; assumption].
      - apply andb_prop in I as [K I]. apply andb_prop in K as [Ki Kj]. injection E1 as <-. destruct (fget _ _ _ _ A R Ki) as (f & F & M), (fget _ _ _ _ A R Kj) as (g & G & N). rewrite F, G. cbn [fadd].
        exists l, i. eexists. split; [reflexivity|]. split; [apply frel_set; auto; now apply padd_ok|]. split; auto; solve [apply alive_set1; assumption|apply alive_set2; assumption].
      - apply andb_prop in I as [K I]. apply andb_prop in K as [Ki Kj]. injection E1 as <-. destruct (fget _ _ _ _ A R Ki) as (f & F & M), (fget _ _ _ _ A R Kj) as (g & G & N). rewrite F, G. cbn [fsub].
        exists l, i. eexists. split; [reflexivity|]. split; [apply frel_set; auto; now apply psub_ok|]. split; auto; solve [apply alive_set1; assumption|apply alive_set2; assumption].
      - apply andb_prop in I as [K I]. apply andb_prop in K as [Ki Kj]. injection E1 as <-. destruct (fget _ _ _ _ A R Ki) as (f & F & M), (fget _ _ _ _ A R Kj) as (g & G & N). rewrite F, G. cbn [fmul bind].
        exists l, i. eexists. split; [reflexivity|]. split; [apply frel_set; auto; now apply pmul_ok|]. split; auto; solve [apply alive_set1; assumption|apply alive_set2; assumption].
      - apply andb_prop in I as [K I]. destruct (Z.eqb_spec d 0); [discriminate|]. injection E1 as <-. destruct (rat_make_ok n d) as [L V]; auto. destruct (fget _ _ _ _ A R K) as (f & F & M). rewrite F. cbn [fscale].
        exists l, i. eexists. split; [reflexivity|]. split; [apply frel_set; auto; now apply pscale_ok|]. split; auto; solve [apply alive_set1; assumption|apply alive_set2; assumption].
      - apply andb_prop in I as [K I]. destruct (Z.eqb_spec z 0); [discriminate|]. injection E1 as <-. destruct (fget _ _ _ _ A R K) as (f & F & M). rewrite F. cbn [fdivz].
        exists l, i. eexists. split; [reflexivity|]. split; [apply frel_set; auto; now apply pdivz_ok|]. split; auto; solve [apply alive_set1; assumption|apply alive_set2; assumption].
      - apply andb_prop in I as [K I]. destruct (Z.ltb_spec e 0); [discriminate|]. injection E1 as <-. destruct (fget _ _ _ _ A R K) as (f & F & M). rewrite F. unfold fpow.
        destruct (Z.eqb_spec e 0) as [->|N]; [|destruct (Z.eqb_spec e 1) as [->|N1]].
        + exists l, i. eexists. split; [reflexivity|]. split; [apply frel_set; auto; split; [apply rat_int_ok|intros t; reflexivity]|]. split; auto; solve [apply alive_set1; assumption|apply alive_set2; assumption].
        + exists l, i. eexists. split; [reflexivity|]. split; [apply frel_set; auto; apply (means_Qeq _ _ _ M); intros t; reflexivity|]. split; auto; solve [apply alive_set1; assumption|apply alive_set2; assumption].
        + destruct (ppow_ok _ e _ M ltac:(lia)) as (g & G & P). rewrite G. cbn [bind]. exists l, i. eexists. split; [reflexivity|]. split; [now apply frel_set|]. split; auto; solve [apply alive_set1; assumption|apply alive_set2; assumption]. }
    destruct G as (l' & i & f & S1 & R1 & A1 & I1). rewrite S1. cbn [bind]. eauto.
Qed.
Theorem fallback_exact p q : initialised [] p = true -> pspec_run qfinit p = Some q -> exists s, frun finit p = Ok s /\ forall i t, fvalue (s i) t == q i t.
Proof.
  intros I E. destruct (frun_ok p [] finit qfinit q) as (s & S & R); auto; [intros i []|intros i t; reflexivity|].
  exists s. split; auto. intros i t. specialize (R i). destruct (s i); cbn [fvalue fmeans] in *; [apply R|]. now rewrite R.
Qed.
