From Coq Require Import QArith.
From Verif Require Import Common ListOps ListOpsSpec.
Open Scope nat_scope.
Section Ptr.
Context {A : Type}.
Implicit Types (m : mem A).

Lemma mset_same m p n : mset m p n p = n.
Proof. unfold mset. now rewrite Nat.eqb_refl. Qed.
Lemma mset_other m p n q : q <> p -> mset m p n q = m q.
Proof. intros. unfold mset. now destruct (Nat.eqb_spec q p). Qed.

Lemma linked_ext m m' p ads xs : (forall a, In a ads -> m' a = m a) -> linked m p ads xs -> linked m' p ads xs.
Proof.
  intros E H. induction H as [|a x q ads xs Ha H IH]; [apply LNil|apply (LCons m' a x q)].
  - rewrite E by (left; reflexivity). exact Ha.
  - apply IH. intros b Hb. apply E. now right.
Qed.
Lemma linked_length m p ads xs : linked m p ads xs -> length ads = length xs.
Proof. induction 1; simpl; auto. Qed.
Lemma linked_alloc m p ads xs a : linked m p ads xs -> In a ads -> m a <> None.
Proof. induction 1 as [|b x q ads xs Hb H IH]; simpl; [tauto|]. intros [->|Hi]; [congruence|auto]. Qed.

Lemma linked_nodup m p ads xs : linked m p ads xs -> NoDup ads.
Proof.
  (* a node occurring twice would have two different suffix lengths *)
  assert (Det : forall p ads1 xs1 ads2 xs2, linked m p ads1 xs1 -> linked m p ads2 xs2 -> ads1 = ads2).
  { intros q ads1 xs1 ads2 xs2 H. revert ads2 xs2. induction H as [|a0 x0 q0 ads0 xs0 Ha H IH]; intros ads2 xs2 H2; inversion H2 as [|? ? ? ? ? Hb Hl]; subst; auto.
    rewrite Ha in Hb. injection Hb as <- <-. f_equal. eauto. }
  intros H. induction H as [|a x q ads xs Ha H IH]; [constructor|apply NoDup_cons; auto].
  intros Hin. assert (exists l1 l2 xs2, ads = l1 ++ a :: l2 /\ linked m (Some a) (a :: l2) xs2) as (l1 & l2 & xs2 & E & L).
  { clear IH Ha. induction H as [|b y q0 ads0 xs0 Hb H IH2]; [destruct Hin|].
    destruct Hin as [->|Hin].
    - exists [], ads0, (y :: xs0). split; [reflexivity|]. now apply (LCons m a y q0).
    - destruct (IH2 Hin) as (l1 & l2 & xs2 & -> & L). exists (b :: l1), l2, xs2. auto. }
  assert (L' : linked m (Some a) (a :: ads) (x :: xs)) by (econstructor; eauto).
  pose proof (Det _ _ _ _ _ L' L) as D. injection D as D. rewrite D in E.
  apply (f_equal (@length _)) in E. rewrite app_length in E. simpl in E. lia.
Qed.

Lemma length_list_ok m p ads xs : linked m p ads xs -> forall f n, length xs <= f ->
  length_list f m p n = Ok (n + length xs).
Proof.
  induction 1 as [|a x q ads xs Ha H IH]; intros f n Hf.
  - destruct f; simpl; f_equal; lia.
  - destruct f as [|f]; simpl in *; [lia|]. unfold load. rewrite Ha. simpl. rewrite IH by lia. f_equal. lia.
Qed.

Lemma free_list_ok : forall ads m p xs f, linked m p ads xs -> length xs <= f ->
  exists m', free_list f m p = Ok m' /\ (forall a, In a ads -> m' a = None) /\ (forall a, ~ In a ads -> m' a = m a).
Proof.
  induction ads as [|a ads IH]; intros m p xs f H Hf.
  - inversion H; subst. exists m. destruct f; simpl; repeat split; auto; intros a [].
  - pose proof (linked_nodup _ _ _ _ H) as ND. inversion H as [|? x q ? xs' Ha H']; subst. inversion ND; subst.
    destruct f as [|f]; simpl in *; [lia|]. unfold load. rewrite Ha. cbn [bind snd].
    destruct (IH (mset m a None) q xs' f) as (m' & E & F1 & F2); [|lia|].
    { eapply linked_ext; [|exact H']. intros b Hb. apply mset_other. intros ->. contradiction. }
    exists m'. split; [exact E|]. split.
    + intros b [<-|Hb]; [|now apply F1]. destruct (in_dec Nat.eq_dec a ads) as [I|N]; [now apply F1|].
      rewrite F2 by exact N. apply mset_same.
    + intros b Hb. rewrite F2 by tauto. apply mset_other. intros ->. apply Hb. now left.
Qed.

Lemma append_walk_ok : forall adsA m a xsA b f, linked m (Some a) adsA xsA -> length xsA <= f ->
  exists m', append_walk f m a b = Ok m' /\
    (forall q, ~ In q adsA -> m' q = m q) /\
    (forall adsB xsB, linked m b adsB xsB -> (forall q, In q adsA -> ~ In q adsB) ->
       linked m' (Some a) (adsA ++ adsB) (xsA ++ xsB)).
Proof.
  induction adsA as [|a0 ads IH]; intros m a xsA b f H Hf; [inversion H|].
  assert (a0 = a) by (inversion H; congruence); subst a0.
  pose proof (linked_nodup _ _ _ _ H) as ND. inversion H as [|? x q ? xs' Ha H']; subst. inversion ND as [|? ? Na ND']; subst.
  destruct f as [|f]; simpl in *; [lia|]. unfold load. rewrite Ha. cbn [bind snd fst].
  destruct q as [c|].
  - destruct (IH m c xs' b f H') as (m' & E & F1 & F2); [lia|]. exists m'. split; [exact E|]. split.
    + intros q Hq. apply F1. tauto.
    + intros adsB xsB HB Dis. simpl. apply LCons with (Some c).
      * rewrite F1 by exact Na. exact Ha.
      * apply F2; [exact HB|]. intros r Hr. apply Dis. now right.
  - inversion H'; subst. eexists; split; [reflexivity|]. split.
    + intros q Hq. apply mset_other. intros ->. apply Hq. now left.
    + intros adsB xsB HB Dis. simpl. apply LCons with b; [apply mset_same|].
      eapply linked_ext; [|exact HB]. intros r Hr. apply mset_other. intros ->. apply (Dis a); [now left|exact Hr].
Qed.

Lemma append_ok m a b adsA xsA adsB xsB f : linked m a adsA xsA -> linked m b adsB xsB ->
  (forall q, In q adsA -> ~ In q adsB) -> length xsA <= f ->
  exists m' p, append_lists f m a b = Ok (m', p) /\ linked m' p (adsA ++ adsB) (xsA ++ xsB) /\
    (forall q, ~ In q adsA -> m' q = m q).
Proof.
  intros HA HB Dis Hf. destruct a as [c|]; simpl.
  - destruct (append_walk_ok adsA m c xsA b f HA Hf) as (m' & E & F1 & F2). rewrite E. cbn [bind].
    exists m', (Some c). split; [reflexivity|]. split; [now apply F2|exact F1].
  - inversion HA; subst. exists m, b. simpl. auto.
Qed.

(** Appending a non-empty list to itself makes it endless. *)
Lemma append_self_endless m a ads xs f m' p : linked m (Some a) ads xs -> length xs <= f ->
  append_lists f m (Some a) (Some a) = Ok (m', p) ->
  forall g n, length_list g m' p n = Err OutOfFuel.
Proof.
  intros H Hf E. simpl in E.
  assert (K : forall ads c xs f, linked m (Some c) ads xs -> length xs <= f ->
    exists m', append_walk f m c (Some a) = Ok m' /\ (forall q, ~ In q ads -> m' q = m q) /\
      (forall q, In q ads -> exists x r, m' q = Some (x, Some r) /\ (In r ads \/ r = a))).
  { clear. induction ads as [|a0 ads IH]; intros c xs f H Hf; [inversion H|].
    assert (a0 = c) by (inversion H; congruence); subst a0.
    pose proof (linked_nodup _ _ _ _ H) as ND. inversion H as [|? x q ? xs' Ha H']; subst. inversion ND as [|? ? Na ND']; subst.
    destruct f as [|f]; simpl in *; [lia|]. unfold load. rewrite Ha. cbn [bind snd fst].
    destruct q as [d|].
    - destruct (IH d xs' f H') as (m' & E & F1 & F2); [lia|]. exists m'. split; [exact E|]. split; [intros; apply F1; tauto|].
      intros q [<-|Hq].
      + exists x, d. split; [rewrite F1 by exact Na; exact Ha|]. left. right. inversion H'; subst. now left.
      + destruct (F2 q Hq) as (y & r & E2 & [I|I]); exists y, r; auto.
    - inversion H'; subst. eexists; split; [reflexivity|]. split.
      + intros q Hq. apply mset_other. intros ->. tauto.
      + intros q [<-|[]]. exists x, a. split; [apply mset_same|auto]. }
  destruct (K ads a xs f H Hf) as (m1 & E1 & _ & F2). rewrite E1 in E. injection E as <- <-.
  assert (Ia : In a ads) by (inversion H; now left).
  assert (L : forall g q n, In q ads -> length_list g m1 (Some q) n = Err OutOfFuel).
  { induction g as [|g IH]; intros q n Hq; [reflexivity|]. simpl. unfold load.
    destruct (F2 q Hq) as (x & r & -> & [I| ->]); cbn [bind snd]; auto. }
  intros g n. now apply L.
Qed.

(** Copying: a disjoint fresh list with the same payloads; the original stays. *)
Lemma copy_loop_ok : forall ads m next p xs f result dst done_ads done_xs,
  linked m p ads xs -> (forall a, next <= a -> m a = None) -> length xs <= f ->
  (match dst with
   | None => result = None /\ done_ads = [] /\ done_xs = []
   | Some q => linked m result done_ads done_xs /\ exists pre, done_ads = pre ++ [q]
   end) ->
  (forall a, In a done_ads -> ~ In a ads) ->
  exists m' result', copy_loop f m next p result dst = Ok (m', next + length xs, result') /\
    linked m' result' (done_ads ++ seq next (length xs)) (done_xs ++ xs) /\
    (forall a, a < next -> ~ In a done_ads -> m' a = m a) /\
    (forall a, next + length xs <= a -> m' a = None).
Proof.
  induction ads as [|a ads IH]; intros m next p xs f result dst dads dxs H Hfr Hf Hd Dis.
  - inversion H; subst. exists m, result. destruct f; simpl; rewrite Nat.add_0_r, !app_nil_r;
    (split; [reflexivity|]; split; [destruct dst; [apply Hd|destruct Hd as (-> & -> & ->); constructor]|auto]).
  - pose proof (linked_nodup _ _ _ _ H) as ND. inversion H as [|? x q ? xs' Ha H']; subst. inversion ND as [|? ? Na ND']; subst.
    destruct f as [|f]; [simpl in Hf; lia|]. cbn [copy_loop]. unfold load at 1. rewrite Ha. cbn [bind snd fst].
    assert (Al : forall b, In b (a :: ads) -> b < next).
    { intros b Hb. destruct (Nat.lt_ge_cases b next) as [|G]; [assumption|]. exfalso.
      apply (linked_alloc _ _ _ _ b H Hb). now apply Hfr. }
    set (m1 := mset m next (Some (x, None))).
    destruct dst as [d|].
    + destruct Hd as (Hd & pre & ->).
      assert (Ld : d < next).
      { destruct (Nat.lt_ge_cases d next) as [|G]; [assumption|]. exfalso.
        apply (linked_alloc _ _ _ _ d Hd); [apply in_or_app; right; now left|]. now apply Hfr. }
      assert (exists y, m d = Some (y, None)) as [y Hy].
      { clear - Hd. revert result dxs Hd. induction pre as [|b pre IHp]; intros result dxs Hd.
        - inversion Hd as [|? y ? ? ? E L]; subst. inversion L; subst. eauto.
        - inversion Hd; subst. eauto. }
      assert (D1 : m1 d = Some (y, None)) by (unfold m1; rewrite mset_other by lia; exact Hy).
      unfold load. rewrite D1. cbn [bind fst].
      set (m2 := mset m1 d (Some (y, Some next))).
      pose proof (linked_nodup _ _ _ _ Hd) as NDd.
      assert (Dal : forall b, In b (pre ++ [d]) -> b < next).
      { intros b Hb. destruct (Nat.lt_ge_cases b next) as [|G]; [assumption|]. exfalso.
        apply (linked_alloc _ _ _ _ b Hd Hb). now apply Hfr. }
      assert (Hd2 : linked m2 result ((pre ++ [d]) ++ [next]) (dxs ++ [x])).
      { assert (N2 : m2 next = Some (x, None)) by (unfold m2; rewrite mset_other by lia; apply mset_same).
        assert (O2 : forall b, In b pre -> m2 b = m b).
        { intros b Hb. unfold m2, m1. rewrite !mset_other; auto.
          - specialize (Dal b (in_or_app _ _ _ (or_introl Hb))). lia.
          - intros ->. apply NoDup_remove_2 in NDd. apply NDd. rewrite app_nil_r. exact Hb. }
        assert (E2 : m2 d = Some (y, Some next)) by apply mset_same.
        clear - Hd N2 O2 E2 Hy. revert result dxs Hd. induction pre as [|b pre IHp]; intros result dxs Hd.
        - inversion Hd as [|? y' ? ? ? E L]; subst. inversion L; subst. rewrite Hy in E. injection E as <-. simpl.
          econstructor; [exact E2|]. econstructor; [exact N2|constructor].
        - inversion Hd as [|? y' q' ? xs'' E L]; subst. simpl. econstructor; [rewrite O2 by (now left); exact E|].
          apply IHp; auto. intros c Hc. apply O2. now right. }
      destruct (IH m2 (next + 1) q xs' f result (Some next) ((pre ++ [d]) ++ [next]) (dxs ++ [x])) as (m' & r' & E & L & O & Fr).
      * eapply linked_ext; [|exact H']. intros b Hb. unfold m2, m1. rewrite !mset_other; auto.
        -- specialize (Al b (or_intror Hb)). lia.
        -- intros ->. apply (Dis d); [apply in_or_app; right; now left|now right].
      * intros b Hb. unfold m2, m1. rewrite !mset_other by lia. apply Hfr. lia.
      * simpl in Hf; lia.
      * split; [exact Hd2|]. eexists; reflexivity.
      * intros b Hb. apply in_app_or in Hb as [Hb|[<-|[]]].
        -- intros Hb'. apply (Dis b Hb). now right.
        -- intros Hb'. specialize (Al next (or_intror Hb')). lia.
      * exists m', r'. split; [etransitivity; [exact E|]; do 3 f_equal; simpl; lia|]. split; [|split].
        -- cbn [length seq]. rewrite <- !app_assoc in L. simpl in L. rewrite <- app_assoc. simpl. replace (next + 1) with (S next) in L by lia. exact L.
        -- intros b Hb Hn. rewrite O; [|lia|].
           ++ unfold m2, m1. rewrite !mset_other; auto; [lia|]. intros ->. apply Hn, in_or_app. right; now left.
           ++ rewrite in_app_iff. intros [I|[<-|[]]]; [auto|lia].
        -- intros b Hb. apply Fr. simpl in Hb. lia.
    + destruct Hd as (-> & -> & ->). cbn [bind].
      destruct (IH m1 (next + 1) q xs' f (Some next) (Some next) [next] [x]) as (m' & r' & E & L & O & Fr).
      * eapply linked_ext; [|exact H']. intros b Hb. unfold m1. rewrite mset_other; auto.
        specialize (Al b (or_intror Hb)). lia.
      * intros b Hb. unfold m1. rewrite mset_other by lia. apply Hfr. lia.
      * simpl in Hf; lia.
      * split; [econstructor; [apply mset_same|constructor]|]. exists []. reflexivity.
      * intros b [<-|[]] Hb'. specialize (Al next (or_intror Hb')). lia.
      * exists m', r'. split; [etransitivity; [exact E|]; do 3 f_equal; simpl; lia|]. split; [|split].
        -- cbn [length seq]. replace (next + 1) with (S next) in L by lia. exact L.
        -- intros b Hb Hn. rewrite O; [|lia|].
           ++ unfold m1. rewrite mset_other; auto; lia.
           ++ intros [<-|[]]; lia.
        -- intros b Hb. apply Fr. simpl in Hb. lia.
Qed.

Lemma copy_ok m next p ads xs f : linked m p ads xs -> (forall a, next <= a -> m a = None) -> length xs <= f ->
  exists m' p', copy_list f m next p = Ok (m', next + length xs, p') /\
    linked m' p' (seq next (length xs)) xs /\ linked m' p ads xs /\
    (forall a, m a <> None -> m' a = m a) /\ (forall a, In a (seq next (length xs)) -> ~ In a ads).
Proof.
  intros H Hfr Hf. destruct (copy_loop_ok ads m next p xs f None None [] []) as (m' & r & E & L & O & Fr); auto.
  assert (O' : forall a, m a <> None -> m' a = m a).
  { intros a Ha. apply O; [|auto]. destruct (Nat.lt_ge_cases a next) as [|G]; [assumption|]. now rewrite Hfr in Ha. }
  exists m', r. split; [exact E|]. split; [exact L|]. split; [|split; [exact O'|]].
  - eapply linked_ext; [|exact H]. intros a Ha. apply O'. eapply linked_alloc; eauto.
  - intros a Ha Hb. apply in_seq in Ha. apply (linked_alloc _ _ _ _ a H Hb). apply Hfr. lia.
Qed.

(** The collecting consumer. *)
Lemma consume_all_ok : forall cones m coll adsC xsC,
  linked m coll adsC xsC -> NoDup cones -> (forall a, In a cones -> ~ In a adsC) ->
  (forall a, In a cones -> exists x, m a = Some (x, None)) ->
  exists m' coll', consume_all (m, coll) cones = Ok (m', coll') /\
    exists xs, linked m' coll' (rev cones ++ adsC) (rev xs ++ xsC) /\ map (fun a => option_map fst (m a)) cones = map Some xs.
Proof.
  induction cones as [|c cs IH]; intros m coll adsC xsC H ND Dis Hn.
  - exists m, coll. split; [reflexivity|]. exists []. simpl. auto.
  - inversion ND as [|? ? Nc ND']; subst. destruct (Hn c (or_introl eq_refl)) as [x Hx].
    simpl. unfold load. rewrite Hx. cbn [bind snd fst].
    destruct (IH (mset m c (Some (x, coll))) (Some c) (c :: adsC) (x :: xsC)) as (m' & coll' & E & xs & L & M); auto.
    + apply LCons with coll; [apply mset_same|]. eapply linked_ext; [|exact H]. intros b Hb. apply mset_other.
      intros ->. apply (Dis c); [now left|exact Hb].
    + intros a Ha [<-|Hb]; [contradiction|]. apply (Dis a); [now right|exact Hb].
    + intros a Ha. destruct (Hn a (or_intror Ha)) as [y Hy]. exists y. rewrite mset_other; auto. intros ->; contradiction.
    + exists m', coll'. split; [exact E|]. exists (x :: xs). cbn [rev map]. rewrite <- !app_assoc. simpl. split; [exact L|].
      f_equal. rewrite <- M. apply map_ext_in. intros a Ha. rewrite mset_other; auto. intros ->; contradiction.
Qed.

Lemma consume_rejects_chain m coll c x q : m c = Some (x, Some q) -> consume (m, coll) c = Err AssertFail.
Proof. intros H. simpl. unfold load. now rewrite H. Qed.
End Ptr.

(** Vector lists. *)
Lemma vec_eq_ok v : forall w, length w = length v -> vec_eq v w (length v) = Ok (if list_eq_dec Z.eq_dec v w then true else false).
Proof.
  induction v as [|x v IH]; intros [|y w] H; try discriminate; cbn [vec_eq length] in *.
  - now destruct (list_eq_dec Z.eq_dec [] []).
  - destruct (Z.eqb_spec x y) as [->|N].
    + rewrite IH by lia. destruct (list_eq_dec Z.eq_dec v w), (list_eq_dec Z.eq_dec (y :: v) (y :: w)); congruence.
    + destruct (list_eq_dec Z.eq_dec (x :: v) (y :: w)); congruence.
Qed.

Lemma in_list3_ok v l : Forall (fun w => length w = length v) l ->
  exists b, in_list3 v l (length v) = Ok b /\ (b = true <-> In v l).
Proof.
  induction 1 as [|w l Hw H IH]; simpl.
  - exists false. split; [reflexivity|]. split; [discriminate|tauto].
  - rewrite vec_eq_ok by exact Hw. cbn [bind]. destruct (list_eq_dec Z.eq_dec v w) as [->|N].
    + exists true. split; [reflexivity|]. tauto.
    + destruct IH as (b & E & I). exists b. split; [exact E|]. rewrite I. split; [auto|]. intros [->|]; [congruence|auto].
Qed.

(** What the two-argument overload computes: all elements equal v. *)
Lemma in_list2_ok v l : Forall (fun w => length w = length v) l ->
  exists b, in_list2 v l = Ok b /\ (b = true <-> Forall (fun w => w = v) l).
Proof.
  unfold in_list2. induction 1 as [|w l Hw H IH]; simpl.
  - exists true. split; [reflexivity|]. split; auto.
  - rewrite vec_eq_ok by exact Hw. cbn [bind]. destruct (list_eq_dec Z.eq_dec v w) as [->|N]; cbn [negb].
    + destruct IH as (b & E & I). exists b. split; [exact E|]. rewrite I. split; [auto|]. inversion 1; auto.
    + exists false. split; [reflexivity|]. split; [discriminate|]. inversion 1; congruence.
Qed.

Lemma is_equal_ok n first second : Forall (fun w => length w = n) first -> Forall (fun w => length w = n) second ->
  exists b, is_equal first second = Ok b /\
   (b = true <-> length first = length second /\ forall v w, In v first -> In w second -> v = w).
Proof.
  intros H1 H2. unfold is_equal. destruct (Nat.eqb_spec (length first) (length second)) as [E|N]; cbn [negb].
  2:{ exists false. split; [reflexivity|]. split; [discriminate|tauto]. }
  assert (K : exists b, is_equal_loop first second = Ok b /\ (b = true <-> forall v w, In v first -> In w second -> v = w)).
  { clear E. induction H1 as [|v f Hv H1 IH]; simpl.
    - exists true. split; [reflexivity|]. split; [intros _ v w []|auto].
    - destruct (in_list2_ok v second) as (b & E & I); [rewrite Hv; exact H2|]. rewrite E. cbn [bind]. destruct b; cbn [negb].
      + destruct IH as (b' & E' & I'). exists b'. split; [exact E'|]. rewrite I'. pose proof (proj1 I eq_refl) as F. rewrite Forall_forall in F.
        split; [|auto]. intros K u w [<-|Hu] Hw; [symmetry; auto|auto].
      + exists false. split; [reflexivity|]. split; [discriminate|]. intros K. apply I. apply Forall_forall.
        intros w Hw. symmetry. apply K; auto. }
  destruct K as (b & Eb & Ib). exists b. split; [exact Eb|]. rewrite Ib. tauto.
Qed.

Lemma is_equal_refl_witness : exists l, NoDup l /\ Forall (fun w => length w = 2) l /\ is_equal l l = Ok false.
Proof.
  exists [[1; 0]; [0; 1]]%Z. split; [|split; [repeat constructor|reflexivity]].
  constructor; [simpl; intros [H|[]]; discriminate|]. constructor; [simpl; tauto|constructor].
Qed.
Lemma in_list2_empty v : in_list2 v [] = Ok true.
Proof. reflexivity. Qed.
Lemma in_list2_witness : exists v l, In v l /\ in_list2 v l = Ok false.
Proof. exists [0; 1]%Z, [[1; 0]; [0; 1]]%Z. split; [simpl; auto|reflexivity]. Qed.

(** checkListVector. *)
Definition trivially_true (row : list Z) : Prop :=
  match row with [] => False | b :: a => (0 < b)%Z /\ Forall (fun c => c = 0%Z) a end.

Lemma row_abs_sum_ok a : exists s, row_abs_sum a (length a) = Ok s /\ (0 <= s)%Z /\ (s = 0%Z <-> Forall (fun c => c = 0%Z) a).
Proof.
  induction a as [|x a (s & E & P & I)]; simpl.
  - exists 0%Z. repeat split; auto. lia.
  - rewrite E. cbn [bind]. eexists; split; [reflexivity|]. split; [lia|]. split.
    + intros H. constructor; [lia|]. apply I. lia.
    + intros H. inversion H; subst. apply I in H3. subst. lia.
Qed.

Lemma dot_zero a : Forall (fun c => c = 0%Z) a -> forall x, dot a x = 0%Z.
Proof. induction 1 as [|c a -> H IH]; intros [|y x]; simpl; auto. Qed.

Lemma check_loop_clean n : forall rows f, length rows <= f -> Forall (fun r => length r = S n) rows ->
  Forall (fun r => ~ trivially_true r) rows ->
  check_loop f rows (S n) = Ok rows \/ (check_loop f rows (S n) = Err Exited /\ forall x, ~ feasible rows x).
Proof.
  induction rows as [|r rest IH]; intros f Hf HL HT; [left; destruct f; reflexivity|].
  inversion HL as [|? ? Hr HL']; inversion HT as [|? ? Ht HT']; subst.
  destruct f as [|f]; [simpl in Hf; lia|]. cbn [check_loop]. destruct r as [|rhs a]; [discriminate|].
  replace (S n - 1) with (length a) by (simpl in Hr; lia).
  destruct (row_abs_sum_ok a) as (s & E & P & I). rewrite E. cbn [bind].
  destruct (Z.eqb_spec s 0) as [Z0|Nz]; cbn [andb].
  - destruct (Z.ltb_spec rhs 0) as [L|L].
    + right. split; [reflexivity|]. intros x Hx. inversion Hx as [|? ? K _]; subst. simpl in K.
      rewrite dot_zero in K by now apply I. lia.
    + destruct (Z.ltb_spec 0 rhs) as [L2|L2].
      * exfalso. apply Ht. split; [exact L2|now apply I].
      * destruct (IH f) as [E'|[E' F]]; auto; [simpl in Hf; lia| |]; rewrite E'; cbn [bind]; [auto|right].
        split; [reflexivity|]. intros x Hx. inversion Hx; subst. eapply F; eauto.
  - destruct (IH f) as [E'|[E' F]]; auto; [simpl in Hf; lia| |]; rewrite E'; cbn [bind]; [auto|right].
    split; [reflexivity|]. intros x Hx. inversion Hx; subst. eapply F; eauto.
Qed.

Lemma check_list_clean n rows : rows <> [] -> Forall (fun r => length r = S n) rows ->
  Forall (fun r => ~ trivially_true r) rows ->
  check_list rows (S n) = Ok rows \/ (check_list rows (S n) = Err Exited /\ forall x, ~ feasible rows x).
Proof. intros Hn HL HT. destruct rows; [congruence|]. now apply (check_loop_clean n (l :: rows)). Qed.

(** Rows 1 >= 0, 5 - x >= 0, x >= 0: the last one is dropped. *)
Lemma check_list_witness :
  exists rows rows' x, check_list rows 2 = Ok rows' /\ ~ feasible rows x /\ feasible rows' x.
Proof.
  exists [[1; 0]; [5; -1]; [0; 1]]%Z, [[1; 0]; [5; -1]]%Z, [-1]%Z. split; [reflexivity|]. split.
  - intros H. unfold feasible in H. rewrite Forall_forall in H. assert (K : satisfies [-1]%Z [0; 1]%Z) by (apply H; right; right; left; reflexivity). simpl in K. lia.
  - repeat constructor; simpl; lia.
Qed.
Lemma check_list_crash_witness : exists rows, check_list rows 2 = Err NullDeref /\ feasible rows [0%Z].
Proof. exists [[5; -1]; [0; 1]; [1; 0]]%Z. split; [reflexivity|]. repeat constructor; simpl; lia. Qed.

Lemma qdot_scaled dil : (0 < dil)%Z -> forall a y,
  (qdot a (map (fun z => inject_Z z / inject_Z dil) y) == inject_Z (dot a y) / inject_Z dil)%Q.
Proof.
  intros Hd. assert (N : ~ (inject_Z dil == 0)%Q) by (unfold Qeq; simpl; lia).
  induction a as [|c a IH]; intros [|z y]; cbn [qdot dot map]; try (field; exact N).
  rewrite IH, inject_Z_plus, inject_Z_mult. field. exact N.
Qed.
Lemma dilate_ok dil rows y : (0 < dil)%Z ->
  feasible (dilate_rows dil rows) y <-> feasibleQ rows (map (fun z => inject_Z z / inject_Z dil)%Q y).
Proof.
  intros Hd. unfold feasible, feasibleQ, dilate_rows. rewrite Forall_map.
  assert (K : forall b a, (0 <= dil * b + dot a y)%Z <-> (0 <= inject_Z b + qdot a (map (fun z => inject_Z z / inject_Z dil) y))%Q).
  { intros b a. rewrite qdot_scaled by exact Hd.
    assert (N : ~ (inject_Z dil == 0)%Q) by (unfold Qeq; simpl; lia).
    assert (P : (0 < inject_Z dil)%Q) by (unfold Qlt; simpl; lia).
    rewrite <- (Qmult_le_l _ _ _ P).
    assert (E : (inject_Z dil * (inject_Z b + inject_Z (dot a y) / inject_Z dil) == inject_Z (dil * b + dot a y))%Q).
    { rewrite inject_Z_plus, inject_Z_mult. field. exact N. }
    rewrite E, Qmult_0_r. change 0%Q with (inject_Z 0). rewrite <- Zle_Qle. reflexivity. }
  split; apply Forall_impl; intros [|b a]; cbn [satisfies]; auto; apply K.
Qed.
Lemma interior_ok rows x : feasible (interior_rows rows) x <->
  Forall (fun r => match r with [] => True | b :: a => (0 < b + dot a x)%Z end) rows.
Proof. unfold feasible, interior_rows. rewrite Forall_map. split; apply Forall_impl; intros [|b a]; cbn [satisfies]; auto; lia. Qed.
