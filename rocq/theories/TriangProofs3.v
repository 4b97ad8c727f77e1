(** The recursion of the regular triangulation. *)
From Coq Require Import QArith Qfield Lqa.
From Verif Require Import Common Util UtilSpec UtilProofs ZMat Det DetProofs PipedSpec Piped PipedProofs PipedProofs3 ConeSpec CountSpec BrionLinear BrionProofs4 BrionProofs5 Triang TriangSpec TriangProofs TriangProofs2.
Open Scope Z_scope.

Section Run.
  Context (dd : list (list Z) -> option (list (bool * list bool))) (rnd : Z -> Z) (maxh : Z) (ns : bool) (n : nat) (rs : nat -> Z).
  Context (DD : cddlib_contract dd) (HR : double_rounding rnd) (HM : 1 <= maxh <= INT_MAX) (RS : forall k, 0 <= rs k < 2 ^ 31).
  Lemma heights_ok h V k : exists hs k1, draw_heights rnd maxh h V rs k = Ok (hs, k1) /\ length hs = length V /\ Forall (fun h => 0 <= h) hs.
  Proof.
    revert k. induction V as [|r V IH]; intros k; cbn [draw_heights]; [exists [], k; auto|].
    assert (H : exists v k1, height rnd maxh h r rs k = Ok (v, k1) /\ 0 <= v).
    { destruct h; cbn [height].
      - destruct (random_int_range rnd 1 maxh (rs k) HR (RS k)) as (v & E & B); try reflexivity; try lia.
        + unfold int_range. apply andb_true_iff. unfold INT_MIN, INT_MAX in *. split; apply Z.leb_le; lia.
        + rewrite E. cbn [bind]. exists v, (S k). split; [reflexivity|lia].
      - eexists _, k. split; [reflexivity|]. assert (G : forall l acc, 0 <= acc -> 0 <= fold_left (fun acc x => acc + x * x) l acc); [|apply G; lia].
        clear. induction l as [|x l IH]; intros acc A; cbn [fold_left]; [exact A|]. apply IH. nia. }
    destruct H as (v & k1 & E & P). rewrite E. cbn [bind]. destruct (IH k1) as (hs & k2 & E2 & L & F). rewrite E2. cbn [bind]. exists (v :: hs), k2. split; [reflexivity|]. split; [cbn; lia|constructor; auto].
  Qed.
  (** What a list of cones must satisfy. *)
  Definition good (V : list (list Z)) (Cs : list (list (list Z))) : Prop :=
    (forall C, In C Cs -> incl C V /\ spans n C /\ (ns = false -> length C = n)) /\
    (forall x, in_gen n V x -> exists C, In C Cs /\ in_gen n C x) /\ pairwise (separated n) Cs.
  Lemma walk_ok rec V fs (pc := piece V fs) (lo := lower V fs) :
    (forall i, (i < length fs)%nat -> lo i = true -> incl (pc i) V /\ spans n (pc i) /\ length (pc i) = set_card (snd (entry fs i))) ->
    (forall i j, (i < length fs)%nat -> (j < length fs)%nat -> lo i = true -> lo j = true -> i <> j -> separated n (pc i) (pc j)) ->
    (forall i k cs k1, (i < length fs)%nat -> lo i = true -> rec (pc i) k = Ok (cs, k1) -> good (pc i) cs) ->
    forall is k Cs k1, NoDup is -> (forall i, In i is -> (i < length fs)%nat) -> walk rec ns n V (map (entry fs) is) k = Ok (Cs, k1) ->
    (forall C, In C Cs -> exists i, In i is /\ lo i = true /\ incl C (pc i) /\ spans n C /\ (ns = false -> length C = n)) /\
    (forall i x, In i is -> lo i = true -> in_gen n (pc i) x -> exists C, In C Cs /\ in_gen n C x) /\ pairwise (separated n) Cs.
  Proof.
    intros P1 P2 R. induction is as [|i is IH]; intros k Cs k1 ND Hi H; cbn [map walk] in H.
    - injection H as <- <-. split; [intros C []|]. split; [intros i x []|exact I].
    - inversion ND as [|i' is' Ni ND']; subst. destruct (entry fs i) as [eq set] eqn:Ei.
      assert (Skip : lo i = false -> forall Cs k1, walk rec ns n V (map (entry fs) is) k = Ok (Cs, k1) ->
        (forall C, In C Cs -> exists j, In j (i :: is) /\ lo j = true /\ incl C (pc j) /\ spans n C /\ (ns = false -> length C = n)) /\
        (forall j x, In j (i :: is) -> lo j = true -> in_gen n (pc j) x -> exists C, In C Cs /\ in_gen n C x) /\ pairwise (separated n) Cs).
      { intros L0 Cs' k' H'. destruct (IH k Cs' k' ND' (fun j Hj => Hi j (or_intror Hj)) H') as (A1 & A2 & A3). split; [|split; [|exact A3]].
        - intros C HC. destruct (A1 C HC) as (j & Hj & B). exists j. split; [now right|exact B].
        - intros j x [->|Hj] Lj G; [congruence|]. apply (A2 j x Hj Lj G). }
      destruct eq; [apply (Skip ltac:(unfold lo, lower; now rewrite Ei) _ _ H)|].
      destruct (nth (length V) set false) eqn:Es; [apply (Skip ltac:(unfold lo, lower; rewrite Ei; cbn [fst snd negb andb]; now rewrite Es) _ _ H)|].
      assert (Lo : lo i = true) by (unfold lo, lower; rewrite Ei; cbn [fst snd negb andb]; now rewrite Es).
      assert (Hi0 : (i < length fs)%nat) by (apply Hi; now left). destruct (P1 i Hi0 Lo) as (I1 & S1 & C1). rewrite Ei in C1. cbn [snd] in C1.
      assert (Ec : cone_from_ray_set V set = pc i) by (unfold pc, piece; now rewrite Ei). rewrite Ec in H. clear Skip.
      assert (Fin : forall cs, good (pc i) cs -> forall k2 ds k3, walk rec ns n V (map (entry fs) is) k2 = Ok (ds, k3) ->
        (forall C, In C (cs ++ ds) -> exists j, In j (i :: is) /\ lo j = true /\ incl C (pc j) /\ spans n C /\ (ns = false -> length C = n)) /\
        (forall j x, In j (i :: is) -> lo j = true -> in_gen n (pc j) x -> exists C, In C (cs ++ ds) /\ in_gen n C x) /\ pairwise (separated n) (cs ++ ds)).
      { intros cs (G1 & G2 & G3) k2 ds k3 H2. destruct (IH k2 ds k3 ND' (fun j Hj => Hi j (or_intror Hj)) H2) as (A1 & A2 & A3). split; [|split].
        - intros C HC. apply in_app_iff in HC. destruct HC as [HC|HC].
          + exists i. destruct (G1 C HC) as (B1 & B2 & B3). split; [now left|]. auto.
          + destruct (A1 C HC) as (j & Hj & B). exists j. split; [now right|exact B].
        - intros j x [<-|Hj] Lj G.
          + destruct (G2 x G) as (C & HC & B). exists C. split; [apply in_app_iff; now left|exact B].
          + destruct (A2 j x Hj Lj G) as (C & HC & B). exists C. split; [apply in_app_iff; now right|exact B].
        - apply pairwise_app; auto. intros C C' HC HC'. destruct (G1 C HC) as (B1 & _ & _). destruct (A1 C' HC') as (j & Hj & Lj & B2 & _).
          apply (separated_incl n (pc i) (pc j)); auto. apply P2; auto; [apply Hi; now right|]. intros ->. contradiction. }
      destruct ((n <? set_card set)%nat && negb ns) eqn:E1.
      + destruct (rec (pc i) k) as [[cs k2]|] eqn:Er; [|discriminate H]. cbn [bind] in H. destruct (walk rec ns n V (map (entry fs) is) k2) as [[ds k3]|] eqn:Ew; [|discriminate H]. cbn [bind] in H. injection H as <- <-.
        apply (Fin cs (R i k cs k2 Hi0 Lo Er) k2 ds k3 Ew).
      + destruct (Nat.ltb_spec (set_card set) n) as [Lt|Ge]; [discriminate H|]. destruct (walk rec ns n V (map (entry fs) is) k) as [[ds k3]|] eqn:Ew; [|discriminate H]. cbn [bind] in H. injection H as <- <-.
        apply (Fin [pc i]) with (k2 := k) (k3 := k3); [|exact Ew]. split; [|split].
        * intros C [<-|[]]. split; [apply incl_refl|]. split; [exact S1|]. intros N. rewrite N in E1. rewrite C1. cbn [negb] in E1. rewrite andb_true_r in E1. apply Nat.ltb_ge in E1. lia.
        * intros x G. exists (pc i). split; [now left|exact G].
        * cbn [pairwise]. split; [intros y []|exact I].
  Qed.
  Lemma entries fs : map (entry fs) (seq 0 (length fs)) = fs.
  Proof.
    apply nth_ext with (d := (true, [])) (d' := (true, [])); [now rewrite map_length, seq_length|]. intros i Hi. rewrite map_length, seq_length in Hi.
    rewrite (nth_indep _ (true, []) (entry fs (length fs))) by (rewrite map_length, seq_length; exact Hi). rewrite map_nth, seq_nth by exact Hi. reflexivity.
  Qed.
  Lemma run_ok fuel : forall h V k Cs k1, Forall (fun r => length r = n) V -> spans n V -> triangulate_cddlib dd rnd maxh ns n rs fuel h V k = Ok (Cs, k1) -> good V Cs.
  Proof.
    induction fuel as [|fuel IH]; intros h V k Cs k1 FV Sp H; [discriminate H|]. cbn [triangulate_cddlib] in H. destruct (existsb (fun r => (length r <? n)%nat) V); [discriminate H|].
    destruct (heights_ok h V k) as (hs & k2 & Eh & Lh & Fh). rewrite Eh in H. cbn [bind] in H. destruct (dd (lifted n hs V)) as [fs|] eqn:Ed; [|discriminate H].
    destruct (existsb (fun f => negb (length (snd f) =? length V + 1)%nat) fs); [discriminate H|].
    pose proof (DD (2 + n)%nat _ fs (lifted_dim n hs V Lh FV) Ed) as Ds. destruct (lower_facets n V hs fs Lh FV Fh Ds Sp) as (P1 & P2 & P3).
    rewrite <- (entries fs) in H. destruct (walk_ok _ V fs P1 P3 (fun i k0 cs k3 Hi Hl E => IH RandomHeights (piece V fs i) k0 cs k3 ltac:(apply Forall_forall; intros r Hr; rewrite Forall_forall in FV; apply FV; apply (proj1 (P1 i Hi Hl)); exact Hr) (proj1 (proj2 (P1 i Hi Hl))) E) (seq 0 (length fs)) k2 Cs k1 (seq_NoDup _ _) ltac:(intros i Hi; apply in_seq in Hi; lia) H) as (A1 & A2 & A3).
    split; [|split; [|exact A3]].
    - intros C HC. destruct (A1 C HC) as (i & Hi & Hl & I1 & S1 & N1). apply in_seq in Hi. split; [|auto]. intros r Hr. apply (proj1 (P1 i ltac:(lia) Hl)), I1, Hr.
    - intros x G. destruct (P2 x G) as (i & Hi & Hl & Gi). apply (A2 i x); auto. apply in_seq. lia.
  Qed.
  (** No other outcome: only an error of cddlib, or endless recursion. *)
  Lemma walk_err rec V fs (pc := piece V fs) (lo := lower V fs) e :
    (forall i, (i < length fs)%nat -> lo i = true -> incl (pc i) V /\ spans n (pc i) /\ length (pc i) = set_card (snd (entry fs i))) ->
    (forall i k e, (i < length fs)%nat -> lo i = true -> rec (pc i) k = Err e -> e = OutOfFuel \/ (e = Exited /\ exists gens, dd gens = None)) ->
    forall is k, (forall i, In i is -> (i < length fs)%nat) -> walk rec ns n V (map (entry fs) is) k = Err e -> e = OutOfFuel \/ (e = Exited /\ exists gens, dd gens = None).
  Proof.
    intros P1 R. induction is as [|i is IH]; intros k Hi H; cbn [map walk] in H; [discriminate H|]. destruct (entry fs i) as [eq set] eqn:Ei.
    assert (IH' : forall k, walk rec ns n V (map (entry fs) is) k = Err e -> e = OutOfFuel \/ (e = Exited /\ exists gens, dd gens = None)) by (intros k'; apply IH; intros j Hj; apply Hi; now right).
    destruct eq; [now apply (IH' k)|]. destruct (nth (length V) set false) eqn:Es; [now apply (IH' k)|].
    assert (Lo : lo i = true) by (unfold lo, lower; rewrite Ei; cbn [fst snd negb andb]; now rewrite Es).
    assert (Hi0 : (i < length fs)%nat) by (apply Hi; now left). destruct (P1 i Hi0 Lo) as (I1 & S1 & C1). rewrite Ei in C1. cbn [snd] in C1.
    assert (Ec : cone_from_ray_set V set = pc i) by (unfold pc, piece; now rewrite Ei). rewrite Ec in H.
    destruct ((n <? set_card set)%nat && negb ns) eqn:E1.
    - destruct (rec (pc i) k) as [[cs k2]|e'] eqn:Er; cbn [bind] in H.
      + destruct (walk rec ns n V (map (entry fs) is) k2) as [[ds k3]|e'] eqn:Ew; cbn [bind] in H; [discriminate H|]. injection H as ->. now apply (IH' k2).
      + injection H as ->. apply (R i k e Hi0 Lo Er).
    - destruct (Nat.ltb_spec (set_card set) n) as [Lt|Ge]; [exfalso; pose proof (spans_enough n _ S1); lia|]. destruct (walk rec ns n V (map (entry fs) is) k) as [[ds k3]|e'] eqn:Ew; cbn [bind] in H; [discriminate H|]. injection H as ->. now apply (IH' k).
  Qed.
  Lemma run_err fuel e : forall h V k, Forall (fun r => length r = n) V -> spans n V -> triangulate_cddlib dd rnd maxh ns n rs fuel h V k = Err e -> e = OutOfFuel \/ (e = Exited /\ exists gens, dd gens = None).
  Proof.
    revert e. induction fuel as [|fuel IH]; intros e h V k FV Sp H; [injection H as <-; now left|]. cbn [triangulate_cddlib] in H.
    assert (E0 : existsb (fun r => (length r <? n)%nat) V = false).
    { destruct (existsb _ V) eqn:E; [|reflexivity]. apply existsb_exists in E. destruct E as (r & Hr & L). apply Nat.ltb_lt in L. rewrite Forall_forall in FV. rewrite (FV r Hr) in L. lia. }
    rewrite E0 in H. destruct (heights_ok h V k) as (hs & k2 & Eh & Lh & Fh). rewrite Eh in H. cbn [bind] in H. destruct (dd (lifted n hs V)) as [fs|] eqn:Ed; [|injection H as <-; right; split; [reflexivity|now exists (lifted n hs V)]].
    pose proof (DD (2 + n)%nat _ fs (lifted_dim n hs V Lh FV) Ed) as Ds. destruct (lower_facets n V hs fs Lh FV Fh Ds Sp) as (P1 & P2 & P3).
    assert (E1 : existsb (fun f => negb (length (snd f) =? length V + 1)%nat) fs = false).
    { destruct (existsb _ fs) eqn:E; [|reflexivity]. apply existsb_exists in E. destruct E as (f & Hf & L). destruct Ds as (a & _ & _ & _ & D4 & _). destruct (In_nth _ _ (true, []) Hf) as (i & Hi & <-). specialize (D4 i Hi). rewrite D4, lifted_length in L by exact Lh.
      rewrite (proj2 (Nat.eqb_eq _ _)) in L by lia. discriminate L. }
    rewrite E1 in H. rewrite <- (entries fs) in H. apply (walk_err _ V fs e P1) in H; [exact H| |intros i Hi; apply in_seq in Hi; lia].
    intros i k0 e' Hi Hl. apply IH; [apply Forall_forall; intros r Hr; rewrite Forall_forall in FV; apply FV; apply (proj1 (P1 i Hi Hl)); exact Hr|exact (proj1 (proj2 (P1 i Hi Hl)))].
  Qed.
  Lemma good_subdivides V Cs : good V Cs -> subdivides n V Cs.
  Proof.
    intros (G1 & G2 & G3). split; [intros C HC; destruct (G1 C HC) as (A & B & _); auto|]. split.
    - intros x. split; [apply G2|]. intros (C & HC & G). apply (gen_incl n C); [apply (G1 C HC)|exact G].
    - apply pairwise_nth, G3.
  Qed.
  Lemma good_rev V Cs : good V Cs -> good V (rev Cs).
  Proof.
    intros (G1 & G2 & G3). split; [intros C HC; apply G1; now apply in_rev|]. split; [|apply pairwise_rev; [apply separated_sym|exact G3]].
    intros x G. destruct (G2 x G) as (C & HC & B). exists C. split; [now apply in_rev in HC|exact B].
  Qed.
  Lemma good_triangulates V Cs : Forall (fun r => length r = n) V -> ns = false -> good V Cs -> triangulates n V Cs.
  Proof.
    intros FV N G. pose proof (good_subdivides V Cs G) as (_ & A2 & A3). destruct G as (G1 & G2 & G3).
    assert (NV : forall C, In C Cs -> n_vectors n C /\ lin_indep n C).
    { intros C HC. destruct (G1 C HC) as (I1 & S1 & L1). specialize (L1 N). split; [split; [exact L1|]|now apply spans_indep]. apply Forall_forall. intros r Hr. rewrite Forall_forall in FV. now apply FV, I1. }
    split; [exact NV|]. split.
    - intros x. rewrite A2. split; intros (C & HC & B); exists C; (split; [exact HC|]); apply (in_gen_cone n C x (proj1 (proj1 (NV C HC)))); exact B.
    - intros i j x Hij Hj. assert (Ii : In (nth i Cs []) Cs) by (apply nth_In; lia). assert (Ij : In (nth j Cs []) Cs) by (apply nth_In; lia). apply separated_open; try apply NV; auto.
  Qed.
  Lemma single_good V : spans n V -> (ns = false -> length V = n) -> good V [V].
  Proof. intros Sp L. split; [intros C [<-|[]]; split; [apply incl_refl|auto]|]. split; [intros x G; exists V; split; [now left|exact G]|cbn; split; auto; intros y []]. Qed.
  Lemma cone_ok fd fuel h V k Cs k1 : Forall (fun r => length r = n) V -> spans n V -> triangulate_cone dd rnd maxh ns fd n rs fuel h V k = Ok (Cs, k1) -> good V Cs.
  Proof.
    intros FV Sp H. unfold triangulate_cone in H. destruct (fd && (n =? length V)%nat) eqn:E.
    - injection H as <- <-. apply andb_true_iff in E. destruct E as [_ E]. apply Nat.eqb_eq in E. apply single_good; auto.
    - destruct (triangulate_cddlib dd rnd maxh ns n rs fuel h V k) as [[cs k2]|] eqn:Er; [|discriminate H]. cbn [bind] in H. injection H as <- <-. apply good_rev. eapply run_ok; eauto.
  Qed.
  Lemma cone_err fd fuel h V k e : Forall (fun r => length r = n) V -> spans n V -> triangulate_cone dd rnd maxh ns fd n rs fuel h V k = Err e -> e = OutOfFuel \/ (e = Exited /\ exists gens, dd gens = None).
  Proof.
    intros FV Sp H. unfold triangulate_cone in H. destruct (fd && (n =? length V)%nat) eqn:E; [discriminate H|]. destruct (triangulate_cddlib dd rnd maxh ns n rs fuel h V k) as [[cs k2]|e'] eqn:Er; cbn [bind] in H; [discriminate H|]. injection H as ->. eapply run_err; eauto.
  Qed.
End Run.
