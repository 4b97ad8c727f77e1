(** Generic heights; the cones at the vertices of a polyhedron; a recursion without end. *)
From Coq Require Import QArith Qfield Lqa.
From Verif Require Import Common Util UtilSpec UtilProofs ZMat Det DetProofs PipedSpec Piped PipedProofs PipedProofs3 ConeSpec CountSpec BrionLinear BrionProofs4 BrionProofs5 Triang TriangSpec TriangProofs TriangProofs2 TriangProofs3.
Open Scope Q_scope.

Lemma lower_form n V hs fs i : length hs = length V -> Forall (fun r => length r = n) V -> describes (2 + n) (lifted n hs V) fs -> (i < length fs)%nat -> lower V fs i = true ->
  length (snd (entry fs i)) = S (length V) /\
  exists y, forall j, (j < length V)%nat -> nth j (snd (entry fs i)) false = true <-> inject_Z (nth j hs 0%Z) == pairing n y (nth j V []).
Proof.
  intros Lh Fv (a & D1 & D2 & D3 & D4 & D5 & D6 & D7) Hi Hl. cbv zeta in *. unfold entry. split; [rewrite D4 by exact Hi; now apply lifted_length|].
  unfold lower, entry in Hl. apply andb_true_iff in Hl. destruct Hl as [H1 H2]. apply negb_true_iff in H1. apply negb_true_iff in H2. assert (Fa : (i < length fs)%nat /\ fst (nth i fs (true, [])) = false) by auto.
  assert (A0 : ~ a i 1%nat == 0).
  { intros E. assert (E1 : pairing (2 + n) (a i) (nth (length V) (lifted n hs V) []) == 0) by (rewrite lifted_last by exact Lh; rewrite vertical; exact E). apply (D5 i (length V) Fa) in E1; [congruence|rewrite lifted_length by exact Lh; lia]. }
  exists (fun k => - low (a i) k * / a i 1%nat). intros j Hj. rewrite (D5 i j Fa) by (rewrite lifted_length by exact Lh; lia). rewrite lifted_nth, pairing_up by auto.
  assert (Pw : pairing n (fun k => - low (a i) k * / a i 1%nat) (nth j V []) == - / a i 1%nat * pairing n (low (a i)) (nth j V [])).
  { unfold pairing. rewrite <- sumq_scal. apply sumq_ext. intros. ring. }
  rewrite Pw. set (p := pairing n (low (a i)) (nth j V [])). set (h := inject_Z (nth j hs 0%Z)). split.
  - intros E. assert (E1 : p == - (a i 1%nat * h)) by lra. rewrite E1. field. exact A0.
  - intros E. rewrite E. field. exact A0.
Qed.
Lemma card_seq set : set_card set = length (filter (fun j => nth j set false) (seq 0 (length set))).
Proof.
  unfold set_card. assert (G : forall l off, length (filter (fun b : bool => b) l) = length (filter (fun j => nth (j - off) l false) (seq off (length l)))).
  { induction l as [|b l IH]; intros off; [reflexivity|]. cbn [length seq]. assert (E : filter (fun j => nth (j - off) (b :: l) false) (seq (S off) (length l)) = filter (fun j => nth (j - S off) l false) (seq (S off) (length l))).
    { apply filter_ext_in. intros j Hj. apply in_seq in Hj. replace (j - off)%nat with (S (j - S off)) by lia. reflexivity. }
    cbn [filter]. rewrite Nat.sub_diag, E. cbn [nth]. destruct b; cbn [length]; rewrite (IH (S off)); reflexivity. }
  rewrite (G set 0%nat). f_equal. apply filter_ext. intros j. now rewrite Nat.sub_0_r.
Qed.
(** No more than n of the heights agree with a linear form. *)
Definition generic_heights (n : nat) (V : list (list Z)) (hs : list Z) : Prop :=
  forall y : nat -> Q, (length (filter (fun j => Qeq_bool (inject_Z (nth j hs 0%Z)) (pairing n y (nth j V []))) (seq 0 (length V))) <= n)%nat.
Lemma generic_card n V hs fs i : length hs = length V -> Forall (fun r => length r = n) V -> describes (2 + n) (lifted n hs V) fs -> (i < length fs)%nat -> lower V fs i = true ->
  generic_heights n V hs -> (set_card (snd (entry fs i)) <= n)%nat.
Proof.
  intros Lh Fv D Hi Hl G. destruct (lower_form n V hs fs i Lh Fv D Hi Hl) as (L & y & H). rewrite card_seq, L, seq_S, filter_app, app_length. cbn [plus filter].
  unfold lower in Hl. apply andb_true_iff in Hl. destruct Hl as [_ H2]. apply negb_true_iff in H2. rewrite H2. cbn [length]. rewrite Nat.add_0_r. rewrite <- (G y) at 1. apply Nat.eq_le_incl. f_equal. apply filter_ext_in. intros j Hj. apply in_seq in Hj.
  specialize (H j ltac:(lia)). apply Bool.eq_true_iff_eq. rewrite H. symmetry. apply Qeq_bool_iff.
Qed.
Section Run.
  Context (dd : list (list Z) -> option (list (bool * list bool))) (rnd : Z -> Z) (maxh : Z) (ns : bool) (n : nat) (rs : nat -> Z).
  Context (DD : cddlib_contract dd) (HR : double_rounding rnd) (HM : (1 <= maxh <= INT_MAX)%Z) (RS : forall k, (0 <= rs k < 2 ^ 31)%Z).
  Lemma walk_flat rec V fs : (forall i, (i < length fs)%nat -> lower V fs i = true -> set_card (snd (entry fs i)) = n) ->
    forall is k, (forall i, In i is -> (i < length fs)%nat) -> exists Cs, walk rec ns n V (map (entry fs) is) k = Ok (Cs, k).
  Proof.
    intros C. induction is as [|i is IH]; intros k Hi; cbn [map walk]; [now exists []|]. destruct (IH k) as (Cs & E); [intros j Hj; apply Hi; now right|].
    specialize (C i (Hi i (or_introl eq_refl))). unfold lower in C. destruct (entry fs i) as [eq set]. cbn [fst snd] in C. destruct eq; [now exists Cs|]. destruct (nth (length V) set false); [now exists Cs|]. specialize (C eq_refl). rewrite C, Nat.ltb_irrefl. cbn [andb]. rewrite E. cbn [bind]. eexists. reflexivity.
  Qed.
  Lemma generic_run fuel h V k hs k1 : Forall (fun r => length r = n) V -> spans n V -> draw_heights rnd maxh h V rs k = Ok (hs, k1) -> generic_heights n V hs -> dd (lifted n hs V) <> None ->
    exists Cs, triangulate_cddlib dd rnd maxh ns n rs (S fuel) h V k = Ok (Cs, k1).
  Proof.
    intros FV Sp Eh G Nn. cbn [triangulate_cddlib].
    assert (E0 : existsb (fun r => (length r <? n)%nat) V = false).
    { destruct (existsb _ V) eqn:E; [|reflexivity]. apply existsb_exists in E. destruct E as (r & Hr & L). apply Nat.ltb_lt in L. rewrite Forall_forall in FV. rewrite (FV r Hr) in L. lia. }
    rewrite E0. destruct (heights_ok rnd maxh rs HR HM RS h V k) as (hs' & k2 & Eh' & Lh & Fh). rewrite Eh in Eh'. injection Eh' as <- <-. rewrite Eh. cbn [bind]. destruct (dd (lifted n hs V)) as [fs|] eqn:Ed; [|contradiction].
    pose proof (DD (2 + n)%nat _ fs (lifted_dim n hs V Lh FV) Ed) as Ds. destruct (lower_facets n V hs fs Lh FV Fh Ds Sp) as (P1 & P2 & P3).
    assert (E1 : existsb (fun f => negb (length (snd f) =? length V + 1)%nat) fs = false).
    { destruct (existsb _ fs) eqn:E; [|reflexivity]. apply existsb_exists in E. destruct E as (f & Hf & L). destruct Ds as (a & _ & _ & _ & D4 & _). destruct (In_nth _ _ (true, []) Hf) as (i & Hi & <-). specialize (D4 i Hi). rewrite D4, lifted_length in L by exact Lh.
      rewrite (proj2 (Nat.eqb_eq _ _)) in L by lia. discriminate L. }
    rewrite E1. rewrite <- (entries fs). apply walk_flat; [|intros i Hi; apply in_seq in Hi; lia]. intros i Hi Hl. pose proof (generic_card n V hs fs i Lh FV Ds Hi Hl G). destruct (P1 i Hi Hl) as (_ & Si & Li). pose proof (spans_enough n _ Si). lia.
  Qed.
End Run.
(** ** The cones of outer normals *)
Lemma vertex_spans n rows v : (forall c, In c rows -> length c = S n) -> is_vertex n rows v -> spans n (outer_normals n rows v) /\ Forall (fun r => length r = n) (outer_normals n rows v).
Proof.
  intros L (_ & Vx). split.
  - intros y Hy. apply Vx. intros c Hc T. assert (I : In (map Z.opp (tl c)) (outer_normals n rows v)).
    { unfold outer_normals. apply -> in_rev. apply in_map_iff. exists c. split; [reflexivity|]. apply filter_In. split; [exact Hc|]. now apply Qeq_bool_iff. }
    specialize (Hy _ I). unfold pairing in Hy. rewrite (sumq_ext n _ (fun k => (-1) * (y k * inject_Z (nth (S k) c 0%Z)))) in Hy; [rewrite sumq_scal in Hy; lra|].
    intros k Hk. unfold zpoint. change 0%Z with (- 0)%Z at 1. rewrite (map_nth Z.opp). replace (nth k (tl c) 0%Z) with (nth (S k) c 0%Z) by (destruct c; [destruct k; reflexivity|reflexivity]). rewrite inject_Z_opp. ring.
  - apply Forall_forall. intros r Hr. unfold outer_normals in Hr. apply in_rev in Hr. apply in_map_iff in Hr. destruct Hr as (c & <- & Hc). apply filter_In in Hc. destruct Hc as [Hc _]. specialize (L c Hc). rewrite map_length. destruct c; cbn in *; lia.
Qed.
