(** C95: the triangulation of a cone with 4ti2.  Specification: Tri4ti2Spec.v, TriangSpec.v, VertexConesSpec.v. *)
From Coq Require Import QArith Qfield Lqa.
From Verif Require Import Common Util UtilSpec UtilProofs PipedSpec PipedProofs3 ConeSpec CountSpec BrionProofs5 Triang TriangSpec TriangProofs TriangProofs3 TriangProofs4 VertexConesSpec Dualize DualizeProofs Tri4ti2 Tri4ti2Spec Tri4ti2Proofs.
Open Scope Z_scope.

Lemma cone_ok4 : forall F dep rnd max_height nonsimplicial fulldim n rs fuel h V k Ts k1,
  oracle_contract F -> double_rounding rnd -> 1 <= max_height <= INT_MAX -> (forall i, 0 <= rs i < 2 ^ 31) -> nonneg_heights h -> Forall (fun r => length r = n) V -> spans n V ->
  triangulate_cone_4ti2 F dep rnd max_height nonsimplicial fulldim n rs fuel h V k = Ok (Ts, k1) -> good4 nonsimplicial n (simple_or_flat dep rnd max_height n rs) V Ts.
Proof.
  intros F dep rnd mh ns fd n rs fuel h V k Ts k1 OC HR HM RS NN FV Sp H. unfold triangulate_cone_4ti2 in H. destruct (fd && (n =? length V)%nat) eqn:E.
  - injection H as <- <-. apply andb_true_iff in E. destruct E as [_ E]. apply Nat.eqb_eq in E. apply single_good4; [exact Sp|]. intros _. now left.
  - destruct (triangulate_4ti2 F dep rnd mh ns n rs fuel h V k) as [[cs k2]|] eqn:Er; [|discriminate H]. cbn [bind] in H. injection H as <- <-. apply (run_ok4 F dep rnd mh ns n rs OC HR HM RS) in Er; auto.
    destruct Er as (G1 & G2 & G3). split; [intros C HC; apply G1; now apply in_rev|]. split; [|apply pairwise_rev; [apply separated_sym|exact G3]]. intros x G. destruct (G2 x G) as (C & HC & B). exists C. split; [now apply in_rev in HC|exact B].
Qed.
(** C95.  For every cone spanned by its rays (repeated, redundant or zero rays, and cones that are not pointed, included), all choices of heights that are
    not negative, every random stream: the cones delivered subdivide the cone, and each is simplicial unless the heights drawn for it were all the same, or linear. *)
Theorem subdivision_4ti2 :
  forall F dep rnd max_height nonsimplicial fulldim n rs fuel h V k Ts k1,
  oracle_contract F -> rank_contract n dep -> double_rounding rnd -> 1 <= max_height <= INT_MAX -> (forall i, 0 <= rs i < 2 ^ 31) -> nonneg_heights h -> Forall (fun r => length r = n) V -> spans n V ->
  triangulate_cone_4ti2 F dep rnd max_height nonsimplicial fulldim n rs fuel h V k = Ok (Ts, k1) ->
  subdivides n V Ts /\
  forall T, In T Ts -> nonsimplicial = false -> (n_vectors n T /\ lin_indep n T) \/
    exists h' hs k k', draw_heights4 rnd max_height h' T rs k = Ok (hs, k') /\ ((forall x y, In x hs -> In y hs -> x = y) \/ linear_heights n T hs).
Proof.
  intros F dep rnd mh ns fd n rs fuel h V k Ts k1 OC RK HR HM RS NN FV Sp H. pose proof (cone_ok4 F dep rnd mh ns fd n rs fuel h V k Ts k1 OC HR HM RS NN FV Sp H) as (G1 & G2 & G3). split; [split; [|split]|].
  - intros C HC. destruct (G1 C HC) as (A & B & _). auto.
  - intros x. split; [apply G2|]. intros (C & HC & G). apply (gen_incl n C); [apply (G1 C HC)|exact G].
  - intros i j Hij Hj. now apply (pairwise_nth (separated n) Ts []).
  - intros T HT Ns. destruct (G1 T HT) as (I1 & S1 & Fi). specialize (Fi Ns). assert (FT : Forall (fun r => length r = n) T) by (rewrite Forall_forall in FV |- *; intros r Hr; apply FV, I1, Hr). destruct Fi as [L|(h' & hs & k2 & k3 & E & D)].
    + left. split; [now split|]. apply spans_indep; auto.
    + right. exists h', hs, k2, k3. split; [exact E|]. destruct D as [D|D].
      * left. intros x y Hx Hy. unfold same_heights in D. rewrite forallb_forall in D. apply D, Z.eqb_eq in Hx. apply D, Z.eqb_eq in Hy. congruence.
      * right. apply (RK T hs FT); [|exact D]. clear -E. revert hs k2 k3 E. induction T as [|r T IH]; intros hs k2 k3 E; cbn [draw_heights4] in E; [injection E as <- <-; reflexivity|].
        destruct (height4 _ _ _ _ _ _) as [(v, k4)|]; [|discriminate E]. cbn [bind] in E. destruct (draw_heights4 rnd mh h' T rs k4) as [(vs, k5)|] eqn:E2; [|discriminate E]. cbn [bind] in E. injection E as <- <-. cbn [length]. f_equal. eapply IH; eauto.
Qed.
Print Assumptions subdivision_4ti2.
(** It always ends, after at most one level more than there are rays, and aborts only if 4ti2 fails. *)
Theorem triangulation_4ti2_ends :
  forall F dep rnd max_height nonsimplicial fulldim n rs fuel h V k,
  oracle_contract F -> rank_contract n dep -> double_rounding rnd -> 1 <= max_height <= INT_MAX -> (forall i, 0 <= rs i < 2 ^ 31) -> nonneg_heights h -> Forall (fun r => length r = n) V -> spans n V ->
  (length V < fuel)%nat ->
  (exists Ts k1, triangulate_cone_4ti2 F dep rnd max_height nonsimplicial fulldim n rs fuel h V k = Ok (Ts, k1)) \/
  (exists A d s, F A d s = None) /\ triangulate_cone_4ti2 F dep rnd max_height nonsimplicial fulldim n rs fuel h V k = Err Exited.
Proof.
  intros F dep rnd mh ns fd n rs fuel h V k OC RK HR HM RS NN FV Sp Lf. unfold triangulate_cone_4ti2. destruct (fd && (n =? length V)%nat); [left; eauto|].
  destruct (run_total F dep rnd mh ns n rs OC HR HM RS RK fuel h V k NN FV Sp Lf) as [((Cs, k1) & E)|(B & E)]; rewrite E; cbn [bind]; [left; eauto|now right].
Qed.
Print Assumptions triangulation_4ti2_ends.
(** Generic heights (no linear form takes these values at more than n of the rays) give a triangulation, if they are not all the same. *)
Theorem triangulation_4ti2_generic :
  forall F dep rnd max_height fulldim n rs fuel h V k hs k1 Ts k2,
  oracle_contract F -> rank_contract n dep -> double_rounding rnd -> 1 <= max_height <= INT_MAX -> (forall i, 0 <= rs i < 2 ^ 31) -> nonneg_heights h -> Forall (fun r => length r = n) V -> spans n V ->
  draw_heights4 rnd max_height h V rs k = Ok (hs, k1) -> generic_heights n V hs -> (exists x y, In x hs /\ In y hs /\ x <> y) ->
  triangulate_cone_4ti2 F dep rnd max_height false fulldim n rs fuel h V k = Ok (Ts, k2) -> triangulates n V Ts /\ forall T, In T Ts -> incl T V.
Proof.
  intros F dep rnd mh fd n rs fuel h V k hs k1 Ts k2 OC RK HR HM RS NN FV Sp Eh G (x & y & Hx & Hy & Nxy) H. assert (G4 : good false n V Ts).
  { unfold triangulate_cone_4ti2 in H. destruct (fd && (n =? length V)%nat) eqn:E.
    - injection H as <- <-. apply andb_true_iff in E. destruct E as [_ E]. apply Nat.eqb_eq in E. apply single_good; auto.
    - destruct (triangulate_4ti2 F dep rnd mh false n rs fuel h V k) as [[cs k3]|] eqn:Er; [|discriminate H]. cbn [bind] in H. injection H as <- <-. apply good_rev.
      apply (run_generic F dep rnd mh false n rs OC HR HM RS RK fuel h V k hs k1 cs k3); auto. destruct (same_heights hs) eqn:D; [|reflexivity]. exfalso. apply Nxy. unfold same_heights in D. rewrite forallb_forall in D. apply D, Z.eqb_eq in Hx. apply D, Z.eqb_eq in Hy. congruence. }
  split; [now apply (good_triangulates false n)|]. intros T HT. apply (proj1 G4 T HT).
Qed.
Print Assumptions triangulation_4ti2_generic.

Lemma sumz_head n f : sumz (S n) f = f O + sumz n (fun i => f (S i)).
Proof. induction n as [|n IH]; [cbn; lia|]. change (sumz (S (S n)) f) with (sumz (S n) f + f (S n)). rewrite IH. cbn [sumz]. lia. Qed.
(** The heights: from 1 to the maximum; 1 or 2, and 2 never with 0 percent, always with 100; the squared length; the value given for the ray, or 0.
    A random number is drawn for each ray in the first two cases only. *)
Theorem heights_drawn : forall rnd max_height h V rs k hs k1, double_rounding rnd -> 1 <= max_height <= INT_MAX -> (forall i, 0 <= rs i < 2 ^ 31) ->
  draw_heights4 rnd max_height h V rs k = Ok (hs, k1) ->
  length hs = length V /\ k1 = (match h with Basic RandomHeights | Biased _ => length V | _ => 0 end + k)%nat /\
  forall j, (j < length V)%nat -> let x := nth j hs 0 in let r := nth j V [] in
  match h with
  | Basic RandomHeights => 1 <= x <= max_height
  | Basic DeloneHeights => x = sumz (length r) (fun i => nth i r 0 * nth i r 0)
  | Biased p => (x = 1 \/ x = 2) /\ (p <= 0 -> x = 1) /\ (100 <= p -> x = 2)
  | Prescribed special => (forall s, NoDup (map fst special) -> In s special -> fst s = r -> x = snd s) /\ (~ In r (map fst special) -> x = 0)
  end.
Proof.
  intros rnd mh h V rs k hs k1 HR HM RS. revert k hs k1. induction V as [|r V IH]; intros k hs k1 E; cbn [draw_heights4] in E.
  - injection E as <- <-. split; [reflexivity|]. split; [destruct h as [[]| |]; reflexivity|]. intros j Hj. cbn in Hj. lia.
  - destruct (height4 rnd mh h r rs k) as [(v, k2)|] eqn:E1; [|discriminate E]. cbn [bind] in E. destruct (draw_heights4 rnd mh h V rs k2) as [(vs, k3)|] eqn:E2; [|discriminate E]. cbn [bind] in E. injection E as <- <-.
    destruct (IH k2 vs k3 E2) as (L & K & H). split; [cbn; lia|]. split.
    + rewrite K. destruct h as [[]|p|sp]; cbn [height4 height] in E1.
      * destruct (random_int rnd 1 mh (rs k)); [|discriminate E1]. cbn [bind] in E1. injection E1 as _ <-. cbn [length]. lia.
      * injection E1 as _ <-. reflexivity.
      * destruct (random_int rnd 0 99 (rs k)); [|discriminate E1]. cbn [bind] in E1. injection E1 as _ <-. cbn [length]. lia.
      * injection E1 as _ <-. reflexivity.
    + intros [|j] Hj; [|apply (H j); cbn in Hj; lia]. cbn [nth]. cbv zeta. clear IH H. destruct h as [[]|p|sp]; cbn [height4 height] in E1.
      * destruct (random_int_range rnd 1 mh (rs k) HR (RS k)) as (x & E & B); try reflexivity; try lia; [unfold int_range; apply andb_true_iff; unfold INT_MIN, INT_MAX in *; split; apply Z.leb_le; lia|].
        rewrite E in E1. cbn [bind] in E1. injection E1 as <- _. exact B.
      * injection E1 as <- _. assert (G : forall l acc, fold_left (fun acc x => acc + x * x) l acc = acc + sumz (length l) (fun i => nth i l 0 * nth i l 0)); [|rewrite G; lia].
        clear. induction l as [|x l IH]; intros acc; [cbn; lia|]. cbn [fold_left length]. rewrite IH. rewrite sumz_head. cbn [nth]. lia.
      * destruct (random_int_range rnd 0 99 (rs k) HR (RS k) eq_refl eq_refl ltac:(lia) ltac:(unfold INT_MAX; lia)) as (x & E & B). rewrite E in E1. cbn [bind] in E1. injection E1 as <- _. destruct (Z.ltb_spec x p); lia.
      * injection E1 as <- _. split.
        -- intros s ND Hs Er. destruct (find (fun s => ray_eqb (fst s) r) sp) as [s'|] eqn:F.
           ++ apply find_some in F as (Hs' & F). unfold ray_eqb in F. destruct (list_eq_dec Z.eq_dec (fst s') r) as [Es|]; [|discriminate F]. f_equal. clear -ND Hs Hs' Er Es. assert (EE : fst s' = fst s) by congruence. clear Er Es.
              induction sp as [|a sp IH]; [destruct Hs|]. cbn [map] in ND. inversion ND as [|? ? N1 N2]; subst. destruct Hs as [->|Hs], Hs' as [->|Hs']; auto; exfalso; apply N1; [rewrite <- EE|rewrite EE]; now apply in_map.
           ++ apply (find_none _ _ F) in Hs. unfold ray_eqb in Hs. destruct (list_eq_dec Z.eq_dec (fst s) r); [discriminate Hs|contradiction].
        -- intros N. destruct (find (fun s => ray_eqb (fst s) r) sp) as [s'|] eqn:F; [|reflexivity]. exfalso. apply N. apply find_some in F as (Hs' & F). unfold ray_eqb in F. destruct (list_eq_dec Z.eq_dec (fst s') r) as [<-|]; [now apply in_map|discriminate F].
Qed.
Print Assumptions heights_drawn.

(** ** When all heights are the same, the cone is passed on as it is, although the method was to triangulate. *)
Definition fan : list (list Z) := [[1;0];[1;1];[0;1]].
Definition square_cone : list (list Z) := [[1;0;1];[0;1;1];[-1;0;1];[0;-1;1]].
Ltac eval_pairing H := unfold pairing, zpoint in H; cbn [sumq nth] in H; unfold inject_Z in H.
Lemma fan_spans : spans 2 fan.
Proof.
  intros y H. assert (A := H [1;0] ltac:(cbn; auto)). assert (B := H [0;1] ltac:(cbn; auto)). clear H. eval_pairing A. eval_pairing B. intros [|[|k]] Hk; [lra|lra|lia].
Qed.
Lemma fan_generic hs : hs = [1;1;1] \/ hs = [2;1;2] -> generic_heights 2 fan hs.
Proof.
  intros Hh y. cbn [length fan seq filter nth].
  assert (E : forall h r, {(inject_Z h == pairing 2 y r)%Q /\ Qeq_bool (inject_Z h) (pairing 2 y r) = true} + {Qeq_bool (inject_Z h) (pairing 2 y r) = false}).
  { intros h r. destruct (Qeq_bool (inject_Z h) (pairing 2 y r)) eqn:B; [left; split; [now apply Qeq_bool_iff|reflexivity]|now right]. }
  destruct (E (nth 0 hs 0) [1;0]) as [(A & ->)| ->]; destruct (E (nth 1 hs 0) [1;1]) as [(B & ->)| ->]; destruct (E (nth 2 hs 0) [0;1]) as [(C & ->)| ->]; cbv beta iota; cbn [length]; try lia.
  exfalso. unfold pairing, zpoint in A, B, C. cbn [sumq nth] in A, B, C. destruct Hh as [->| ->]; cbn [nth] in A, B, C; unfold inject_Z in A, B, C; lra.
Qed.
(** With --triangulation-max-height=1, whatever 4ti2 and rand() return, and although the heights are generic: the cone has 3 rays in dimension 2. *)
Theorem equal_heights_refuted :
  spans 2 fan /\ generic_heights 2 fan [1;1;1] /\ forall F dep rnd rs, double_rounding rnd -> (forall i, 0 <= rs i < 2 ^ 31) -> forall fulldim fuel k,
  draw_heights4 rnd 1 (Basic RandomHeights) fan rs k = Ok ([1;1;1], (3 + k)%nat) /\
  triangulate_cone_4ti2 F dep rnd 1 false fulldim 2 rs (S fuel) (Basic RandomHeights) fan k = Ok ([fan], (3 + k)%nat) /\ ~ triangulates 2 fan [fan].
Proof.
  split; [exact fan_spans|]. split; [apply fan_generic; now left|]. intros F dep rnd rs HR RS fd fuel k.
  assert (H1 : forall i, random_int rnd 1 1 (rs i) = Ok 1).
  { intros i. destruct (random_int_range rnd 1 1 (rs i) HR (RS i) eq_refl eq_refl ltac:(lia) ltac:(unfold INT_MAX; lia)) as (v & E & B). rewrite E. f_equal. lia. }
  assert (Eh : draw_heights4 rnd 1 (Basic RandomHeights) fan rs k = Ok ([1;1;1], (3 + k)%nat)) by (cbn [fan draw_heights4 height4 height]; repeat (rewrite H1; cbn [bind]); reflexivity).
  split; [exact Eh|]. split.
  - unfold triangulate_cone_4ti2. replace (fd && (2 =? length fan)%nat) with false by (destruct fd; reflexivity). cbn [triangulate_4ti2]. rewrite Eh. reflexivity.
  - intros (A & _). destruct (A fan (or_introl eq_refl)) as ((L & _) & _). discriminate L.
Qed.
Print Assumptions equal_heights_refuted.
(** The "refined Delone triangulation" of the cone over a square with the height |r|^2 is the cone itself. *)
Theorem delone_refuted : spans 3 square_cone /\ forall F dep rnd max_height fulldim rs fuel k,
  triangulate_cone_4ti2 F dep rnd max_height false fulldim 3 rs (S fuel) (Basic DeloneHeights) square_cone k = Ok ([square_cone], k) /\ ~ triangulates 3 square_cone [square_cone].
Proof.
  split.
  - intros y H. assert (A := H [1;0;1] ltac:(cbn; auto)). assert (B := H [-1;0;1] ltac:(cbn; auto)). assert (C := H [0;1;1] ltac:(cbn; auto)). clear H. eval_pairing A. eval_pairing B. eval_pairing C. intros [|[|[|k]]] Hk; [lra|lra|lra|lia].
  - intros F dep rnd mh fd rs fuel k. split; [destruct fd; reflexivity|]. intros (A & _). destruct (A square_cone (or_introl eq_refl)) as ((L & _) & _). discriminate L.
Qed.
Print Assumptions delone_refuted.

(** ** An example with 4ti2: three rays in the plane, heights 2, 1, 2 *)
Definition fan_lifted : list (list Z) := [[2;1;0];[1;1;1];[2;0;1];[1;0;0]].
Definition fan_rays : list (list Z) := [[1;1;0;0;0;-1;0];[0;1;1;0;0;0;-1];[0;0;3;1;-1;2;-1];[3;0;0;1;-1;-1;2]].
Definition fan_oracle : ray_oracle := fun A d s => if list_eq_dec (list_eq_dec Z.eq_dec) A (Dualize.lifted fan_lifted) then Some (fan_rays, []) else None.
Lemma fan_lifted_spans : spans 3 fan_lifted.
Proof. exact (W_spans 2 fan [2;1;2] eq_refl ltac:(repeat constructor) fan_spans). Qed.
Definition in_fan (z : nat -> Q) : Prop := (z 0%nat == - (2 * z 4%nat + z 5%nat) /\ z 1%nat == - (z 4%nat + z 5%nat + z 6%nat) /\ z 2%nat == - (2 * z 4%nat + z 6%nat) /\ z 3%nat == - z 4%nat /\ 0 <= z 0%nat /\ 0 <= z 1%nat /\ 0 <= z 2%nat /\ 0 <= z 3%nat)%Q.
Lemma fan_iff z : in_signed_cone (Dualize.lifted fan_lifted) 7 [true;true;true;true;false;false;false] z <-> in_fan z.
Proof.
  change (in_signed_cone _ _ _ z) with (LC 3 fan_lifted z). rewrite in_LC. unfold in_fan. split.
  - intros H. assert (H0 := H 0%nat ltac:(cbn; lia)). assert (H1 := H 1%nat ltac:(cbn; lia)). assert (H2 := H 2%nat ltac:(cbn; lia)). assert (H3 := H 3%nat ltac:(cbn; lia)). clear H.
    unfold val, last_of, zpoint in *. cbn [fan_lifted length sumq nth Nat.add] in *. unfold inject_Z in *. repeat split; lra.
  - intros H [|[|[|[|i]]]] Hi; try (cbn in Hi; lia); unfold val, last_of, zpoint; cbn [fan_lifted length sumq nth Nat.add]; unfold inject_Z; split; lra.
Qed.
Ltac each_k := intros k Hk; do 7 (destruct k as [|k]; [unfold zpoint; cbn [sumq fan_rays length nth]; unfold inject_Z; try lra|]); try lia.
Lemma fan_contract : ray_contract (fun _ _ _ => (fan_rays, [])) (Dualize.lifted fan_lifted) 7 [true;true;true;true;false;false;false].
Proof.
  unfold ray_contract. split; [split; [intros _|reflexivity]; exact (spans_pointed 3 fan_lifted fan_lifted_spans)|]. intros _.
  assert (In0 : forall r, In r fan_rays -> in_signed_cone (Dualize.lifted fan_lifted) 7 [true;true;true;true;false;false;false] (zpoint r)).
  { intros r Hr. apply fan_iff. repeat (destruct Hr as [<-|Hr]; [vm_compute; repeat split; discriminate|]). destruct Hr. }
  assert (Gen : forall z, in_signed_cone (Dualize.lifted fan_lifted) 7 [true;true;true;true;false;false;false] z ->
    exists w, (forall i, (i < length fan_rays)%nat -> (0 <= w i)%Q) /\ forall k, (k < 7)%nat -> (z k == sumq (length fan_rays) (fun i => w i * zpoint (nth i fan_rays []) k))%Q).
  { intros z Hz. apply fan_iff in Hz. unfold in_fan in Hz. set (t := (- z 4%nat)%Q). set (p := (- z 5%nat)%Q). set (q := (- z 6%nat)%Q).
    assert (W : exists c, (0 <= c /\ c <= t /\ 0 <= p + 3 * c - t /\ 0 <= q - 3 * c + 2 * t)%Q).
    { destruct (Qlt_le_dec 0 (t - p)) as [L|L]; [exists ((t - p) * (1 # 3))%Q|exists 0%Q]; unfold t, p, q in *; repeat split; lra. }
    destruct W as (c & C1 & C2 & C3 & C4). exists (fun i => match i with 0%nat => p + 3 * c - t | 1%nat => q - 3 * c + 2 * t | 2%nat => c | _ => t - c end)%Q. split.
    - intros [|[|[|[|i]]]] Hi; first [lra|cbn in Hi; lia].
    - unfold t, p, q in *. each_k. }
  split; [|split; [|split; [exact Gen|]]].
  - intros r Hr. split; [repeat (destruct Hr as [<-|Hr]; [reflexivity|]); destruct Hr|]. split; [now apply In0|]. split.
    + intros Z0. assert (B := Z0 0%nat ltac:(lia)). assert (C := Z0 1%nat ltac:(lia)). assert (D := Z0 2%nat ltac:(lia)). repeat (destruct Hr as [<-|Hr]; [first [discriminate B|discriminate C|discriminate D]|]). destruct Hr.
    + intros x y Hx Hy S0. apply fan_iff in Hx, Hy. unfold in_fan in Hx, Hy. assert (S1 := S0 0%nat ltac:(lia)). assert (S2 := S0 1%nat ltac:(lia)). assert (S3 := S0 2%nat ltac:(lia)). assert (S4 := S0 3%nat ltac:(lia)). clear S0.
      destruct Hr as [<-|[<-|[<-|[<-|[]]]]]; unfold zpoint in S1, S2, S3, S4; cbn [nth] in S1, S2, S3, S4; unfold inject_Z in S1, S2, S3, S4.
      * exists (x 0%nat). each_k.
      * exists (x 2%nat). each_k.
      * exists (x 3%nat). each_k.
      * exists (x 3%nat). each_k.
  - intros z Ez. apply (extreme_from_gen (Dualize.lifted fan_lifted) 7 [true;true;true;true;false;false;false]); [intros i Hi; apply In0, nth_In, Hi| |apply Gen, Ez|exact Ez].
    intros [|[|[|[|i]]]] Hi; [exists 0%nat|exists 1%nat|exists 2%nat|exists 0%nat|cbn in Hi; lia]; (split; [lia|]); (split; [reflexivity|vm_compute; reflexivity]).
  - intros i j q Hij Hj _ H. assert (A := H 0%nat ltac:(lia)). assert (B := H 1%nat ltac:(lia)). assert (C := H 2%nat ltac:(lia)). clear H. cbn in Hj.
    destruct i as [|[|[|i]]]; destruct j as [|[|[|[|j]]]]; try lia; unfold zpoint in *; cbn [fan_rays nth] in *; unfold inject_Z in *; lra.
Qed.
Lemma fan_oracle_ok : oracle_contract fan_oracle.
Proof.
  intros n W answer FW A d s. unfold fan_oracle, A. destruct (list_eq_dec _ _ _) as [E|]; [|discriminate]. intros X. injection X as <-.
  assert (LW : length W = 4%nat) by (apply (f_equal (@length _)) in E; unfold Dualize.lifted in E; rewrite !map_length, !seq_length in E; exact E).
  assert (EW : W = fan_lifted).
  { unfold Dualize.lifted in E. rewrite LW in E. cbn in E. destruct W as [|a [|b [|c [|e [|]]]]]; try discriminate LW. cbn in E. injection E as -> -> -> ->. reflexivity. }
  subst W. inversion FW as [|? ? N _]. cbn in N. subst n. exact fan_contract.
Qed.
Definition sample_rand (i : nat) : Z := if (i =? 1)%nat then 0 else 2 ^ 30.
Example fan_triangulated :
  (oracle_contract fan_oracle /\ rank_contract 2 (rank_test 2) /\ double_rounding (fun p => p) /\ 1 <= 2 <= INT_MAX /\ (forall i, 0 <= sample_rand i < 2 ^ 31) /\ nonneg_heights (Basic RandomHeights) /\ Forall (fun r => length r = 2%nat) fan /\ spans 2 fan) /\
  draw_heights4 (fun p => p) 2 (Basic RandomHeights) fan sample_rand 0 = Ok ([2;1;2], 3%nat) /\ generic_heights 2 fan [2;1;2] /\
  triangulate_cone_4ti2 fan_oracle (rank_test 2) (fun p => p) 2 false true 2 sample_rand 4 (Basic RandomHeights) fan 0 = Ok ([[[0;1];[1;1]]; [[1;1];[1;0]]], 3%nat).
Proof.
  split; [|split; [vm_compute; reflexivity|split; [apply fan_generic; now right|vm_compute; reflexivity]]].
  split; [exact fan_oracle_ok|]. split; [exact (rank_test_ok 2)|]. split; [exact exact_is_rounding|]. split; [unfold INT_MAX; lia|]. split; [intros i; unfold sample_rand; destruct (i =? 1)%nat; lia|]. split; [exact Logic.I|]. split; [repeat constructor|exact fan_spans].
Qed.
(** The heights 1, 2, 1 are linear: the cone is passed on as it is. *)
Example fan_linear : draw_heights4 (fun p => p) 2 (Basic RandomHeights) fan (fun i => 2 ^ 30 - sample_rand i) 0 = Ok ([1;2;1], 3%nat) /\ linear_heights 2 fan [1;2;1] /\
  triangulate_cone_4ti2 fan_oracle (rank_test 2) (fun p => p) 2 false true 2 (fun i => 2 ^ 30 - sample_rand i) 4 (Basic RandomHeights) fan 0 = Ok ([fan], 3%nat).
Proof.
  split; [vm_compute; reflexivity|]. split; [|vm_compute; reflexivity]. exists (fun _ => 1%Q). intros [|[|[|j]]] Hj; try (cbn in Hj; lia); vm_compute; reflexivity.
Qed.

(** ** Prescribed heights that are negative: no cone is delivered for the line, given by the rays 1 and -1. *)
Definition line_oracle : ray_oracle := fun A d s => if list_eq_dec (list_eq_dec Z.eq_dec) A (Dualize.lifted [[-1;1];[0;-1];[1;0]]) then Some ([], []) else None.
Lemma line_oracle_ok : oracle_contract line_oracle.
Proof.
  intros n W answer FW A d s. unfold line_oracle, A. destruct (list_eq_dec _ _ _) as [E|]; [|discriminate]. intros X. injection X as <-.
  assert (LW : length W = 3%nat) by (apply (f_equal (@length _)) in E; unfold Dualize.lifted in E; rewrite !map_length, !seq_length in E; exact E).
  assert (EW : W = [[-1;1];[0;-1];[1;0]]).
  { unfold Dualize.lifted in E. rewrite LW in E. cbn in E. destruct W as [|a [|b [|c [|]]]]; try discriminate LW. cbn in E. injection E as -> -> ->. reflexivity. }
  subst W. inversion FW as [|? ? N _]. cbn in N. subst n. unfold d, s. cbn [length Nat.add repeat app].
  assert (Zr : forall z, in_signed_cone (Dualize.lifted [[-1;1];[0;-1];[1;0]]) 5 [true;true;true;false;false] z -> zero_upto 5 z).
  { intros z Hz. change (LC 2 [[-1;1];[0;-1];[1;0]] z) in Hz. rewrite in_LC in Hz. assert (K0 := Hz 0%nat ltac:(cbn; lia)). assert (K1 := Hz 1%nat ltac:(cbn; lia)). assert (K2 := Hz 2%nat ltac:(cbn; lia)). clear Hz.
    unfold val, last_of, zpoint in *. cbn [length sumq nth Nat.add] in *. unfold inject_Z in *. intros [|[|[|[|[|k]]]]] Hk; try lia; lra. }
  split; [split; [intros _; intros z Hz _; now apply Zr|reflexivity]|]. intros _. split; [intros r []|]. split; [intros z (Hz & N & _); exfalso; apply N; now apply Zr|]. split; [|intros i j q _ Hj; cbn in Hj; lia].
  intros z Hz. exists (fun _ => 0%Q). split; [intros i Hi; cbn in Hi; lia|]. intros k Hk. cbn [length sumq]. now apply Zr.
Qed.
Theorem negative_heights_refuted : oracle_contract line_oracle /\ rank_contract 1 (rank_test 1) /\ spans 1 [[1];[-1]] /\
  (forall rnd max_height fulldim rs k, triangulate_cone_4ti2 line_oracle (rank_test 1) rnd max_height false fulldim 1 rs 3 (Prescribed [([1], -1)]) [[1];[-1]] k = Ok ([], k)) /\ ~ subdivides 1 [[1];[-1]] [].
Proof.
  split; [exact line_oracle_ok|]. split; [exact (rank_test_ok 1)|]. split; [|split].
  - intros y H. assert (A := H [1] ltac:(cbn; auto)). eval_pairing A. intros [|k] Hk; [lra|lia].
  - intros rnd mh fd rs k. unfold triangulate_cone_4ti2. replace (fd && (1 =? length [[1];[-1]]%Z)%nat) with false by (destruct fd; reflexivity). cbn [triangulate_4ti2 draw_heights4]. change (height4 rnd mh (Prescribed [([1], -1)]) [1] rs k) with (Ok (-1, k)). change (height4 rnd mh (Prescribed [([1], -1)]) [-1] rs k) with (Ok (0, k)). cbn [bind].
    replace (rank_test 1 [[1];[-1]] [-1;0]) with false by (vm_compute; reflexivity). reflexivity.
  - intros (_ & C & _). destruct (proj1 (C (fun _ => 0%Q)) (gen_zero 1 _)) as (T & [] & _).
Qed.
Print Assumptions negative_heights_refuted.
