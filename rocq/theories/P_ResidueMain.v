(** C90, from the inequalities and the vertices: count with the cones in memory, latte-maximize and latte-minimize with their test for
    integer points.  Specification: CountSpec.v, DigSpec.v. *)
From Coq Require Import QArith.
From Verif Require Import Common SmithSpec ZMat Hermite Det DetProofs RatVec RatVecSpec RatVecProofs Piped PipedSpec PipedProofs PipedProofs3 PipedProofs4 ConeSpec Irrational Exponential ExpSpec ExpProofs2 ExpProofs3 CountSpec Barvinok BarvinokSpec BarvinokProofs4 BrionLinear BrionProofs BrionProofs2 BrionProofs3 EulerProofs BrionProofs4 BrionProofs5 Count CountProofs CountProofs2 CountProofs3 CountProofs4 CountProofs5 CountProofs6 CountProofs7 P_Count DigHeap Dig DigSpec P_Dig DigMain DigMainProofs P_DigMain ResidueList ResidueListSpec P_ResidueList ResidueMain.
Open Scope Z_scope.

Lemma fields_listed n ds points : (0 < n)%nat -> decomposes n ds points -> (forall c, In c ds -> length (dc_rays c) = n) ->
  unimodular_list n n (map cone_fields ds) /\ generates n (map cone_fields ds) points.
Proof.
  intros Hn (D & G) L. split; [|exact G]. split; [lia|]. intros e rays pts Hc. apply in_map_iff in Hc as (c & E & Hc). unfold cone_fields in E. injection E as <- <- <-. destruct (D c Hc) as (_ & _ & H3 & H4). split; [exact (L c Hc)|]. split; [exact H3|]. exists (dc_point c). auto.
Qed.
Lemma fields_orthogonal g ds : (forall c r, In c ds -> In r (dc_rays c) -> zdot g r <> 0) -> orthogonal_to_none g (map cone_fields ds).
Proof. intros H e rays pts r Hc Hr. apply in_map_iff in Hc as (c & E & Hc). unfold cone_fields in E. injection E as <- <- <-. exact (H c r Hc Hr). Qed.
(** An empty sum stands for no points. *)
Lemma nothing_generated n points : Forall (fun p => length p = n) points -> generates n [] points -> points = [].
Proof.
  intros F G. destruct points as [|p points]; [reflexivity|]. exfalso. unfold generates in G. cbn [grational fold_right fst snd] in G. specialize (G p). cbn [gcoeff] in G.
  assert (E : forall l, Forall (fun p => length p = n) l -> gmul (gpoints l) (gone n) = gpoints l).
  { induction l as [|x l IH]; intros Fl; [reflexivity|]. unfold gmul, gpoints in *. cbn [map flat_map]. rewrite IH by exact (Forall_inv_tail Fl). cbn [app gone map fst snd]. do 2 f_equal. f_equal. exact (vadd_zero n x (Forall_inv Fl)). }
  rewrite E in G by exact F. unfold gpoints in G. cbn [map] in G. rewrite gcoeff_cons in G. cbn [fst snd] in G. destruct (list_eq_dec Z.eq_dec p p) as [_|NE]; [|congruence].
  assert (P0 : forall l : list (list Z), 0 <= gcoeff (map (fun x => (1, x)) l) p). { induction l as [|x l IH]; [cbn; lia|]. cbn [map]. rewrite gcoeff_cons. cbn [fst snd]. destruct (list_eq_dec Z.eq_dec x p); lia. }
  specialize (P0 points). lia.
Qed.

Section Cones.
Context (P : params) (n : nat) (rows : list (list Z)) (vs : list rvec) (points : list (list Z)).
Context (LC : library_contracts P) (PI : polytope_input P n rows vs) (DM : q_mode P = DualDecomposition) (SV : q_sv P = LatteLLL) (DE : decreasing n (q_omega P)) (MD : q_max_det P = 1) (IP : integer_points n rows points).
Lemma collected : exists N, (forall r, In r N -> length r = n /\ exists k, (k < n)%nat /\ nth k r 0 <> 0) /\
  exists F1, forall f1, (F1 <= f1)%nat -> exists F2, forall f2, (F2 <= f2)%nat ->
  exists ds, unimodular_cones (with_fuel P f1 f2) n rows vs = Ok ds /\ decomposes n ds points /\ (forall c r, In c ds -> In r (dc_rays c) -> In r N) /\ (forall c, In c ds -> length (dc_rays c) = n) /\ (vs = [] -> ds = []).
Proof.
  destruct LC as (KC & OC & XG & PC & HM). destruct PI as (Hn & LR & UV & AV & TR).
  set (cones := map (fun v => (v, outer_normals n rows (coord v), [])) vs : list vcone).
  assert (DC : dual_cones n rows vs = Ok cones). { apply mapM_all. intros v Hv. rewrite (proj1 (tight_ok n rows v (UV v Hv) LR)). reflexivity. }
  destruct (cones_collected P n rows cones (map coord vs) points) as (N & NN & F1 & H); auto.
  - intros c Hc. apply in_map_iff in Hc as (v & <- & Hv). cbn [fst snd]. split; [exact (UV v Hv)|exact (TR v Hv)].
  - intros x Hx. unfold cones. rewrite !map_map. apply lsum_ext. intros v Hv. cbn [fst snd]. rewrite <- fpol_tind; [|apply AV; now apply in_map|exact LR]. unfold hfun. now rewrite DM.
  - exists N. split; [exact NN|]. exists F1. intros f1 Hf1. destruct (H f1 Hf1) as (F2 & H2). exists F2. intros f2 Hf2. destruct (H2 f2 Hf2) as (ds & E & D & RN & LN). exists ds. change (with_fuel P f1 f2) with (fueled P f1 f2).
    split; [unfold unimodular_cones; rewrite DC; cbn [bind]; rewrite E; reflexivity|]. split; [exact D|]. split; [exact RN|]. split; [exact LN|]. intros ->. cbn in E. now injection E as <-.
Qed.
(** What Residue gives for these cones. *)
Lemma residue_collected ds fuel rnd : decomposes n ds points -> (forall c, In c ds -> length (dc_rays c) = n) ->
  residue fuel rnd n (map cone_fields ds) = Ok (Z.of_nat (length points)) \/ residue fuel rnd n (map cone_fields ds) = Err OutOfFuel \/ points = [] /\ residue fuel rnd n (map cone_fields ds) = Err NullDeref.
Proof.
  intros D L. destruct PI as (Hn & LR & _). destruct (fields_listed n ds points Hn D L) as (U & G). pose proof (points_len n rows points IP) as FP. destruct ds as [|d ds].
  - right. right. split; [|reflexivity]. now apply (nothing_generated n).
  - destruct (residue_is_number_of_points n n (map cone_fields (d :: ds)) points fuel rnd U ltac:(discriminate) G FP) as [H|H]; auto.
Qed.
Lemma residue_collected_total ds rnd N : decomposes n ds points -> (forall c r, In c ds -> In r (dc_rays c) -> In r N) -> (forall c, In c ds -> length (dc_rays c) = n) ->
  (exists j, forall r, In r N -> zdot (rnd j) r <> 0) -> exists F, forall fuel, (F <= fuel)%nat -> residue fuel rnd n (map cone_fields ds) = Ok (Z.of_nat (length points)) \/ points = [] /\ residue fuel rnd n (map cone_fields ds) = Err NullDeref.
Proof.
  intros D RN L (j & Hj). destruct PI as (Hn & LR & _). destruct (fields_listed n ds points Hn D L) as (U & G). pose proof (points_len n rows points IP) as FP. destruct ds as [|d ds].
  - exists 0%nat. intros fuel _. right. split; [|reflexivity]. now apply (nothing_generated n).
  - destruct (residue_returns n n (map cone_fields (d :: ds)) points rnd U ltac:(discriminate) G FP) as (F & H); [left; exists j; apply fields_orthogonal; intros c r Hc Hr; apply Hj, (RN c r Hc Hr)|]. exists F. intros fuel Hf. left. apply H, Hf.
Qed.
End Cones.

(** count, when it keeps the cones of a unimodular dual decomposition in memory.  There are finitely many non-zero vectors, which depend only on the polytope, such that, with enough fuel for the
    decomposition: a number that is returned is the number of integer points; the program goes wrong otherwise only if there is none; and
    it returns if one of the random vectors is orthogonal to none of the finitely many. *)
Theorem count_in_memory_exact : forall P n rows vs points, library_contracts P -> polytope_input P n rows vs -> q_mode P = DualDecomposition -> q_sv P = LatteLLL -> decreasing n (q_omega P) -> q_max_det P = 1 -> integer_points n rows points ->
  exists N, (forall r, In r N -> length r = n /\ exists k, (k < n)%nat /\ nth k r 0 <> 0) /\
  exists F1, forall f1, (F1 <= f1)%nat -> exists F2, forall f2, (F2 <= f2)%nat -> forall rnd,
  (forall fuel, match count_in_memory (with_fuel P f1 f2) fuel rnd n rows vs with Ok z => z = Z.of_nat (length points) | Err e => e = OutOfFuel \/ e = NullDeref /\ points = [] end) /\
  ((exists j, forall r, In r N -> zdot (rnd j) r <> 0) -> exists F, forall fuel, (F <= fuel)%nat ->
    count_in_memory (with_fuel P f1 f2) fuel rnd n rows vs = Ok (Z.of_nat (length points)) \/ points = [] /\ count_in_memory (with_fuel P f1 f2) fuel rnd n rows vs = Err NullDeref).
Proof.
  intros P n rows vs points LC PI DM SV DE MD IP. destruct (collected P n rows vs points LC PI DM SV DE MD IP) as (N & NN & F1 & H). exists N. split; [exact NN|]. exists F1. intros f1 Hf1. destruct (H f1 Hf1) as (F2 & H2). exists F2. intros f2 Hf2 rnd. destruct (H2 f2 Hf2) as (ds & E & D & RN & L & _). unfold count_in_memory. rewrite E. cbn [bind]. split.
  - intros fuel. destruct (residue_collected P n rows vs points PI IP ds fuel rnd D L) as [X|[X|(X0 & X)]]; rewrite X; auto.
  - exact (residue_collected_total P n rows vs points PI IP ds rnd N D RN L).
Qed.
Print Assumptions count_in_memory_exact.

(** latte-maximize with its test: it never returns an optimum when there is no integer point; what it returns is a maximum as in C89;
    and with a usable random vector it stops with exit (or for want of a cone) if there is no integer point and otherwise finds
    an optimum of every cost orthogonal to none of the vectors. *)
Theorem maximize_checked_exact : forall P n rows vs points, library_contracts P -> polytope_input P n rows vs -> q_mode P = DualDecomposition -> q_sv P = LatteLLL -> decreasing n (q_omega P) -> q_max_det P = 1 -> integer_points n rows points ->
  exists N, (forall r, In r N -> length r = n /\ exists k, (k < n)%nat /\ nth k r 0 <> 0) /\
  exists F1, forall f1, (F1 <= f1)%nat -> exists F2, forall f2, (F2 <= f2)%nat -> forall rnd rnd2 cost,
  (forall fuel x k used, maximize_checked (with_fuel P f1 f2) fuel rnd rnd2 n rows vs cost = Ok (x, k, used) -> a_maximum used points x k /\ ((forall r, In r N -> value_at cost r <> 0) -> used = cost)) /\
  ((exists j, forall r, In r N -> zdot (rnd j) r <> 0) ->
   (points = [] -> exists F, forall fuel, (F <= fuel)%nat -> exists e, maximize_checked (with_fuel P f1 f2) fuel rnd rnd2 n rows vs cost = Err e /\ (e = Exited \/ e = NullDeref)) /\
   (points <> [] -> (forall r, In r N -> value_at cost r <> 0) -> exists F x k, a_maximum cost points x k /\ forall fuel, (F <= fuel)%nat -> maximize_checked (with_fuel P f1 f2) fuel rnd rnd2 n rows vs cost = Ok (x, k, cost))).
Proof.
  intros P n rows vs points LC PI DM SV DE MD IP. destruct (collected P n rows vs points LC PI DM SV DE MD IP) as (N & NN & F1 & H). exists N. split; [exact NN|]. exists F1. intros f1 Hf1. destruct (H f1 Hf1) as (F2 & H2). exists F2. intros f2 Hf2 rnd rnd2 cost. destruct (H2 f2 Hf2) as (ds & E & D & RN & L & _). pose proof (points_described n rows points (proj1 (proj2 PI)) IP) as DP.
  assert (OR : (forall r, In r N -> value_at cost r <> 0) -> orthogonal_to_no_ray cost ds) by (intros G c r Hc Hr; apply G, (RN c r Hc Hr)).
  unfold maximize_checked. rewrite E. cbn [bind]. split.
  - intros fuel x k used R. destruct (residue_collected P n rows vs points PI IP ds fuel rnd D L) as [X|[X|(_ & X)]]; rewrite X in R; cbn [bind] in R; try discriminate R. destruct (_ =? 0); [discriminate R|].
    destruct (digging_finds_a_maximum n ds points rows cost rnd2 fuel x k used D DP R) as (A & _ & G). auto.
  - intros GJ. destruct (residue_collected_total P n rows vs points PI IP ds rnd N D RN L GJ) as (F & X). split.
    + intros ->. exists F. intros fuel Hf. destruct (X fuel Hf) as [Y|(_ & Y)]; rewrite Y; cbn [bind]; [|eauto]. exists Exited. split; [reflexivity|now left].
    + intros NE G. destruct (maximize_total n ds points rows cost rnd2 D DP NE (OR G)) as (F' & x & k & M & T). exists (Nat.max F F'), x, k. split; [exact M|]. intros fuel Hf. destruct (X fuel ltac:(lia)) as [Y|(Y & _)]; [|contradiction]. rewrite Y. cbn [bind]. destruct (Z.eqb_spec (Z.of_nat (length points)) 0) as [Z0|_]; [destruct points; [congruence|cbn in Z0; lia]|]. apply T. lia.
Qed.
Print Assumptions maximize_checked_exact.
(** latte-minimize. *)
Theorem minimize_checked_exact : forall P n rows vs points, library_contracts P -> polytope_input P n rows vs -> q_mode P = DualDecomposition -> q_sv P = LatteLLL -> decreasing n (q_omega P) -> q_max_det P = 1 -> integer_points n rows points ->
  exists N, (forall r, In r N -> length r = n /\ exists k, (k < n)%nat /\ nth k r 0 <> 0) /\
  exists F1, forall f1, (F1 <= f1)%nat -> exists F2, forall f2, (F2 <= f2)%nat -> forall rnd rnd2 cost, (forall r, In r N -> value_at cost r <> 0) ->
  (forall fuel x k used, minimize_checked (with_fuel P f1 f2) fuel rnd rnd2 n rows vs cost = Ok (x, k, used) -> In x points /\ forall y, In y points -> value_at cost x <= value_at cost y) /\
  ((exists j, forall r, In r N -> zdot (rnd j) r <> 0) ->
   (points = [] -> exists F, forall fuel, (F <= fuel)%nat -> exists e, minimize_checked (with_fuel P f1 f2) fuel rnd rnd2 n rows vs cost = Err e /\ (e = Exited \/ e = NullDeref)) /\
   (points <> [] -> exists F x k, (forall y, In y points -> value_at cost x <= value_at cost y) /\ (exists best, NoDup best /\ (forall y, In y best <-> In y points /\ value_at cost y = value_at cost x) /\ k = Z.of_nat (length best)) /\
     forall fuel, (F <= fuel)%nat -> minimize_checked (with_fuel P f1 f2) fuel rnd rnd2 n rows vs cost = Ok (x, k, map Z.opp cost))).
Proof.
  intros P n rows vs points LC PI DM SV DE MD IP. destruct (maximize_checked_exact P n rows vs points LC PI DM SV DE MD IP) as (N & NN & F1 & H). exists N. split; [exact NN|]. exists F1. intros f1 Hf1. destruct (H f1 Hf1) as (F2 & H2). exists F2. intros f2 Hf2 rnd rnd2 cost G. destruct (H2 f2 Hf2 rnd rnd2 (map Z.opp cost)) as (S0 & T0).
  assert (G' : forall r, In r N -> value_at (map Z.opp cost) r <> 0) by (intros r Hr; rewrite value_opp; specialize (G r Hr); lia). split.
  - intros fuel x k used E. destruct (S0 fuel x k used E) as ((I0 & Mx & _) & U). rewrite (U G') in Mx. split; [exact I0|]. intros y Hy. specialize (Mx y Hy). rewrite !value_opp in Mx. lia.
  - intros GJ. destruct (T0 GJ) as (T1 & T2). split; [exact T1|]. intros NE. destruct (T2 NE G') as (F & x & k & (I0 & Mx & best & ND & HB & EK) & E). exists F, x, k. split; [intros y Hy; specialize (Mx y Hy); rewrite !value_opp in Mx; lia|]. split; [|exact E]. exists best. split; [exact ND|]. split; [|exact EK]. intros y. rewrite HB, !value_opp. intuition lia.
Qed.
Print Assumptions minimize_checked_exact.
(** The triangle x, y >= 0, 2x + 3y <= 7 (hypotheses: latte_maximize_input in P_DigMain.v), and a triangle without integer points, 3x >= 1, 3y >= 1, x + y <= 1. *)
Example in_memory_runs : count_in_memory (sample_params DualDecomposition) 1 (fun _ => []) 2 (triangle_rows 7) triangle_vertices = Ok 8 /\
  maximize_checked (sample_params DualDecomposition) 20 (fun _ => []) (fun _ => []) 2 (triangle_rows 7) triangle_vertices [3;5] = Ok ([2;1], 1, [3;5]) /\
  minimize_checked (sample_params DualDecomposition) 20 (fun _ => []) (fun _ => []) 2 (triangle_rows 7) triangle_vertices [5;-3] = Ok ([0;2], 1, [-5;3]).
Proof. vm_compute. auto. Qed.
Example empty_triangle_exits : let rows := [[-1;3;0];[-1;0;3];[1;-1;-1]] in let vs := [mkRV [1;1] [3;3] false [] 0; mkRV [2;1] [3;3] false [] 0; mkRV [1;2] [3;3] false [] 0] in
  count_in_memory (sample_params DualDecomposition) 1 (fun _ => []) 2 rows vs = Ok 0 /\ maximize_checked (sample_params DualDecomposition) 20 (fun _ => []) (fun _ => []) 2 rows vs [3;5] = Err Exited.
Proof. vm_compute. auto. Qed.
