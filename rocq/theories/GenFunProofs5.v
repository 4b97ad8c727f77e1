(** Proofs about GenFun: the cones passed to the writer. *)
From Coq Require Import QArith Qpower Qfield Lqa String.
From Verif Require Import Common SmithSpec ZMat Hermite HermiteProofs Det DetProofs RatVec RatVecSpec RatVecProofs Piped PipedSpec PipedProofs PipedProofs3 PipedProofs4 ConeSpec ConeProofs Irrational IrrationalProofs IrrationalProofs2 IrrationalProofs3 IntegMath Series DecompProofs Exponential ExpSpec ExpProofs ExpProofs2 ExpProofs3 CountSpec Barvinok BarvinokSpec BarvinokProofs BarvinokProofs2 BarvinokProofs3 BarvinokProofs4 P_Barvinok BrionLinear BrionProofs BrionProofs2 BrionProofs3 EulerProofs BrionProofs4 BrionProofs5 Count CountProofs CountProofs2 CountProofs3 CountProofs4 CountProofs5 Text GenFun GenFunSpec GenFunProofs GenFunProofs2 GenFunProofs3 GenFunProofs4.
Open Scope Z_scope.

Section OnePass.
Context (A : Type) (P : params) (n : nat) (cf : params -> list Z -> rvec -> bcone -> A -> outcome (option A)) (U : xitem -> A -> A -> Prop) (cones : list vcone).
Context (Hn : (0 < n)%nat) (KC : relation_contract (q_ker P)) (OC : omega_contract (q_omega P)) (PC : q_mode P = DualDecomposition -> primitive_choice (q_omega P)) (Hmax : 0 <= q_max_det P).
Context (CO : forall w v d, usable n v -> cone_ok n (b_cone d) -> exists F2, forall f1 f2, (F2 <= f2)%nat -> small P d -> let P' := fueled P f1 f2 in
  int_max < Z.abs (s_det (b_cone d)) /\ (forall acc, cf P' w v d acc = Err Exited) \/
  exists pts, exact_points n (w, v, d, pts) /\ forall acc, exists acc', cf P' w v d acc = Ok (Some acc') /\ U (w, v, d, pts) acc acc').
Context (HC : forall c, In c cones -> usable n (fst (fst c)) /\ forall t, In t (q_tri P (snd (fst c))) -> n_vectors n t /\ lin_indep n t).
Lemma one_pass init : exists F1, forall f1, (F1 <= f1)%nat -> exists F2, forall f2, (F2 <= f2)%nat ->
  match cones_loop (fueled P f1 f2) n (fun _ => 1) (cf (fueled P f1 f2)) cones init with
  | Ok (Some a) => exists pss xs, Forall2 (cone_pieces n P) cones pss /\ map fst xs = flat_map (fun cp => flat_map (items_of (snd (fst cp))) (snd cp)) (List.combine cones pss) /\ Forall (exact_points n) xs /\ chain U xs init a
  | Ok None => False
  | Err e => failure n P e
  end.
Proof.
  destruct (all_fuel (fun ct f => forall f2, enough (fueled P f f2) n (fun _ => 1) (fst ct) (snd ct)) (flat_map (fun c : vcone => map (fun t => (fst (fst c), t)) (q_tri P (snd (fst c)))) cones)) as (F1 & HF1).
  { intros [v t] Hx. apply in_flat_map in Hx as (c & Hc & Hx). apply in_map_iff in Hx as (t' & E & Ht). injection E as <- ->. destruct (HC c Hc) as [UV HT]. destruct (HT t Ht) as [NV LI]. cbn [fst snd].
    destruct (enough_fuel P n (fun _ => 1) Hn KC OC PC Hmax (fst (fst c)) t UV NV LI) as (F0 & H0). exists F0. intros f Hf f2. exact (H0 f Hf). }
  exists F1. intros f1 Hf1. set (its := all_items P n cones f1).
  destruct (all_fuel (fun i f2 => let '(w, v, d) := i in small P d -> let P' := fueled P f1 f2 in
      int_max < Z.abs (s_det (b_cone d)) /\ (forall acc, cf P' w v d acc = Err Exited) \/
      exists pts, exact_points n (w, v, d, pts) /\ forall acc, exists acc', cf P' w v d acc = Ok (Some acc') /\ U (w, v, d, pts) acc acc') its) as (F2 & HF2).
  { intros [[w v] d] Hi. destruct (items_usable P n cones Hn KC OC PC HC f1 w v d Hi) as [UV [OK _]]. destruct (CO w v d UV OK) as (F2 & H2). exists F2. intros f2 Hf2. exact (H2 f1 f2 Hf2). }
  exists F2. intros f2 Hf2. specialize (HF1 f1 Hf1). specialize (HF2 f2 Hf2).
  assert (HFF : forall w v d, In (w, v, d) its -> small (fueled P f1 f2) d ->
    1 = -1 /\ (forall acc, cf (fueled P f1 f2) w v d acc = Ok None) \/
    int_max < Z.abs (s_det (b_cone d)) /\ (forall acc, cf (fueled P f1 f2) w v d acc = Err Exited) \/
    1 <> -1 /\ exists pts, exact_points n (w, v, d, pts) /\ forall acc, True -> exists acc', cf (fueled P f1 f2) w v d acc = Ok (Some acc') /\ True /\ U (w, v, d, pts) acc acc').
  { intros w v d Hi Sd. right. destruct (HF2 (w, v, d) Hi Sd) as [H|(pts & X & H)]; [left; exact H|right]. split; [lia|]. exists pts. split; [exact X|]. intros acc _. destruct (H acc) as (acc' & E & Hu). exists acc'. auto. }
  assert (HCC : forall v R w t, In (v, R, w) cones -> usable n v /\ (In t (q_tri (fueled P f1 f2) R) -> n_vectors n t /\ lin_indep n t /\ enough (fueled P f1 f2) n (fun _ => 1) v t /\ forall v' d, In (v', d) (piece_all (q_fuel (fueled P f1 f2)) (fueled P f1 f2) n v t) -> In (w, v', d) its)).
  { intros v R w t Hc. destruct (HC (v, R, w) Hc) as [UV HT]. split; [exact UV|]. cbn [fueled q_tri fst snd] in *. intros Ht. destruct (HT t Ht) as [NV LI]. split; [exact NV|]. split; [exact LI|]. split.
    - apply (HF1 (v, t)). apply in_flat_map. exists (v, R, w). split; [exact Hc|]. cbn [fst snd]. apply in_map_iff. exists t. auto.
    - intros v' d Hd. unfold its, all_items. apply in_flat_map. exists (v, R, w). split; [exact Hc|]. cbn [fst snd]. apply in_flat_map. exists t. split; [exact Ht|]. apply in_map_iff. exists (v', d). split; [reflexivity|exact Hd]. }
  pose proof (cones_ok A (fueled P f1 f2) n (fun _ => 1) (cf (fueled P f1 f2)) (fun _ => True) U its HFF Hn PC cones HCC init I) as CK.
  destruct (cones_loop (fueled P f1 f2) n (fun _ => 1) (cf (fueled P f1 f2)) cones init) as [[a|]|e]; [| |exact CK].
  - destruct CK as (_ & pss & xs & A1 & A2 & _ & A4 & A5). exists pss, xs. auto.
  - destruct CK as (w & v & d & _ & E). discriminate.
Qed.
End OnePass.

Definition cone_of (x : xitem) : gcone := let '(_, _, d, pts) := x in (b_coef d, s_rays (b_cone d), pts).
(** What is passed on for a cone. *)
Definition write_upd (P : params) (pj : option projector) (x : xitem) (a b : text * bool) : Prop :=
  let '(_, _, d, pts) := x in small P d /\ Z.of_nat (length pts) = Z.abs (s_det (b_cone d)) /\ deliver pj (cone_of x) a = Ok b.
Definition pj_ok (P : params) (pj : option projector) : Prop :=
  match pj with None => True | Some (d, AA, b) => (0 < d)%nat /\ length AA = d /\ length b = d /\ q_max_det P = 1 /\ q_sv P <> SubspaceAvoidingLLL end.
Lemma exact_printable n w v d pts : (0 < n)%nat -> exact_points n (w, v, d, pts) -> Z.abs (b_coef d) = 1 -> printable n (cone_of (w, v, d, pts)).
Proof.
  intros Hn (_ & OK & ND & HP) C. destruct OK as ((LR & FR) & _). cbn [cone_of printable]. split; [lia|]. split; [intros E; rewrite E in LR; cbn in LR; lia|]. split; [exact FR|].
  apply Forall_forall. intros p Hp. apply HP in Hp. exact (proj1 Hp).
Qed.
Lemma write_consume_total n c : printable n c -> forall st, exists st', write_consume c st = Ok st'.
Proof.
  intros H st. unfold write_consume. destruct (snd c) as [|p ps] eqn:E; [eauto|]. destruct (write_cone_ok n c H) as (t & Et & _); [rewrite E; discriminate|].
  assert (Lp : length p = n). { destruct c as [[k rays] pts]. cbn [snd] in E. subst pts. destruct H as (_ & _ & _ & F). exact (Forall_inv F). }
  rewrite Lp, Et. cbn [bind]. eauto.
Qed.
Lemma project_printable n d AA b c : (0 < d)%nat -> length AA = d -> length b = d -> printable n c -> length (snd c) = 1%nat ->
  exists c', project_up d AA b c = Ok c' /\ printable d c' /\ c' = (fst (fst c), map (project_ray d AA) (snd (fst c)), map (project_point d AA b) (snd c)).
Proof.
  intros Hd LA Lb Hp L1. destruct c as [[k rays] pts]. cbn [snd fst] in *. destruct pts as [|p [|q pts]]; cbn [length] in L1; try lia. destruct Hp as (Hk & Hr & _).
  unfold project_up. rewrite Lb, LA, Nat.ltb_irrefl. cbn [orb]. eexists. split; [reflexivity|]. split; [|reflexivity]. cbn [printable]. split; [exact Hk|]. split; [destruct rays; [congruence|discriminate]|].
  split; [apply Forall_map, Forall_forall; intros r _; unfold project_ray; now rewrite map_length, seq_length|]. repeat constructor. unfold project_point. now rewrite map_length, seq_length.
Qed.
Lemma write_consumer P n pj : (0 < n)%nat -> xgcd_contract (q_xg P) -> pj_ok P pj -> forall w v d, usable n v -> cone_ok n (b_cone d) -> exists F2, forall f1 f2, (F2 <= f2)%nat -> small P d -> let P' := fueled P f1 f2 in
  int_max < Z.abs (s_det (b_cone d)) /\ (forall acc, write_one P' n pj w v d acc = Err Exited) \/
  exists pts, exact_points n (w, v, d, pts) /\ forall acc, exists acc', write_one P' n pj w v d acc = Ok (Some acc') /\ write_upd P pj (w, v, d, pts) acc acc'.
Proof.
  intros Hn XG PJ w v d UV OK. destruct UV as [RV Dv]. destruct (points_exact (q_xg P) n (b_cone d) v XG Hn OK RV Dv) as (F & [[B E]|(ps & E & ND & IN & LN)]); exists F; intros f1 f2 Hf SM P'.
  - left. split; [exact B|]. intros acc. unfold write_one, pointed. cbn [P' fueled q_fuel2 q_xg]. rewrite (E f2 Hf). reflexivity.
  - right. exists ps. assert (X : exact_points n (w, v, d, ps)) by exact (conj (conj RV Dv) (conj OK (conj ND IN))). split; [exact X|]. intros acc.
    pose proof (exact_printable n w v d ps Hn X (proj1 SM)) as PR.
    assert (DL : exists st', deliver pj (cone_of (w, v, d, ps)) acc = Ok st').
    { destruct pj as [[[m AA] b]|]; [|exact (write_consume_total n _ PR acc)]. destruct PJ as (Hm & LA & Lb & M1 & NS). cbn [deliver].
      assert (L1 : length ps = 1%nat). { destruct OK as (_ & _ & D0 & _). destruct SM as (_ & [SM|[SM|SM]]); [rewrite SM in M1; discriminate| |contradiction]. lia. }
      destruct (project_printable n m AA b (cone_of (w, v, d, ps)) Hm LA Lb PR L1) as (c' & -> & PR' & _). cbn [bind]. exact (write_consume_total m c' PR' acc). }
    destruct DL as (st' & DL). exists st'. split; [|exact (conj SM (conj LN DL))]. unfold write_one, pointed. cbn [P' fueled q_fuel2 q_xg]. rewrite (E f2 Hf). cbn [bind]. cbn [cone_of] in DL. rewrite DL. reflexivity.
Qed.
Lemma write_chain P pj xs : forall a b, chain (write_upd P pj) xs a b -> feed (deliver pj) (map cone_of xs) a = Ok b.
Proof. intros a b H. induction H as [a|[[[w v] d] pts] l a b c U0 H IH]; cbn [map feed]; [reflexivity|]. destruct U0 as (_ & _ & E). rewrite E. cbn [bind]. exact IH. Qed.
Lemma chain_forall {A} (U : xitem -> A -> A -> Prop) xs a b : chain U xs a b -> forall x, In x xs -> exists a b, U x a b.
Proof. induction 1 as [a|y l a b c U0 H IH]; intros x []; [subst y; eauto|auto]. Qed.

(** Tight rows separate. *)
Definition lins (n : nat) (rows : list (list Z)) (v : nat -> Q) : list (list Z) := map (fun c => map (lin c) (seq 0 n)) (filter (fun c => Qeq_bool (slack n c v) 0) rows).
Lemma lin_zdot n c x : zdot (map (lin c) (seq 0 n)) x = zsum n (fun k => lin c k * nth k x 0).
Proof. unfold zdot. rewrite map_length, seq_length. apply ZMat.zsum_ext. intros k Hk. rewrite nth_map_seq by exact Hk. reflexivity. Qed.
Lemma slack_zdot n c x : (slack n c (zpoint x) == inject_Z (nth 0 c 0%Z + zdot (map (lin c) (seq 0 n)) x))%Q.
Proof.
  rewrite lin_zdot. unfold slack. rewrite inject_Z_plus. apply Qplus_comp; [reflexivity|]. rewrite <- sumq_inj. apply sumq_ext. intros k Hk. unfold zpoint, lin. rewrite inject_Z_mult. ring.
Qed.
Lemma vertex_separating n rows v : is_vertex n rows v -> separating n (lins n rows v).
Proof.
  intros [_ V] r (Lr & k & Hk & Nk). destruct (existsb (fun c => negb (zdot c r =? 0)) (lins n rows v)) eqn:EX.
  - apply existsb_exists in EX as (c & Hc & E). apply negb_true_iff, Z.eqb_neq in E. exists c. split; [exact Hc|]. split; [|exact E]. apply in_map_iff in Hc as (c' & <- & _). now rewrite map_length, seq_length.
  - exfalso. apply Nk. assert (E : (zpoint r k == 0)%Q); [|apply inject_Z_injective; exact E]. apply V; [|exact Hk]. intros c Hc T.
    assert (Z0 : zdot (map (lin c) (seq 0 n)) r = 0).
    { destruct (Z.eq_dec (zdot (map (lin c) (seq 0 n)) r) 0) as [|N]; [assumption|]. exfalso. assert (X : existsb (fun c => negb (zdot c r =? 0)) (lins n rows v) = true); [|congruence]. apply existsb_exists. exists (map (lin c) (seq 0 n)). split; [|now apply negb_true_iff, Z.eqb_neq].
      apply in_map_iff. exists c. split; [reflexivity|]. apply filter_In. split; [exact Hc|now apply Qeq_bool_iff]. }
    rewrite lin_zdot in Z0. rewrite (sumq_ext n _ (fun j => inject_Z (lin c j * nth j r 0))) by (intros j _; unfold zpoint, lin; rewrite inject_Z_mult; ring). rewrite sumq_inj, Z0. reflexivity.
Qed.
Lemma ind_low n rows v : low n (lins n rows v) (Ind n rows).
Proof.
  assert (M : exists M, 0 <= M /\ forall c, In c rows -> Z.abs (nth 0 c 0) <= M).
  { clear v. induction rows as [|c rows (M & M0 & H)]; [exists 0; split; [lia|intros c []]|]. exists (M + Z.abs (nth 0 c 0)). split; [lia|]. intros d [<-|Hd]; [lia|]. specialize (H d Hd). lia. }
  destruct M as (M & M0 & HM). exists M. intros x Lx N c Hc. apply in_map_iff in Hc as (c' & <- & Hc). apply filter_In in Hc as [Hc _]. specialize (HM c' Hc).
  unfold Ind, full_ind in N. destruct (forallb (okb n (zpoint x)) rows) eqn:F; [|cbn in N; lia]. rewrite forallb_forall in F. specialize (F c' Hc). unfold okb in F. apply Qle_bool_iff in F. rewrite slack_zdot in F. unfold Qle in F. cbn in F. lia.
Qed.
Lemma ind_spec n rows F : (forall x, length x = n -> (in_polyhedron n rows (zpoint x) -> F x = 1) /\ (~ in_polyhedron n rows (zpoint x) -> F x = 0)) -> eqn n F (Ind n rows).
Proof.
  intros H x Lx. destruct (H x Lx) as [H1 H2]. assert (E : forallb (okb n (zpoint x)) rows = true <-> in_polyhedron n rows (zpoint x)).
  { rewrite forallb_forall. unfold in_polyhedron, okb. split; intros K c Hc; specialize (K c Hc); now apply Qle_bool_iff. }
  unfold Ind, full_ind. destruct (forallb (okb n (zpoint x)) rows); cbn [b2z]; [apply H1, E; reflexivity|apply H2; intros K; apply E in K; discriminate].
Qed.
Lemma expands_ext n cs F G : eqn n F G -> Forall (gc_ok n) cs -> expands n cs F -> expands n cs G.
Proof.
  intros E GC H x Lx. rewrite <- (H x Lx), !times_act. unfold act. pose proof (proj2 (grational_wf n cs GC)) as W. apply lsum_ext. intros a Ha. unfold wfp in W. rewrite Forall_forall in W. rewrite (E (vsub x (snd a))); [reflexivity|]. apply vsub_len; [exact Lx|apply W, Ha].
Qed.
