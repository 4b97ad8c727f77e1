(** The loops over pieces, cones and generic vectors. *)
From Coq Require Import QArith Qfield Lqa.
From Verif Require Import Common ZMat Hermite HermiteProofs Det DetProofs RatVec RatVecSpec RatVecProofs Piped PipedSpec PipedProofs PipedProofs3 PipedProofs4 ConeSpec ConeProofs Irrational IrrationalProofs IrrationalProofs2 IrrationalProofs3 Exponential ExpSpec CountSpec Barvinok BarvinokSpec BarvinokProofs BarvinokProofs2 BarvinokProofs3 BarvinokProofs4 P_Barvinok Count CountProofs.
Open Scope Z_scope.

(** A cone passed on: dilation vector, apex, cone, and its parallelepiped points. *)
Notation item := (list Z * rvec * bcone)%type.
Notation xitem := (list Z * rvec * bcone * list (list Z))%type.
Definition exact_points (n : nat) (x : xitem) : Prop :=
  let '(_, v, d, pts) := x in usable n v /\ cone_ok n (b_cone d) /\ NoDup pts /\ forall p, In p pts <-> in_parallelepiped n v (s_rays (b_cone d)) p.
Inductive chain {A : Type} (U : xitem -> A -> A -> Prop) : list xitem -> A -> A -> Prop :=
| ch_nil : forall a, chain U [] a a
| ch_cons : forall x l a b c, U x a b -> chain U l b c -> chain U (x :: l) a c.
Lemma chain_app {A} (U : xitem -> A -> A -> Prop) l1 l2 a b c : chain U l1 a b -> chain U l2 b c -> chain U (l1 ++ l2) a c.
Proof. induction 1; cbn [app]; intros H2; [exact H2|]. econstructor; eauto. Qed.

(** A piece and what is passed on for it. *)
Definition pieceok (mode : decomposition) (n : nat) (v : rvec) (t : list (list Z)) (p : rvec * list bcone) : Prop :=
  let l := pairs (snd p) in
  match mode with
  | DualDecomposition => fst p = v /\ exists H, proper_normals n H /\ forall x, off_hyperplanes n (coord v) H x -> counts_to (fun rs => in_polar n (coord v) rs x) l 1 (in_cone n (coord v) t x)
  | IrrationalPrimalDecomposition => forall x, counts_to (fun rs => in_cone n (coord (fst p)) rs (zpoint x)) l 1 (in_polar n (coord v) t (zpoint x))
  | IrrationalAllPrimalDecomposition => fst p = v /\ (forall x, ~ on_wall n (coord v) t (zpoint x)) /\ forall x, counts_to (fun rs => in_cone n (coord v) rs (zpoint x)) l 1 (in_cone n (coord v) t (zpoint x))
  end.
Definition small (P : params) (d : bcone) : Prop := Z.abs (b_coef d) = 1 /\ (q_max_det P = 0 \/ Z.abs (s_det (b_cone d)) <= q_max_det P \/ q_sv P = SubspaceAvoidingLLL).
(** Failures other than running out of generic vectors. *)
Definition failure (n : nat) (P : params) (e : err) : Prop :=
  e = Thrown /\ q_mode P <> DualDecomposition \/ e = Exited /\ (q_sv P = SubspaceAvoidingLLL \/ q_max_det P = 0 \/ int_max < q_max_det P) \/ e = AssertFail /\ q_sv P = LatteLLL /\ ~ decreasing n (q_omega P).

Section Loops.
Context (A : Type) (P : params) (n : nat) (status : bcone -> Z) (f : list Z -> rvec -> bcone -> A -> outcome (option A)) (Good : A -> Prop) (U : xitem -> A -> A -> Prop) (items : list item).
Context (Hf : forall w v d, In (w, v, d) items -> small P d ->
  status d = -1 /\ (forall acc, f w v d acc = Ok None) \/
  int_max < Z.abs (s_det (b_cone d)) /\ (forall acc, f w v d acc = Err Exited) \/
  status d <> -1 /\ exists pts, exact_points n (w, v, d, pts) /\ forall acc, Good acc -> exists acc', f w v d acc = Ok (Some acc') /\ Good acc' /\ U (w, v, d, pts) acc acc').

Lemma consume_all_ok w v ds : (forall d, In d ds -> In (w, v, d) items /\ small P d) -> forall acc, Good acc ->
  match consume_all (f w v) ds acc with
  | Ok (Some acc') => Good acc' /\ (forall d, In d ds -> status d <> -1) /\ exists xs, map fst xs = map (fun d => (w, v, d)) ds /\ Forall (exact_points n) xs /\ chain U xs acc acc'
  | Ok None => exists d, In d ds /\ status d = -1
  | Err e => failure n P e
  end.
Proof.
  induction ds as [|d ds IH]; intros HI acc GA; cbn [consume_all].
  - split; [exact GA|]. split; [intros d []|]. exists []. split; [reflexivity|]. split; constructor.
  - destruct (HI d (or_introl eq_refl)) as [I1 S1]. destruct (Hf w v d I1 S1) as [[S0 F0]|[[B F0]|(S0 & pts & X & F0)]].
    + rewrite F0. cbn [bind]. exists d. split; [now left|exact S0].
    + rewrite F0. cbn [bind]. right. left. split; [reflexivity|]. destruct S1 as [_ [S1|[S1|S1]]]; [auto|right; right; lia|auto].
    + destruct (F0 acc GA) as (acc1 & E1 & G1 & U1). rewrite E1. cbn [bind]. specialize (IH (fun d' H' => HI d' (or_intror H')) acc1 G1). destruct (consume_all (f w v) ds acc1) as [[acc2|]|e]; [|destruct IH as (d' & H' & E'); exists d'; split; [now right|exact E']|exact IH].
      destruct IH as (G2 & ST & xs & M & FX & CH). split; [exact G2|]. split; [intros d' [<-|H']; auto|]. exists ((w, v, d, pts) :: xs). split; [cbn [map fst]; now rewrite M|]. split; [now constructor|]. econstructor; eauto.
Qed.
Context (Hn : (0 < n)%nat) (KC : relation_contract (q_ker P)) (OC : omega_contract (q_omega P)) (PC : q_mode P = DualDecomposition -> primitive_choice (q_omega P)) (Hmax : 0 <= q_max_det P).
Definition items_of (w : list Z) (p : rvec * list bcone) : list item := map (fun d => (w, fst p, d)) (snd p).
(** Enough fuel for a piece. *)
Definition enough (v : rvec) (t : list (list Z)) : Prop :=
  match decompose_piece P n v status t with
  | Ok (v', (r, st)) => (r <> -1 -> pieceok (q_mode P) n v t (v', delivered st)) /\ (forall d, In d (delivered st) -> small P d) /\ stopped (fun _ d => status d) [] (delivered st) r
  | Err e => failure n P e
  end.
Lemma codes_status seen new : codes (fun _ d => status d) seen new = map status new.
Proof. revert seen. induction new as [|d new IH]; intros seen; [reflexivity|]. cbn [codes map]. now rewrite IH. Qed.
Lemma enough_fuel v t : usable n v -> n_vectors n t -> lin_indep n t -> exists F, forall fuel, (F <= fuel)%nat ->
  match single fuel (q_depth P) (q_mode P) (q_sv P) (q_omega P) (q_ker P) (q_max_det P) n v (fun _ d => status d) t start with
  | Ok (v', (r, st)) => (r <> -1 -> pieceok (q_mode P) n v t (v', delivered st)) /\ (forall d, In d (delivered st) -> small P d) /\ stopped (fun _ d => status d) [] (delivered st) r
  | Err e => failure n P e
  end.
Proof.
  intros [RV Dv] NV LI. destruct (single_cone_decomposition (q_depth P) (q_mode P) (q_sv P) (q_omega P) (q_ker P) (q_max_det P) n v (fun _ d => status d) t start Hn NV LI OC KC RV Dv Hmax) as (F & HF). exists F. intros fuel Hfuel. specialize (HF fuel Hfuel).
  pose proof (single_all P n v t Hn PC (conj RV Dv) NV LI fuel (fun _ d => status d)) as SA.
  destruct (single _ _ _ _ _ _ _ _ _ _ _ _) as [[v' [r st]]|e]; [|unfold failure; tauto].
  destruct HF as (new & D & CT & FL & ST). cbn [start delivered app] in D, ST. rewrite D. destruct (SA v' r st eq_refl) as [_ WALL]. split; [|split; [|exact ST]].
  - intros NR. specialize (CT NR). cbv zeta in CT. unfold pieceok, pairs. cbn [fst snd]. destruct (q_mode P); [exact CT|exact CT|]. destruct CT as [E CT]. split; [exact E|]. split; [exact (WALL eq_refl)|exact CT].
  - intros d Hd. rewrite Forall_forall in FL. destruct (FL d Hd) as (_ & _ & _ & B0 & B). unfold small. tauto.
Qed.
Lemma pieces_ok w v ts : usable n v -> (forall t, In t ts -> n_vectors n t /\ lin_indep n t /\ enough v t /\ forall v' d, In (v', d) (piece_all (q_fuel P) P n v t) -> In (w, v', d) items) -> forall acc, Good acc ->
  match pieces_loop P n v status (f w) ts acc with
  | Ok (Some acc') => Good acc' /\ exists ps xs, Forall2 (pieceok (q_mode P) n v) ts ps /\ map fst xs = flat_map (items_of w) ps /\ Forall (fun x => status (snd (fst x)) <> -1) xs /\ Forall (exact_points n) xs /\ chain U xs acc acc'
  | Ok None => exists w' v' d, In (w', v', d) items /\ status d = -1
  | Err e => failure n P e
  end.
Proof.
  intros UV. induction ts as [|t ts IH]; intros HT acc GA; cbn [pieces_loop].
  - split; [exact GA|]. exists [], []. repeat (split; [constructor|]). constructor.
  - destruct (HT t (or_introl eq_refl)) as (NV & LI & EN & PA). rewrite (proj1 NV), Nat.eqb_refl. cbn [negb].
    pose proof (single_all P n v t Hn PC UV NV LI (q_fuel P) (fun _ d => status d)) as SA. unfold enough in EN. unfold decompose_piece in EN |- *.
    destruct (single _ _ _ _ _ _ _ _ _ _ _ _) as [[v' [r st]]|e]; cbn [bind]; [|exact EN]. destruct EN as (PO & SM & ST). destruct (SA v' r st eq_refl) as [DL _].
    assert (HI : forall d, In d (delivered st) -> In (w, v', d) items /\ small P d) by (intros d Hd; split; [apply PA, DL, Hd|apply SM, Hd]).
    pose proof (consume_all_ok w v' (delivered st) HI acc GA) as CA. destruct (consume_all (f w v') (delivered st) acc) as [[acc1|]|e]; cbn [bind]; [| |exact CA].
    + destruct CA as (G1 & NS & xs & M & FX & CH).
      assert (NR : r <> -1). { intros ->. destruct ST as [ST _]. destruct (ST eq_refl) as (cs & E & _). rewrite codes_status in E. assert (I : In (-1) (map status (delivered st))) by (rewrite E; apply in_app_iff; right; now left). apply in_map_iff in I as (d & E1 & Hd). exact (NS d Hd E1). }
      rewrite (proj2 (Z.eqb_neq _ _) NR). specialize (IH (fun t' H' => HT t' (or_intror H')) acc1 G1). destruct (pieces_loop P n v status (f w) ts acc1) as [[acc2|]|e]; [|exact IH|exact IH].
      destruct IH as (G2 & ps & xs2 & F2 & M2 & S2 & X2 & C2). split; [exact G2|]. exists ((v', delivered st) :: ps), (xs ++ xs2). split; [constructor; auto|]. split; [rewrite map_app, M, M2; reflexivity|].
      split; [apply Forall_app; split; [|exact S2]|split; [apply Forall_app; auto|exact (chain_app _ _ _ _ _ _ CH C2)]].
      apply Forall_forall. intros x Hx. assert (I : In (fst x) (map (fun d => (w, v', d)) (delivered st))) by (rewrite <- M; now apply in_map). apply in_map_iff in I as (d & E & Hd). rewrite <- E. cbn [snd]. auto.
    + destruct CA as (d & Hd & E). exists w, v', d. split; [apply HI, Hd|exact E].
Qed.
Definition cone_pieces (P' : params) (c : vcone) (ps : list (rvec * list bcone)) : Prop := let '(v, R, w) := c in Forall2 (pieceok (q_mode P') n v) (q_tri P' R) ps.
Lemma cones_ok cones : (forall v R w t, In (v, R, w) cones -> usable n v /\ (In t (q_tri P R) -> n_vectors n t /\ lin_indep n t /\ enough v t /\ forall v' d, In (v', d) (piece_all (q_fuel P) P n v t) -> In (w, v', d) items)) -> forall acc, Good acc ->
  match cones_loop P n status f cones acc with
  | Ok (Some acc') => Good acc' /\ exists pss xs, Forall2 (cone_pieces P) cones pss /\ map fst xs = flat_map (fun cp => flat_map (items_of (snd (fst cp))) (snd cp)) (combine cones pss) /\ Forall (fun x => status (snd (fst x)) <> -1) xs /\ Forall (exact_points n) xs /\ chain U xs acc acc'
  | Ok None => exists w' v' d, In (w', v', d) items /\ status d = -1
  | Err e => failure n P e
  end.
Proof.
  induction cones as [|[[v R] w] cones IH]; intros HC acc GA; cbn [cones_loop].
  - split; [exact GA|]. exists [], []. repeat (split; [constructor|]). constructor.
  - pose proof (pieces_ok w v (q_tri P R) (proj1 (HC v R w [] (or_introl eq_refl))) (fun t Ht => proj2 (HC v R w t (or_introl eq_refl)) Ht) acc GA) as PO. destruct (pieces_loop P n v status (f w) (q_tri P R) acc) as [[acc1|]|e]; cbn [bind]; [|exact PO|exact PO].
    destruct PO as (G1 & ps & xs & F1 & M1 & S1 & X1 & C1). specialize (IH (fun v0 R0 w0 t0 H0 => HC v0 R0 w0 t0 (or_intror H0)) acc1 G1). destruct (cones_loop P n status f cones acc1) as [[acc2|]|e]; [|exact IH|exact IH].
    destruct IH as (G2 & pss & xs2 & F2 & M2 & S2 & X2 & C2). split; [exact G2|]. exists (ps :: pss), (xs ++ xs2). split; [constructor; auto|]. split; [rewrite map_app, M1, M2; reflexivity|]. split; [apply Forall_app; auto|]. split; [apply Forall_app; auto|exact (chain_app _ _ _ _ _ _ C1 C2)].
Qed.
End Loops.
