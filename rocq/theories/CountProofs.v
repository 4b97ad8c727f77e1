(** The cones that a decomposition can pass on, whatever the caller answers. *)
From Coq Require Import QArith Qfield Lqa.
From Verif Require Import Common ZMat Hermite HermiteProofs Det DetProofs RatVec RatVecSpec RatVecProofs Piped PipedSpec PipedProofs PipedProofs3 PipedProofs4 ConeSpec ConeProofs Irrational IrrationalProofs IrrationalProofs2 IrrationalProofs3 Exponential ExpSpec CountSpec Barvinok BarvinokSpec BarvinokProofs BarvinokProofs2 BarvinokProofs3 BarvinokProofs4 Count.
Open Scope Z_scope.

Section Leaves.
Context (mode : decomposition) (sv : shortvector) (omega : nat -> list (list Z) -> list Z) (ker : list (list Z) -> list Z) (max_det : Z) (n : nat).
Context (Hn : (0 < n)%nat) (KC : relation_contract ker) (OC : omega_contract omega) (PC : mode = DualDecomposition -> primitive_choice omega).

Fixpoint leaves (fuel : nat) (c : bcone) : list bcone :=
  match fuel with
  | O => []
  | S f =>
      if criterion mode c =? 0 then []
      else if (max_det =? 0) || (criterion mode c <=? max_det) then [deliv mode c]
      else match step sv omega ker n c with
           | Ok None => [deliv mode c]
           | Ok (Some (ch, _)) => flat_map (fun o => match o with None => [] | Some c' => leaves f c' end) ch
           | Err _ => []
           end
  end.
Lemma loop_leaves rec (lv : bcone -> list bcone) mx ch : (forall c st r st', In (Some c) ch -> rec c st = Ok (r, st') -> exists new, delivered st' = delivered st ++ new /\ incl new (lv c)) ->
  forall k ds st r st', loop rec k mx ds ch st = Ok (r, st') -> exists new, delivered st' = delivered st ++ new /\ incl new (flat_map (fun o => match o with None => [] | Some c' => lv c' end) ch).
Proof.
  intros HR. induction k as [|k IH]; intros ds st r st' E; [discriminate|]. cbn [loop] in E. destruct (scan ds 0 (mx + 1) None) as [j|]; [|injection E as <- <-; exists []; rewrite app_nil_r; split; [reflexivity|intros d []]].
  destruct (nth j ch None) as [c|] eqn:Ec; [|discriminate].
  assert (HI : In (Some c) ch). { destruct (Nat.lt_ge_cases j (length ch)) as [H|H]; [rewrite <- Ec; now apply nth_In|rewrite nth_overflow in Ec by auto; discriminate]. }
  destruct (rec c st) as [[r1 st1]|e] eqn:Er; cbn [bind] in E; [|discriminate]. destruct (HR c st r1 st1 HI Er) as (n1 & D1 & I1).
  assert (I1' : incl n1 (flat_map (fun o => match o with None => [] | Some c' => lv c' end) ch)) by (intros d Hd; apply in_flat_map; exists (Some c); auto).
  destruct (r1 =? -1).
  - injection E as <- <-. exists n1. cbn [delivered]. auto.
  - apply IH in E as (n2 & D2 & I2). cbn [delivered] in D2. exists (n1 ++ n2). split; [rewrite D2, D1; now rewrite app_assoc|now apply incl_app].
Qed.
Lemma dfs_leaves v cons fuel : forall c st r st', dfs fuel mode sv omega ker max_det n v cons c st = Ok (r, st') -> exists new, delivered st' = delivered st ++ new /\ incl new (leaves fuel c).
Proof.
  induction fuel as [|f IH]; intros c st r st' E; [discriminate|]. cbn [dfs leaves] in *. destruct (criterion mode c =? 0); [injection E as <- <-; exists []; cbn [delivered]; rewrite app_nil_r; split; [reflexivity|intros d []]|].
  destruct (check_irrational mode n v c) as [u|e]; cbn [bind] in E; [|discriminate].
  assert (DL : forall st0 r st', delivered st0 = delivered st -> Ok (deliver mode cons c st0) = Ok (r, st') -> exists new, delivered st' = delivered st ++ new /\ incl new [deliv mode c]).
  { intros st0 r0 st0' E0 E1. unfold deliver in E1. injection E1 as _ <-. cbn [delivered]. exists [deliv mode c]. rewrite E0. split; [reflexivity|apply incl_refl]. }
  destruct ((max_det =? 0) || (criterion mode c <=? max_det)); [(refine (DL _ _ _ _ E); reflexivity)|].
  destruct (step sv omega ker n c) as [[[ch dets]|]|e]; cbn [bind] in E; [| |discriminate].
  - destruct (check_children mode n v ch) as [u'|e]; cbn [bind] in E; [|discriminate]. destruct (loop _ _ _ _ _ _) as [[r1 st1]|e] eqn:El; cbn [bind] in E; [|discriminate]. injection E as _ <-. cbn [delivered].
    destruct (loop_leaves _ (leaves f) _ _ (fun c' s r' s' _ H => IH c' s r' s' H) _ _ _ _ _ El) as (new & D & I). cbn [delivered] in D. eauto.
  - destruct (criterion mode c <=? 200000); [|discriminate]. (refine (DL _ _ _ _ E); reflexivity).
Qed.

Definition Inv (c : bcone) : Prop := cone_full n (b_cone c) /\ (mode = DualDecomposition -> rays_primitive n (s_rays (b_cone c))).
Lemma step_shape c ch dets : step sv omega ker n c = Ok (Some (ch, dets)) ->
  exists l, let z := check_omega ker n (s_rays (b_cone c)) (omega l (s_rays (b_cone c))) in
  dets = replaced_dets n (s_rays (b_cone c)) z /\ dets_decrease (s_det (b_cone c)) dets = true /\ children n (b_coef c) (s_det (b_cone c)) (s_rays (b_cone c)) z 0 dets = Ok ch.
Proof.
  unfold step. destruct (facet_matrix (b_cone c)) as [fm|e]; cbn [bind]; [|discriminate]. cbv zeta. intros E.
  destruct (dets_decrease (s_det (b_cone c)) (replaced_dets n (s_rays (b_cone c)) (check_omega ker n (s_rays (b_cone c)) (omega 0%nat (s_rays (b_cone c)))))) eqn:D0.
  - destruct (children n _ _ _ _ _ _) as [ch'|e] eqn:Ec; cbn [bind] in E; [|discriminate]. injection E as <- <-. exists 0%nat. cbv zeta. auto.
  - destruct sv; [|discriminate]. destruct (dets_decrease (s_det (b_cone c)) (replaced_dets n (s_rays (b_cone c)) (check_omega ker n (s_rays (b_cone c)) (omega 2%nat (s_rays (b_cone c)))))) eqn:D2; [|discriminate].
    destruct (children n _ _ _ _ _ _) as [ch'|e] eqn:Ec; cbn [bind] in E; [|discriminate]. injection E as <- <-. exists 2%nat. cbv zeta. auto.
Qed.
Lemma child_inv c ch dets c' : Inv c -> step sv omega ker n c = Ok (Some (ch, dets)) -> In (Some c') ch -> Inv c' /\ Z.abs (s_det (b_cone c')) < Z.abs (s_det (b_cone c)).
Proof.
  intros [FC PR] ES HI. destruct (step_shape c ch dets ES) as (l & ED & DD & EC). set (z := check_omega ker n (s_rays (b_cone c)) (omega l (s_rays (b_cone c)))) in *.
  pose proof FC as [OK _]. pose proof OK as (NV & EDet & D0 & _). assert (LI : lin_indep n (s_rays (b_cone c))) by (apply det_indep; now rewrite <- EDet).
  destruct (OC n l (s_rays (b_cone c)) Hn NV LI) as [Lo NZ]. destruct (check_omega_ok ker n (b_cone c) (omega l (s_rays (b_cone c))) KC OK Lo NZ) as (Sg & Lz & _). fold z in Lz, Sg.
  destruct (step_children n (b_coef c) (b_cone c) z FC Lz) as (ch' & E' & [LC CH]). rewrite <- ED in E'. rewrite EC in E'. injection E' as <-.
  apply (In_nth _ _ None) in HI as (k & Hk & Ek). rewrite LC in Hk. destruct (CH k Hk) as [C0 C1]. destruct (Z.eq_dec (det n (ent (upd (s_rays (b_cone c)) k z))) 0) as [Z0|NZ']; [rewrite C0 in Ek by auto; discriminate|].
  destruct (C1 NZ') as (c1 & E1 & F1 & R1). rewrite E1 in Ek. injection Ek as <-. cbn [b_cone]. split.
  - split; [exact F1|]. intros M. cbn [b_cone]. rewrite R1. intros i Hi m Hm. destruct NV as [LR _]. destruct (Nat.eq_dec i k) as [->|NE].
    + apply (PC M n l (s_rays (b_cone c)) Hn (proj1 OK) LI). intros j Hj. specialize (Hm j Hj). unfold vat in Hm. rewrite nth_upd_eq in Hm by lia. destruct Sg as [Sg|Sg]; rewrite Sg in Hm; [exact Hm|]. rewrite (nth_map0 _ _ _ _ 0) in Hm by lia. exact (proj1 (Z.divide_opp_r _ _) Hm).
    + apply (PR M i Hi m). intros j Hj. specialize (Hm j Hj). unfold vat in *. rewrite nth_upd_neq in Hm by congruence. exact Hm.
  - rewrite decrease_iff in DD. rewrite ED, replaced_len in DD. specialize (DD k Hk). rewrite replaced_nth in DD by exact Hk. destruct F1 as [(_ & ED1 & _) _]. rewrite ED1, R1. exact DD.
Qed.
Lemma leaves_full fuel : forall c, Inv c -> forall d, In d (leaves fuel c) -> cone_full n (b_cone d).
Proof.
  induction fuel as [|f IH]; intros c IC d Hd; [destruct Hd|]. cbn [leaves] in Hd. destruct (criterion mode c =? 0); [destruct Hd|].
  assert (DF : cone_full n (b_cone (deliv mode c))).
  { destruct IC as [FC PR]. unfold deliv. destruct mode eqn:EM; [cbn [b_cone]; apply swap_full; auto|exact FC|exact FC]. }
  destruct ((max_det =? 0) || (criterion mode c <=? max_det)); [destruct Hd as [<-|[]]; exact DF|].
  destruct (step sv omega ker n c) as [[[ch dets]|]|e] eqn:ES; [|destruct Hd as [<-|[]]; exact DF|destruct Hd].
  apply in_flat_map in Hd as (o & Ho & Hd). destruct o as [c'|]; [|destruct Hd]. apply (IH c'); [apply (child_inv c ch dets c' IC ES Ho)|exact Hd].
Qed.
Lemma flat_map_ext_in {A B} (f g : A -> list B) l : (forall a, In a l -> f a = g a) -> flat_map f l = flat_map g l.
Proof. induction l as [|a l IH]; intros H; [reflexivity|]. cbn [flat_map]. rewrite (H a (or_introl eq_refl)), IH by (intros b Hb; apply H; now right). reflexivity. Qed.
Lemma leaves_stable f : forall f' c, Inv c -> Z.abs (s_det (b_cone c)) < Z.of_nat f -> Z.abs (s_det (b_cone c)) < Z.of_nat f' -> leaves f c = leaves f' c.
Proof.
  induction f as [|f IH]; intros f' c IC H H'; [lia|]. destruct f' as [|f']; [lia|]. cbn [leaves]. destruct (criterion mode c =? 0); [reflexivity|]. destruct ((max_det =? 0) || (criterion mode c <=? max_det)); [reflexivity|].
  destruct (step sv omega ker n c) as [[[ch dets]|]|e] eqn:ES; try reflexivity. apply flat_map_ext_in. intros [c'|] Ho; [|reflexivity]. destruct (child_inv c ch dets c' IC ES Ho) as [IC' L]. apply IH; [exact IC'|lia|lia].
Qed.
End Leaves.

(** Everything that can be passed on for one simplicial cone, with its apex. *)
Definition piece_all (fuel : nat) (P : params) (n : nat) (v : rvec) (t : list (list Z)) : list (rvec * bcone) :=
  match det_and_facets n (matrix_gcd t) with
  | Err _ => []
  | Ok c =>
      let lv c := leaves (q_mode P) (q_sv P) (q_omega P) (q_ker P) (q_max_det P) n fuel (mkB 1 c) in
      match q_mode P with
      | IrrationalPrimalDecomposition => match irrationalize (q_depth P) n (swap_cone c) v with Ok nv => map (pair nv) (lv (swap_cone c)) | Err _ => [] end
      | _ => map (pair v) (lv c)
      end
  end.
Definition usable (n : nat) (v : rvec) : Prop := (exists Pr k, (Pr = nonzero \/ Pr = positive) /\ reachable Pr k v) /\ dim v = n.
Section Piece.
Context (P : params) (n : nat) (v : rvec) (t : list (list Z)).
Context (Hn : (0 < n)%nat) (KC : relation_contract (q_ker P)) (OC : omega_contract (q_omega P)) (PC : q_mode P = DualDecomposition -> primitive_choice (q_omega P)).
Context (UV : usable n v) (NV : n_vectors n t) (LI : lin_indep n t) (Hmax : 0 <= q_max_det P).

Lemma piece_root : exists c, det_and_facets n (matrix_gcd t) = Ok c /\ cone_full n c /\ cone_full n (swap_cone c) /\ rays_primitive n (s_rays c) /\ s_rays c = matrix_gcd t.
Proof.
  destruct (matrix_gcd_ok n t NV LI Hn) as (NV' & _ & _ & PR & D0). destruct (det_and_facets_full n (matrix_gcd t) NV' D0) as (c & E & FC & ER). rewrite <- ER in PR. exists c. split; [exact E|]. split; [exact FC|]. split; [now apply swap_full|]. auto.
Qed.
Lemma root_inv c : det_and_facets n (matrix_gcd t) = Ok c -> Inv (q_mode P) n (mkB 1 c) /\ Inv (q_mode P) n (mkB 1 (swap_cone c)) \/ q_mode P = DualDecomposition /\ Inv (q_mode P) n (mkB 1 c).
Proof.
  intros E. destruct piece_root as (c' & E' & FC & FS & PR & _). rewrite E in E'. injection E' as <-. destruct (q_mode P); [right; split; [reflexivity|]|left; split|left; split]; split; cbn [b_cone]; auto; discriminate.
Qed.
Lemma piece_all_ok fuel v' d : In (v', d) (piece_all fuel P n v t) -> usable n v' /\ cone_full n (b_cone d).
Proof.
  unfold piece_all. destruct piece_root as (c & E & FC & FS & PR & _). rewrite E. cbv zeta.
  assert (G : forall w c0, Inv (q_mode P) n (mkB 1 c0) -> usable n w -> In (v', d) (map (pair w) (leaves (q_mode P) (q_sv P) (q_omega P) (q_ker P) (q_max_det P) n fuel (mkB 1 c0))) -> usable n v' /\ cone_full n (b_cone d)).
  { intros w c0 IC U H. apply in_map_iff in H as (d' & E1 & Hd). injection E1 as <- <-. split; [exact U|]. exact (leaves_full _ _ _ _ _ n Hn KC OC PC fuel _ IC d' Hd). }
  destruct (root_inv c E) as [[I1 I2]|[M I1]].
  - destruct (q_mode P) eqn:M; [apply (G v c); auto| |apply (G v c); auto].
    destruct UV as [RV Dv]. destruct (irrationalize_main (q_depth P) n (swap_cone c) v Hn (proj1 FS) RV Dv) as (nv & EI & Dnv & (k2 & R2) & _). rewrite EI. apply (G nv (swap_cone c)); [exact I2|]. split; [exists nonzero, k2; auto|exact Dnv].
  - revert G I1. rewrite M. intros G I1. apply (G v c); auto.
Qed.
Lemma piece_all_stable : exists F, forall f, (F <= f)%nat -> piece_all f P n v t = piece_all F P n v t.
Proof.
  destruct piece_root as (c & E & FC & FS & PR & _). exists (S (Z.to_nat (Z.abs (s_det c) + Z.abs (s_dual_det c)))). intros f Hf. unfold piece_all. rewrite E. cbv zeta.
  assert (G : forall c0, Inv (q_mode P) n (mkB 1 c0) -> Z.abs (s_det c0) <= Z.abs (s_det c) + Z.abs (s_dual_det c) -> leaves (q_mode P) (q_sv P) (q_omega P) (q_ker P) (q_max_det P) n f (mkB 1 c0) = leaves (q_mode P) (q_sv P) (q_omega P) (q_ker P) (q_max_det P) n (S (Z.to_nat (Z.abs (s_det c) + Z.abs (s_dual_det c)))) (mkB 1 c0)).
  { intros c0 IC L. apply (leaves_stable _ _ _ _ _ n Hn KC OC PC); [exact IC|cbn [b_cone]; lia|cbn [b_cone]; lia]. }
  destruct (root_inv c E) as [[I1 I2]|[M I1]].
  - destruct (q_mode P) eqn:M; [rewrite (G c) by (auto; lia); reflexivity| |rewrite (G c) by (auto; lia); reflexivity].
    destruct (irrationalize (q_depth P) n (swap_cone c) v); [|reflexivity]. rewrite (G (swap_cone c)) by (auto; cbn [swap_cone s_det]; lia). reflexivity.
  - revert G I1. rewrite M. intros G I1. rewrite (G c) by (auto; lia). reflexivity.
Qed.
(** What [single] passes on is among these; and in all-primal decomposition no integer point
    is on a wall. *)
Lemma single_all fuel cons v' r st : single fuel (q_depth P) (q_mode P) (q_sv P) (q_omega P) (q_ker P) (q_max_det P) n v cons t start = Ok (v', (r, st)) ->
  (forall d, In d (delivered st) -> In (v', d) (piece_all fuel P n v t)) /\ (q_mode P = IrrationalAllPrimalDecomposition -> forall x, ~ on_wall n (coord v) t (zpoint x)).
Proof.
  unfold single, piece_all. destruct (negb _); [discriminate|]. destruct (_ =? 0); [discriminate|]. destruct piece_root as (c & E & FC & FS & PR & ER). rewrite E. cbn [bind]. cbv zeta.
  assert (G : forall w c0, bind (dfs fuel (q_mode P) (q_sv P) (q_omega P) (q_ker P) (q_max_det P) n w cons (mkB 1 c0) start) (fun r => Ok (w, r)) = Ok (v', (r, st)) -> v' = w /\ forall d, In d (delivered st) -> In (v', d) (map (pair w) (leaves (q_mode P) (q_sv P) (q_omega P) (q_ker P) (q_max_det P) n fuel (mkB 1 c0)))).
  { intros w c0 H. destruct (dfs _ _ _ _ _ _ _ _ _ _ _) as [[r1 st1]|e] eqn:ED; cbn [bind] in H; [|discriminate]. injection H as <- <- <-. split; [reflexivity|]. destruct (dfs_leaves _ _ _ _ _ _ _ _ _ _ _ _ _ ED) as (new & D & I). cbn [start delivered app] in D. rewrite D. intros d Hd. apply in_map, I, Hd. }
  destruct (q_mode P) eqn:M.
  - intros H. split; [exact (proj2 (G v c H))|discriminate].
  - intros H. split; [|discriminate]. destruct (irrationalize (q_depth P) n (swap_cone c) v) as [nv|e]; cbn [bind] in H; [|discriminate]. exact (proj2 (G nv (swap_cone c) H)).
  - intros H. split; [exact (proj2 (G v c H))|]. intros _ x W.
    destruct fuel as [|f]; [discriminate|]. cbn [dfs] in H. assert (CN : criterion IrrationalAllPrimalDecomposition (mkB 1 c) <> 0) by (unfold criterion; cbn [b_cone]; destruct FC as [(_ & _ & D0 & _) _]; lia). rewrite (proj2 (Z.eqb_neq _ _) CN) in H.
    destruct UV as [(Pr & k & DP & R) Dv]. pose proof (reachable_scales Pr k v n DP R Dv) as SV.
    pose proof (check_ok IrrationalAllPrimalDecomposition (q_sv P) (q_omega P) n v SV (mkB 1 c) FC) as CK. destruct (check_irrational IrrationalAllPrimalDecomposition n v (mkB 1 c)) as [u|e]; cbn [bind] in H; [|discriminate].
    specialize (CK ltac:(discriminate) x). apply (off_not_wall n v c (zpoint x) (proj1 FC)) in CK. apply CK. rewrite ER.
    destruct (matrix_gcd_ok n t NV LI Hn) as (_ & EN & GP & _). destruct W as (a & j & Hj & Z0 & C). exists (fun k => a k * inject_Z (row_gcd (nth k t [])))%Q, j. split; [exact Hj|]. split; [rewrite Z0; ring|]. intros i Hi. rewrite (C i Hi). apply sumq_ext. intros k0 Hk0. rewrite (EN k0 i Hk0), inject_Z_mult. ring.
Qed.
End Piece.
