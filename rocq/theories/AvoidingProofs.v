From Verif Require Import Common ZMat Hermite HermiteProofs Det DetProofs RatVec Piped PipedSpec PipedProofs PipedProofs4 Irrational IrrationalProofs Barvinok BarvinokSpec BarvinokProofs2 BarvinokProofs3 BarvinokProofs4 Omega OmegaSpec OmegaProofs OmegaProofs2 OmegaProofs4 OmegaProofs5 OmegaProofs6 OmegaProofs7 Avoiding.
Open Scope Z_scope.

Lemma max_norm_norm x : max_norm x = norm x (length x).
Proof.
  unfold max_norm, norm. assert (G : forall l s k, (forall i, (i < length l)%nat -> nth i l 0 = nth (k + i) x 0) ->
    fold_left (fun s y => if s <? Z.abs y then Z.abs y else s) l s = fold_left (fun s i => if s <? Z.abs (nth i x 0) then Z.abs (nth i x 0) else s) (seq k (length l)) s).
  { induction l as [|y l IH]; intros s k H; cbn [fold_left length seq]; [reflexivity|]. assert (E : y = nth k x 0). { specialize (H 0%nat ltac:(cbn; lia)). cbn in H. now rewrite Nat.add_0_r in H. } rewrite <- E. apply IH. intros i Hi. specialize (H (S i) ltac:(cbn; lia)). cbn [nth] in H. rewrite H. f_equal. lia. }
  apply (G x 0 0%nat). reflexivity.
Qed.

Section Row.
Context (n : nat) (L U : list (list Z)).
Let av i := nth (n - 1) (nth i U []) 0 <> 0.
Let f := (fun (st : option (Z * nat)) (i : nat) =>
    if nth (n - 1) (nth i U []) 0 =? 0 then st
    else let nr := max_norm (nth i L []) in
         match st with None => Some (nr, i) | Some (least, _) => if nr <? least then Some (nr, i) else st end).
Definition good_state (P : nat -> Prop) (st : option (Z * nat)) : Prop :=
  match st with
  | None => forall j, P j -> ~ av j
  | Some (m, i) => P i /\ av i /\ m = max_norm (nth i L []) /\ (forall j, P j -> av j -> m <= max_norm (nth j L []))
  end.
Lemma avoid_fold : forall l (P : nat -> Prop) st, good_state P st -> good_state (fun j => P j \/ In j l) (fold_left f l st).
Proof.
  induction l as [|i l IH]; intros P st G; cbn [fold_left].
  - destruct st as [[m k]|]; cbn [good_state] in *; [destruct G as (A & B & C & D); split; [now left|]; split; [exact B|]; split; [exact C|]; intros j [Hj|[]]; now apply D|intros j [Hj|[]]; now apply G].
  - assert (G1 : good_state (fun j => P j \/ j = i) (f st i)).
    { unfold f. destruct (Z.eqb_spec (nth (n - 1) (nth i U []) 0) 0) as [E|E].
      - destruct st as [[m k]|]; cbn [good_state] in *; [destruct G as (A & B & C & D); split; [now left|]; split; [exact B|]; split; [exact C|]; intros j [Hj| ->]; [now apply D|intros X; now destruct X]|intros j [Hj| ->]; [now apply G|intros X; now destruct X]].
      - cbv zeta. destruct st as [[m k]|]; cbn [good_state] in *.
        + destruct G as (A & B & C & D). destruct (Z.ltb_spec (max_norm (nth i L [])) m) as [H|H]; cbn [good_state].
          * split; [now right|]. split; [exact E|]. split; [reflexivity|]. intros j [Hj| ->] Aj; [specialize (D j Hj Aj); lia|lia].
          * split; [now left|]. split; [exact B|]. split; [exact C|]. intros j [Hj| ->] Aj; [now apply D|lia].
        + split; [now right|]. split; [exact E|]. split; [reflexivity|]. intros j [Hj| ->] Aj; [now destruct (G j Hj)|lia]. }
    specialize (IH _ _ G1). destruct (fold_left f l (f st i)) as [[m k]|]; cbn [good_state] in *.
    + destruct IH as (A & B & C & D). split; [destruct A as [[A|A]|A]; [now left|right; now left|right; now right]|]. split; [exact B|]. split; [exact C|]. intros j [Hj|[Hj|Hj]]; apply D; [left; now left|left; now right|now right].
    + intros j [Hj|[Hj|Hj]]; apply IH; [left; now left|left; now right|now right].
Qed.
Lemma avoid_row_ok : good_state (fun j => (j < n)%nat) (avoid_row n L U).
Proof.
  unfold avoid_row. fold f. pose proof (avoid_fold (seq 0 n) (fun _ => False) None (fun j X => False_ind _ X)) as G.
  destruct (fold_left f (seq 0 n) None) as [[m k]|]; cbn [good_state] in *.
  - destruct G as (A & B & C & D). split; [destruct A as [[]|A]; apply in_seq in A; lia|]. split; [exact B|]. split; [exact C|]. intros j Hj. apply D. right. apply in_seq. lia.
  - intros j Hj. apply G. right. apply in_seq. lia.
Qed.
End Row.

Section One.
Context (n : nat) (Hn : (0 < n)%nat) (rays Dual : list (list Z)) (LI : lin_indep n rays) (DM : dual_matrix n rays Dual).
Context (lll : list (list Z) -> list (list Z) * list (list Z)) (LC : new_basis n (neg_transpose n Dual) (lll (neg_transpose n Dual))).
Let LL := neg_transpose n Dual.
Let L := fst (lll LL).
Let U := snd (lll LL).
Lemma some_row_avoids : exists j, (j < n)%nat /\ nth (n - 1) (nth j U []) 0 <> 0.
Proof.
  destruct (some_nonzero n (fun j => nth (n - 1) (nth j U []) 0)) as [X|X]; [exact X|exfalso].
  unfold new_basis in LC. fold LL in LC. unfold U in X. destruct (lll LL) as [L0 U0]. cbn [snd] in X. destruct LC as (_ & _ & (W & HW) & _).
  destruct (HW (n - 1)%nat (n - 1)%nat ltac:(lia) ltac:(lia)) as [_ E]. rewrite Nat.eqb_refl, sumz_zsum in E. rewrite (zsum_ext n _ (fun _ => 0)) in E; [rewrite zsum_0 in E; discriminate|].
  intros k Hk. change (vat U0 k (n - 1)) with (nth (n - 1) (nth k U0 []) 0). rewrite X by auto. ring.
Qed.
Lemma L_len j : (j < n)%nat -> length (nth j L []) = n.
Proof.
  intros Hj. unfold new_basis in LC. fold LL in LC. unfold L. destruct (lll LL) as [L0 U0]. cbn [fst]. destruct LC as ([A B] & _). rewrite Forall_forall in B. apply B, nth_In. lia.
Qed.
Lemma compute_avoiding_ok : exists i, (i < n)%nat /\ compute_avoiding lll Dual n = Ok (nth i U []) /\ nth (n - 1) (nth i U []) 0 <> 0 /\
  forall j, (j < n)%nat -> nth (n - 1) (nth j U []) 0 <> 0 -> norm (nth i L []) n <= norm (nth j L []) n.
Proof.
  pose proof (avoid_row_ok n L U) as G. unfold compute_avoiding. cbv zeta. fold LL. assert (ELU : lll LL = (L, U)) by (unfold L, U; now destruct (lll LL)). rewrite ELU.
  destruct (avoid_row n L U) as [[m i]|]; cbn [good_state] in G.
  - destruct G as (A & B & C & D). exists i. split; [exact A|]. split; [reflexivity|]. split; [exact B|]. intros j Hj Nj. specialize (D j Hj Nj). rewrite C in D. rewrite !max_norm_norm, !L_len in D by auto. exact D.
  - destruct some_row_avoids as (j & Hj & Nj). now destruct (G j Hj).
Qed.
End One.

Section Total.
Context (n : nat) (Hn : (0 < n)%nat) (rays : list (list Z)) (NV : n_vectors n rays) (LI : lin_indep n rays).
Context (lll : list (list Z) -> list (list Z) * list (list Z)) (LC : lll_contract lll).
Lemma avoiding_vector_eq Dual l : dual_matrix n rays Dual -> avoiding_vector lll l rays = match compute_avoiding lll Dual n with Ok z => z | Err _ => [] end.
Proof.
  intros DM. destruct (dual_exists n rays NV LI) as (c & M & E & _ & _ & EM & DM'). rewrite (dual_unique n rays M Dual Hn LI DM' DM) in EM. unfold avoiding_vector. rewrite (proj1 NV), E. cbn [bind]. rewrite EM. cbn [bind]. reflexivity.
Qed.
Lemma avoiding_vector_ok l : length (avoiding_vector lll l rays) = n /\ primitive n (avoiding_vector lll l rays) /\ nth (n - 1) (avoiding_vector lll l rays) 0 <> 0.
Proof.
  destruct (dual_exists n rays NV LI) as (c & Dual & _ & _ & _ & _ & DM). rewrite (avoiding_vector_eq Dual l DM).
  assert (LC' : new_basis n (neg_transpose n Dual) (lll (neg_transpose n Dual))) by (apply LC; [apply neg_transpose_vectors|exact (LL_det n rays Dual LI DM)]).
  destruct (compute_avoiding_ok n Hn Dual lll LC') as (i & Hi & E & NZ & _). rewrite E. split; [now apply (U_row n Hn rays Dual lll LC')|]. split; [|exact NZ]. now apply (row_primitive n Dual lll LC').
Qed.
End Total.

(** Rays of the cones of the decomposition. *)
Section Rays.
Context (mode : decomposition) (sv : shortvector) (omega : nat -> list (list Z) -> list Z) (ker : list (list Z) -> list Z) (max_det : Z) (n : nat) (v : rvec) (cons : list bcone -> bcone -> Z).
Context (Hn : (0 < n)%nat) (KC : relation_contract ker) (OC : omega_contract omega).
Context (P : list Z -> Prop) (PO : forall l rays, n_vectors n rays -> lin_indep n rays -> P (omega l rays) /\ P (map Z.opp (omega l rays))).
Definition inner (c : bcone) : list (list Z) := match mode with DualDecomposition => s_facets (b_cone c) | _ => s_rays (b_cone c) end.
Lemma det_facets_rays k rays c : det_and_facets k rays = Ok c -> s_rays c = rays.
Proof.
  unfold det_and_facets. destruct (negb (length rays =? k)%nat); [discriminate|]. cbv zeta. destruct (det k (ent rays) =? 0); [discriminate|]. destruct (cancel_facets _ _ _) as [[[fs dual] qs]|]; cbn [bind]; [|discriminate]. intros H. injection H as <-. reflexivity.
Qed.
Lemma Forall_upd (l : list (list Z)) : forall i z, Forall P l -> P z -> Forall P (upd l i z).
Proof. induction l as [|a l IH]; intros i z F Hz; [destruct i; constructor|]. inversion F; subst. destruct i; cbn [upd]; constructor; auto. Qed.
Lemma children_rays coef d rays z : Forall P rays -> P z -> forall ds i ch, children n coef d rays z i ds = Ok ch -> forall c, In (Some c) ch -> Forall P (s_rays (b_cone c)).
Proof.
  intros FR Hz. induction ds as [|di ds IH]; intros i ch E c Hc; cbn [children] in E; [injection E as <-; destruct Hc|].
  destruct (di =? 0).
  - cbn [bind] in E. destruct (children n coef d rays z (S i) ds) as [r|] eqn:E1; cbn [bind] in E; [|discriminate]. injection E as <-. destruct Hc as [Hc|Hc]; [discriminate|]. exact (IH _ _ E1 c Hc).
  - destruct (det_and_facets n (replace_ray rays i z)) as [c0|] eqn:E0; cbn [bind] in E; [|discriminate]. destruct (children n coef d rays z (S i) ds) as [r|] eqn:E1; cbn [bind] in E; [|discriminate]. injection E as <-. destruct Hc as [Hc|Hc]; [|exact (IH _ _ E1 c Hc)]. injection Hc as <-. cbn [b_cone]. rewrite (det_facets_rays _ _ _ E0). now apply Forall_upd.
Qed.
Lemma check_omega_P rays l : n_vectors n rays -> lin_indep n rays -> P (check_omega ker n rays (omega l rays)).
Proof. intros NV LI. unfold check_omega. cbv zeta. destruct (_ || _); now apply PO. Qed.
Lemma step_rays c ch dets : cone_full n (b_cone c) -> Forall P (s_rays (b_cone c)) -> step sv omega ker n c = Ok (Some (ch, dets)) -> forall d, In (Some d) ch -> cone_full n (b_cone d) /\ Forall P (s_rays (b_cone d)).
Proof.
  intros FC FR E d Hd. destruct c as [coef c]. cbn [b_cone] in *. pose proof FC as [OK _]. pose proof OK as (NV & ED & D0 & _). assert (LI : lin_indep n (s_rays c)) by (apply det_indep; now rewrite <- ED).
  split.
  - pose proof (step_spec sv omega ker n Hn KC OC coef c FC) as SS. rewrite E in SS. destruct SS as (z & _ & _ & _ & [LCh CH]). apply (In_nth _ _ None) in Hd as (k & Hk & Ek). rewrite LCh in Hk. destruct (CH k Hk) as [C0 C1]. destruct (Z.eq_dec (det n (ent (upd (s_rays c) k z))) 0) as [Z0|NZ]; [rewrite C0 in Ek by auto; discriminate|]. destruct (C1 NZ) as (c1 & E1 & F1 & _). rewrite E1 in Ek. injection Ek as <-. exact F1.
  - revert E. unfold step. cbn [b_cone b_coef]. destruct (facet_matrix c); cbn [bind]; [|discriminate].
    destruct (dets_decrease _ _); [|destruct sv; [|discriminate]; destruct (dets_decrease _ _); [|discriminate]].
    + destruct (children _ _ _ _ _ _ _) as [r|] eqn:EC; cbn [bind]; [|discriminate]. intros X. injection X as <- _. refine (children_rays _ _ _ _ FR _ _ _ _ EC d Hd). now apply check_omega_P.
    + destruct (children _ _ _ _ _ _ _) as [r|] eqn:EC; cbn [bind]; [|discriminate]. intros X. injection X as <- _. refine (children_rays _ _ _ _ FR _ _ _ _ EC d Hd). now apply check_omega_P.
Qed.
Definition adds (st st' : bstate) : Prop := exists new, delivered st' = delivered st ++ new /\ Forall (fun d => Forall P (inner d)) new.
Lemma adds_refl st st' : delivered st' = delivered st -> adds st st'.
Proof. intros E. exists []. split; [now rewrite app_nil_r|constructor]. Qed.
Lemma adds_trans a b c : adds a b -> adds b c -> adds a c.
Proof. intros (n1 & E1 & F1) (n2 & E2 & F2). exists (n1 ++ n2). split; [now rewrite E2, E1, app_assoc|]. apply Forall_app. now split. Qed.
Lemma deliver_adds c st : Forall P (s_rays (b_cone c)) -> adds st (snd (deliver mode cons c st)).
Proof. intros F. unfold deliver. cbn [snd]. eexists. split; [cbn [delivered]; reflexivity|]. constructor; [|constructor]. unfold inner. destruct mode; exact F. Qed.
Lemma loop_rays rec (HR : forall c st r st', cone_full n (b_cone c) -> Forall P (s_rays (b_cone c)) -> rec c st = Ok (r, st') -> adds st st') mx ch :
  (forall d, In (Some d) ch -> cone_full n (b_cone d) /\ Forall P (s_rays (b_cone d))) ->
  forall k dets st r st', loop rec k mx dets ch st = Ok (r, st') -> adds st st'.
Proof.
  intros HC. induction k as [|k IH]; intros dets st r st' E; cbn [loop] in E; [discriminate|]. destruct (scan dets 0 (mx + 1) None) as [j|]; [|injection E as _ <-; now apply adds_refl].
  destruct (nth j ch None) as [c|] eqn:Ec; [|discriminate]. assert (IC : In (Some c) ch) by (rewrite <- Ec; apply nth_In; destruct (Nat.lt_ge_cases j (length ch)) as [H|H]; [exact H|rewrite nth_overflow in Ec by auto; discriminate]). destruct (HC c IC) as [FC FR].
  destruct (rec c st) as [[r1 st1]|] eqn:ER; cbn [bind] in E; [|discriminate]. specialize (HR _ _ _ _ FC FR ER). cbv zeta in E. destruct (r1 =? -1).
  - injection E as _ <-. exact HR.
  - apply (adds_trans _ _ _ HR). destruct (IH _ _ _ _ E) as (new & E1 & F1). exists new. split; [exact E1|exact F1].
Qed.
Lemma dfs_rays : forall fuel c st r st', cone_full n (b_cone c) -> Forall P (s_rays (b_cone c)) -> dfs fuel mode sv omega ker max_det n v cons c st = Ok (r, st') -> adds st st'.
Proof.
  induction fuel as [|f IH]; intros c st r st' FC FR E; cbn [dfs] in E; [discriminate|]. cbv zeta in E.
  destruct (criterion mode c =? 0); [injection E as _ <-; now apply adds_refl|]. destruct (check_irrational mode n v c); cbn [bind] in E; [|discriminate].
  set (s0 := mkSt (delivered st) (total_uni st) (cur_depth st) (Z.max (max_depth st) (cur_depth st)) (cur_total st) (max_total st)) in *.
  assert (A0 : adds st s0) by now apply adds_refl. apply (adds_trans _ _ _ A0).
  assert (DV : forall x, Ok (deliver mode cons c s0) = Ok x -> adds s0 (snd x)) by (intros x X; injection X as <-; now apply deliver_adds).
  destruct ((max_det =? 0) || (criterion mode c <=? max_det)); [exact (DV (r, st') E)|].
  destruct (step sv omega ker n c) as [[[ch dets]|]|] eqn:ES; cbn [bind] in E; [| |discriminate].
  - destruct (check_children mode n v ch); cbn [bind] in E; [|discriminate]. destruct (loop _ _ _ _ _ _) as [[r2 st2]|] eqn:EL; cbn [bind] in E; [|discriminate]. injection E as _ <-.
    pose proof (step_rays c ch dets FC FR ES) as SR. destruct (loop_rays _ (fun c st r st' A B C => IH c st r st' A B C) _ _ SR _ _ _ _ _ EL) as (new & E1 & F1). exists new. split; [exact E1|exact F1].
  - destruct (criterion mode c <=? 200000); [exact (DV (r, st') E)|discriminate].
Qed.
End Rays.
