(** From the cones passed on to the generating function of the integer points. *)
From Coq Require Import QArith Qfield Lqa.
From Verif Require Import Common ZMat Hermite HermiteProofs Det DetProofs RatVec RatVecSpec RatVecProofs Piped PipedSpec PipedProofs PipedProofs3 PipedProofs4 ConeSpec ConeProofs Irrational IrrationalProofs IrrationalProofs2 IrrationalProofs3 Exponential ExpSpec ExpProofs3 CountSpec Barvinok BarvinokSpec BarvinokProofs BarvinokProofs2 BarvinokProofs3 BarvinokProofs4 P_Barvinok BrionLinear BrionProofs BrionProofs2 BrionProofs3 EulerProofs BrionProofs4 BrionProofs5 Count CountProofs CountProofs2.
Open Scope Z_scope.

Lemma diffs_shift rs s F x : diffs rs (fun y => F (vsub y s)) x = diffs rs F (vsub x s).
Proof. revert x. induction rs as [|r rs IH]; intros x; [reflexivity|]. rewrite !diffs_cons, !IH. now rewrite (vsub_comm x r s). Qed.
Lemma negl_shift n s F : length s = n -> negl n F -> negl n (fun x => F (vsub x s)).
Proof. intros Ls (rs & H & K). exists rs. split; [exact H|]. intros x Hx. rewrite diffs_shift. apply (K (vsub x s)). now apply vsub_len. Qed.
Lemma vsub_vadd p s x : length p = length s -> length x = length s -> (vsub x s = p <-> x = vadd p s).
Proof.
  revert s x. induction p as [|a p IH]; intros [|b s] [|c x] L1 L2; cbn [length] in *; try discriminate; unfold vsub in *; cbn [map vadd]; [tauto|]. specialize (IH s x ltac:(lia) ltac:(lia)). split; intros E; injection E as E1 E2; f_equal; try lia; tauto.
Qed.
Lemma gcoeff_shift n pts s x : length s = n -> length x = n -> (forall p, In p pts -> length p = n) -> gcoeff (gpoints (map (fun p => vadd p s) pts)) x = gcoeff (gpoints pts) (vsub x s).
Proof.
  intros Ls Lx. induction pts as [|p pts IH]; intros H; [reflexivity|]. cbn [map gpoints gcoeff snd fst]. change (gcoeff (map (fun x0 => (1, x0)) (map (fun p0 => vadd p0 s) pts)) x) with (gcoeff (gpoints (map (fun p0 => vadd p0 s) pts)) x). rewrite (IH (fun p' H' => H p' (or_intror H'))).
  pose proof (vsub_vadd p s x ltac:(rewrite (H p (or_introl eq_refl)); auto) ltac:(lia)) as V. destruct (list_eq_dec Z.eq_dec (vadd p s) x) as [E|E], (list_eq_dec Z.eq_dec p (vsub x s)) as [E'|E']; try reflexivity; exfalso; [apply E'; symmetry; apply V; now symmetry|apply E; symmetry; apply V; now symmetry].
Qed.

Section Sum.
Context (n : nat) (sh : list Z -> list Z).
Definition itot (its : list item) (x : list Z) : Z := lsum (map (fun i => b_coef (snd i) * boxed n (coord (snd (fst i))) (b_cone (snd i)) (vsub x (sh (fst (fst i))))) its).
Lemma itot_app a b x : itot (a ++ b) x = itot a x + itot b x.
Proof. unfold itot. rewrite map_app. apply lsum_app. Qed.
Lemma itot_items w p x : itot (items_of w p) x = csum n (coord (fst p)) (snd p) (vsub x (sh w)).
Proof. unfold itot, items_of, csum. rewrite map_map. reflexivity. Qed.
Lemma itot_pieces w ps x : itot (flat_map (items_of w) ps) x = lsum (map (fun p => csum n (coord (fst p)) (snd p) (vsub x (sh w))) ps).
Proof. induction ps as [|p ps IH]; [reflexivity|]. cbn [flat_map map]. rewrite itot_app, itot_items, IH, lsum_cons. reflexivity. Qed.
(** The function a cone stands for. *)
Definition hfun (mode : decomposition) (v : rvec) (R : list (list Z)) (x : list Z) : Z :=
  match mode with IrrationalAllPrimalDecomposition => fgen n (coord v) R x | _ => fpol n (coord v) R x end.
Lemma csum_concat v dss x : csum n v (concat dss) x = lsum (map (fun ds => csum n v ds x) dss).
Proof. induction dss as [|ds dss IH]; [reflexivity|]. cbn [concat map]. rewrite csum_app, IH, lsum_cons. reflexivity. Qed.
Lemma pieces_sum mode v R Ts ps : triangulates n R Ts -> Forall2 (pieceok mode n v) Ts ps -> (forall p d, In p ps -> In d (snd p) -> cone_ok n (b_cone d)) ->
  negl n (fun x => lsum (map (fun p => csum n (coord (fst p)) (snd p) x) ps) - hfun mode v R x).
Proof.
  intros TR F OK. destruct mode; cbn [hfun].
  - apply (negl_ext n (fun x => csum n (coord v) (concat (map snd ps)) x - fpol n (coord v) R x)).
    + intros x _. f_equal. rewrite csum_concat, map_map. clear -F. induction F as [|t p Ts ps PO F IH]; [reflexivity|]. cbn [map]. rewrite !lsum_cons, IH. now rewrite (proj1 PO).
    + apply (dual_cone_sum n (coord v) R Ts); [exact TR|]. clear -F OK. induction F as [|t p Ts ps PO F IH]; [constructor|]. cbn [map]. constructor; [|apply IH; intros p' d Hp Hd; exact (OK p' d (or_intror Hp) Hd)]. split; [intros d Hd; exact (OK p d (or_introl eq_refl) Hd)|]. exact (proj2 PO).
  - apply (negl_ext n (fun x => psum n (map (fun p => (coord (fst p), snd p)) ps) x - fpol n (coord v) R x)).
    + intros x _. unfold psum. rewrite map_map. reflexivity.
    + apply (primal_cone_sum n (coord v) R Ts); [exact TR|]. clear -F OK. induction F as [|t p Ts ps PO F IH]; [constructor|]. cbn [map]. constructor; [|apply IH; intros p' d Hp Hd; exact (OK p' d (or_intror Hp) Hd)]. split; [intros d Hd; exact (OK p d (or_introl eq_refl) Hd)|]. exact PO.
  - apply (negl_ext n (fun x => 0)); [|apply negl_zero]. intros x _.
    assert (E : csum n (coord v) (concat (map snd ps)) x = fgen n (coord v) R x).
    { apply (exact_cone_sum n (coord v) R Ts); [exact TR|]. clear -F OK. induction F as [|t p Ts ps PO F IH]; [constructor|]. cbn [map]. constructor; [|apply IH; intros p' d Hp Hd; exact (OK p' d (or_intror Hp) Hd)]. split; [intros d Hd; exact (OK p d (or_introl eq_refl) Hd)|]. exact (proj2 PO). }
    rewrite <- E, csum_concat, map_map. assert (E2 : lsum (map (fun p => csum n (coord (fst p)) (snd p) x) ps) = lsum (map (fun x0 => csum n (coord v) (snd x0) x) ps)); [|lia]. clear -F. induction F as [|t p Ts ps PO F IH]; [reflexivity|]. cbn [map]. rewrite !lsum_cons, IH. now rewrite (proj1 PO).
Qed.
Lemma cones_sum P cones pss : (forall c, In c cones -> triangulates n (snd (fst c)) (q_tri P (snd (fst c))) /\ length (sh (snd c)) = n) -> Forall2 (cone_pieces n P) cones pss ->
  (forall i, In i (flat_map (fun cp => flat_map (items_of (snd (fst cp))) (snd cp)) (List.combine cones pss)) -> cone_ok n (b_cone (snd i))) ->
  negl n (fun x => itot (flat_map (fun cp => flat_map (items_of (snd (fst cp))) (snd cp)) (List.combine cones pss)) x - lsum (map (fun c => hfun (q_mode P) (fst (fst c)) (snd (fst c)) (vsub x (sh (snd c)))) cones)).
Proof.
  intros HC F. revert HC. induction F as [|[[v R] w] ps cones pss CP F IH]; intros HC OK; [apply negl_zero|]. cbn [List.combine flat_map map] in *. cbn [fst snd] in *.
  specialize (IH (fun c Hc => HC c (or_intror Hc)) (fun i Hi => OK i (proj2 (in_app_iff _ _ _) (or_intror Hi)))). destruct (HC _ (or_introl eq_refl)) as [TR LS]. cbn [fst snd] in TR, LS.
  pose proof (negl_shift n (sh w) _ LS (pieces_sum (q_mode P) v R (q_tri P R) ps TR CP (fun p d Hp Hd => OK (w, fst p, d) (proj2 (in_app_iff _ _ _) (or_introl (proj2 (in_flat_map _ _ _) (ex_intro _ p (conj Hp (in_map (fun d => (w, fst p, d)) _ _ Hd))))))))) as PS. cbv beta in PS.
  refine (negl_ext n _ _ _ (negl_add n _ _ PS IH)). intros x _. cbv beta. rewrite itot_app, itot_pieces, lsum_cons. cbn [fst snd]. lia.
Qed.
Definition gcone_of (x : xitem) : Z * list (list Z) * list (list Z) := let '(w, v, d, pts) := x in (b_coef d, s_rays (b_cone d), map (fun p => vadd p (sh w)) pts).
Definition lfun_of (x : xitem) : lfun := let '(w, v, d, pts) := x in fun y => boxed n (coord v) (b_cone d) (vsub y (sh w)).
Lemma item_matches w v d pts : exact_points n (w, v, d, pts) -> length (sh w) = n -> matches n (gcone_of (w, v, d, pts), lfun_of (w, v, d, pts)).
Proof.
  intros (_ & OK & ND & HP) LS. pose proof OK as ((LR & FR) & _). assert (LP : forall p, In p pts -> length p = n) by (intros p Hp; apply HP in Hp; exact (proj1 Hp)). split.
  - unfold gc_ok, gcone_of. cbn [fst snd]. split; [lia|]. split; [exact FR|]. apply Forall_map, Forall_forall. intros p Hp. rewrite vadd_len; [auto|]. rewrite (LP p Hp). auto.
  - intros x Hx. unfold gcone_of, lfun_of. cbn [fst snd]. rewrite (diffs_shift _ (sh w) (boxed n (coord v) (b_cone d))). rewrite (gcoeff_shift n) by auto. apply (cone_matches n (b_cone d) v pts OK ND HP). now apply vsub_len.
Qed.
Lemma total_itot xs x : total (map (fun y => (gcone_of y, lfun_of y)) xs) x = itot (map fst xs) x.
Proof. unfold total, itot. rewrite !map_map. apply lsum_ext. intros [[[w v] d] pts] _. reflexivity. Qed.
Theorem items_generate xs points : Forall (exact_points n) xs -> (forall x, In x xs -> length (sh (fst (fst (fst x)))) = n) -> Forall (fun p => length p = n) points ->
  negl n (fun x => gcoeff (gpoints points) x - itot (map fst xs) x) -> generates n (map gcone_of xs) points.
Proof.
  intros FX LS FP N. replace (map gcone_of xs) with (map fst (map (fun y => (gcone_of y, lfun_of y)) xs)) by (rewrite map_map; reflexivity). apply generates_from_negl.
  - apply Forall_map, Forall_forall. intros [[[w v] d] pts] Hx. rewrite Forall_forall in FX. apply item_matches; [exact (FX _ Hx)|exact (LS _ Hx)].
  - exact FP.
  - revert N. apply negl_ext. intros x _. now rewrite total_itot.
Qed.
End Sum.
