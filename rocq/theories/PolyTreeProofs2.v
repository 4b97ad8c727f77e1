(** Expansion of shared trees with cached results. *)
From Coq Require Import QArith.
From Verif Require Import Common ZMat Series HermiteProofs PolyTree PolyTreeSpec PolyTreeProofs.
Open Scope Z_scope.

Section session.
Variable nodes : list pnode.
Variable ten : Z.
Hypothesis Ord : ordered nodes.

Lemma sum_inv ch f : den_sum nodes ten ch f -> match ch with [] => forall k, f k = 0 | c :: ch' => exists fc fr, denotes nodes ten c fc /\ den_sum nodes ten ch' fr /\ forall k, f k = zadd fc fr k end.
Proof. intros H. destruct H; eauto. Qed.
Lemma prod_inv ch f : den_prod nodes ten ch f -> match ch with [] => forall k, f k = zone k | c :: ch' => exists fc fr, denotes nodes ten c fc /\ den_prod nodes ten ch' fr /\ forall k, f k = zmul fc fr k end.
Proof. intros H. destruct H; eauto. Qed.
Lemma den_inv id f : denotes nodes ten id f -> exists nd, nth_error nodes id = Some nd /\
  match nd with
  | PT c e => 0 <= e /\ forall k, f k = monomial c e k
  | PAdd ch => den_sum nodes ten ch f
  | PMul ch => ch <> [] /\ den_prod nodes ten ch f
  | PDiv ch => match ch with a :: b :: _ => exists fa fb, denotes nodes ten a fa /\ denotes nodes ten b fb /\ rounded_quotient ten fa fb f | _ => False end
  | PExp ch e => match ch with c :: _ => 0 < e < 2 ^ 32 /\ exists fc, denotes nodes ten c fc /\ forall k, f k = zpower fc (Z.to_nat e) k | _ => False end
  end.
Proof. intros H. destruct H; eexists; (split; [eassumption|]); cbv iota; eauto 8. split; [discriminate|auto]. Qed.
Lemma ord_ch id nd c : nth_error nodes id = Some nd -> In c (children nd) -> (c < id)%nat.
Proof. apply Ord. Qed.
(** Denotations are unique. *)
Lemma denotes_unique : forall id f g, denotes nodes ten id f -> denotes nodes ten id g -> forall k, f k = g k.
Proof.
  intros id. induction id as [id IH] using (well_founded_induction lt_wf). intros f g F G. pose proof ord_ch as OC.
  assert (SU : forall ch, (forall c, In c ch -> (c < id)%nat) -> forall f g, den_sum nodes ten ch f -> den_sum nodes ten ch g -> forall k, f k = g k).
  { induction ch as [|c ch IHc]; intros Hc f1 g1 S1 S2 k; apply sum_inv in S1, S2; [now rewrite S1, S2|]. destruct S1 as (fc & fr & A1 & A2 & A3), S2 as (gc & gr & B1 & B2 & B3).
    rewrite A3, B3. unfold zadd. rewrite (IH c (Hc c (or_introl eq_refl)) _ _ A1 B1). f_equal. apply IHc; auto. intros x Hx. apply Hc. now right. }
  assert (PU : forall ch, (forall c, In c ch -> (c < id)%nat) -> forall f g, den_prod nodes ten ch f -> den_prod nodes ten ch g -> forall k, f k = g k).
  { induction ch as [|c ch IHc]; intros Hc f1 g1 S1 S2 k; apply prod_inv in S1, S2; [now rewrite S1, S2|]. destruct S1 as (fc & fr & A1 & A2 & A3), S2 as (gc & gr & B1 & B2 & B3).
    rewrite A3, B3. apply (zmul_ext _ _ _ _ k); auto; intros; [apply (IH c); auto; apply Hc; now left|]. apply IHc; auto. intros x Hx. apply Hc. now right. }
  intros k. destruct (den_inv _ _ F) as (nd & En & F0). destruct (den_inv _ _ G) as (nd' & En' & G0). clear F G. rename F0 into F, G0 into G. rewrite En in En'. injection En' as <-.
  pose proof (fun c => ord_ch id nd c En) as CL. destruct nd as [c e|ch|ch|ch|ch e].
  - destruct F as [_ F], G as [_ G]. now rewrite F, G.
  - apply (SU ch); auto.
  - apply (PU ch); tauto || auto.
  - destruct ch as [|a [|b ch]]; try contradiction. destruct F as (fa & fb & F1 & F2 & F3), G as (ga & gb & G1 & G2 & G3). apply (quotient_unique ten fa fb _ _ ga gb F3 G3); [apply (IH a)|apply (IH b)]; auto; apply CL; cbn [children In]; auto.
  - destruct ch as [|c ch]; try contradiction. destruct F as (_ & fc & F1 & F2), G as (_ & gc & G1 & G2). rewrite F2, G2. apply (zpower_ext _ _ k); auto. intros m _. apply (IH c); auto. apply CL. cbn [children In]. auto.
Qed.
(** Clean cells hold the first d+1 coefficients; all arrays are long enough. *)
Definition cells_ok (d : nat) (st : list cell) : Prop :=
  length st = length nodes /\ forall id c, nth_error st id = Some c -> (d < length (cached c))%nat /\ (dirty c = false -> forall f, denotes nodes ten id f -> forall k, (k <= d)%nat -> nth k (cached c) 0 = f k).
Lemma cells_weaken d d' st : (d' <= d)%nat -> cells_ok d st -> cells_ok d' st.
Proof. intros L [H K]. split; auto. intros id c E. destruct (K id c E) as [K1 K2]. split; [lia|]. intros D f F k Hk. apply (K2 D f F). lia. Qed.
Lemma overwrite_ok new : forall old, (length new <= length old)%nat -> exists l, overwrite old new = Ok l /\ length l = length old /\ forall k, (k < length new)%nat -> nth k l 0 = nth k new 0.
Proof.
  induction new as [|x new IH]; intros old Lt; [exists old; split; [destruct old; reflexivity|]; split; auto; cbn; intros; lia|]. destruct old as [|y old]; [cbn in Lt; lia|]. cbn [length overwrite] in *. destruct (IH old ltac:(lia)) as (l & E & Ll & N). rewrite E. cbn [bind]. exists (x :: l). repeat split; [cbn [length]; lia|]. intros [|k] Hk; cbn [nth]; auto. apply N. cbn [length] in Hk. lia.
Qed.
Lemma nth_error_upd {A} (l : list A) : forall i x j, nth_error (upd l i x) j = if (i =? j)%nat then (if (i <? length l)%nat then Some x else None) else nth_error l j.
Proof.
  induction l as [|a l IH]; intros i x j; cbn [upd length].
  - destruct (i =? j)%nat eqn:E; destruct j; auto.
  - destruct i as [|i]; destruct j as [|j]; cbn [nth_error Nat.eqb]; auto. rewrite IH. destruct (i =? j)%nat; auto.
Qed.
Lemma store_ok d st id r f : cells_ok d st -> denotes nodes ten id f -> (id < length nodes)%nat -> repr d r f -> exists st', store st id r = Ok st' /\ cells_ok d st'.
Proof.
  intros [L K] D Hid [Lr Nr]. unfold store. destruct (nth_error st id) as [c|] eqn:E; [|apply nth_error_None in E; lia]. destruct (K id c E) as [K1 K2]. destruct (overwrite_ok r (cached c) ltac:(lia)) as (l & El & Ll & Nl). rewrite El. cbn [bind]. eexists. split; [reflexivity|]. split; [now rewrite length_upd|].
  intros j c' Ej. rewrite nth_error_upd in Ej. destruct (Nat.eqb_spec id j) as [->|N]; [|now apply K]. destruct (j <? length st)%nat; [|discriminate]. injection Ej as <-. cbn [cached dirty]. split; [lia|]. intros _ g G k Hk. rewrite Nl, Nr by lia. apply (denotes_unique j); auto.
Qed.
Lemma add_lists_ok d a b f g : repr d a f -> repr d b g -> repr d (add_lists a b) (zadd f g).
Proof.
  assert (G : forall a b, length a = length b -> length (add_lists a b) = length a /\ forall k, nth k (add_lists a b) 0 = nth k a 0 + nth k b 0).
  { clear. induction a as [|x a IH]; intros [|y b] L; cbn [add_lists length] in *; try lia; [split; auto; intros [|k]; reflexivity|]. destruct (IH b ltac:(lia)) as [I1 I2]. split; [lia|]. intros [|k]; cbn [nth]; auto. }
  intros [La Na] [Lb Nb]. destruct (G a b ltac:(lia)) as [G1 G2]. split; [lia|]. intros k Hk. rewrite G2, Na, Nb by auto. reflexivity.
Qed.
Lemma repr_zero d : repr d (repeat 0 (d + 1)) zzero.
Proof. split; [apply repeat_length|]. intros k Hk. apply nth_repeat. Qed.
Section level.
Variable d : nat.
Variable ex : list cell -> nat -> outcome (list Z * list cell).
Definition ex_ok (n : nat) : Prop := forall id st f, (id < n)%nat -> cells_ok d st -> denotes nodes ten id f -> exists r st', ex st id = Ok (r, st') /\ repr d r f /\ cells_ok d st'.
Lemma add_children_ok n ch : ex_ok n -> (forall c, In c ch -> (c < n)%nat) -> forall st acc f g, cells_ok d st -> den_sum nodes ten ch f -> repr d acc g ->
  exists r st', add_children ex st acc ch = Ok (r, st') /\ repr d r (zadd g f) /\ cells_ok d st'.
Proof.
  intros EX. induction ch as [|c ch IH]; intros Hc st acc f g OK S R; apply sum_inv in S; cbn [add_children].
  - exists acc, st. split; auto. split; auto. eapply repr_ext; [|exact R]. intros k Hk. unfold zadd. rewrite S. lia.
  - destruct S as (fc & fr & H1 & H2 & H4). destruct (EX c st fc) as (r & st' & E & Rr & OK'); auto; [apply Hc; now left|]. rewrite E. cbn [bind fst snd]. destruct (IH ltac:(intros x Hx; apply Hc; now right) st' (add_lists acc r) fr (zadd g fc) OK' H2 (add_lists_ok _ _ _ _ _ R Rr)) as (r2 & st2 & E2 & R2 & OK2).
    exists r2, st2. split; auto. split; auto. eapply repr_ext; [|exact R2]. intros k Hk. unfold zadd. rewrite H4. unfold zadd. ring.
Qed.
Lemma mul_children_ok n ch : ex_ok n -> (forall c, In c ch -> (c < n)%nat) -> forall st acc f g, cells_ok d st -> den_prod nodes ten ch f -> repr d acc g ->
  exists r st', mul_children d ex st acc ch = Ok (r, st') /\ repr d r (zmul g f) /\ cells_ok d st'.
Proof.
  intros EX. induction ch as [|c ch IH]; intros Hc st acc f g OK S R; apply prod_inv in S; cbn [mul_children].
  - exists acc, st. split; auto. split; auto. eapply repr_ext; [|exact R]. intros k Hk. rewrite zmul_comm, <- (zmul_one g k). apply (zmul_ext _ _ _ _ k); auto.
  - destruct S as (fc & fr & H1 & H2 & H4). destruct (EX c st fc) as (r & st' & E & Rr & OK'); auto; [apply Hc; now left|]. rewrite E. cbn [bind fst snd]. destruct (IH ltac:(intros x Hx; apply Hc; now right) st' (mul_inplace d acc r) fr (zmul g fc) OK' H2 (mul_inplace_ok _ _ _ _ _ R Rr)) as (r2 & st2 & E2 & R2 & OK2).
    exists r2, st2. split; auto. split; auto. eapply repr_ext; [|exact R2]. intros k Hk. rewrite zmul_assoc. apply (zmul_ext _ _ _ _ k); auto.
Qed.
End level.
Lemma t_series_ok d c e : 0 <= e -> exists r, t_series d c e = Ok r /\ repr d r (monomial c e).
Proof.
  intros He. unfold t_series. destruct (e <? 0) eqn:E; [apply Z.ltb_lt in E; lia|]. eexists. split; [reflexivity|]. destruct (e <=? Z.of_nat d) eqn:L.
  - apply Z.leb_le in L. split; [now rewrite length_upd, repeat_length|]. intros k Hk. unfold monomial. destruct (Z.eqb_spec (Z.of_nat k) e) as [<-|N]; [rewrite Nat2Z.id, nth_upd_eq by (rewrite repeat_length; lia); reflexivity|]. rewrite nth_upd_neq by lia. apply nth_repeat.
  - apply Z.leb_gt in L. split; [apply repeat_length|]. intros k Hk. unfold monomial. destruct (Z.eqb_spec (Z.of_nat k) e) as [<-|N]; [lia|]. apply nth_repeat.
Qed.
Lemma repr_pointwise d r f g : (forall k, f k = g k) -> repr d r g -> repr d r f.
Proof. intros H. apply repr_ext. intros k _. now rewrite H. Qed.
Lemma nth_firstn (l : list Z) : forall m k, (k < m)%nat -> nth k (firstn m l) 0 = nth k l 0.
Proof. induction l as [|x l IH]; intros m k H; [now rewrite firstn_nil|]. destruct m; [lia|]. destruct k; cbn [firstn nth]; auto. apply IH. lia. Qed.
Lemma firstn_repr d l f : (d < length l)%nat -> (forall k, (k <= d)%nat -> nth k l 0 = f k) -> repr d (firstn (d + 1) l) f.
Proof. intros L H. split; [rewrite firstn_length; lia|]. intros k Hk. rewrite <- H by auto. apply nth_firstn. lia. Qed.
Lemma expand_ok d : forall fuel, ex_ok d (expand nodes d ten fuel) fuel.
Proof.
  induction fuel as [|fuel IH]; intros id st f Hid OK D; [lia|]. cbn [expand].
  assert (Hn : (id < length nodes)%nat) by (destruct (den_inv id f D) as (nd & En & _); apply nth_error_Some; congruence).
  assert (EX : ex_ok d (expand nodes d ten fuel) id) by (intros i s g Hi; apply IH; lia).
  assert (CL : forall nd, nth_error nodes id = Some nd -> forall c, In c (children nd) -> (c < id)%nat) by (intros; eapply ord_ch; eauto).
  pose proof (proj1 OK) as Ls. pose proof (proj2 OK) as K.
  assert (CE : exists ce, nth_error st id = Some ce) by (destruct (nth_error st id) eqn:E; [eauto|apply nth_error_None in E; lia]). destruct CE as [ce Ece].
  destruct (K id ce Ece) as [K1 K2].
  assert (CACHED : dirty ce = false -> exists r st', (if (length (cached ce) <=? d)%nat then Err OutOfBounds else Ok (firstn (d + 1) (cached ce), st)) = Ok (r, st') /\ repr d r f /\ cells_ok d st').
  { intros DF. destruct (length (cached ce) <=? d)%nat eqn:B; [apply Nat.leb_le in B; lia|]. eexists _, _. split; [reflexivity|]. split; auto. apply firstn_repr; auto. }
  assert (STORE : forall (o : outcome (list Z * list cell)), (exists r st', o = Ok (r, st') /\ repr d r f /\ cells_ok d st') ->
     exists r st', bind o (fun p => bind (store (snd p) id (fst p)) (fun st' => Ok (fst p, st'))) = Ok (r, st') /\ repr d r f /\ cells_ok d st').
  { intros o (r & s & -> & R & OKs). cbn [bind fst snd]. destruct (store_ok d s id r f OKs D Hn R) as (s' & Es & OKs'). rewrite Es. cbn [bind]. exists r, s'. auto. }
  destruct (den_inv id f D) as (nd & H & DI). pose proof (CL nd H) as CH. rewrite H. destruct nd as [c e|ch|ch|ch|ch e].
  - destruct DI as [He Hf]. destruct (t_series_ok d c e He) as (r & E & R). rewrite E. cbn [bind]. exists r, st. split; auto. split; auto. now apply (repr_pointwise d r f (monomial c e)).
  - rewrite Ece. destruct (dirty ce) eqn:DC; cbn [negb]; [|now apply CACHED]. apply STORE. destruct (add_children_ok d _ id ch EX CH st _ f zzero OK DI (repr_zero d)) as (r & s & E & R & OK'). exists r, s. split; auto.
  - rewrite Ece. destruct (dirty ce) eqn:DC; cbn [negb]; [|now apply CACHED]. apply STORE. destruct DI as [NE DI]. destruct ch as [|c ch]; [congruence|]. apply prod_inv in DI. destruct DI as (fc & fr & D1 & D2 & D3). cbn [children] in CH.
    destruct (EX c st fc) as (r & s & E & R & OK'); auto; [apply CH; now left|]. rewrite E. cbn [bind fst snd].
    destruct (mul_children_ok d _ id ch EX ltac:(intros x Hx; apply CH; now right) s r fr fc OK' D2 R) as (r2 & s2 & E2 & R2 & OK2). exists r2, s2. split; auto. split; auto. now apply (repr_pointwise d r2 f (zmul fc fr)).
  - rewrite Ece. destruct (dirty ce) eqn:DC; cbn [negb]; [|now apply CACHED]. apply STORE. destruct ch as [|a [|b ch]]; try contradiction. destruct DI as (fa & fb & D1 & D2 & D3). cbn [children] in CH.
    destruct (EX a st fa) as (r & s & E & R & OK'); auto; [apply CH; now left|]. rewrite E. cbn [bind fst snd].
    destruct (EX b s fb) as (r2 & s2 & E2 & R2 & OK2); auto; [apply CH; right; now left|]. rewrite E2. cbn [bind fst snd].
    destruct D3 as (B0 & c & C & HQ). destruct (div_series_ok d r r2 fa fb c R R2 B0 C ten f HQ) as (q & Eq & Rq). rewrite Eq. cbn [bind]. exists q, s2. auto.
  - rewrite Ece. destruct (dirty ce) eqn:DC; cbn [negb]; [|now apply CACHED]. apply STORE. destruct ch as [|c ch]; try contradiction. destruct DI as (He & fc & D1 & D2). cbn [children] in CH.
    destruct (EX c st fc) as (r & s & E & R & OK'); auto; [apply CH; now left|].
    destruct (power_ok d e r fc R He) as (tb & Et & Rt). rewrite Et, E. cbn [bind fst snd]. eexists _, _. split; [reflexivity|]. split; auto. now apply (repr_pointwise d _ f (zpower fc (Z.to_nat e))).
Qed.
End session.
