(** Merging equal factors: the multiset of factors is kept. *)
From Coq Require Import QArith Permutation.
From Verif Require Import Common Rational Trie Integ Perturb IntegProofs4.
Open Scope Z_scope.

Definition pair_of (d : lp) : Z * Z := (lp_const d, lp_eps d).
Definition expand (l : list lp) : list (Z * Z) :=
  flat_map (fun d => if lp_const d =? 0 then [] else repeat (pair_of d) (Z.to_nat (lp_pow d))) l.
Definition pending (l : list lp) : list (Z * Z) :=
  flat_map (fun d => if (lp_const d =? 0) || negb (lp_pow d =? 0) then [] else [pair_of d]) l.
Definition zeros (l : list lp) : list lp := filter (fun d => lp_const d =? 0) l.
Fixpoint mark (x : lp) (l : list lp) : list lp :=
  match l with
  | [] => []
  | y :: l' => (if (lp_const y =? lp_const x) && (lp_eps y =? lp_eps x) && (lp_pow y =? 0) then mkLp (lp_const y) (lp_eps y) (-1) else y) :: mark x l'
  end.
Fixpoint hits (x : lp) (l : list lp) : nat :=
  match l with
  | [] => O
  | y :: l' => if (lp_const y =? lp_const x) && (lp_eps y =? lp_eps x) && (lp_pow y =? 0) then S (hits x l') else hits x l'
  end.
Lemma upd_app {A} (p q : list A) x y : upd (p ++ x :: q) (length p) y = p ++ y :: q.
Proof. induction p as [|a p IH]; cbn; [reflexivity|]. now rewrite IH. Qed.
Lemma nth_mid {A} (p q : list A) x d : nth (length p) (p ++ x :: q) d = x.
Proof. rewrite app_nth2, Nat.sub_diag; auto. Qed.
Lemma merge_equal_ok x : forall rest p cnt,
  merge_equal (seq (length p) (length rest)) x (p ++ rest) cnt = (p ++ mark x rest, cnt + Z.of_nat (hits x rest)).
Proof.
  induction rest as [|y rest IH]; intros p cnt; cbn [length seq merge_equal mark hits]; [f_equal; lia|].
  rewrite nth_mid, upd_app.
  destruct ((lp_const y =? lp_const x) && (lp_eps y =? lp_eps x) && (lp_pow y =? 0)) eqn:E.
  - pose proof (IH (p ++ [mkLp (lp_const y) (lp_eps y) (-1)]) (cnt + 1)) as H. rewrite app_length in H. cbn [length] in H. rewrite Nat.add_1_r in H. rewrite <- !app_assoc in H. cbn [app] in H. rewrite H. f_equal. lia.
  - pose proof (IH (p ++ [y]) cnt) as H. rewrite app_length in H. cbn [length] in H. rewrite Nat.add_1_r in H. rewrite <- !app_assoc in H. cbn [app] in H. rewrite H. reflexivity.
Qed.
Lemma mark_length x l : length (mark x l) = length l.
Proof. induction l; cbn; auto. Qed.
Lemma mark_zeros x l : lp_const x <> 0 -> zeros (mark x l) = zeros l.
Proof.
  intros H. unfold zeros. induction l as [|y l IH]; cbn [mark filter]; auto.
  destruct (Z.eqb_spec (lp_const y) (lp_const x)) as [E|E]; cbn [andb].
  - destruct ((lp_eps y =? lp_eps x) && (lp_pow y =? 0)); cbn [lp_const]; rewrite IH; destruct (Z.eqb_spec (lp_const y) 0); auto; congruence.
  - rewrite IH. reflexivity.
Qed.
Lemma mark_pending x l : lp_const x <> 0 -> Permutation (repeat (pair_of x) (hits x l) ++ pending (mark x l)) (pending l).
Proof.
  intros H. induction l as [|y l IH]; cbn [mark hits]; [constructor|].
  destruct ((lp_const y =? lp_const x) && (lp_eps y =? lp_eps x) && (lp_pow y =? 0)) eqn:E.
  - apply andb_true_iff in E as [E E3]. apply andb_true_iff in E as [E1 E2]. apply Z.eqb_eq in E1, E2, E3.
    unfold pending. cbn [flat_map lp_const lp_pow]. rewrite E3. destruct (Z.eqb_spec (lp_const y) 0) as [Z0|Z0]; [congruence|]. cbn [orb negb Z.eqb app repeat].
    fold (pending (mark x l)) (pending l). replace (pair_of y) with (pair_of x) by (unfold pair_of; congruence). constructor. exact IH.
  - unfold pending. cbn [flat_map]. fold (pending (mark x l)) (pending l). destruct ((lp_const y =? 0) || negb (lp_pow y =? 0)); cbn [app]; auto.
    eapply perm_trans; [apply Permutation_sym, Permutation_middle|]. constructor. exact IH.
Qed.
Lemma mark_pow x l : Forall (fun d => lp_pow d = 0 \/ (lp_pow d = -1 /\ lp_const d <> 0)) l -> lp_const x <> 0 ->
  Forall (fun d => lp_pow d = 0 \/ (lp_pow d = -1 /\ lp_const d <> 0)) (mark x l).
Proof.
  intros H Hx. induction H as [|y l Hy HL IH]; cbn [mark]; constructor; auto.
  destruct (Z.eqb_spec (lp_const y) (lp_const x)) as [E|E]; cbn [andb]; auto. destruct ((lp_eps y =? lp_eps x) && (lp_pow y =? 0)); auto. right. cbn. split; congruence.
Qed.
Lemma expand_app p q : expand (p ++ q) = expand p ++ expand q.
Proof. unfold expand. apply flat_map_app. Qed.

(** what is known about the processed part *)
Definition settled (p : list lp) (loc : option nat) (E T : Z) : Prop :=
  match loc with
  | None => Forall (fun d => lp_const d <> 0) p /\ E = 1 /\ T = 0
  | Some k => exists p1 z p2, p = p1 ++ z :: p2 /\ k = length p1 /\ lp_const z = 0 /\ lp_eps z = E /\ lp_pow z = T /\
      Forall (fun d => lp_const d = 0 -> lp_pow d = -1) (p1 ++ p2)
  end.
Lemma settled_snoc p loc E T x : settled p loc E T -> (lp_const x = 0 -> lp_pow x = -1) -> (loc = None -> lp_const x <> 0) -> settled (p ++ [x]) loc E T.
Proof.
  destruct loc as [k|]; cbn [settled].
  - intros (p1 & z & p2 & -> & K & Z0 & Z1 & Z2 & F) H _. exists p1, z, (p2 ++ [x]). rewrite <- app_assoc. cbn [app]. split; auto. split; auto. split; auto. split; auto. split; auto.
    rewrite app_assoc. apply Forall_app. split; auto.
  - intros (F & A & B) H N. split; auto. apply Forall_app. split; auto.
Qed.
Lemma merge_loop_ok : forall m rest, length rest = m -> forall p loc E T,
  settled p loc E T ->
  Forall (fun d => lp_pow d = 0 \/ (lp_pow d = -1 /\ lp_const d <> 0)) rest ->
  exists p' loc', merge_loop (seq (length p) (length rest)) (length (p ++ rest)) (p ++ rest) loc = (p', loc') /\ length p' = length (p ++ rest) /\
    settled p' loc' (E * zprod (map lp_eps (zeros rest))) (T + Z.of_nat (length (zeros rest))) /\
    (loc' = None <-> loc = None /\ zeros rest = []) /\
    Permutation (expand p') (expand p ++ pending rest).
Proof.
  induction m as [|m IH]; intros rest L p loc E T ST FR.
  - destruct rest; [|discriminate]. cbn [length seq merge_loop zeros filter map zprod fold_right]. exists p, loc. rewrite app_nil_r.
    change (zprod []) with 1. rewrite Z.mul_1_r. change (T + Z.of_nat 0) with (T + 0). rewrite Z.add_0_r. cbn [pending flat_map]. rewrite app_nil_r. split; auto. split; auto. split; auto. split; [tauto|apply Permutation_refl].
  - destruct rest as [|x rest]; [discriminate|]. cbn [length] in L. injection L as L.
    pose proof (Forall_inv FR) as FX. pose proof (Forall_inv_tail FR) as FT.
    cbn [length seq merge_loop]. rewrite nth_mid.
    (* a uniform way to use IH with x replaced by x' appended *)
    assert (STEP : forall x' rest' loc1 E1 T1 q, length rest' = m -> length q = length p -> settled (q ++ [x']) loc1 E1 T1 ->
      Forall (fun d => lp_pow d = 0 \/ (lp_pow d = -1 /\ lp_const d <> 0)) rest' ->
      exists p' loc', merge_loop (seq (S (length p)) (length rest)) (length (p ++ x :: rest)) (q ++ x' :: rest') loc1 = (p', loc') /\ length p' = length (p ++ x :: rest) /\
        settled p' loc' (E1 * zprod (map lp_eps (zeros rest'))) (T1 + Z.of_nat (length (zeros rest'))) /\
        (loc' = None <-> loc1 = None /\ zeros rest' = []) /\
        Permutation (expand p') (expand (q ++ [x']) ++ pending rest')).
    { intros x' rest' loc1 E1 T1 q Lr Lq St Fr. destruct (IH rest' Lr (q ++ [x']) loc1 E1 T1 St Fr) as (p' & loc' & H1 & H2 & H3 & H4 & H5).
      exists p', loc'. rewrite !app_length in H1, H2. cbn [length] in H1, H2. rewrite <- app_assoc in H1. cbn [app] in H1.
      rewrite !app_length. cbn [length]. rewrite Lq in H1, H2. rewrite Lr in H1, H2. rewrite L.
      replace (length p + 1)%nat with (S (length p)) in H1 by lia. replace (length p + 1)%nat with (S (length p)) in H2 by lia.
      replace (length p + S m)%nat with (S (length p) + m)%nat by lia. rewrite app_length, Lq in H1. cbn [length] in H1. replace (length p + 1)%nat with (S (length p)) in H1 by lia. exact (conj H1 (conj H2 (conj H3 (conj H4 H5)))). }
    destruct (Z.ltb_spec (lp_pow x) 0) as [Neg|NN].
    + destruct FX as [FX|[FX FX']]; [lia|]. destruct (STEP x rest loc E T p L eq_refl) as (p' & loc' & H1 & H2 & H3 & H4 & H5); auto.
      { apply settled_snoc; auto. }
      exists p', loc'. unfold zeros. cbn [filter]. destruct (Z.eqb_spec (lp_const x) 0); [congruence|]. fold (zeros rest). split; auto. split; auto. split; auto. split; auto.
      unfold pending. cbn [flat_map]. rewrite FX. destruct (Z.eqb_spec (lp_const x) 0); [congruence|]. cbn [orb negb Z.eqb app]. fold (pending rest).
      rewrite expand_app in H5. cbn [expand flat_map] in H5. rewrite FX in H5. destruct (Z.eqb_spec (lp_const x) 0); [congruence|]. cbn [Z.to_nat repeat app] in H5. rewrite app_nil_r in H5. exact H5.
    + destruct FX as [FX|[FX FX']]; [|lia]. destruct (Z.eqb_spec (lp_const x) 0) as [Cz|Cz].
      * destruct loc as [k|].
        -- cbn [settled] in ST. destruct ST as (p1 & z & p2 & -> & -> & Z0 & Z1 & Z2 & F).
           rewrite <- app_assoc. cbn [app]. rewrite nth_mid, upd_app.
           set (z' := mkLp (lp_const z) (lp_eps z * lp_eps x) (lp_pow z + 1)). set (x' := mkLp (lp_const x) (lp_eps x) (-1)).
           assert (U : upd (p1 ++ z' :: p2 ++ x :: rest) (length (p1 ++ z :: p2)) x' = (p1 ++ z' :: p2) ++ x' :: rest).
           { replace (length (p1 ++ z :: p2)) with (length (p1 ++ z' :: p2)) by (rewrite !app_length; reflexivity). etransitivity; [|apply (upd_app (p1 ++ z' :: p2) rest x x')]. rewrite <- app_assoc. reflexivity. }
           rewrite U.
           replace (p1 ++ z :: p2 ++ x :: rest) with ((p1 ++ z :: p2) ++ x :: rest) by (now rewrite <- app_assoc).
           destruct (STEP x' rest (Some (length p1)) (E * lp_eps x) (T + 1) (p1 ++ z' :: p2) L) as (p' & loc' & H1 & H2 & H3 & H4 & H5); auto.
           { rewrite !app_length. reflexivity. }
           { cbn [settled]. exists p1, z', (p2 ++ [x']). rewrite <- app_assoc. cbn [app]. split; auto. split; auto. split; [exact Z0|]. split; [subst z'; cbn; congruence|]. split; [subst z'; cbn; congruence|].
             rewrite app_assoc. apply Forall_app. split; auto. }
           exists p', loc'. split; [exact H1|]. split; [exact H2|]. unfold zeros. cbn [filter]. destruct (Z.eqb_spec (lp_const x) 0); [|congruence]. fold (zeros rest). cbn [map length]. rewrite Nat2Z.inj_succ.
           change (zprod (lp_eps x :: map lp_eps (zeros rest))) with (lp_eps x * zprod (map lp_eps (zeros rest))).
           split; [replace (E * (lp_eps x * zprod (map lp_eps (zeros rest)))) with (E * lp_eps x * zprod (map lp_eps (zeros rest))) by ring; replace (T + Z.succ (Z.of_nat (length (zeros rest)))) with (T + 1 + Z.of_nat (length (zeros rest))) by lia; exact H3|].
           split.
           { split; intros HH; [|destruct HH; discriminate]. exfalso. apply H4 in HH. destruct HH; discriminate. }
           unfold pending. cbn [flat_map]. destruct (Z.eqb_spec (lp_const x) 0); [|congruence]. cbn [orb app]. fold (pending rest).
           rewrite !expand_app in *. cbn [expand flat_map] in *. subst x' z'. cbn [lp_const] in *. rewrite Cz, Z0 in *. cbn [Z.eqb app] in *. rewrite app_nil_r in H5. exact H5.
        -- cbn [settled] in ST. destruct ST as (F & -> & ->). rewrite upd_app. set (x' := mkLp (lp_const x) (lp_eps x) 1).
           destruct (STEP x' rest (Some (length p)) (lp_eps x) 1 p L eq_refl) as (p' & loc' & H1 & H2 & H3 & H4 & H5); auto.
           { cbn [settled]. exists p, x', []. rewrite app_nil_r. split; auto. split; auto. split; auto. split; auto. split; auto. eapply Forall_impl; [|exact F]. cbv beta. tauto. }
           exists p', loc'. split; [exact H1|]. split; [exact H2|]. unfold zeros. cbn [filter]. destruct (Z.eqb_spec (lp_const x) 0); [|congruence]. fold (zeros rest). cbn [map length]. rewrite Nat2Z.inj_succ.
           change (zprod (lp_eps x :: map lp_eps (zeros rest))) with (lp_eps x * zprod (map lp_eps (zeros rest))).
           split; [rewrite Z.mul_1_l; replace (0 + Z.succ (Z.of_nat (length (zeros rest)))) with (1 + Z.of_nat (length (zeros rest))) by lia; exact H3|].
           split.
           { split; intros HH; [|destruct HH; discriminate]. exfalso. apply H4 in HH. destruct HH; discriminate. }
           unfold pending. cbn [flat_map]. destruct (Z.eqb_spec (lp_const x) 0); [|congruence]. cbn [orb app]. fold (pending rest).
           rewrite expand_app in H5. cbn [expand flat_map] in H5. subst x'. cbn [lp_const] in H5. rewrite Cz in H5. cbn [Z.eqb app] in H5. rewrite app_nil_r in H5. exact H5.
      * replace (length (p ++ x :: rest) - S (length p))%nat with (length rest) by (rewrite app_length; cbn [length]; lia).
        pose proof (merge_equal_ok x rest (p ++ [x]) 1) as ME. rewrite app_length in ME. cbn [length] in ME. rewrite Nat.add_1_r in ME. rewrite <- !app_assoc in ME. cbn [app] in ME. rewrite ME.
        rewrite upd_app. set (x' := mkLp (lp_const x) (lp_eps x) (1 + Z.of_nat (hits x rest))).
        destruct (STEP x' (mark x rest) loc E T p) as (p' & loc' & H1 & H2 & H3 & H4 & H5); auto.
        { now rewrite mark_length. }
        { apply settled_snoc; auto; subst x'; cbn; tauto. }
        { apply mark_pow; auto. }
        exists p', loc'. split; [exact H1|]. split; [exact H2|]. rewrite mark_zeros in H3, H4 by auto. unfold zeros. cbn [filter]. destruct (Z.eqb_spec (lp_const x) 0); [congruence|]. fold (zeros rest).
        split; [exact H3|]. split; [exact H4|]. eapply perm_trans; [exact H5|]. rewrite expand_app, <- app_assoc. apply Permutation_app_head.
        cbn [expand flat_map]. subst x'. cbn [lp_const lp_pow]. destruct (Z.eqb_spec (lp_const x) 0); [congruence|]. rewrite app_nil_r.
        replace (Z.to_nat (1 + Z.of_nat (hits x rest))) with (S (hits x rest)) by lia. cbn [repeat].
        unfold pending at 2. cbn [flat_map]. rewrite FX. destruct (Z.eqb_spec (lp_const x) 0); [congruence|]. cbn [orb negb Z.eqb app]. fold (pending rest).
        change (pair_of {| lp_const := lp_const x; lp_eps := lp_eps x; lp_pow := 1 + Z.of_nat (hits x rest) |}) with (pair_of x).
        constructor. now apply mark_pending.
Qed.

Lemma pending_all a : Forall (fun d => lp_pow d = 0) a -> pending a = map pair_of (filter (fun d => negb (lp_const d =? 0)) a).
Proof.
  induction 1 as [|x a Hx Ha IH]; [reflexivity|]. unfold pending. cbn [flat_map filter]. fold (pending a). rewrite Hx, IH. destruct (lp_const x =? 0); reflexivity.
Qed.
Lemma update_powers_ok a : Forall (fun d => lp_pow d = 0) a -> zeros a <> [] ->
  exists z ds, update_powers a = Ok (z :: ds) /\ length (z :: ds) = length a /\ lp_const z = 0 /\
    lp_eps z = zprod (map lp_eps (zeros a)) /\ lp_pow z = Z.of_nat (length (zeros a)) /\
    Forall (fun d => lp_const d = 0 -> lp_pow d = -1) ds /\
    Permutation (expand ds) (map pair_of (filter (fun d => negb (lp_const d =? 0)) a)).
Proof.
  intros F N. unfold update_powers.
  destruct (merge_loop_ok (length a) a eq_refl [] None 1 0) as (p' & loc' & H1 & H2 & H3 & H4 & H5).
  { cbn. auto. }
  { eapply Forall_impl; [|exact F]. cbv beta. tauto. }
  cbn [length app] in H1, H2. rewrite H1. rewrite Z.mul_1_l, Z.add_0_l in H3. cbn [expand flat_map app] in H5. rewrite pending_all in H5 by auto.
  destruct loc' as [k|]; [|exfalso; apply N; apply H4; auto].
  cbn [settled] in H3. destruct H3 as (p1 & z & p2 & -> & -> & Z0 & Z1 & Z2 & G).
  rewrite expand_app in H5. cbn [expand flat_map] in H5. rewrite Z0 in H5. cbn [Z.eqb app] in H5. fold (expand p2) in H5.
  destruct p1 as [|y p1].
  - cbn [length Nat.ltb Nat.leb app]. exists z, p2. split; auto. cbn [app] in *. split; auto.
  - cbn [length]. change (0 <? S (length p1))%nat with true. cbv iota.
    exists z, (p1 ++ y :: p2). cbn [app upd nth]. rewrite nth_mid, upd_app. split; auto. split; [cbn [app length] in *; rewrite <- H2, !app_length; cbn [length]; lia|].
    split; auto. split; auto. split; auto. cbn [app] in G. inversion G as [|? ? G1 G2]; subst. apply Forall_app in G2 as [G2 G3].
    split; [apply Forall_app; split; auto|]. eapply perm_trans; [|exact H5]. rewrite expand_app. cbn [expand flat_map]. fold (expand p1) (expand p2).
    rewrite !app_assoc. apply Permutation_app_tail. apply Permutation_app_comm.
Qed.
Lemma update_powers_none a : Forall (fun d => lp_pow d = 0) a -> zeros a = [] -> update_powers a = Err AssertFail.
Proof.
  intros F N. unfold update_powers. destruct (merge_loop_ok (length a) a eq_refl [] None 1 0) as (p' & loc' & H1 & H2 & H3 & H4 & H5).
  { cbn. auto. }
  { eapply Forall_impl; [|exact F]. cbv beta. tauto. }
  cbn [length app] in H1. rewrite H1. destruct loc' as [k|]; auto. exfalso. assert (X : Some k = None) by (apply H4; auto). discriminate.
Qed.
