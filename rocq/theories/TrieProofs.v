From Coq Require Import Sorting.Sorted QArith.
From Verif Require Import Common Rational RationalSpec RationalProofs Trie TrieSpec.
Open Scope Z_scope.

Lemma same_exps_spec a b : same_exps a b = true <-> a = b.
Proof.
  revert b; induction a as [|x a IH]; destruct b as [|y b]; cbn [same_exps]; split; intros H; try discriminate; auto.
  - apply andb_true_iff in H as [H1 H2]. apply Z.eqb_eq in H1. apply IH in H2. congruence.
  - inversion H; subst. rewrite Z.eqb_refl. now apply IH.
Qed.

Lemma nth_error_upd_eq {A} (l : list A) i x : (i < length l)%nat -> nth_error (upd l i x) i = Some x.
Proof. revert i; induction l as [|h t IH]; intros [|i] H; cbn in *; try lia; auto. apply IH; lia. Qed.
Lemma nth_error_upd_neq {A} (l : list A) i j x : i <> j -> nth_error (upd l i x) j = nth_error l j.
Proof. revert i j; induction l as [|h t IH]; intros [|i] [|j] H; cbn; auto; try congruence. Qed.
Lemma Forall_upd {A} (P : A -> Prop) l i x : Forall P l -> P x -> Forall P (upd l i x).
Proof. intros H; revert i; induction H; intros [|i] Hx; cbn; auto. Qed.
Lemma firstn_upd_ge {A} (l : list A) i d x : (d <= i)%nat -> firstn d (upd l i x) = firstn d l.
Proof. revert i d; induction l as [|h t IH]; intros [|i] [|d] H; cbn; auto; try lia. f_equal; apply IH; lia. Qed.
Lemma firstn_S_upd {A} (l : list A) d x : (d < length l)%nat -> firstn (S d) (upd l d x) = firstn d l ++ [x].
Proof. revert d; induction l as [|h t IH]; intros [|d] H; cbn in *; try lia; auto. f_equal. apply IH; lia. Qed.

Section TrieP.
Context {T : Type}.
Variable tadd : T -> T -> T.
Variable tzero : T -> bool.
Notation bterm := (bterm T). Notation elem := (elem T). Notation trie := (trie T).

(** ** Terms and containers *)
Definition keyb (tm : bterm) (d : Z) (x : list Z) : bool := (t_deg tm =? d) && same_exps (t_exps tm) x.
Definition bump (o : option T) (c : T) : option T := match o with None => Some c | Some y => Some (tadd y c) end.
Definition lt_term (a b : bterm) : Prop := t_deg a < t_deg b \/ (t_deg a = t_deg b /\ lex_lt (t_exps a) (t_exps b)).

Lemma keyb_spec tm d x : keyb tm d x = true <-> t_deg tm = d /\ t_exps tm = x.
Proof. unfold keyb. rewrite andb_true_iff, Z.eqb_eq, same_exps_spec. tauto. Qed.

Lemma lex_lt_irrefl a : ~ lex_lt a a.
Proof. induction a; cbn; [tauto|]. intros [H|[_ H]]; [lia|auto]. Qed.
Lemma lex_lt_trans a b c : lex_lt a b -> lex_lt b c -> lex_lt a c.
Proof.
  revert b c; induction a as [|x a IH]; destruct b as [|y b], c as [|z c]; cbn; try tauto.
  intros [H|[H H0]] [H1|[H1 H2]]; try (left; lia). right; split; [lia|eauto].
Qed.
Lemma lt_term_irrefl a b : t_deg a = t_deg b -> t_exps a = t_exps b -> ~ lt_term a b.
Proof. intros H H0 [H1|[_ H1]]; [lia|]. rewrite H0 in H1. now apply lex_lt_irrefl in H1. Qed.
Lemma lt_term_trans a b c : lt_term a b -> lt_term b c -> lt_term a c.
Proof.
  unfold lt_term. intros [H|[H H0]] [H1|[H1 H2]]; try (left; lia).
  right; split; [lia|]. eapply lex_lt_trans; eauto.
Qed.

Lemma exps_less_spec a b : length a = length b ->
  (exps_less a b = Ok (true,false) /\ lex_lt a b) \/
  (exps_less a b = Ok (false,true) /\ a = b) \/
  (exps_less a b = Ok (false,false) /\ lex_lt b a).
Proof.
  revert b; induction a as [|x a IH]; destruct b as [|y b]; cbn; intros H; try discriminate; auto.
  destruct (Z.ltb_spec x y); auto. destruct (Z.ltb_spec y x); auto.
  assert (x = y) by lia; subst. destruct (IH b) as [[-> H2]|[[-> H2]|[-> H2]]]; auto.
  - right; left; split; congruence.
  - right; right; split; auto.
Qed.
Lemma less_than_spec a b : length (t_exps a) = length (t_exps b) ->
  (less_than a b = Ok (true,false) /\ lt_term a b) \/
  (less_than a b = Ok (false,true) /\ t_deg a = t_deg b /\ t_exps a = t_exps b) \/
  (less_than a b = Ok (false,false) /\ lt_term b a).
Proof.
  intros H. unfold less_than, lt_term.
  destruct (Z.ltb_spec (t_deg a) (t_deg b)); auto.
  destruct (Z.ltb_spec (t_deg b) (t_deg a)); auto.
  assert (E : t_deg a = t_deg b) by lia.
  destruct (exps_less_spec _ _ H) as [[-> H2]|[[-> H2]|[-> H2]]].
  - left; auto.
  - right; left; auto.
  - right; right; auto.
Qed.

Definition find_c (l : list bterm) (d : Z) (x : list Z) : option T :=
  match find (fun tm => keyb tm d x) l with Some tm => Some (t_coef tm) | None => None end.

Lemma find_c_cons tm l d x : find_c (tm :: l) d x = if keyb tm d x then Some (t_coef tm) else find_c l d x.
Proof. unfold find_c; cbn [find]. destruct (keyb tm d x); auto. Qed.

Definition all_len (n : nat) (l : list bterm) := Forall (fun tm => length (t_exps tm) = n) l.
Definition sorted (l : list bterm) := StronglySorted lt_term l.

Lemma find_c_lt tm l d x : Forall (lt_term tm) l -> t_deg tm = d -> t_exps tm = x -> find_c l d x = None.
Proof.
  induction 1 as [|a l H H0 IH]; intros Hd Hx; [reflexivity|]. rewrite find_c_cons.
  destruct (keyb a d x) eqn:E; [|auto]. apply keyb_spec in E as [E1 E2].
  exfalso. apply (lt_term_irrefl tm a); congruence.
Qed.

Lemma Forall_lt_trans a b l : lt_term a b -> Forall (lt_term b) l -> Forall (lt_term a) l.
Proof. intros H H0. eapply Forall_impl; [|exact H0]. intros c Hc. eapply lt_term_trans; eauto. Qed.

Definition upd_find (f : Z -> list Z -> option T) (c : T) (d : Z) (x : list Z) (d' : Z) (x' : list Z) : option T :=
  if (d =? d') && same_exps x x' then bump (f d x) c else f d' x'.

Lemma cont_loop_ok nt n : length (t_exps nt) = n -> forall l, all_len n l -> sorted l ->
  exists l', cont_loop tadd nt l = Ok l' /\ all_len n l' /\ sorted l' /\ l' <> [] /\
    (forall a, lt_term a nt -> Forall (lt_term a) l -> Forall (lt_term a) l') /\
    forall d x, find_c l' d x = upd_find (find_c l) (t_coef nt) (t_deg nt) (t_exps nt) d x.
Proof.
  intros Hn. induction l as [|t l IH]; intros HL HS.
  - exists [nt]. cbn. repeat split; auto.
    + constructor; [exact Hn|constructor].
    + constructor; constructor.
    + discriminate.
    + intros d x. unfold upd_find. rewrite find_c_cons. unfold keyb, find_c. cbn.
      destruct (t_deg nt =? d); cbn; auto; destruct same_exps; auto.
  - inversion HL as [|? ? HL1 HL2]; subst. inversion HS as [|? ? HS1 HS2]; subst.
    cbn [cont_loop]. destruct (less_than_spec t nt ltac:(congruence)) as [[-> H2]|[[-> H2]|[-> H2]]]; cbn [bind fst snd].
    + destruct (IH HL2 HS1) as (l' & -> & A & B & B0 & C & D). cbn [bind]. eexists; split; [reflexivity|].
      repeat split.
      * constructor; auto.
      * constructor; auto.
      * discriminate.
      * intros a Ha Hl. inversion Hl; subst. constructor; auto.
      * intros d x. rewrite find_c_cons, D. unfold upd_find. rewrite !find_c_cons.
        destruct (keyb t d x) eqn:E.
        { apply keyb_spec in E as [E1 E2].
          destruct ((t_deg nt =? d) && same_exps (t_exps nt) x) eqn:E3; auto.
          apply andb_true_iff in E3 as [E3 E4]. apply Z.eqb_eq in E3. apply same_exps_spec in E4.
          exfalso. apply (lt_term_irrefl t nt); congruence. }
        { destruct ((t_deg nt =? d) && same_exps (t_exps nt) x) eqn:E3; auto.
          apply andb_true_iff in E3 as [E3 E4]. apply Z.eqb_eq in E3. apply same_exps_spec in E4. subst d x.
          now rewrite E. }
    + destruct H2 as [H2 H3]. eexists; split; [reflexivity|].
      assert (HK : forall a, lt_term a t -> lt_term a (mkTerm (tadd (t_coef t) (t_coef nt)) (t_exps t) (t_deg t))) by (intros a; unfold lt_term; auto).
      assert (HK2 : forall a, lt_term t a -> lt_term (mkTerm (tadd (t_coef t) (t_coef nt)) (t_exps t) (t_deg t)) a) by (intros a; unfold lt_term; auto).
      repeat split.
      * constructor; auto.
      * constructor; [exact HS1|]. eapply Forall_impl; [|exact HS2]. auto.
      * discriminate.
      * intros a Ha Hl. inversion Hl; subst. constructor; auto.
      * intros d x. rewrite find_c_cons. unfold upd_find. rewrite !find_c_cons.
        unfold keyb at 1. cbn [t_deg t_exps t_coef].
        assert (E : keyb t (t_deg nt) (t_exps nt) = true) by now apply keyb_spec.
        rewrite E. rewrite H2, H3. unfold keyb at 1. rewrite H2, H3.
        destruct ((t_deg nt =? d) && same_exps (t_exps nt) x) eqn:E3; auto.
    + eexists; split; [reflexivity|]. repeat split.
      * constructor; auto.
      * constructor; [exact HS|]. constructor; [exact H2|]. eapply Forall_lt_trans; eauto.
      * discriminate.
      * intros a Ha Hl. constructor; auto.
      * intros d x. rewrite find_c_cons. unfold upd_find, keyb at 1.
        destruct ((t_deg nt =? d) && same_exps (t_exps nt) x) eqn:E3; auto.
        rewrite (find_c_lt nt); auto. constructor; [exact H2|]. eapply Forall_lt_trans; eauto.
Qed.

Lemma cont_insert_ok c exps start deg n l : length (skipn start exps) = n -> all_len n l -> sorted l ->
  exists l', cont_insert tadd c exps start deg l = Ok l' /\ all_len n l' /\ sorted l' /\ l' <> [] /\
    forall d x, find_c l' d x = upd_find (find_c l) c deg (skipn start exps) d x.
Proof.
  intros Hn HL HS. unfold cont_insert, new_term. set (nt := mkTerm c (skipn start exps) deg).
  assert (G : exists l', cont_loop tadd nt l = Ok l' /\ all_len n l' /\ sorted l' /\ l' <> [] /\
    forall d x, find_c l' d x = upd_find (find_c l) c deg (skipn start exps) d x).
  { destruct (cont_loop_ok nt n Hn l HL HS) as (l' & A & B & C & D & _ & E). exists l'; repeat split; auto. }
  destruct l as [|f l].
  - exact G.
  - inversion HL as [|? ? HL1 HL2]; subst.
    destruct (less_than_spec nt f) as [[E H2]|[[E H2]|[E H2]]]; [cbn [nt t_exps]; congruence| | |];
      rewrite E; cbn [bind fst snd].
    + assert (E2 : cont_loop tadd nt (f :: l) = Ok (nt :: f :: l)).
      { cbn [cont_loop]. destruct (less_than_spec f nt) as [[E2 H3]|[[E2 H3]|[E2 H3]]];
          [cbn [nt t_exps]; congruence| | |]; rewrite E2; cbn [bind fst snd]; auto; exfalso.
        - apply (lt_term_irrefl f f); [reflexivity|reflexivity|]. eapply lt_term_trans; eauto.
        - destruct H3. now apply (lt_term_irrefl nt f). }
      rewrite E2 in G. exact G.
    + destruct H2 as [H2 H3].
      assert (E2 : cont_loop tadd nt (f :: l) = Ok (mkTerm (tadd (t_coef f) (t_coef nt)) (t_exps f) (t_deg f) :: l)).
      { cbn [cont_loop]. destruct (less_than_spec f nt) as [[E2 H4]|[[E2 H4]|[E2 H4]]];
          [cbn [nt t_exps]; congruence| | |]; rewrite E2; cbn [bind fst snd]; auto; exfalso.
        - now apply (lt_term_irrefl f nt).
        - now apply (lt_term_irrefl nt f). }
      rewrite E2 in G. exact G.
    + exact G.
Qed.

(** ** Tries *)
Definition nonempty (e : elem) : Prop := match e with ECont [] => False | _ => True end.
Definition wfe (n : nat) (W : trie -> Prop) (e : elem) : Prop :=
  match e with ECont l => all_len n l /\ sorted l | ETrie t => W t end.
Fixpoint wf (n : nat) (t : trie) : Prop :=
  match n with
  | O => False
  | S n' => match t with
            | BT (Some (lo, hi)) es => lo <= hi /\ Z.of_nat (length es) = hi - lo + 1 /\
                (match es with e :: _ => nonempty e | [] => False end) /\ Forall (wfe n' (wf n')) es
            | _ => False
            end
  end.

Fixpoint find_t (t : trie) (d : Z) (x : list Z) : option T :=
  match x with
  | [] => None
  | v :: x' => match t with
      | BT None _ => None
      | BT (Some (lo, hi)) es =>
          if v <? lo then None else
          match nth_error es (Z.to_nat (v - lo)) with
          | Some (ETrie t') => find_t t' d x'
          | Some (ECont l) => find_c l d x'
          | None => None
          end
      end
  end.
Definition find_e (e : elem) d x := match e with ETrie t => find_t t d x | ECont l => find_c l d x end.

Lemma find_t_cons lo hi es d v x : find_t (BT (Some (lo,hi)) es) d (v :: x) =
  if v <? lo then None else match nth_error es (Z.to_nat (v - lo)) with Some e => find_e e d x | None => None end.
Proof. cbn [find_t]. destruct (v <? lo); reflexivity. Qed.

Definition ready (n : nat) (t : trie) : Prop := wf n t \/ t = BT None [].

(** folding insertions of container terms *)
Definition gfold (l : list bterm) (o : option T) (d : Z) (x : list Z) : option T :=
  fold_left (fun o tm => if keyb tm d x then bump o (t_coef tm) else o) l o.
Lemma gfold_none l o d x : (forall tm, In tm l -> keyb tm d x = false) -> gfold l o d x = o.
Proof.
  revert o; induction l as [|a l IH]; intros o H; cbn; auto.
  rewrite (H a) by now left. apply IH. intros; apply H; now right.
Qed.
Lemma gfold_sorted l d x : sorted l -> gfold l None d x = find_c l d x.
Proof.
  induction 1 as [|a l H IH H0]; [reflexivity|]. rewrite find_c_cons. cbn.
  destruct (keyb a d x) eqn:E; [|exact IH]. cbn. apply gfold_none.
  intros tm Hin. destruct (keyb tm d x) eqn:E2; auto.
  apply keyb_spec in E as [E1 E3]. apply keyb_spec in E2 as [E2 E4].
  rewrite Forall_forall in H0. apply H0 in Hin. exfalso. apply (lt_term_irrefl a tm); congruence.
Qed.

Lemma find_empty es d x : find_t (BT None es) d x = None.
Proof. destruct x; reflexivity. Qed.

Definition insert_spec (n : nat) : Prop := forall t c exps start deg,
  n <> O -> length (skipn start exps) = n -> ready n t -> (t = BT None [] -> start = O) ->
  exists t', trie_insert tadd n t c exps start deg = Ok t' /\ wf n t' /\
    forall d x, length x = n -> find_t t' d x = upd_find (find_t t) c deg (skipn start exps) d x.

Lemma fold_insert n : insert_spec n -> n <> O -> forall l t, all_len n l -> ready n t ->
  exists t', fold_out (fun tr tm => trie_insert tadd n tr (t_coef tm) (t_exps tm) 0 (t_deg tm)) l t = Ok t' /\
    ready n t' /\ (l <> [] -> wf n t') /\
    forall d x, length x = n -> find_t t' d x = gfold l (find_t t d x) d x.
Proof.
  intros HI Hn0. induction l as [|a l IH]; intros t HL HR.
  - exists t. cbn. repeat split; auto. congruence.
  - pose proof (Forall_inv HL) as HL1. pose proof (Forall_inv_tail HL) as HL2. cbv beta in HL1. cbn [fold_out].
    destruct (HI t (t_coef a) (t_exps a) 0%nat (t_deg a)) as (t1 & -> & W & F); auto.
    cbn [bind]. destruct (IH t1 HL2 (or_introl W)) as (t' & -> & A & B & C).
    exists t'. repeat split; auto.
    + intros _. destruct l; [|apply B; discriminate]. destruct A as [A| ->]; auto.
      exfalso. specialize (C (t_deg a) (t_exps a) HL1). cbn [gfold fold_left] in C.
      rewrite F in C by auto. unfold upd_find in C. cbn [skipn] in C.
      rewrite Z.eqb_refl in C. assert (E : same_exps (t_exps a) (t_exps a) = true) by now apply same_exps_spec.
      rewrite E, find_empty in C. cbn [andb] in C. unfold bump in C. destruct (find_t t (t_deg a) (t_exps a)); discriminate.
    + intros d x Hx. rewrite C, F by auto. unfold upd_find. cbn [skipn gfold fold_left].
      unfold keyb at 2. destruct ((t_deg a =? d) && same_exps (t_exps a) x) eqn:E; auto.
      apply andb_true_iff in E as [E1 E2]. apply Z.eqb_eq in E1. apply same_exps_spec in E2. now subst.
Qed.

Lemma find_c_len n l d x : all_len n l -> length x <> n -> find_c l d x = None.
Proof.
  induction 1 as [|a l H H0 IH]; intros Hx; [reflexivity|]. rewrite find_c_cons.
  destruct (keyb a d x) eqn:E; auto. apply keyb_spec in E as [_ E]. congruence.
Qed.

Lemma nth_error_repeat {A} (a : A) k i : (i < k)%nat -> nth_error (repeat a k) i = Some a.
Proof. revert i; induction k; intros [|i] H; cbn; try lia; auto. apply IHk; lia. Qed.

(** checkRange makes the slot for [v] exist and keeps the contents. *)
Lemma check_range_ok n lo hi es v : wf (S n) (BT (Some (lo,hi)) es) ->
  let r := fst (check_range lo hi es v) in let es' := snd (check_range lo hi es v) in
  fst r <= v <= snd r /\ Z.of_nat (length es') = snd r - fst r + 1 /\ Forall (wfe n (wf n)) es' /\
  (match es' with e :: _ => nonempty e \/ v = fst r | [] => False end) /\
  forall d w x, length x = n -> find_t (BT (Some r) es') d (w :: x) = find_t (BT (Some (lo,hi)) es) d (w :: x).
Proof.
  intros (Hlo & Hlen & Hne & Hwf). unfold check_range.
  assert (HE : wfe n (wf n) (ECont [])) by (split; constructor).
  destruct (Z.ltb_spec v lo) as [H|H]; [|destruct (Z.ltb_spec hi v) as [H0|H0]]; cbn [fst snd].
  - split; [lia|]. split; [|split; [|split]].
    + cbn [length]. rewrite app_length, repeat_length. lia.
    + constructor; auto. apply Forall_app; split; auto. apply Forall_forall. intros e He. apply repeat_spec in He. now subst.
    + now right.
    + intros d w x Hx. rewrite !find_t_cons.
      assert (Hnone : forall i, match nth_error (repeat (@ECont T []) i) 0 with _ => True end) by auto.
      destruct (Z.ltb_spec w v); destruct (Z.ltb_spec w lo); try lia; auto.
      * change (ECont [] :: repeat (ECont []) (Z.to_nat (lo - (v + 1))) ++ es)
          with (repeat (@ECont T []) (S (Z.to_nat (lo - (v + 1)))) ++ es).
        rewrite nth_error_app1 by (rewrite repeat_length; lia).
        rewrite nth_error_repeat by lia. reflexivity.
      * change (ECont [] :: repeat (ECont []) (Z.to_nat (lo - (v + 1))) ++ es)
          with (repeat (@ECont T []) (S (Z.to_nat (lo - (v + 1)))) ++ es).
        rewrite nth_error_app2 by (rewrite repeat_length; lia). rewrite repeat_length.
        replace (Z.to_nat (w - v) - S (Z.to_nat (lo - (v + 1))))%nat with (Z.to_nat (w - lo)) by lia. reflexivity.
  - split; [lia|]. split; [|split; [|split]].
    + rewrite app_length, repeat_length. lia.
    + apply Forall_app; split; auto. apply Forall_forall. intros e He. apply repeat_spec in He. now subst.
    + destruct es; [destruct Hne|left; exact Hne].
    + intros d w x Hx. rewrite !find_t_cons. destruct (Z.ltb_spec w lo); auto.
      destruct (Nat.lt_ge_cases (Z.to_nat (w - lo)) (length es)) as [Hl|Hl].
      * rewrite nth_error_app1 by auto. reflexivity.
      * rewrite nth_error_app2 by auto.
        assert (E : nth_error es (Z.to_nat (w - lo)) = None) by now apply nth_error_None. rewrite E.
        destruct (nth_error (repeat (ECont []) (Z.to_nat (v - hi))) (Z.to_nat (w - lo) - length es)) as [e|] eqn:E2; auto.
        apply nth_error_In, repeat_spec in E2. now subst.
  - split; [lia|]. split; [lia|]. split; [auto|split; [|auto]].
    destruct es; auto.
Qed.

Lemma upd_find_ext f g c d x d' x' : f d x = g d x -> f d' x' = g d' x' -> upd_find f c d x d' x' = upd_find g c d x d' x'.
Proof. unfold upd_find; intros -> ->; auto. Qed.

(** Replacing the element in the slot of [v]. *)
Lemma slot_replace n lo hi es v x0 c deg e' f (i := Z.to_nat (v - lo)) :
  lo <= v <= hi -> Z.of_nat (length es) = hi - lo + 1 -> Forall (wfe n (wf n)) es ->
  (match es with e :: _ => nonempty e \/ v = lo | [] => False end) ->
  length x0 = n ->
  wfe n (wf n) e' -> nonempty e' ->
  (forall d x, length x = n -> f d (v :: x) = match nth_error es i with Some e => find_e e d x | None => None end) ->
  (forall d w x, length x = n -> w <> v -> f d (w :: x) = find_t (BT (Some (lo,hi)) es) d (w :: x)) ->
  (forall d x, length x = n -> find_e e' d x =
     upd_find (fun d x => match nth_error es i with Some e => find_e e d x | None => None end) c deg x0 d x) ->
  wf (S n) (BT (Some (lo,hi)) (upd es i e')) /\
  forall d x, length x = S n -> find_t (BT (Some (lo,hi)) (upd es i e')) d x = upd_find f c deg (v :: x0) d x.
Proof.
  intros Hv Hlen Hwf Hne Hx0 We' Ne' Hf1 Hf2 He'.
  assert (Hi : (i < length es)%nat) by (subst i; lia).
  split.
  - cbn [wf]. split; [lia|]. split; [rewrite length_upd; lia|]. split.
    + destruct es as [|e es]; [destruct Hne|]. subst i. destruct (Z.to_nat (v - lo)) eqn:E; cbn [upd]; auto.
      destruct Hne as [Hne|Hne]; auto. lia.
    + apply Forall_upd; auto.
  - intros d x Hx. destruct x as [|w x]; [discriminate|]. injection Hx as Hx. rewrite find_t_cons.
    unfold upd_find. cbn [same_exps].
    destruct (Z.eqb_spec v w) as [<-|Hw].
    + destruct (Z.ltb_spec v lo); [lia|]. fold i. rewrite nth_error_upd_eq by auto.
      rewrite He' by auto. unfold upd_find. cbn [andb]. rewrite !Hf1 by auto. reflexivity.
    + cbn [andb]. rewrite andb_false_r. rewrite Hf2 by (auto; congruence). rewrite find_t_cons.
      destruct (Z.ltb_spec w lo); auto. rewrite nth_error_upd_neq by (subst i; lia). reflexivity.
Qed.

Lemma skipn_cons_S {A} (l : list A) s v x : skipn s l = v :: x -> nth_error l s = Some v /\ skipn (S s) l = x /\ length l = (s + S (length x))%nat.
Proof.
  revert l; induction s as [|s IH]; intros [|h l] H; cbn in *; try discriminate.
  - inversion H; subst. auto.
  - destruct (IH l H) as (A1 & B & C). rewrite C. repeat split; auto.
Qed.

Lemma trie_insert_ok n : insert_spec n.
Proof.
  induction n as [|n IH]; intros t c exps start deg Hn Hlen Hready Hstart; [congruence|].
  destruct (skipn start exps) as [|v x0] eqn:Esk; [discriminate|].
  destruct (skipn_cons_S _ _ _ _ Esk) as (Ev & Esk2 & Elen). injection Hlen as Hlen.
  cbn [trie_insert]. destruct (Nat.eqb_spec (length exps) 0) as [E0|_]; [lia|]. rewrite Ev.
  set (f := find_t t).
  assert (G : exists r es1, (match t with BT rng es => match rng with
        | None => let v0 := nth 0 exps 0 in ((v0, v0), [ECont []])
        | Some (lo, hi) => check_range lo hi es v end end) = (r, es1) /\
     fst r <= v <= snd r /\ Z.of_nat (length es1) = snd r - fst r + 1 /\ Forall (wfe n (wf n)) es1 /\
     (match es1 with e :: _ => nonempty e \/ v = fst r | [] => False end) /\
     forall d w x, length x = n -> find_t t d (w :: x) = find_t (BT (Some r) es1) d (w :: x)).
  { destruct Hready as [Hw| ->].
    - destruct t as [[[lo hi]|] es]; [|destruct Hw].
      pose proof (check_range_ok n lo hi es v Hw) as H. cbv zeta in H.
      destruct (check_range lo hi es v) as [r es1]. exists r, es1. cbn [fst snd] in H.
      destruct H as (A & B & C & D & E). repeat split; auto; try lia. intros; symmetry; auto.
    - rewrite (Hstart eq_refl) in Esk. cbn in Esk. subst exps. cbn [nth]. exists (v, v), [ECont []].
      cbn [fst snd length]. repeat split; auto; try lia.
      + constructor; [split; constructor|constructor].
      + intros d w x Hx. rewrite find_t_cons. cbn [find_t].
        destruct (w <? v); auto. destruct (Z.to_nat (w - v)) as [|[|k]]; reflexivity. }
  destruct G as (r & es1 & Er & Hr & Hl1 & Hwf1 & Hne1 & Hf).
  destruct t as [rng es].
  cbv zeta in Er. rewrite Er. destruct r as [lo hi]. cbn [fst snd] in *.
  set (i := Z.to_nat (v - lo)).
  assert (Hi : (i < length es1)%nat) by (subst i; lia).
  destruct (nth_error es1 i) as [e|] eqn:Ee; [|apply nth_error_None in Ee; lia].
  assert (We : wfe n (wf n) e).
  { rewrite Forall_forall in Hwf1. apply Hwf1. eapply nth_error_In; eauto. }
  assert (Hf1 : forall d x, length x = n -> f d (v :: x) = match nth_error es1 i with Some e => find_e e d x | None => None end).
  { intros d x Hx. unfold f. rewrite Hf by auto. rewrite find_t_cons. destruct (Z.ltb_spec v lo); [lia|]. reflexivity. }
  assert (Hf2 : forall d w x, length x = n -> w <> v -> f d (w :: x) = find_t (BT (Some (lo,hi)) es1) d (w :: x)).
  { intros; unfold f; now apply Hf. }
  assert (Fin : forall e', wfe n (wf n) e' -> nonempty e' ->
     (forall d x, length x = n -> find_e e' d x = upd_find (find_e e) c deg x0 d x) ->
     exists t', Ok (BT (Some (lo,hi)) (upd es1 i e')) = Ok t' /\ wf (S n) t' /\
       forall d x, length x = S n -> find_t t' d x = upd_find f c deg (v :: x0) d x).
  { intros e' We' Ne' He'. eexists; split; [reflexivity|].
    eapply slot_replace; eauto. intros d x Hx. rewrite He' by auto. fold i. rewrite Ee. reflexivity. }
  destruct e as [sub|l].
  - assert (Hn0 : n <> O) by (intros ->; destruct We).
    destruct (IH sub c exps (S start) deg Hn0) as (sub' & -> & W & F).
    + rewrite Esk2; auto.
    + now left.
    + intros ->. destruct n; [congruence|destruct We].
    + cbn [bind]. rewrite Esk2 in F. apply (Fin (ETrie sub')); auto. exact I.
  - destruct We as [We1 We2].
    destruct ((length l =? BURST_MAX) && (1 <? length exps - start))%nat eqn:Eb.
    + apply andb_true_iff in Eb as [Eb1 Eb2]. apply Nat.eqb_eq in Eb1. apply Nat.ltb_lt in Eb2.
      assert (Hn0 : n <> O) by lia.
      destruct (fold_insert n IH Hn0 l (BT None []) We1 (or_intror eq_refl)) as (nt & -> & _ & Wnt & Fnt).
      assert (Hl : l <> []) by (intros ->; discriminate). specialize (Wnt Hl). cbn [bind].
      destruct (IH nt c exps (S start) deg Hn0) as (nt' & -> & W & F).
      * rewrite Esk2; auto.
      * now left.
      * intros ->. destruct n; [congruence|destruct Wnt].
      * cbn [bind]. rewrite Esk2 in F. apply (Fin (ETrie nt')); auto; [exact I|].
        intros d x Hx. cbn [find_e]. rewrite F by auto.
        assert (EQ : forall d x, length x = n -> find_t nt d x = find_c l d x).
        { intros d1 x1 Hx1. rewrite Fnt by auto. rewrite <- gfold_sorted by auto. destruct x1; reflexivity. }
        apply upd_find_ext; apply EQ; auto.
    + destruct (cont_insert_ok c exps (S start) deg n l) as (l' & -> & A & B & C & D); auto.
      { rewrite Esk2; auto. }
      cbn [bind]. rewrite Esk2 in D. apply (Fin (ECont l')).
      * split; auto.
      * destruct l'; [congruence|exact I].
      * intros d x Hx. exact (D d x).
Qed.

(** ** Contents in iteration order *)
Definition push (v : Z) (tm : bterm) : bterm := mkTerm (t_coef tm) (v :: t_exps tm) (t_deg tm).
Definition prefix (p : list Z) (tm : bterm) : bterm := mkTerm (t_coef tm) (p ++ t_exps tm) (t_deg tm).
Definition flat_e (F : trie -> list bterm) (e : elem) : list bterm :=
  match e with ECont l => l | ETrie t => F t end.
Fixpoint flat_es (F : trie -> list bterm) (v : Z) (es : list elem) : list bterm :=
  match es with [] => [] | e :: es' => map (push v) (flat_e F e) ++ flat_es F (v + 1) es' end.
Fixpoint flat (n : nat) (t : trie) : list bterm :=
  match n with
  | O => []
  | S n' => match t with BT (Some (lo, _)) es => flat_es (flat n') lo es | _ => [] end
  end.

Lemma flat_len n : forall t, wf n t -> all_len n (flat n t).
Proof.
  induction n as [|n IH]; intros t W; [destruct W|].
  destruct t as [[[lo hi]|] es]; [|destruct W]. destruct W as (_ & _ & _ & W). cbn [flat].
  clear hi. revert lo; induction W as [|e es We W IHes]; intros lo; cbn [flat_es]; [constructor|].
  apply Forall_app; split; [|apply IHes]. apply Forall_map.
  assert (H : all_len n (flat_e (flat n) e)) by (destruct e; [now apply IH|exact (proj1 We)]).
  eapply Forall_impl; [|exact H]. cbn. intros; congruence.
Qed.

Lemma find_c_in l c x d : sorted l -> (In (mkTerm c x d) l <-> find_c l d x = Some c).
Proof.
  clear tadd tzero. induction 1 as [|a l H IH H0]; [split; [intros []|discriminate]|].
  rewrite find_c_cons. cbn [In]. destruct (keyb a d x) eqn:E.
  - apply keyb_spec in E as [E1 E2]. split.
    + intros [->|Hin]; [reflexivity|]. rewrite Forall_forall in H0. apply H0 in Hin.
      exfalso. eapply lt_term_irrefl; [| |exact Hin]; auto.
    + intros Hc. inversion Hc; subst. left. destruct a; reflexivity.
  - rewrite <- IH. split; [|tauto]. intros [->|Hin]; auto.
    assert (keyb (mkTerm c x d) d x = true) by now apply keyb_spec. congruence.
Qed.

Lemma in_flat_es F : forall es v c x d,
  In (mkTerm c x d) (flat_es F v es) <->
  exists w y e, x = w :: y /\ v <= w /\ nth_error es (Z.to_nat (w - v)) = Some e /\ In (mkTerm c y d) (flat_e F e).
Proof.
  induction es as [|e es IH]; intros v c x d; cbn [flat_es].
  - split; [intros []|]. intros (w & y & e & _ & _ & H & _). destruct (Z.to_nat (w - v)); discriminate.
  - rewrite in_app_iff, IH, in_map_iff. split.
    + intros [([c1 y d1] & H & Hin)|(w & y & e1 & -> & Hw & Hn & Hin)].
      * inversion H; subst. exists v, y, e. rewrite Z.sub_diag. repeat split; auto; lia.
      * exists w, y, e1. repeat split; auto; try lia.
        replace (Z.to_nat (w - v)) with (S (Z.to_nat (w - (v + 1)))) by lia. exact Hn.
    + intros (w & y & e1 & -> & Hw & Hn & Hin). destruct (Z.eq_dec w v) as [->|Hne].
      * rewrite Z.sub_diag in Hn. cbn in Hn. inversion Hn; subst. left. exists (mkTerm c y d). auto.
      * right. exists w, y, e1. repeat split; auto; try lia.
        replace (Z.to_nat (w - v)) with (S (Z.to_nat (w - (v + 1)))) in Hn by lia. exact Hn.
Qed.

Lemma flat_find n : forall t c x d, wf n t -> (In (mkTerm c x d) (flat n t) <-> length x = n /\ find_t t d x = Some c).
Proof.
  clear tadd tzero. induction n as [|n IH]; intros t c x d W; [destruct W|].
  pose proof W as W0. destruct t as [[[lo hi]|] es]; [|destruct W]. destruct W as (_ & _ & _ & W).
  rewrite Forall_forall in W. cbn [flat]. rewrite in_flat_es.
  assert (HE : forall e y, In e es -> (In (mkTerm c y d) (flat_e (flat n) e) <-> length y = n /\ find_e e d y = Some c)).
  { intros e y He. apply W in He. destruct e as [t|l]; cbn [flat_e find_e]; [now apply IH|].
    destruct He as [H1 H2]. rewrite find_c_in by auto. split; [|tauto]. intros H. split; auto.
    destruct (Nat.eq_dec (length y) n); auto. rewrite (find_c_len n) in H by auto. discriminate. }
  split.
  - intros (w & y & e & -> & Hw & Hn & Hin). apply HE in Hin; [|eapply nth_error_In; eauto].
    destruct Hin as [H1 H2]. split; [cbn; congruence|]. rewrite find_t_cons, Hn.
    destruct (Z.ltb_spec w lo); [lia|auto].
  - intros [Hx Hf]. destruct x as [|w y]; [discriminate|]. rewrite find_t_cons in Hf.
    destruct (Z.ltb_spec w lo) as [|Hw]; [discriminate|].
    destruct (nth_error es (Z.to_nat (w - lo))) as [e|] eqn:Hn; [|discriminate].
    exists w, y, e. repeat split; auto. apply HE; [eapply nth_error_In; eauto|]. split; auto.
Qed.

(** no key twice *)
Definition keys (l : list bterm) : list (Z * list Z) := map (fun tm => (t_deg tm, t_exps tm)) l.
Lemma sorted_nodup l : sorted l -> NoDup (keys l).
Proof.
  induction 1 as [|a l H IH H0]; cbn; constructor; auto.
  rewrite in_map_iff. intros (b & Hb & Hin). rewrite Forall_forall in H0. apply H0 in Hin.
  inversion Hb. eapply lt_term_irrefl; [| |exact Hin]; auto.
Qed.
Lemma nodup_push v l : NoDup (keys l) -> NoDup (keys (map (push v) l)).
Proof.
  unfold keys. rewrite map_map. cbn [push t_deg t_exps].
  induction l as [|a l IH]; cbn; [constructor|]. intros H; inversion H as [|? ? H1 H2]; subst. constructor; auto.
  rewrite in_map_iff in *. intros (b & Hb & Hin). apply H1. exists b. inversion Hb. split; auto.
Qed.
Lemma NoDup_app_intro {A} (l1 l2 : list A) : NoDup l1 -> NoDup l2 -> (forall a, In a l1 -> ~ In a l2) -> NoDup (l1 ++ l2).
Proof.
  induction 1 as [|a l1 H H0 IH]; cbn; auto. intros H2 H3. constructor.
  - rewrite in_app_iff. intros [|]; [auto|eapply H3; eauto; now left].
  - apply IH; [exact H2|]. intros b Hb. apply H3. now right.
Qed.
Lemma in_keys_flat_es F es v d x : In (d, x) (keys (flat_es F v es)) -> exists w y, x = w :: y /\ v <= w.
Proof.
  unfold keys. rewrite in_map_iff. intros ([c1 x1 d1] & H & Hin). inversion H; subst.
  apply in_flat_es in Hin as (w & y & e & Hx & Hw & _). exists w, y. auto.
Qed.
Lemma flat_nodup n : forall t, wf n t -> NoDup (keys (flat n t)).
Proof.
  induction n as [|n IH]; intros t W; [destruct W|].
  destruct t as [[[lo hi]|] es]; [|destruct W]. destruct W as (_ & _ & _ & W). cbn [flat].
  clear hi. revert lo; induction W as [|e es We W IHes]; intros lo; cbn [flat_es]; [constructor|].
  unfold keys. rewrite map_app. apply NoDup_app_intro; [|apply IHes|].
  - apply nodup_push. destruct e as [t|l]; [now apply IH|]. apply sorted_nodup, We.
  - intros [d x] H1 H2. apply in_keys_flat_es in H2 as (w & y & -> & Hw).
    rewrite map_map, in_map_iff in H1. destruct H1 as (b & Hb & _). inversion Hb. lia.
Qed.

(** order: if all degrees agree, strictly increasing lexicographically *)
Definition lex_term (a b : bterm) : Prop := lex_lt (t_exps a) (t_exps b).
Lemma StronglySorted_app {A} (R : A -> A -> Prop) l1 l2 :
  StronglySorted R l1 -> StronglySorted R l2 -> (forall a b, In a l1 -> In b l2 -> R a b) -> StronglySorted R (l1 ++ l2).
Proof.
  induction 1 as [|a l1 H IH H0]; cbn; auto. intros H2 H3. constructor.
  - apply IH; [exact H2|]. intros a0 b0 Ha0 Hb0; apply H3; [now right|exact Hb0].
  - apply Forall_app; split; auto. apply Forall_forall. intros b Hb. apply H3; [now left|exact Hb].
Qed.
Lemma flat_sorted n d : forall t, wf n t -> Forall (fun tm => t_deg tm = d) (flat n t) -> StronglySorted lex_term (flat n t).
Proof.
  induction n as [|n IH]; intros t W; [destruct W|].
  destruct t as [[[lo hi]|] es]; [|destruct W]. destruct W as (_ & _ & _ & W). cbn [flat].
  clear hi. revert lo; induction W as [|e es We W IHes]; intros lo; cbn [flat_es]; [constructor|].
  intros HD. apply Forall_app in HD as [HD1 HD2]. apply StronglySorted_app; [|now apply IHes|].
  - assert (H : StronglySorted lex_term (flat_e (flat n) e)).
    { rewrite Forall_map in HD1. cbn in HD1. destruct e as [t|l]; [now apply IH|]. cbn [flat_e] in *. destruct We as [_ We].
      clear -We HD1. induction We as [|a l H IH H0]; constructor.
      - apply IH. now inversion HD1.
      - inversion HD1 as [|? ? A B]; subst. rewrite Forall_forall in *. intros b Hb. destruct (H0 b Hb) as [C|[_ C]]; auto.
        rewrite (B b Hb) in C. lia. }
    clear -H. induction H as [|a l H IH H0]; cbn; constructor; auto. apply Forall_map.
    eapply Forall_impl; [|exact H0]. intros b Hb. right. split; auto.
  - intros a b Ha Hb. apply in_map_iff in Ha as (a0 & <- & _). destruct b as [c x d0].
    apply in_flat_es in Hb as (w & y & e1 & -> & Hw & _). left. lia.
Qed.

(** ** Iterator *)
Lemma trie_terms_es es : forall F v, (forall t, In (ETrie t) es -> length (F t) = trie_terms t) ->
  length (flat_es F v es) = fold_right (fun e n => (elem_terms e + n)%nat) O es.
Proof.
  induction es as [|e es IH]; intros F v H; cbn [flat_es fold_right]; auto.
  rewrite app_length, map_length, IH by (intros; apply H; now right).
  f_equal. destruct e as [t|l]; cbn [flat_e]; auto. rewrite H by now left. reflexivity.
Qed.
Lemma flat_terms n : forall t, wf n t -> length (flat n t) = trie_terms t.
Proof.
  induction n as [|n IH]; intros t W; [destruct W|].
  destruct t as [[[lo hi]|] es]; [|destruct W]. destruct W as (_ & _ & _ & W). cbn [flat].
  rewrite trie_terms_es; [reflexivity|]. intros t Ht. rewrite Forall_forall in W. apply IH. now apply W in Ht.
Qed.

(** What the path still has to deliver below depth [D] (= curDepth + 1). *)
Fixpoint rp (n D : nat) (path : list (list elem)) (exps : list Z) : list bterm :=
  match D with
  | O => []
  | S d => map (prefix (firstn d exps)) (flat_es (flat (n - S d)) (nth d exps 0 + 1) (tl (nth d path []))) ++ rp n d path exps
  end.
Definition okpath (n D : nat) (path : list (list elem)) : Prop :=
  forall d, (d < D)%nat -> nth d path [] <> [] /\ Forall (wfe (n - S d) (wf (n - S d))) (tl (nth d path [])).

Lemma rp_ext n D : forall p p' x x', (forall d, (d < D)%nat -> nth d p [] = nth d p' []) ->
  firstn D x = firstn D x' -> length x = n -> length x' = n -> (D <= n)%nat -> rp n D p x = rp n D p' x'.
Proof.
  induction D as [|D IH]; intros p p' x x' Hp Hx L1 L2 HD; cbn [rp]; auto.
  assert (E : firstn D x = firstn D x').
  { assert (firstn D (firstn (S D) x) = firstn D (firstn (S D) x')) by congruence.
    rewrite !firstn_firstn in H. now rewrite Nat.min_l in H by lia. }
  assert (E2 : nth D x 0 = nth D x' 0).
  { assert (H : nth D (firstn (S D) x) 0 = nth D (firstn (S D) x') 0) by congruence.
    rewrite <- (firstn_skipn (S D) x), <- (firstn_skipn (S D) x').
    rewrite !app_nth1 by (rewrite firstn_length; lia). exact H. }
  rewrite E, E2, (Hp D) by lia. f_equal. apply IH; auto with arith; try lia.
Qed.

Lemma map_prefix_push p v l : map (prefix p) (map (push v) l) = map (prefix (p ++ [v])) l.
Proof. rewrite map_map. apply map_ext. intros a. unfold prefix, push. cbn. now rewrite <- app_assoc. Qed.

Lemma first_container_ok n k : forall d p x e, (d + k = n)%nat -> length p = n -> length x = n ->
  okpath n d p -> wfe k (wf k) e -> nonempty e ->
  exists D p' x' l, first_container d p x e = Ok (D, p', x', l) /\ l <> [] /\ (1 <= d -> 1 <= D)%nat /\ (D <= n)%nat /\ length p' = n /\ length x' = n /\
    okpath n D p' /\ all_len (n - D) l /\
    map (prefix (firstn d x)) (flat_e (flat k) e) ++ rp n d p x = map (prefix (firstn D x')) l ++ rp n D p' x'.
Proof.
  induction k as [|k IH]; intros d p x e Hd Hp Hx OK We Ne.
  - destruct e as [t|l]; [destruct We|]. exists d, p, x, l. destruct We as [We _].
    cbn. split; auto. repeat split; auto; try lia.
    + destruct l; [destruct Ne|discriminate].
    + apply OK; auto.
    + apply OK; auto.
    + replace (n - d)%nat with 0%nat by lia. auto.
  - destruct e as [t|l].
    + destruct t as [[[lo hi]|] es]; [|destruct We]. destruct We as (_ & _ & Hne & We).
      destruct es as [|e es]; [destruct Hne|].
      cbn [first_container]. destruct (Nat.leb_spec (length p) d) as [|_]; [lia|].
      destruct (IH (S d) (upd p d (e :: es)) (upd x d lo) e) as (D & p' & x' & l & E & A & B & B2 & C1 & C2 & C3 & C4 & C5).
      * lia.
      * rewrite length_upd; auto.
      * rewrite length_upd; auto.
      * intros i Hi. destruct (Nat.eq_dec i d) as [->|Hne2].
        { rewrite nth_upd_eq by lia. split; [discriminate|]. cbn [tl]. replace (n - S d)%nat with k by lia.
          now inversion We. }
        { rewrite nth_upd_neq by lia. apply OK; lia. }
      * now inversion We.
      * auto.
      * exists D, p', x', l. split; [exact E|]. split; auto. split; [intros; apply B; lia|]. split; [auto|]. split; [auto|]. split; [auto|].
        split; [auto|]. split; [auto|]. rewrite <- C5. cbn [flat_e flat flat_es rp].
        rewrite firstn_S_upd by lia. rewrite map_app, map_prefix_push, <- app_assoc. f_equal.
        rewrite nth_upd_eq by lia. rewrite nth_upd_eq by lia. cbn [tl].
        rewrite firstn_upd_ge by lia. replace (n - S d)%nat with k by lia. f_equal.
        apply rp_ext; auto.
        { intros i Hi. rewrite nth_upd_neq by lia. auto. }
        { now rewrite firstn_upd_ge by lia. }
        { rewrite length_upd; auto. }
        { lia. }
    + exists d, p, x, l. destruct We as [We _]. cbn. split; auto. split; [destruct l; [destruct Ne|discriminate]|].
      split; [auto|]. split; [lia|]. split; [auto|]. split; [auto|]. split; [exact OK|]. split; [|reflexivity].
      replace (n - d)%nat with (S k) by lia. exact We.
Qed.

Lemma skip_empty_ok F W : forall l v, let r := skip_empty v l in
  flat_es F v l = flat_es F (fst r) (snd r) /\
  match snd r with [] => True | e :: _ => nonempty e end /\ (Forall W l -> Forall W (snd r)).
Proof.
  induction l as [|e l IH]; intros v; cbn [skip_empty]; [cbn; auto|].
  destruct e as [t|[|a c]]; cbn [fst snd]; try (cbn; auto; fail).
  destruct (IH (v + 1)) as (A & B & C). cbn [flat_es flat_e map app]. repeat split; auto.
  intros H. apply C. now inversion H.
Qed.

(** the remaining terms of an iterator state *)
Definition remaining (n : nat) (t : trie) (D : nat) p x : list bterm :=
  match D with O => flat n t | S _ => rp n D p x end.

Lemma next_container_ok n t : wf n t -> forall D p x, (D <= n)%nat -> length p = n -> length x = n -> okpath n D p ->
  exists D' p' x' o, next_container t D p x = Ok (D', p', x', o) /\
   match o with
   | None => remaining n t D p x = []
   | Some l => l <> [] /\ (1 <= D' <= n)%nat /\ length p' = n /\ length x' = n /\ okpath n D' p' /\ all_len (n - D') l /\
       remaining n t D p x = map (prefix (firstn D' x')) l ++ rp n D' p' x'
   end.
Proof.
  intros W. induction D as [|d IH]; intros p x HD Hp Hx OK.
  - destruct n as [|n]; [destruct W|]. destruct t as [[[lo hi]|] es]; [|destruct W].
    destruct W as (_ & _ & Hne & W). destruct es as [|e es]; [destruct Hne|].
    cbn [next_container]. destruct p as [|p0 p]; [discriminate|].
    destruct (first_container_ok (S n) n 1%nat (upd (p0 :: p) 0 (e :: es)) (upd x 0 lo) e) as (D & p' & x' & l & E & A & B & B2 & C1 & C2 & C3 & C4 & C5).
    + lia.
    + rewrite length_upd; auto.
    + rewrite length_upd; auto.
    + intros i Hi. assert (i = 0)%nat as -> by lia. rewrite nth_upd_eq by (cbn; lia). split; [discriminate|].
      cbn [tl]. replace (S n - 1)%nat with n by lia. now inversion W.
    + now inversion W.
    + auto.
    + rewrite E. cbn [bind]. exists D, p', x', (Some l). split; [reflexivity|]. split; [auto|]. split; [lia|].
      split; [auto|]. split; [auto|]. split; [auto|]. split; [auto|]. cbn [remaining]. rewrite <- C5.
      cbn [flat flat_es rp]. destruct x as [|x0 x]; [discriminate|]. cbn [upd nth firstn tl]. rewrite app_nil_r.
      replace (S n - 1)%nat with n by lia.
      f_equal. rewrite map_ext with (g := fun a => a); [now rewrite map_id|]. intros [c1 y d1]; reflexivity.
  - assert (OKd := OK d (Nat.lt_succ_diag_r d)). destruct OKd as [N1 N2].
    cbn [next_container]. destruct (nth d p []) as [|e0 nx] eqn:Ep; [congruence|]. cbn [tl] in N2.
    pose proof (skip_empty_ok (flat (n - S d)) (wfe (n - S d) (wf (n - S d))) nx (nth d x 0 + 1)) as HS.
    cbv zeta in HS. destruct (skip_empty (nth d x 0 + 1) nx) as [v l]. cbn [fst snd] in HS. destruct HS as (S1 & S2 & S3).
    specialize (S3 N2).
    assert (REM : remaining n t (S d) p x = map (prefix (firstn d x)) (flat_es (flat (n - S d)) v l) ++ rp n d p x).
    { cbn [remaining rp]. rewrite Ep. cbn [tl]. now rewrite S1. }
    assert (RPD : rp n d p x = rp n d (upd p d l) (upd x d v)).
    { apply rp_ext; auto; [|rewrite firstn_upd_ge by lia; auto|rewrite length_upd; auto|lia].
      intros i Hi. now rewrite nth_upd_neq by lia. }
    destruct l as [|e l].
    + cbn [flat_es map app] in REM. destruct d as [|d].
      * exists 1%nat. do 3 eexists. split; [reflexivity|]. exact REM.
      * destruct (IH (upd p (S d) []) (upd x (S d) v)) as (D' & p' & x' & o & E & H); try lia.
        { rewrite length_upd; auto. } { rewrite length_upd; auto. }
        { intros i Hi. rewrite nth_upd_neq by lia. apply OK; lia. }
        exists D', p', x', o. split; [exact E|]. rewrite REM, RPD. exact H.
    + destruct (first_container_ok n (n - S d) (S d) (upd p d (e :: l)) (upd x d v) e) as (D & p' & x' & l' & E & A & B & B2 & C1 & C2 & C3 & C4 & C5).
      * lia.
      * rewrite length_upd; auto.
      * rewrite length_upd; auto.
      * intros i Hi. destruct (Nat.eq_dec i d) as [->|Hne2].
        { rewrite nth_upd_eq by lia. split; [discriminate|]. cbn [tl]. now inversion S3. }
        { rewrite nth_upd_neq by lia. apply OK; lia. }
      * now inversion S3.
      * auto.
      * rewrite E. cbn [bind]. exists D, p', x', (Some l'). split; [reflexivity|]. split; [auto|]. split; [lia|].
        split; [auto|]. split; [auto|]. split; [auto|]. split; [auto|]. rewrite REM, <- C5. cbn [rp].
        rewrite firstn_S_upd, !nth_upd_eq by lia. cbn [tl flat_es]. rewrite map_app, map_prefix_push, <- app_assoc.
        rewrite firstn_upd_ge by lia. do 2 f_equal. exact RPD.
Qed.

Definition rest (n : nat) (t : trie) (it : iter T) : list bterm :=
  map (prefix (firstn (it_depth it) (it_exps it))) (it_stored it) ++ remaining n t (it_depth it) (it_path it) (it_exps it).
Definition ok_iter (n : nat) (it : iter T) : Prop :=
  (it_depth it <= n)%nat /\ length (it_path it) = n /\ length (it_exps it) = n /\ okpath n (it_depth it) (it_path it) /\
  all_len (n - it_depth it) (it_stored it) /\ (it_depth it = O -> it_stored it = []).

Definition nz (tm : bterm) : bool := negb (tzero (t_coef tm)).

Lemma next_term_ok n t : wf n t -> forall fuel it, ok_iter n it -> (length (rest n t it) < fuel)%nat ->
  exists it' o, next_term tzero fuel t it = Ok (it', o) /\
    match o with
    | None => filter nz (rest n t it) = []
    | Some tm => ok_iter n it' /\ filter nz (rest n t it) = tm :: filter nz (rest n t it') /\
                 (length (rest n t it') < length (rest n t it))%nat
    end.
Proof.
  intros W. induction fuel as [|fuel IH]; intros it OKI Hf; [lia|].
  cbn [next_term].
  assert (G : exists D p x o, (match it_stored it with
       | _ :: _ => Ok (it_depth it, it_path it, it_exps it, Some (it_stored it))
       | [] => next_container t (it_depth it) (it_path it) (it_exps it)
       end) = Ok (D, p, x, o) /\
     match o with None => rest n t it = []
     | Some l => l <> [] /\ (1 <= D <= n)%nat /\ length p = n /\ length x = n /\ okpath n D p /\ all_len (n - D) l /\
        rest n t it = map (prefix (firstn D x)) l ++ rp n D p x end).
  { destruct it as [D p x st]. unfold rest. destruct OKI as (A & B & C & D1 & E & F). cbn [it_depth it_path it_exps it_stored] in *.
    destruct st as [|s st].
    - destruct (next_container_ok n t W D p x A B C D1) as (D' & p' & x' & o & H & H2). exists D', p', x', o. split; auto.
    - exists D, p, x, (Some (s :: st)). split; auto. destruct D as [|D]; [discriminate (F eq_refl)|].
      split; [discriminate|]. repeat split; auto; try lia; apply D1; auto. }
  destruct G as (D & p & x & o & -> & G). cbn [bind]. destruct o as [[|tm l]|].
  - destruct G; congruence.
  - destruct G as (_ & HD & Hp & Hx & OKP & HL & HR). pose proof (Forall_inv HL) as HL1. pose proof (Forall_inv_tail HL) as HL2. cbv beta in HL1.
    rewrite Hx, HL1, Nat.eqb_refl.
    assert (FX : firstn D (firstn D x ++ t_exps tm) = firstn D x).
    { rewrite firstn_app, firstn_firstn, Nat.min_id. rewrite firstn_length, Hx. replace (D - min D n)%nat with 0%nat by lia. cbn. now rewrite app_nil_r. }
    set (x' := firstn D x ++ t_exps tm). set (it' := mkIter D p x' l).
    assert (LX : length x' = n) by (unfold x'; rewrite app_length, firstn_length, HL1; lia).
    assert (OK' : ok_iter n it').
    { repeat split; cbn; auto; try lia; try (apply OKP; auto). }
    assert (HR' : rest n t it = prefix (firstn D x) tm :: rest n t it').
    { rewrite HR. cbn [map app]. f_equal. unfold rest. cbn [it' it_depth it_path it_exps it_stored]. unfold x' at 1. rewrite FX. f_equal.
      destruct D as [|D]; [lia|]. apply rp_ext; auto; lia. }
    rewrite HR' in Hf. cbn [length] in Hf.
    destruct (tzero (t_coef tm)) eqn:Ez.
    + destruct (IH it' OK' ltac:(lia)) as (it2 & o2 & E2 & H2). exists it2, o2. split; [exact E2|].
      rewrite HR'. cbn [filter length]. assert (Enz : nz (prefix (firstn D x) tm) = false) by (unfold nz; cbn [prefix t_coef]; now rewrite Ez).
      rewrite Enz. destruct o2; auto. destruct H2 as (A & B & C). auto.
    + exists it', (Some (mkTerm (t_coef tm) x' (t_deg tm))). split; [reflexivity|]. split; [auto|]. rewrite HR'.
      cbn [filter length]. assert (Enz : nz (prefix (firstn D x) tm) = true) by (unfold nz; cbn [prefix t_coef]; now rewrite Ez).
      rewrite Enz. split; [reflexivity|lia].
  - exists (mkIter D p x []), None. split; [reflexivity|]. now rewrite G.
Qed.

Lemma drain_ok n t fuel : wf n t -> forall k it, ok_iter n it -> (length (rest n t it) < fuel)%nat -> (length (rest n t it) < k)%nat ->
  drain tzero k fuel t it = Ok (filter nz (rest n t it)).
Proof.
  intros W. induction k as [|k IH]; intros it OKI Hf Hk; [lia|]. cbn [drain].
  destruct (next_term_ok n t W fuel it OKI Hf) as (it' & o & -> & H). cbn [bind]. destruct o as [tm|].
  - destruct H as (A & -> & C). rewrite IH by (auto; lia). reflexivity.
  - now rewrite H.
Qed.

Lemma iterate_ok n t : wf n t -> iterate tzero t n = Ok (filter nz (flat n t)).
Proof.
  intros W. unfold iterate. set (N := S (trie_terms t)).
  assert (OK0 : ok_iter n (@it_begin T n)).
  { unfold it_begin. split; [cbn; lia|]. split; [apply repeat_length|]. split; [apply repeat_length|].
    split; [intros i Hi; cbn in Hi; lia|]. split; [constructor|reflexivity]. }
  assert (R0 : rest n t (it_begin n) = flat n t) by reflexivity.
  rewrite (drain_ok n t N W N _ OK0); rewrite R0; auto; rewrite (flat_terms n t W); unfold N; lia.
Qed.

(** ** Sequences of insertions *)
Definition good_input (n : nat) (p : T * Z * list Z) : Prop := length (snd p) = n.
Definition comb_from (l : list (T * Z * list Z)) (o : option T) (d : Z) (x : list Z) : option T :=
  fold_left (fun o p =>
    if (snd (fst p) =? d) && same_exps (snd p) x then
      match o with None => Some (fst (fst p)) | Some y => Some (tadd y (fst (fst p))) end
    else o) l o.
Definition nonzero (l : list (T * Z * list Z)) := filter (fun p => negb (tzero (fst (fst p)))) l.

Definition sum_inv (n : nat) (m : msum T) (f : Z -> list Z -> option T) : Prop :=
  ms_vars m = n /\
  ((ms_terms m = O /\ ms_trie m = None /\ forall d x, f d x = None) \/
   (ms_terms m <> O /\ exists t, ms_trie m = Some t /\ wf n t /\ forall d x, length x = n -> find_t t d x = f d x)).

Lemma insert_form_ok n m f c d x : n <> O -> length x = n -> sum_inv n m f -> tzero c = false ->
  exists m', insert_form tadd tzero m c d x = Ok m' /\ ms_terms m' = S (ms_terms m) /\
    ms_terms m' <> O /\ sum_inv n m' (upd_find f c d x).
Proof.
  intros Hn Hx (Hv & H) Hz. unfold insert_form. rewrite Hz.
  assert (G : forall t0, (wf n t0 /\ (forall d x, length x = n -> find_t t0 d x = f d x)) \/ (t0 = BT None [] /\ forall d x, f d x = None) ->
     exists m', bind (insert_term tadd t0 c x d) (fun tr' => Ok (mkSum (S (ms_terms m)) (ms_vars m) (Some tr'))) = Ok m' /\
       ms_terms m' = S (ms_terms m) /\ ms_terms m' <> O /\ sum_inv n m' (upd_find f c d x)).
  { intros t0 H0. unfold insert_term. rewrite Hx.
    destruct (trie_insert_ok n t0 c x 0%nat d Hn Hx) as (t' & -> & W & F).
    - destruct H0 as [[H0 _]|[H0 _]]; [left|right]; auto.
    - auto.
    - cbn [bind]. eexists; split; [reflexivity|]. cbn [ms_terms ms_vars ms_trie]. split; [reflexivity|]. split; [discriminate|]. split; [exact Hv|].
      right. split; [discriminate|]. exists t'. split; [reflexivity|]. split; [exact W|]. intros d1 x1 H1. rewrite F by auto. cbn [skipn].
      apply upd_find_ext; destruct H0 as [[_ H0]|[-> H0]]; auto; rewrite find_empty; symmetry; apply H0. }
  destruct H as [(H1 & H2 & H3)|(H1 & t & H2 & H3 & H4)].
  - rewrite H1. cbn [Nat.eqb]. rewrite H1 in G. apply G. right. split; [reflexivity|auto].
  - destruct (Nat.eqb_spec (ms_terms m) 0) as [|_]; [congruence|]. rewrite H2. apply G. left; auto.
Qed.

Lemma insert_all_ok n : n <> O -> forall l m f, Forall (good_input n) l -> sum_inv n m f ->
  exists m', insert_all tadd tzero l m = Ok m' /\ sum_inv n m' (fun d x => comb_from (nonzero l) (f d x) d x) /\
    ms_terms m' = (length (nonzero l) + ms_terms m)%nat.
Proof.
  intros Hn. unfold insert_all. induction l as [|[[c d] x] l IH]; intros m f HL HI.
  - exists m. cbn. repeat split; auto; apply HI.
  - pose proof (Forall_inv HL) as HL1. pose proof (Forall_inv_tail HL) as HL2. unfold good_input in HL1. cbn [snd] in HL1.
    cbn [fold_out fst snd]. cbn [nonzero filter fst]. fold (nonzero l).
    destruct (tzero c) eqn:Ez; cbn [negb].
    + unfold insert_form at 1. rewrite Ez. cbn [bind]. apply IH; auto.
    + destruct (insert_form_ok n m f c d x Hn HL1 HI Ez) as (m1 & -> & T1 & T2 & I1). cbn [bind].
      destruct (IH m1 _ HL2 I1) as (m' & -> & I2 & T3). exists m'. split; auto. split; [|cbn [length]; lia].
      destruct I2 as [V I2]. split; auto.
      assert (EQ : forall d1 x1, comb_from (nonzero l) (upd_find f c d x d1 x1) d1 x1 = comb_from ((c, d, x) :: nonzero l) (f d1 x1) d1 x1).
      { intros d1 x1. cbn [comb_from fold_left fst snd]. f_equal. unfold upd_find, bump.
        destruct ((d =? d1) && same_exps x x1) eqn:E; auto.
        apply andb_true_iff in E as [E1 E2]. apply Z.eqb_eq in E1. apply same_exps_spec in E2. subst. reflexivity. }
      destruct I2 as [(H1 & _)|(A & t & B & C & D)]; [lia|]. right. split; auto. exists t. repeat split; auto.
      intros d1 x1 H1. rewrite <- EQ. auto.
Qed.

Lemma new_sum_inv n : sum_inv n (new_sum n) (fun _ _ => None).
Proof. split; auto. Qed.

Lemma NoDup_filter_keys (l : list bterm) g : NoDup (keys l) -> NoDup (keys (filter g l)).
Proof.
  induction l as [|a l IH]; cbn; auto. intros H; inversion H as [|? ? H1 H2]; subst.
  destruct (g a); cbn; auto. constructor; auto. intros Hin. apply H1. apply in_map_iff in Hin as (b & Hb & Hf).
  apply filter_In in Hf as [Hf _]. apply in_map_iff. exists b; auto.
Qed.
Lemma SS_filter {A} (R : A -> A -> Prop) g l : StronglySorted R l -> StronglySorted R (filter g l).
Proof.
  induction 1 as [|a l H IH H0]; cbn; [constructor|]. destruct (g a); auto. constructor; auto.
  rewrite Forall_forall in *. intros b Hb. apply filter_In in Hb as [Hb _]. auto.
Qed.

Theorem trie_map n l : n <> O -> Forall (fun p => length (snd p) = n) l -> nonzero l <> [] ->
  exists m out, insert_all tadd tzero l (new_sum n) = Ok m /\ ms_terms m = length (nonzero l) /\ sum_terms tzero m = Ok out /\
    NoDup (keys out) /\
    (forall d x c, In (mkTerm c x d) out <-> combined tadd (nonzero l) d x = Some c /\ tzero c = false) /\
    ((exists d, Forall (fun p => snd (fst p) = d) l) -> StronglySorted lex_term out).
Proof.
  intros Hn HL HNE. destruct (insert_all_ok n Hn l (new_sum n) _ HL (new_sum_inv n)) as (m & E & (V & I) & TC).
  cbn [ms_terms new_sum] in TC. rewrite Nat.add_0_r in TC.
  destruct I as [(H & _)|(_ & t & B & W & F)]; [destruct (nonzero l); [congruence|cbn in TC; lia]|].
  exists m, (filter nz (flat n t)). split; auto. split; auto.
  assert (HIN : forall d x c, In (mkTerm c x d) (filter nz (flat n t)) <-> combined tadd (nonzero l) d x = Some c /\ tzero c = false).
  { intros d x c. rewrite filter_In, (flat_find n) by auto. unfold nz. cbn [t_coef]. rewrite negb_true_iff.
    assert (HX : length x = n \/ combined tadd (nonzero l) d x = None).
    { destruct (Nat.eq_dec (length x) n) as [|Hne]; [left; auto|right].
      unfold combined. clear -HL Hne. unfold nonzero.
      induction HL as [|p l Hp HL IH]; cbn [filter]; [reflexivity|].
      destruct (negb (tzero (fst (fst p)))); auto. cbn [fold_left].
      destruct (same_exps (snd p) x) eqn:E; [apply same_exps_spec in E; subst; congruence|].
      rewrite andb_false_r. auto. }
    destruct HX as [HX|HX].
    - rewrite F by auto. unfold comb_from. unfold combined. tauto.
    - rewrite HX. split; [|intros [H _]; discriminate]. intros [[H1 H2] _]. exfalso.
      rewrite F in H2 by auto. unfold combined in HX. unfold comb_from in H2. congruence. }
  split; [|split; [|split; [exact HIN|]]].
  - unfold sum_terms. rewrite B, V. now apply iterate_ok.
  - apply NoDup_filter_keys, flat_nodup; auto.
  - intros [d HD]. apply SS_filter. apply (flat_sorted n d); auto. apply Forall_forall. intros [c x d1] Hin.
    cbn [t_deg]. apply (flat_find n) in Hin as [Hx Hin]; auto. rewrite F in Hin by auto. cbn beta in Hin.
    destruct (Z.eq_dec d1 d) as [|Hne]; auto. exfalso.
    assert (HN : comb_from (nonzero l) None d1 x = None); [|congruence].
    unfold nonzero. clear -HD Hne. induction HD as [|p l Hp HD IH]; cbn [filter]; [reflexivity|].
    destruct (negb (tzero (fst (fst p)))); auto. cbn [comb_from fold_left].
    destruct (Z.eqb_spec (snd (fst p)) d1); [congruence|]. cbn [andb]. exact IH.
Qed.
End TrieP.
