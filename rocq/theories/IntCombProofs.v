From Coq Require Import FinFun.
From Verif Require Import Common IntComb IntCombSpec.
Open Scope Z_scope.

(** Mixed-radix code of a vector. *)
Fixpoint code (u v : list Z) : Z :=
  match u, v with _ :: u', x :: v' => x * box_size u' + code u' v' | _, _ => 0 end.

Lemma size_pos u : Forall (fun x => 0 <= x) u -> 0 < box_size u.
Proof. induction 1; simpl; nia. Qed.
Lemma size_app a b : box_size (a ++ b) = box_size a * box_size b.
Proof. induction a; cbn [box_size app]; [lia|]. rewrite IHa. lia. Qed.
Lemma code_app ua ub' va vb : length ua = length va -> code (ua ++ ub') (va ++ vb) = code ua va * box_size ub' + code ub' vb.
Proof.
  revert va; induction ua as [|x ua IH]; intros [|y va] H; try discriminate; cbn [code app]; [lia|].
  rewrite IH by (simpl in H; lia). rewrite size_app. lia.
Qed.
Lemma code_max u : code u u = box_size u - 1.
Proof. induction u; cbn [code box_size]; lia. Qed.
Lemma code_zero u n : code u (repeat 0 n) = 0.
Proof. revert n; induction u; intros [|n]; cbn [code repeat]; auto. rewrite IHu. lia. Qed.
Lemma code_range u v : in_box u v -> 0 <= code u v < box_size u.
Proof. induction 1; cbn [code box_size]; nia. Qed.
Lemma in_box_nonneg u v : in_box u v -> Forall (fun x => 0 <= x) u.
Proof. induction 1; constructor; auto; lia. Qed.
Lemma code_inj u v w : in_box u v -> in_box u w -> code u v = code u w -> v = w.
Proof.
  intros H; revert w; induction H as [|a x u v Hx H IH]; intros w Hw; inversion Hw; subst; auto.
  cbn [code]. intros E. pose proof (code_range _ _ H). pose proof (code_range _ _ H4).
  assert (x = y) by nia. subst. f_equal. apply IH; auto. nia.
Qed.
Lemma code_surj u k : Forall (fun x => 0 <= x) u -> 0 <= k < box_size u -> exists v, in_box u v /\ code u v = k.
Proof.
  intros H; revert k; induction H as [|a u Ha H IH]; intros k Hk; cbn [box_size] in Hk.
  - exists []. split; [constructor|]. simpl; lia.
  - pose proof (size_pos u H) as P.
    destruct (IH (k mod box_size u)) as (v & Hv & Ev); [apply Z.mod_pos_bound; lia|].
    exists (k / box_size u :: v). split.
    + constructor; auto. split; [apply Z.div_pos; lia|]. assert (k / box_size u < a + 1) by (apply Z.div_lt_upper_bound; lia). lia.
    + cbn [code]. rewrite Ev. pose proof (Z.div_mod k (box_size u)). lia.
Qed.
Lemma in_box_len u v : in_box u v -> length u = length v.
Proof. induction 1; simpl; auto. Qed.
Lemma in_box_app ua ub' va vb : length ua = length va -> (in_box (ua ++ ub') (va ++ vb) <-> in_box ua va /\ in_box ub' vb).
Proof.
  revert va; induction ua as [|x ua IH]; intros [|y va] H; try discriminate; simpl.
  - split; [intros; split; auto; constructor|tauto].
  - unfold in_box in *. split.
    + inversion 1; subst. apply IH in H6; [|simpl in H; lia]. destruct H6. split; auto.
    + intros [H1 H2]. inversion H1; subst. constructor; auto. apply IH; auto.
Qed.
Lemma in_box_zeros u : Forall (fun x => 0 <= x) u -> in_box u (repeat 0 (length u)).
Proof. induction 1; simpl; constructor; auto; lia. Qed.

Lemma split_at {A} (l : list A) c d : (c < length l)%nat -> l = firstn c l ++ nth c l d :: skipn (S c) l.
Proof.
  revert c; induction l as [|x l IH]; intros [|c] H; simpl in *; try lia; auto.
  f_equal. apply IH. lia.
Qed.
Lemma upd_app {A} (a : list A) x b y : upd (a ++ x :: b) (length a) y = a ++ y :: b.
Proof. induction a; simpl; auto. now rewrite IHa. Qed.
Lemma nth_app_mid {A} (a : list A) x b d : nth (length a) (a ++ x :: b) d = x.
Proof. rewrite app_nth2 by lia. now rewrite Nat.sub_diag. Qed.
Lemma upd_app' {A} (a : list A) x b y n : length a = n -> upd (a ++ x :: b) n y = a ++ y :: b.
Proof. intros <-. apply upd_app. Qed.
Lemma nth_app_mid' {A} (a : list A) x b d n : length a = n -> nth n (a ++ x :: b) d = x.
Proof. intros <-. apply nth_app_mid. Qed.
Lemma skipn_cons_nth {A} (l : list A) c d : (c < length l)%nat -> skipn c l = nth c l d :: skipn (S c) l.
Proof. revert c; induction l as [|x l IH]; intros [|c] H; simpl in *; try lia; auto. apply IH; lia. Qed.
Lemma firstn_all_app {A} (l : list A) n m : (m <= n)%nat -> firstn m (firstn n l) = firstn m l.
Proof. intros. rewrite firstn_firstn. f_equal. lia. Qed.

(** One step: the code goes up by one, or wraps to the zero vector at the end. *)
Definition stepped (u p n : list Z) (c : Z) : Prop :=
  in_box u n /\
  ((code u p + 1 < box_size u /\ code u n = code u p + 1 /\ c = Z.of_nat (length u) - 1) \/
   (code u p + 1 = box_size u /\ n = repeat 0 (length u) /\ c = -1)).

Lemma step_split u p c x b : in_box u p -> (c < length u)%nat ->
  x = nth c p 0 -> x < nth c u 0 -> skipn (S c) p = skipn (S c) u -> b = repeat 0 (length u - S c) ->
  let n := firstn c p ++ (x + 1) :: b in
  in_box u n /\ code u n = code u p + 1 /\ code u p + 1 < box_size u.
Proof.
  intros Hb Hc -> Hx Hs -> n. pose proof (in_box_len _ _ Hb) as L.
  set (ua := firstn c u) in *. set (uc := nth c u 0) in *. set (us := skipn (S c) u) in *.
  set (pa := firstn c p) in *. set (pc := nth c p 0) in *.
  assert (Eu : u = ua ++ uc :: us) by (apply split_at; lia).
  assert (Ep : p = pa ++ pc :: us) by (rewrite <- Hs; apply split_at; lia).
  assert (La : length ua = length pa) by (unfold ua, pa; rewrite !firstn_length; lia).
  assert (Ls : (length u - S c)%nat = length us) by (unfold us; rewrite skipn_length; lia).
  assert (Hb' : in_box (ua ++ uc :: us) (pa ++ pc :: us)) by (rewrite <- Eu, <- Ep; exact Hb).
  apply in_box_app in Hb' as [Ha Hc']; [|exact La]. inversion Hc' as [|? ? ? ? R Hs'].
  assert (Hn : in_box u n).
  { rewrite Eu. unfold n. apply in_box_app; [exact La|]. split; [exact Ha|]. constructor; [lia|]. rewrite Ls. apply in_box_zeros. eapply in_box_nonneg; eauto. }
  assert (En : code u n = code u p + 1).
  { unfold n. rewrite Ls. transitivity (code (ua ++ uc :: us) (pa ++ (pc + 1) :: repeat 0 (length us))); [now rewrite <- Eu|].
    transitivity (code (ua ++ uc :: us) (pa ++ pc :: us) + 1); [|now rewrite <- Eu, <- Ep].
    rewrite !code_app by exact La. cbn [code]. rewrite code_zero, code_max. lia. }
  split; [exact Hn|]. split; [exact En|]. pose proof (code_range _ _ Hn). lia.
Qed.

Lemma firstn_app_exact {A} (a b : list A) n : length a = n -> firstn n (a ++ b) = a.
Proof. intros <-. rewrite firstn_app, Nat.sub_diag, firstn_all. simpl. apply app_nil_r. Qed.
Lemma carry_ok u p q n0 : in_box u p -> forall c f, (c < length u)%nat -> (S c <= f)%nat ->
  firstn (S c) n0 = firstn (S c) p -> length n0 = length u ->
  skipn c p = skipn c u ->
  exists n c', carry f (mkIce u p q (Z.of_nat (length u) - 1)) n0 (Z.of_nat c) = Ok (n, c') /\ stepped u p n c'.
Proof.
  intros Hb c. revert n0. pose proof (in_box_len _ _ Hb) as L.
  induction c as [|c IH]; intros n0 f Hc Hf Hn Ln Hs.
  - destruct f as [|f]; [lia|]. cbn [carry]. destruct (Z.ltb_spec (Z.of_nat 0) 0); [lia|].
    unfold len. cbn [ub]. change (Z.of_nat 0 - 1) with (-1). change (0 <=? -1) with false. cbn [andb].
    assert (Es : set_zero n0 (Z.to_nat (Z.of_nat 0)) (length u - 1) = repeat 0 (length u)).
    { unfold set_zero. simpl Z.to_nat. cbn [firstn app]. rewrite skipn_all2 by lia. rewrite app_nil_r. f_equal. lia. }
    rewrite Es. exists (repeat 0 (length u)), (-1). split; [destruct f; reflexivity|].
    split; [apply in_box_zeros; eapply in_box_nonneg; eauto|right].
    simpl in Hs. subst p. rewrite code_max. repeat split; lia.
  - destruct f as [|f]; [lia|]. cbn [carry]. destruct (Z.ltb_spec (Z.of_nat (S c)) 0); [lia|].
    unfold len. cbn [ub prev]. replace (Z.of_nat (S c) - 1) with (Z.of_nat c) by lia. rewrite !Nat2Z.id.
    destruct (Z.leb_spec 0 (Z.of_nat c)); [cbn [andb]|lia].
    set (n1 := set_zero n0 (S c) (length u - 1)).
    assert (E1 : n1 = firstn (S c) p ++ repeat 0 (length u - S c)).
    { unfold n1, set_zero. rewrite skipn_all2 by lia. rewrite app_nil_r. f_equal; [|f_equal; lia].
      rewrite <- (firstn_all_app n0 (S (S c)) (S c)) by lia. rewrite Hn. apply firstn_all_app. lia. }
    assert (F1 : firstn (S c) p = firstn c p ++ [nth c p 0]).
    { rewrite (split_at p c 0) at 1 by lia. replace (firstn c p ++ nth c p 0 :: skipn (S c) p) with ((firstn c p ++ [nth c p 0]) ++ skipn (S c) p) by now rewrite <- app_assoc.
      rewrite firstn_app_exact; [reflexivity|]. rewrite app_length, firstn_length. simpl. lia. }
    assert (E2 : n1 = firstn c p ++ nth c p 0 :: repeat 0 (length u - S c)) by (rewrite E1, F1, <- app_assoc; reflexivity).
    assert (Lc : length (firstn c p) = c) by (rewrite firstn_length; lia).
    destruct (Z.ltb_spec (nth c p 0) (nth c u 0)) as [Lt|Ge].
    + assert (N1 : nth c n1 0 = nth c p 0) by (rewrite E2; now apply nth_app_mid').
      assert (U1 : upd n1 c (nth c n1 0 + 1) = firstn c p ++ (nth c p 0 + 1) :: repeat 0 (length u - S c)).
      { rewrite N1, E2. now apply upd_app'. }
      rewrite U1. do 2 eexists. split; [reflexivity|].
      destruct (step_split u p c (nth c p 0) (repeat 0 (length u - S c)) Hb) as (A & B & C); auto; try lia.
      split; [exact A|left]. repeat split; auto.
    + destruct (IH n1 f) as (n & c' & E & St); try lia.
      * rewrite E1. now apply firstn_app_exact; rewrite firstn_length; lia.
      * rewrite E1, app_length, firstn_length, repeat_length. lia.
      * rewrite (skipn_cons_nth p c 0), (skipn_cons_nth u c 0), Hs by lia. f_equal.
        assert (R : in_box (skipn c u) (skipn c p)).
        { assert (Q : length (firstn c u) = length (firstn c p)) by (rewrite !firstn_length; lia).
          apply (in_box_app _ _ _ _ Q). now rewrite !firstn_skipn. }
        rewrite (skipn_cons_nth p c 0), (skipn_cons_nth u c 0) in R by lia. inversion R; subst. lia.
      * exists n, c'. split; [exact E|exact St].
Qed.

Definition live (s : ice) : Prop :=
  in_box (ub s) (prev s) /\ (0 < length (ub s))%nat /\ cur_col s = Z.of_nat (length (ub s)) - 1.
Definition finished (s : ice) : Prop := prev s = repeat 0 (length (ub s)) /\ cur_col s = -1.

Lemma get_next_step s : live s -> exists n c, get_next s = Ok (mkIce (ub s) n n c, Some n) /\ stepped (ub s) (prev s) n c.
Proof.
  intros (Hb & Hl & Hc). destruct s as [u p q cc]. cbn [ub prev cur_col] in *. subst cc. unfold get_next, is_last. cbn [prev cur_col ub].
  destruct (Z.ltb_spec (Z.of_nat (length u) - 1) 0); [lia|]. rewrite andb_false_r.
  replace (Z.to_nat (Z.of_nat (length u) - 1)) with (length u - 1)%nat by lia.
  pose proof (in_box_len _ _ Hb) as L.
  set (c := (length u - 1)%nat) in *.
  destruct (Z.eqb_spec (nth c p 0) (nth c u 0)) as [E|N].
  - unfold len. cbn [ub]. destruct (carry_ok u p q p Hb c (S (length u))) as (n & c' & E' & St); auto; try (unfold c; lia).
    { rewrite (skipn_cons_nth p c 0), (skipn_cons_nth u c 0), E by (unfold c; lia). f_equal. rewrite !skipn_all2 by (unfold c; lia). reflexivity. }
    replace (Z.of_nat c) with (Z.of_nat (length u) - 1) in E' by (unfold c; lia). rewrite E'. cbn [bind]. eauto.
  - cbn [bind]. set (n := upd p c (nth c p 0 + 1)).
    assert (En : n = firstn c p ++ (nth c p 0 + 1) :: repeat 0 (length u - S c)).
    { unfold n. rewrite (split_at p c 0) at 1 by (unfold c; lia).
      replace (length u - S c)%nat with 0%nat by (unfold c; lia). cbn [repeat]. rewrite skipn_all2 by (unfold c; lia).
      assert (Q : length (firstn c p) = c) by (rewrite firstn_length; unfold c; lia). now apply upd_app'. }
    assert (R : nth c p 0 <= nth c u 0).
    { assert (Q : length (firstn c u) = length (firstn c p)) by (rewrite !firstn_length; lia).
      assert (R : in_box (skipn c u) (skipn c p)) by (apply (in_box_app _ _ _ _ Q); now rewrite !firstn_skipn).
      rewrite (skipn_cons_nth p c 0), (skipn_cons_nth u c 0) in R by (unfold c; lia). inversion R; subst. lia. }
    destruct (step_split u p c (nth c p 0) (repeat 0 (length u - S c)) Hb) as (A & B & C); auto; try (unfold c; lia); try lia.
    { rewrite !skipn_all2 by (unfold c; lia). reflexivity. }
    rewrite <- En in A, B. do 2 eexists. split; [reflexivity|]. split; [exact A|left]. repeat split; auto.
Qed.

Lemma get_next_finished s : finished s -> get_next s = Ok (s, None).
Proof.
  intros [H1 H2]. unfold get_next, is_last. rewrite H1, H2.
  assert (F : forallb (fun x => x =? 0) (repeat 0 (length (ub s))) = true) by (apply forallb_forall; intros x Hx; apply repeat_spec in Hx; subst; reflexivity).
  now rewrite F.
Qed.

Lemma get_many_finished k s : finished s -> get_many k s = Ok (s, repeat None k).
Proof. intros H. induction k; simpl; auto. rewrite get_next_finished by exact H. cbn [bind]. rewrite IHk. reflexivity. Qed.

(** From a live state of code k, the outputs have codes k+1 .. size-1, then 0. *)
Lemma get_many_live : forall r s, live s -> code (ub s) (prev s) + Z.of_nat r + 1 = box_size (ub s) ->
  forall extra, exists s' vs, get_many (S r + extra) s = Ok (s', map Some vs ++ repeat None extra) /\
    Forall (in_box (ub s)) vs /\
    map (code (ub s)) vs = map (fun i => code (ub s) (prev s) + 1 + Z.of_nat i) (seq 0 r) ++ [0].
Proof.
  induction r as [|r IH]; intros s Hl Hc extra.
  - destruct (get_next_step s Hl) as (n & c & E & Hb & [(A & _)|(A & Hn & Hc')]); [lia|]. subst n c.
    change (1 + extra)%nat with (S extra). cbn [get_many]. rewrite E. cbn [bind]. rewrite get_many_finished by (split; reflexivity). cbn [bind].
    eexists _, [repeat 0 (length (ub s))]. split; [|split].
    + reflexivity.
    + auto.
    + cbn [map seq app]. now rewrite code_zero.
  - destruct (get_next_step s Hl) as (n & c & E & Hb & [(A & Hn & Hc')|(A & _)]); [|lia].
    change (S (S r) + extra)%nat with (S (S r + extra)). cbn [get_many]. rewrite E. cbn [bind].
    destruct (IH (mkIce (ub s) n n c)) with (extra := extra) as (s' & vs & E' & F & M).
    { destruct Hl as (? & ? & ?). repeat split; auto. }
    { cbn [ub prev]. lia. }
    cbn [ub prev] in *. rewrite E'. cbn [bind]. exists s', (n :: vs). split; [reflexivity|]. split; [auto|].
    cbn [map]. rewrite M, Hn. cbn [seq map app]. f_equal; [lia|]. f_equal.
    rewrite <- seq_shift, map_map. apply map_ext. intros. lia.
Qed.

Lemma enum_ok u : (0 < length u)%nat -> Forall (fun x => 0 <= x) u -> forall extra,
  exists s' vs, get_many (Z.to_nat (box_size u) + extra) (ice_new u) = Ok (s', map Some vs ++ repeat None extra) /\
    NoDup vs /\ (forall v, In v vs <-> in_box u v) /\ length vs = Z.to_nat (box_size u) /\
    last vs [] = repeat 0 (length u).
Proof.
  intros Hl Hu extra. pose proof (size_pos u Hu) as P.
  assert (Z0 : in_box u (repeat 0 (length u))) by now apply in_box_zeros.
  destruct (get_many_live (Z.to_nat (box_size u) - 1) (ice_new u)) with (extra := extra) as (s' & vs & E & F & M).
  { repeat split; auto. }
  { cbn [ub prev ice_new]. rewrite code_zero. lia. }
  cbn [ub prev ice_new] in *. rewrite code_zero in M. replace (S (Z.to_nat (box_size u) - 1)) with (Z.to_nat (box_size u)) in E by lia.
  exists s', vs. split; [exact E|].
  assert (ND : NoDup (map (code u) vs)).
  { rewrite M. rewrite <- (app_nil_r (_ ++ [0])), <- app_assoc. apply NoDup_Add with (a := 0) (l := map (fun i => 0 + 1 + Z.of_nat i) (seq 0 (Z.to_nat (box_size u) - 1))).
    - rewrite app_nil_r. rewrite <- (app_nil_r (map _ _)) at 1. apply Add_app.
    - split.
      + apply FinFun.Injective_map_NoDup; [intros a b; lia|apply seq_NoDup].
      + rewrite in_map_iff. intros (i & ? & _). lia. }
  split; [eapply NoDup_map_inv; eauto|]. split; [|split].
  - intros v. split; [intros Hv; rewrite Forall_forall in F; auto|]. intros Hv.
    assert (I : In (code u v) (map (code u) vs)).
    { pose proof (code_range _ _ Hv) as R. rewrite M. apply in_or_app.
      destruct (Z.eq_dec (code u v) 0) as [->|N]; [right; now left|left].
      apply in_map_iff. exists (Z.to_nat (code u v - 1)). split; [lia|]. apply in_seq. lia. }
    apply in_map_iff in I as (w & Ew & Hw). rewrite Forall_forall in F.
    assert (w = v) by (eapply code_inj; eauto). now subst.
  - apply (f_equal (@length _)) in M. rewrite map_length, app_length, map_length, seq_length in M. simpl in M. lia.
  - destruct vs as [|w vs'] using rev_ind; [exfalso; symmetry in M; apply app_eq_nil in M as [_ M]; discriminate|]. clear IHvs'.
    rewrite last_last. rewrite map_app in M. apply app_inj_tail in M as [_ M].
    apply Forall_app in F as [_ F]. inversion F; subst. eapply code_inj; eauto. rewrite M. now rewrite code_zero.
Qed.

Lemma enum_empty : forall k, get_many k (ice_new []) = Ok (ice_new [], repeat None k).
Proof. intros k. apply get_many_finished. split; reflexivity. Qed.

(** A negative bound in the last column: the enumeration does not end. *)
Lemma carry_free_run u : forall k p q, (0 < length u)%nat -> length p = length u -> Forall (fun x => 0 <= x) p ->
  nth (length u - 1) u 0 < 0 ->
  forall s rs, get_many k (mkIce u p q (Z.of_nat (length u) - 1)) = Ok (s, rs) -> ~ In None rs.
Proof.
  induction k as [|k IH]; intros p q Hl Lp Hp Hn s rs E; cbn [get_many] in E; [injection E as <- <-; intros []|].
  unfold get_next, is_last in E. cbn [prev cur_col ub] in E.
  destruct (Z.ltb_spec (Z.of_nat (length u) - 1) 0); [lia|]. rewrite andb_false_r in E.
  replace (Z.to_nat (Z.of_nat (length u) - 1)) with (length u - 1)%nat in E by lia.
  assert (P : 0 <= nth (length u - 1) p 0) by (rewrite Forall_forall in Hp; apply Hp, nth_In; lia).
  destruct (Z.eqb_spec (nth (length u - 1) p 0) (nth (length u - 1) u 0)); [lia|]. cbn [bind] in E.
  match type of E with bind (get_many k ?st) _ = _ => destruct (get_many k st) as [[s2 rs2]|] eqn:E2 end; cbn [bind] in E; [|discriminate].
  injection E as <- <-. intros [H0|H0]; [discriminate|]. revert H0. eapply IH; try exact E2; auto.
  - now rewrite length_upd.
  - apply Forall_forall. intros x Hx. apply In_nth with (d := 0) in Hx as (i & Hi & <-). rewrite length_upd in Hi.
    destruct (Nat.eq_dec (length u - 1) i) as [<-|N]; [rewrite nth_upd_eq by lia; lia|].
    rewrite nth_upd_neq by exact N. rewrite Forall_forall in Hp. apply Hp, nth_In. lia.
Qed.
